-Q theories Verif
theories/Abi_Model.v
theories/Abi_Proofs.v
theories/Abi_Props.v
theories/Abi_Spec.v
theories/Attrs_Model.v
theories/Attrs_Proofs.v
theories/Attrs_Props.v
theories/Attrs_Spec.v
theories/Base.v
theories/Box_Model.v
theories/Box_Proofs.v
theories/Box_Props.v
theories/Box_Spec.v
theories/Build_Model.v
theories/Build_Proofs.v
theories/Build_Props.v
theories/Build_Spec.v
theories/Builtin_Model.v
theories/Builtin_Proofs.v
theories/Builtin_Spec.v
theories/Call_Proofs.v
theories/Call_Proofs2.v
theories/Call_Proofs3.v
theories/Call_Proofs4.v
theories/Call_Proofs5.v
theories/Call_Proofs6.v
theories/Call_Proofs7.v
theories/Call_Props.v
theories/Call_Spec.v
theories/CfgName_Props.v
theories/CfgName_Spec.v
theories/Cfg_Model.v
theories/Cfg_Proofs.v
theories/Cfg_Proofs2.v
theories/Cfg_Props.v
theories/Cfg_Spec.v
theories/Check_Model.v
theories/Check_Proofs.v
theories/Check_Proofs2.v
theories/Check_Props.v
theories/Check_Spec.v
theories/Cmd_Model.v
theories/Cmd_Props.v
theories/Cmd_Spec.v
theories/Coherence_Model.v
theories/Coherence_Proofs.v
theories/Coherence_Proofs2.v
theories/Coherence_Proofs3.v
theories/Coherence_Props.v
theories/Coherence_Spec.v
theories/Construct_Model.v
theories/Construct_Proofs.v
theories/Construct_Props.v
theories/Construct_Spec.v
theories/Copy_Model.v
theories/Copy_Proofs.v
theories/Copy_Proofs2.v
theories/Copy_Props.v
theories/Copy_Spec.v
theories/CxxExpr_Model.v
theories/CxxExpr_Proofs.v
theories/CxxExpr_Proofs2.v
theories/CxxExpr_Proofs3.v
theories/CxxExpr_Props.v
theories/CxxExpr_Spec.v
theories/CxxStr_Model.v
theories/CxxStr_Props.v
theories/CxxVec_Model.v
theories/CxxVec_Props.v
theories/CxxVec_Spec.v
theories/Deps_Model.v
theories/Deps_Proofs.v
theories/Deps_Props.v
theories/Deps_Spec.v
theories/Derive_Model.v
theories/Derive_Proofs.v
theories/Derive_Props.v
theories/Derive_Spec.v
theories/Discriminant_Model.v
theories/Discriminant_Proofs.v
theories/Discriminant_Props.v
theories/Discriminant_Spec.v
theories/Doc_Model.v
theories/Doc_Proofs.v
theories/Doc_Props.v
theories/Doc_Spec.v
theories/EnumCxx_Model.v
theories/EnumCxx_Proofs.v
theories/EnumCxx_Props.v
theories/EnumCxx_Spec.v
theories/Err_Model.v
theories/Err_Proofs.v
theories/Err_Props.v
theories/Err_Spec.v
theories/Expand_Model.v
theories/Expand_Props.v
theories/Expand_Spec.v
theories/Expr_Model.v
theories/Expr_Proofs.v
theories/Expr_Proofs2.v
theories/Expr_Proofs3.v
theories/Expr_Props.v
theories/Expr_Spec.v
theories/File_Model.v
theories/File_Proofs.v
theories/File_Proofs2.v
theories/File_Props.v
theories/File_Props2.v
theories/File_Spec.v
theories/Fs_Model.v
theories/Fs_Proofs.v
theories/Fs_Proofs2.v
theories/Fs_Proofs3.v
theories/Fs_Props.v
theories/Fs_Spec.v
theories/Handle_Model.v
theories/Handle_Props.v
theories/Handle_Spec.v
theories/Header_Text.v
theories/Ifndef_Model.v
theories/Incl_Model.v
theories/Incl_Proofs.v
theories/Incl_Props.v
theories/Incl_Spec.v
theories/Layout_Model.v
theories/Layout_Proofs.v
theories/Layout_Proofs2.v
theories/Layout_Props.v
theories/Layout_Spec.v
theories/Leftover_Model.v
theories/Leftover_Props.v
theories/Leftover_Spec.v
theories/Lifetime_Model.v
theories/Lifetime_Proofs.v
theories/Lifetime_Props.v
theories/Lifetime_Spec.v
theories/Load_Model.v
theories/Load_Proofs.v
theories/Load_Proofs2.v
theories/Load_Props.v
theories/Load_Spec.v
theories/Lossy_Model.v
theories/Lossy_Proofs.v
theories/Lossy_Props.v
theories/Lossy_Spec.v
theories/Mangle_Model.v
theories/Mangle_Proofs.v
theories/Mangle_Proofs2.v
theories/Mangle_Proofs3.v
theories/Mangle_Proofs4.v
theories/Mangle_Props.v
theories/Mangle_Spec.v
theories/Member_Model.v
theories/Member_Proofs.v
theories/Member_Proofs2.v
theories/Member_Props.v
theories/Member_Spec.v
theories/Names_Model.v
theories/Names_Props.v
theories/Names_Spec.v
theories/Nested_Model.v
theories/Nested_Props.v
theories/Nested_Spec.v
theories/Odr_Proofs.v
theories/Odr_Props.v
theories/Odr_Spec.v
theories/OrdMap_Model.v
theories/OrdMap_Proofs.v
theories/Out_Model.v
theories/Out_Props.v
theories/Out_Spec.v
theories/ParseTy_Model.v
theories/ParseTy_Props.v
theories/ParseTy_Spec.v
theories/Parse_Model.v
theories/Parse_Proofs.v
theories/Parse_Props.v
theories/Parse_Spec.v
theories/Paths_Model.v
theories/Paths_Proofs.v
theories/Paths_Props.v
theories/Paths_Spec.v
theories/Pin_Model.v
theories/Pin_Proofs.v
theories/Pin_Props.v
theories/Pin_Spec.v
theories/RString_Model.v
theories/RString_Proofs.v
theories/RString_Props.v
theories/RString_Spec.v
theories/RVec_Model.v
theories/RVec_Proofs.v
theories/RVec_Props.v
theories/RVec_Spec.v
theories/RawName_Props.v
theories/Reloc_Model.v
theories/Reloc_Props.v
theories/Reloc_Spec.v
theories/Report_Model.v
theories/Report_Proofs.v
theories/Report_Proofs2.v
theories/Report_Props.v
theories/Report_Spec.v
theories/Runs_Props.v
theories/Settings_Model.v
theories/Settings_Proofs.v
theories/Settings_Proofs2.v
theories/Settings_Props.v
theories/Settings_Spec.v
theories/Shared_Model.v
theories/Shared_Proofs.v
theories/Shared_Props.v
theories/Shared_Spec.v
theories/Shim_Model.v
theories/Shim_Props.v
theories/Shim_Spec.v
theories/Show_Model.v
theories/Show_Props.v
theories/Show_Spec.v
theories/Slice_Model.v
theories/Slice_Props.v
theories/Span_Model.v
theories/Span_Proofs.v
theories/Span_Props.v
theories/Span_Spec.v
theories/Special_Model.v
theories/Special_Proofs.v
theories/Special_Proofs2.v
theories/Special_Props.v
theories/Special_Spec.v
theories/Std_Proofs.v
theories/Store_Lib.v
theories/StrLib.v
theories/Str_Model.v
theories/Str_Props.v
theories/Syntax_Model.v
theories/Tables_Model.v
theories/Tables_Props.v
theories/Tables_Spec.v
theories/Thread_Model.v
theories/Thread_Proofs.v
theories/Thread_Proofs2.v
theories/Thread_Props.v
theories/Thread_Spec.v
theories/Toposort_Model.v
theories/Toposort_Proofs.v
theories/Toposort_Proofs2.v
theories/Toposort_Props.v
theories/Toposort_Spec.v
theories/TypeEq_Model.v
theories/TypeEq_Proofs.v
theories/TypeEq_Props.v
theories/TypeEq_Spec.v
theories/TypeId_Model.v
theories/TypeId_Props.v
theories/TypeText_Model.v
theories/TypeText_Proofs.v
theories/TypeText_Props.v
theories/TypeText_Spec.v
theories/Types_Model.v
theories/Types_Proofs.v
theories/Types_Proofs2.v
theories/Types_Proofs3.v
theories/Types_Props.v
theories/Types_Spec.v
theories/Unique_Model.v
theories/Unique_Proofs.v
theories/Unique_Props.v
theories/Unique_Spec.v
theories/Unit_Model.v
theories/Unit_Proofs.v
theories/Unit_Proofs2.v
theories/Unit_Proofs3.v
theories/Unit_Proofs4.v
theories/Unit_Props.v
theories/Unit_Spec.v
theories/Unwind_Model.v
theories/Unwind_Props.v
theories/Uses_Model.v
theories/Uses_Need_Props.v
theories/Uses_Need_Spec.v
theories/Uses_Proofs.v
theories/Uses_Proofs2.v
theories/Uses_Proofs3.v
theories/Uses_Proofs4.v
theories/Uses_Props.v
theories/Uses_Spec.v
theories/Views_Props.v
