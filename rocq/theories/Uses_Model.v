(** gen/src/write.rs: the standard headers and supporting code asked for, and the names
    used, by every part of the generated code.  For each function, the list of its
    assignments to `out.builtin` and `out.include` and of the names of the standard
    library and of the supporting code that it writes, in order; everything else that it
    writes is left out. *)
From Verif Require Import Base Syntax_Model Toposort_Model Types_Model Mangle_Model Abi_Model Builtin_Model Out_Model Out_Spec.

(** A name in the generated code: `::rust::n`; the member `m` of `::rust::impl<c>`; `::std::n`
    (or `new (`…`)`, written "new"). *)
Inductive use : Type := UHelper (n : string) | UMember (c m : string) | UStd (n : string).
Inductive wop : Type := Want (w : want) | Use (u : use).
Notation flag_ f := (Want (WFlag f)).
Notation inc_ i := (Want (WInc i)).
Notation std_ n := (Use (UStd n)).
Notation rust_ n := (Use (UHelper n)).

(** write.rs 1340-1360: write_atom *)
Definition w_atom (a : atom) : list wop :=
  match a with
  | ABool | AChar | AF32 | AF64 => []
  | AU8 => [std_ "uint8_t"] | AU16 => [std_ "uint16_t"] | AU32 => [std_ "uint32_t"] | AU64 => [std_ "uint64_t"]
  | AI8 => [std_ "int8_t"] | AI16 => [std_ "int16_t"] | AI32 => [std_ "int32_t"] | AI64 => [std_ "int64_t"]
  | AUsize => [std_ "size_t"]
  | AIsize => [rust_ "isize"]
  | ACxxString => [std_ "string"]
  | ARustString => [rust_ "String"]
  end.
(** write.rs 1252-1338: write_type; names of the bridge's own types are left out, and so
    is the panic for `()`. *)
Fixpoint w_type (t : ty) : list wop :=
  match t with
  | TIdent n => match atom_from_str (n_rust n) with Some a => w_atom a | None => [] end
  | TBox t => rust_ "Box" :: w_type t
  | TVec t => rust_ "Vec" :: w_type t
  | TUniquePtr t => std_ "unique_ptr" :: w_type t
  | TSharedPtr t => std_ "shared_ptr" :: w_type t
  | TWeakPtr t => std_ "weak_ptr" :: w_type t
  | TCxxVector t => std_ "vector" :: w_type t
  | TRef _ _ _ t | TPtr _ t => w_type t
  | TStr _ => [rust_ "Str"]
  | TSlice _ _ t => rust_ "Slice" :: w_type t
  | TFn _ _ args ret =>
      rust_ "Fn" :: (match ret with Some r => w_type r | None => [] end)
      ++ (fix go l := match l with [] => [] | a :: l => w_type (snd a) ++ go l end) args
  | TArray t _ => std_ "array" :: w_type t
  | TVoid => []
  end.

(** A signature: write.rs takes `&Signature`, of functions and of function pointers. *)
Record wsig : Type := WSig { ws_args : list ty; ws_ret : option ty; ws_throws : bool }.
Definition fn_wsig (f : extern_fn) : wsig := WSig (map snd (fn_args f)) (fn_ret f) (fn_throws f).

Section Uses.
  (** types.rs: needs_indirect_abi; nothing here depends on which types it holds of. *)
  Context (indirect : ty -> bool) (header : bool) (T : types) (apis : list api).

  (** write.rs 1184-1188: indirect_return *)
  Definition ws_indirect_return (s : wsig) : bool :=
    match ws_ret s with Some t => ws_throws s || indirect t | None => false end.
  Definition w_return_type (r : option ty) : list wop := match r with Some t => w_type t | None => [] end.
  (** 1190-1206: write_indirect_return_type *)
  Definition w_indirect_return_type (t : ty) : list wop :=
    match t with TBox t | TUniquePtr t | TRef _ _ _ t => w_type t | _ => w_type t end.
  (** 1217-1236: write_extern_return_type_space *)
  Definition w_extern_return_type (r : option ty) : list wop :=
    match r with
    | Some (TBox t | TUniquePtr t | TRef _ _ _ t) => w_type t
    | Some (TStr _ | TSlice _ _ _) => [flag_ FFat; rust_ "Fat"]
    | Some t => if indirect t then [] else w_type t
    | None => []
    end.
  (** 1238-1250: write_extern_arg *)
  Definition w_extern_arg (t : ty) : list wop :=
    match t with TBox t | TUniquePtr t | TCxxVector t => w_type t | _ => w_type t end.

  (** 927-985: write_rust_function_decl_impl *)
  Definition w_rust_decl (s : wsig) : list wop :=
    (if ws_throws s then [flag_ FPtrLen; rust_ "PtrLen"] else w_extern_return_type (ws_ret s))
    ++ flat_map w_extern_arg (ws_args s)
    ++ when (ws_indirect_return s) (match ws_ret s with Some (TRef _ _ _ t) => w_type t | Some t => w_type t | None => [] end).
  (** 1003-1034: write_rust_function_shim_decl *)
  Definition w_shim_decl (s : wsig) : list wop := w_return_type (ws_ret s) ++ flat_map w_type (ws_args s).
  (** 1036-1173: write_rust_function_shim_impl, for [receiver]: sig.receiver.is_some() *)
  Definition w_shim_impl (receiver : bool) (s : wsig) : list wop :=
    if header && receiver then []
    else
      w_shim_decl s ++
      when (negb header)
        (flat_map (fun t => when (negb (is_rust_string t) && indirect t)
                              ([inc_ IUtility; flag_ FManuallyDrop; rust_ "ManuallyDrop"] ++ w_type t ++ [std_ "move"])) (ws_args s)
         ++ (if ws_indirect_return s
             then [flag_ FMaybeUninit; rust_ "MaybeUninit"]
                  ++ match ws_ret s with Some (TRef _ _ _ t) => w_type t | Some t => w_type t | None => [] end
             else match ws_ret s with
                  | Some ((TBox _ | TUniquePtr _) as t) => w_type t
                  | Some (TStr _) => [flag_ FStrNew; Use (UMember "Str" "new_unchecked"); rust_ "Str"]
                  | Some ((TSlice _ _ _) as t) => [flag_ FSliceNew; Use (UMember "Slice" "slice")] ++ w_type t
                  | _ => []
                  end)
         ++ when (ws_throws s) [flag_ FPtrLen; rust_ "PtrLen"]
         ++ when (ws_throws s) [flag_ FError; Use (UMember "Error" "error"); rust_ "Error"]
         ++ when (ws_indirect_return s)
              (match ws_ret s with Some (TRef _ _ _ _) => [] | _ => [inc_ IUtility; std_ "move"] end)).
  (** 905-916: write_function_pointer_trampoline *)
  Definition w_trampoline (t : ty) : list wop :=
    match t with
    | TFn _ throws args ret => let s := WSig (map snd args) ret throws in w_rust_decl s ++ w_shim_impl false s
    | _ => []
    end.
  (** 736-903: write_cxx_function_shim *)
  Definition w_cxx_shim (s : wsig) : list wop :=
    (if ws_throws s then [flag_ FPtrLen; rust_ "PtrLen"] else w_extern_return_type (ws_ret s))
    ++ flat_map (fun t => if is_rust_string t then w_type t else match t with TVec _ => w_type t | _ => w_extern_arg t end) (ws_args s)
    ++ when (ws_indirect_return s) (match ws_ret s with Some t => w_indirect_return_type t | None => [] end)
    ++ w_return_type (ws_ret s) ++ flat_map w_type (ws_args s)
    ++ when (ws_throws s) [flag_ FPtrLen; flag_ FTrycatch; rust_ "PtrLen"; rust_ "trycatch"]
    ++ when (ws_indirect_return s) ([inc_ INew; std_ "new"] ++ match ws_ret s with Some t => w_indirect_return_type t | None => [] end)
    ++ (match ws_ret s with
        | Some (TStr _) => when (negb (ws_indirect_return s)) [flag_ FStrRepr; Use (UMember "Str" "repr"); rust_ "Str"]
        | Some ((TSlice _ _ _) as t) => when (negb (ws_indirect_return s)) ([flag_ FSliceRepr; Use (UMember "Slice" "repr")] ++ w_type t)
        | _ => []
        end)
    ++ flat_map (fun t =>
         match t with
         | TBox _ | TUniquePtr _ => w_type t
         | _ =>
             if is_rust_string t then [flag_ FBitcopy; rust_ "String"; rust_ "unsafe_bitcopy"]
             else match t with
                  | TVec _ => flag_ FBitcopy :: w_type t ++ [rust_ "unsafe_bitcopy"]
                  | _ => when (indirect t) [inc_ IUtility; std_ "move"]
                  end
         end) (ws_args s)
    ++ when (ws_throws s) [rust_ "Fail"]
    ++ flat_map w_trampoline (ws_args s).

  (** 95-105: methods_for_type *)
  Definition methods_of (x : string) : list extern_fn :=
    flat_map (fun a => match a with
                       | ACxxFunction f | ARustFunction f =>
                           match fn_receiver f with Some r => when (String.eqb (n_rust (rc_ty r)) x) [f] | None => [] end
                       | _ => []
                       end) apis.
  Definition w_methods (x : string) : list wop := flat_map (fun f => w_shim_decl (fn_wsig f)) (methods_of x).
  (** The generator only has EnumRepr::Native (Foreign is made by macro/src/load.rs). *)
  Definition w_repr (e : enum_) : list wop := w_atom (en_repr e).

  (** types.rs 273-277: is_maybe_trivial *)
  Definition maybe_trivial (x : string) : bool := has x (t_structs T) || has x (t_enums T) || has x (t_aliases T).
  (** 1665-1781: write_unique_ptr_common *)
  Definition w_unique_ptr (vector : bool) (x : string) : list wop :=
    let conditional_delete := negb vector && negb (has x (t_structs T)) && negb (has x (t_enums T)) in
    let typename := when vector [std_ "vector"] in
    [inc_ INew; inc_ IUtility] ++ typename
    ++ when conditional_delete [flag_ FIsComplete; rust_ "is_complete"]
    ++ [std_ "unique_ptr"; std_ "new"]
    ++ when (negb vector && maybe_trivial x) [flag_ FMaybeUninit; rust_ "MaybeUninit"; std_ "new"]
    ++ when conditional_delete [flag_ FDeleterIf; rust_ "deleter_if"; rust_ "is_complete"].
  (** 1433-1465: the two loops of write_generic_instantiations *)
  Definition w_impl_extern (k : impl_key) : list wop :=
    match fst k with
    | KBox => [rust_ "Box"]                                             (* 1467-1486 *)
    | KVec => [inc_ ICstddef; rust_ "Vec"; std_ "size_t"]               (* 1488-1536 *)
    | KUnique => w_unique_ptr false (snd k)
    | KShared => [inc_ INew; inc_ IUtility; std_ "shared_ptr"; std_ "new"]
                 ++ when (maybe_trivial (snd k)) [flag_ FMaybeUninit; rust_ "MaybeUninit"; std_ "new"]   (* 1783-1861 *)
    | KWeak => [inc_ INew; inc_ IUtility; std_ "weak_ptr"; std_ "shared_ptr"; std_ "new"]                (* 1863-1931 *)
    | KVector => [inc_ ICstddef; inc_ IUtility; flag_ FDestroy; std_ "vector"; std_ "size_t"]
                 ++ when (maybe_trivial (snd k)) [std_ "move"; rust_ "destroy"; std_ "new"; std_ "move"]
                 ++ [inc_ IMemory] ++ w_unique_ptr true (snd k)                                          (* 1933-1993 *)
    end.
  Definition w_impl_member (k : impl_key) : list wop :=
    match fst k with
    | KBox => [rust_ "Box"]                                             (* 1538-1571 *)
    | KVec => [inc_ ICstddef; rust_ "Vec"; std_ "size_t"]               (* 1573-1658 *)
    | _ => []
    end.

  Definition w_piece (p : piece) : list wop :=
    match p with
    | PMacros => []
    | PForward =>                                                       (* 59-92, 366-375 *)
        flat_map (fun a => match a with AEnum e => when (negb (smem (p_rust (en_name e)) (t_cxx T))) (w_repr e) | _ => [] end) apis
    | PStruct s =>                                                      (* 273-359 *)
        flat_map (fun v => w_type (v_ty v)) (st_fields s) ++ w_methods (p_rust (st_name s)) ++ [inc_ ITypeTraits; std_ "true_type"]
    | PEnum e => w_repr e                                               (* 425-445 *)
    | PCheckEnum e => [inc_ ITypeTraits; std_ "is_enum"] ++ w_repr e   (* 447-472 *)
    | POpaque t =>                                                      (* 380-423 *)
        [flag_ FOpaque; rust_ "Opaque"] ++ w_methods (p_rust (et_name t)) ++ [flag_ FLayout; inc_ ICstddef; rust_ "layout"; std_ "size_t"]
    | PTrivial a =>                                                     (* 474-536 *)
        flag_ FRelocatable ::
        (if match assoc (p_rust (ta_name a)) (t_required_trivial T) with
            | Some reasons => forallb (fun r => match r with RField _ | RVecElement => true | _ => false end) reasons
            | None => false
            end
         then [flag_ FRelocatableOrArray; rust_ "IsRelocatableOrArray"] else [rust_ "IsRelocatable"])
    | POperatorDecls s => when (derives DHash (st_derives s)) [inc_ ICstddef; std_ "size_t"]             (* 538-603 *)
    | PLayoutDecls _ | PLayout _ => [std_ "size_t"]                     (* 689-727 *)
    | PCxxShim f => w_cxx_shim (fn_wsig f)
    | PRustDecl f => w_rust_decl (fn_wsig f)                            (* 918-925 *)
    | PHash _ => [inc_ ICstddef; inc_ IFunctional; std_ "hash"; std_ "size_t"]                           (* 197-218 *)
    | POperators _ => []                                                (* 605-687 *)
    | PRustShim f => w_shim_impl (match fn_receiver f with Some _ => true | None => false end) (fn_wsig f)   (* 987-1001 *)
    | PImplExtern k => w_impl_extern k
    | PImplMember k => w_impl_member k
    end.

  (** 229-252: pick_includes_and_builtins *)
  Definition w_pick (t : ty) : list wop :=
    match t with
    | TIdent n =>
        match atom_from_str (n_rust n) with
        | Some (AU8 | AU16 | AU32 | AU64 | AI8 | AI16 | AI32 | AI64) => [inc_ ICstdint]
        | Some AUsize => [inc_ ICstddef]
        | Some AIsize => [flag_ FIsize]
        | Some ACxxString => [inc_ IString]
        | Some ARustString => [flag_ FString]
        | Some (ABool | AChar | AF32 | AF64) | None => []
        end
    | TBox _ => [flag_ FBox]
    | TVec _ => [flag_ FVec]
    | TUniquePtr _ | TSharedPtr _ | TWeakPtr _ => [inc_ IMemory]
    | TStr _ => [flag_ FStr]
    | TCxxVector _ => [inc_ IVector]
    | TFn _ _ _ _ => [flag_ FFn]
    | TSlice _ _ _ => [flag_ FSlice]
    | TArray _ _ => [inc_ IArray]
    | TRef _ _ _ _ | TVoid | TPtr _ _ => []
    end.

  (** 18-35: gen, up to the builtin code; the pieces are those of C29 *)
  Definition generated_ops : list wop := flat_map w_pick (t_all T) ++ flat_map w_piece (pieces header T apis).
End Uses.
(** The fields that are set afterwards. *)
Definition asked (l : list wop) : settings :=
  fun w => existsb (fun o => match o with Want w' => if want_eq_dec w w' then true else false | Use _ => false end) l.
