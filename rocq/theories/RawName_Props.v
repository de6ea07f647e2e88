(** C23 and C53 for names that are written as raw identifiers: syntax/ident.rs 4-26 and syntax/check.rs 604-616 compare the
    text of an identifier, with its r#. *)
From Verif Require Import Base Syntax_Model Cfg_Model Types_Model Check_Model Check_Spec Check_Proofs Check_Props
  CfgName_Spec ParseTy_Model Attrs_Model Parse_Model Parse_Props File_Model File_Props.

Definition raw_fn : list sitem :=
  [block_ "C++" [function_ [attr_ "cxx_name" (MNameValue (VStr "f"))] "r#cxxbridge1_f"]].
Definition raw_string : list sitem :=
  [ItStruct (SStruct [attr_ "cxx_name" (MNameValue (VStr "Text"))] "r#String" no_generics (FNamed [SField [] "x" (named "i32")]));
   block_ "C++" [takes "f" [RRef None false (named "r#String"); RRef None false (named "String")]]].

(** The C++ generator and the macro accept a function that is named cxxbridge1_f in Rust, with r# before it. *)
Theorem C23_raw_refuted : exists items file apis T outs T' p n,
  gen_ file = Ok (apis, T) /\ macro_ [] false (Some ([], map (FItem []) items)) = Ok (outs, T') /\ map o_api outs = apis /\
  item_name apis p /\ CfgName_Spec.named (p_rust p) n /\ has_prefix "cxxbridge" n.
Proof.
  exists raw_fn, [mod_ [bridge_] raw_fn]. eexists _, _, _, _, (Pair [] "f" "r#cxxbridge1_f"), "cxxbridge1_f".
  split; [vm_compute; reflexivity|]. split; [vm_compute; reflexivity|]. split; [reflexivity|]. split; [|split; [exact (named_raw "cxxbridge1_f")|exists "1_f"; reflexivity]].
  match goal with |- item_name ?l _ => match l with [ACxxFunction ?f] => apply (in_fn l f); left; left; reflexivity end end.
Qed.
Print Assumptions C23_raw_refuted.

(** They also accept a struct that is named String, with r#, in a bridge that uses the built-in String as well. *)
Theorem C53_raw_refuted : exists items file apis T outs T' p lts n,
  gen_ file = Ok (apis, T) /\ macro_ [] false (Some ([], map (FItem []) items)) = Ok (outs, T') /\ map o_api outs = apis /\
  declares apis p lts /\ CfgName_Spec.named (p_rust p) n /\ builtin_name n /\
  (exists f, all_functions apis f /\ In (TRef false false None (TIdent (Named n []))) (map snd (fn_args f))).
Proof.
  exists raw_string, [mod_ [bridge_] raw_string]. eexists _, _, _, _, (Pair [] "Text" "r#String"), [], "String".
  split; [vm_compute; reflexivity|]. split; [vm_compute; reflexivity|]. split; [reflexivity|].
  split; [match goal with |- declares ?l _ _ => match l with [AStruct ?s; _] => exact (de_struct l s (or_introl eq_refl)) end end|].
  split; [exact (named_raw "String")|]. split; [right; eexists; reflexivity|].
  match goal with |- exists f, all_functions ?l f /\ _ => match l with [_; ACxxFunction ?g] => exists g; split; [left; right; left; reflexivity|right; left; reflexivity] end end.
Qed.
Print Assumptions C53_raw_refuted.
