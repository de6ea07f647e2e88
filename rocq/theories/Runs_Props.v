(** C08, continued: the macro and the build script are different processes, with different seeds
    for their hash tables; whatever the iteration orders, they see the same bridge. *)
From Verif Require Import Base Syntax_Model Toposort_Model Types_Model Types_Spec Types_Proofs Types_Proofs3 Types_Props.
From Coq Require Import Permutation.

(** Two runs on the same items, with any two iteration orders: the same errors, the same tables (the
    one whose order varies set aside), and the same answer for every type. *)
Theorem C08_runs_agree : forall ord1 ord2 apis T1 T2 errs1 errs2, hash_order ord1 -> hash_order ord2 ->
  collect ord1 apis = Some (T1, errs1) -> collect ord2 apis = Some (T2, errs2) ->
  errs1 = errs2 /\
  Types_ (t_all T1) (t_structs T1) (t_enums T1) (t_cxx T1) (t_rust T1) (t_aliases T1) (t_untrusted T1) (t_required_trivial T1) (t_impls T1) (t_res T1) [] (t_toposorted T1) =
  Types_ (t_all T2) (t_structs T2) (t_enums T2) (t_cxx T2) (t_rust T2) (t_aliases T2) (t_untrusted T2) (t_required_trivial T2) (t_impls T2) (t_res T2) [] (t_toposorted T2) /\
  ((forall n, ~ In (EDupType n) errs1) -> forall t, is_considered_improper T1 t = is_considered_improper T2 t).
Proof.
  intros ord1 ord2 apis T1 T2 errs1 errs2 O1 O2 C1 C2.
  assert (E : errs1 = errs2 /\ Types_ (t_all T1) (t_structs T1) (t_enums T1) (t_cxx T1) (t_rust T1) (t_aliases T1) (t_untrusted T1) (t_required_trivial T1) (t_impls T1) (t_res T1) [] (t_toposorted T1) =
    Types_ (t_all T2) (t_structs T2) (t_enums T2) (t_cxx T2) (t_rust T2) (t_aliases T2) (t_untrusted T2) (t_required_trivial T2) (t_impls T2) (t_res T2) [] (t_toposorted T2)).
  { revert C1 C2. unfold collect. destruct (toposort _) as [(order & errs)|]; [|discriminate]. destruct (struct_improper_ctypes ord1 _ _ _) as [i1|]; [|discriminate].
    destruct (struct_improper_ctypes ord2 _ _ _) as [i2|]; [|discriminate]. intros Q1 Q2. injection Q1 as <- <-. injection Q2 as <- <-. split; reflexivity. }
  destruct E as (-> & E). split; [reflexivity|]. split; [exact E|]. intros N t.
  destruct (C08_improper ord1 apis O1) as (T1' & e1 & D1 & K1). rewrite C1 in D1. injection D1 as <- <-. specialize (K1 N t).
  destruct (C08_improper ord2 apis O2) as (T2' & e2 & D2 & K2). rewrite C2 in D2. injection D2 as <- <-. specialize (K2 N t).
  destruct (is_considered_improper T1 t), (is_considered_improper T2 t); try reflexivity; exfalso; [assert (false = true) by (apply K2, K1; reflexivity)|assert (false = true) by (apply K1, K2; reflexivity)]; discriminate.
Qed.
Print Assumptions C08_runs_agree.

(** Two improper structs, found in either order, and one that contains one of them: the sets come out in different
    order. *)
Example C08_runs_nonvacuous :
  let S_ a t := AStruct (Struct_ CUnconditional [] (Pair [] a a) [] [Var CUnconditional (Pair [] "f" "f") t]) in
  let apis := [S_ "A" (TIdent (Named "String" [])); S_ "B" (TIdent (Named "String" [])); S_ "C" (TIdent (Named "A" []))] in
  let ord1 := fun _ l => l in let ord2 := fun (_ : nat) l => rev l in
  hash_order ord1 /\ hash_order ord2 /\
  exists T1 T2, collect ord1 apis = Some (T1, []) /\ collect ord2 apis = Some (T2, []) /\ t_improper T1 <> t_improper T2 /\
    is_considered_improper T1 (TIdent (Named "C" [])) = true.
Proof.
  intros S_ apis ord1 ord2. split; [intros n l; apply Permutation_refl|]. split; [intros n l; apply Permutation_sym, Permutation_rev|].
  eexists. eexists. split; [vm_compute; reflexivity|]. split; [vm_compute; reflexivity|]. split; [vm_compute; discriminate|vm_compute; reflexivity].
Qed.
