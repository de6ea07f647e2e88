From Verif Require Import Base Syntax_Model StrLib Toposort_Model Toposort_Spec Toposort_Proofs Toposort_Proofs2 Toposort_Props Types_Spec Types_Model Types_Proofs Types_Proofs2 Types_Proofs3 Types_Props Mangle_Model Check_Model Check_Spec Check_Proofs Check_Props
  Abi_Model Abi_Spec Abi_Proofs Abi_Props Shim_Model Shim_Spec.

Lemma indirect_exact gen ord apis T n t b : accepted_bridge gen ord apis T -> needs_indirect_abi n T t = Some b -> (b = false <-> goes_direct apis t).
Proof.
  intros Hacc H.
  assert (D : match is_guaranteed_pod (t_structs T) (t_enums T) n t with
              | Some pod => Some (negb pod || is_considered_improper T t) | None => None end = Some b -> (b = false <-> ~ blocked apis t /\ ~ improper apis t)).
  { destruct (is_guaranteed_pod (t_structs T) (t_enums T) n t) as [pod|] eqn:Ep; [|discriminate]. intros E. injection E as <-.
    destruct (proj1 Hacc) as [_ Hc]. assert (Hnd : NoDup (names (structs_of apis))) by (apply (no_dup_distinct _ _ _ _ Hc); intros m []).
    destruct (collect_facts _ _ _ _ Hc) as [order [terrs [imp [_ [_ [_ [Es [Ee _]]]]]]]]. rewrite Es, Ee in Ep.
    pose proof (pod_correct apis Hnd n t pod Ep) as P. rewrite orb_false_iff, negb_false_iff, P, <- (improper_ok gen ord apis T Hacc).
    destruct (is_considered_improper T t); intuition congruence. }
  destruct t; cbn [needs_indirect_abi goes_direct] in *; try (apply D, H); injection H as <-; split; tauto || discriminate.
Qed.

Lemma direct_plain gen ord apis T n t : accepted_bridge gen ord apis T -> needs_indirect_abi n T t = Some false ->
  (forall u, t <> TBox u /\ t <> TUniquePtr u) -> plain_data apis t.
Proof.
  intros Hacc H N.
  assert (D : match is_guaranteed_pod (t_structs T) (t_enums T) n t with
              | Some pod => Some (negb pod || is_considered_improper T t) | None => None end = Some false -> plain_data apis t).
  { destruct (is_guaranteed_pod (t_structs T) (t_enums T) n t) as [pod|] eqn:Ep; [|discriminate]. destruct pod; [|discriminate]. intros _.
    exact (pod_plain gen ord apis T Hacc n t Ep). }
  destruct t; cbn [needs_indirect_abi] in H; try (apply D, H); try discriminate; try (apply pl_view; eauto 12);
    exfalso; first [exact (proj1 (N _) eq_refl)|exact (proj2 (N _) eq_refl)].
Qed.

Lemma indirect_string n T t b : is_rust_string t = true -> needs_indirect_abi n T t = Some b -> b = true.
Proof.
  destruct t as [m| | | | | | | | | | | | |]; try discriminate. cbn [is_rust_string]. rewrite String.eqb_eq. intros E H.
  destruct n; [discriminate|]. cbn in H. rewrite E in H. cbn in H. injection H as <-. reflexivity.
Qed.
Lemma indirect_vec n T u b : needs_indirect_abi n T (TVec u) = Some b -> b = true.
Proof. destruct n; [discriminate|]. cbn. intros H. injection H as <-. reflexivity. Qed.

(** * C62 *)
(** For every bridge that both generators accept, every type for which both of them get
    to an answer (with any budgets [n1], [n2]; C07 says when they do) and every value:
    passing the value in either direction makes the called function its one owner. *)
Theorem C62_arguments : forall apis T1 T2, both_accept apis T1 T2 ->
  forall n1 n2 t, needs_indirect_abi n1 T1 t <> None -> needs_indirect_abi n2 T2 t <> None ->
  forall V (v : V), delivered apis t v (pass_to_cxx n1 n2 T1 T2 t v) /\ delivered apis t v (pass_to_rust n1 n2 T1 T2 t v).
Proof.
  intros apis T1 T2 (o1 & o2 & H1 & H2) n1 n2 t I1 I2 V v.
  destruct (needs_indirect_abi n1 T1 t) as [b|] eqn:E1; [clear I1|congruence].
  destruct (needs_indirect_abi n2 T2 t) as [b2|] eqn:E2; [clear I2|congruence].
  assert (b2 = b) as ->.
  { pose proof (indirect_exact _ _ _ _ _ _ _ H1 E1) as X1. pose proof (indirect_exact _ _ _ _ _ _ _ H2 E2) as X2.
    destruct b, b2; auto; exfalso; intuition congruence. }
  assert (P : b = false -> (forall u, t <> TBox u /\ t <> TUniquePtr u) -> plain_data apis t)
    by (intros ->; apply (direct_plain _ _ _ _ _ _ H1 E1)).
  unfold pass_to_cxx, pass_to_rust, rust_setup, rust_arg_out, cxx_arg_in, cxx_setup, cxx_arg_out, rust_arg_in. rewrite E1, E2.
  destruct (is_rust_string t) eqn:Es.
  - pose proof (indirect_string _ _ _ _ Es E1) as ->. destruct t; try discriminate Es.
    cbn. split; eexists; (split; [reflexivity|intros w []]).
  - assert (nil_ok : delivered apis t v (Some (Owns v, []))) by (eexists; split; [reflexivity|intros w []]).
    assert (one_ok : b = false -> (forall u, t <> TBox u /\ t <> TUniquePtr u) -> delivered apis t v (Some (Owns v, [v]))).
    { intros Eb N. eexists. split; [reflexivity|]. intros w [<-|[]]. auto. }
    destruct t; cbn [needs_indirect_abi] in E1;
      try (injection E1 as <-; cbn; split; first [exact nil_ok|apply one_ok; [reflexivity|intros u'; split; discriminate]]);
      try (pose proof (indirect_vec _ _ _ _ E1) as ->; cbn; split; exact nil_ok);
      (destruct b; cbn; split; first [exact nil_ok|apply one_ok; [reflexivity|intros u'; split; discriminate]]).
Qed.
Print Assumptions C62_arguments.

(** The outcome of a function reaches its caller unchanged in either direction: the
    return slot is read only if it was written, an error is never mistaken for a value,
    and the result has one owner. *)
Theorem C62_results : forall apis T1 T2, both_accept apis T1 T2 ->
  forall n1 n2 s, indirect_return n1 T1 s <> None -> indirect_return n2 T2 s <> None ->
  forall V E (o : outcome V E), outcome_of s o ->
    return_to_rust n1 n2 T1 T2 s o = Some (Ends o) /\ return_to_cxx n1 n2 T1 T2 s o = Some (Ends o).
Proof.
  intros apis T1 T2 (o1 & o2 & H1 & H2) n1 n2 s I1 I2 V E o Ho.
  destruct (indirect_return n1 T1 s) as [b|] eqn:E1; [clear I1|congruence].
  destruct (indirect_return n2 T2 s) as [b2|] eqn:E2; [clear I2|congruence].
  unfold return_to_rust, return_to_cxx. rewrite E1, E2. cbn [obind]. unfold indirect_return in E1, E2.
  destruct (sg_ret s) as [t|] eqn:Er.
  - destruct (sg_throws s) eqn:Et.
    + injection E1 as <-. injection E2 as <-.
      destruct o as [[v|]|e]; cbn in Ho; try congruence; (split; [|destruct t; reflexivity]); destruct t; reflexivity.
    + assert (b2 = b) as ->.
      { pose proof (indirect_exact _ _ _ _ _ _ _ H1 E1) as X1. pose proof (indirect_exact _ _ _ _ _ _ _ H2 E2) as X2.
        destruct b, b2; auto; exfalso; intuition congruence. }
      destruct o as [[v|]|e]; cbn in Ho; try congruence; destruct b, t; split; reflexivity.
  - injection E1 as <-. injection E2 as <-. destruct o as [[v|]|e]; cbn in Ho; try congruence; [|destruct (sg_throws s); try congruence];
      destruct (sg_throws s); split; reflexivity.
Qed.
Print Assumptions C62_results.

(** An exception of a C++ function not declared fallible aborts. *)
Theorem C62_uncaught : forall n1 n2 T1 T2 s, sg_throws s = false -> indirect_return n1 T1 s <> None -> indirect_return n2 T2 s <> None ->
  forall V E (e : E), return_to_rust n1 n2 T1 T2 s (Err e : outcome V E) = Some Aborts.
Proof.
  intros n1 n2 T1 T2 s Et I1 I2 V E e. unfold return_to_rust. destruct (indirect_return n1 T1 s); [|congruence].
  destruct (indirect_return n2 T2 s); [|congruence]. cbn. rewrite Et. reflexivity.
Qed.
Print Assumptions C62_uncaught.

Example C62_nonvacuous :
  let I_ a := TIdent (Named a []) in let nm a := Pair [] a a in
  let apis := [AStruct (Struct_ CUnconditional [] (nm "S") [] [Var CUnconditional (nm "a") (I_ "String")]);
               AStruct (Struct_ CUnconditional [] (nm "P") [] [Var CUnconditional (nm "a") (TArray (I_ "i32") 2)]);
               ACxxFunction (ExternFn CUnconditional LCxx (nm "f") false false [] None [("a", I_ "S"); ("b", I_ "P"); ("c", TBox (I_ "R")); ("d", I_ "String")] (Some (I_ "S")) true true);
               ARustType (ExternType CUnconditional LRust [] (nm "R") [] [] true)] in
  exists T1 T2, both_accept apis T1 T2 /\
    map (fun t => needs_indirect_abi 3 T1 t) [I_ "S"; I_ "P"; TBox (I_ "R"); I_ "String"] = [Some true; Some false; Some false; Some true] /\
    map (fun t => needs_indirect_abi 3 T2 t) [I_ "S"; I_ "P"; TBox (I_ "R"); I_ "String"] = [Some true; Some false; Some false; Some true].
Proof.
  cbv zeta. match goal with |- exists T1 T2, both_accept ?l _ _ /\ _ =>
    destruct (accepts_ok GBuild l eq_refl) as (T1 & A1); destruct (accepts_ok GMacro l eq_refl) as (T2 & A2) end.
  exists T1, T2. split; [exists id_order, id_order; split; assumption|].
  destruct A1 as [[_ C1] _], A2 as [[_ C2] _]. vm_compute in C1. injection C1 as <-. vm_compute in C2. injection C2 as <-. split; vm_compute; reflexivity.
Qed.
