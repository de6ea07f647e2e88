(** Proofs for C85. *)
From Verif Require Import Base StrLib Syntax_Model Types_Model Types_Spec Check_Model Check_Spec Check_Proofs Check_Proofs2 Check_Props Mangle_Model Mangle_Spec Mangle_Proofs2 Abi_Model Abi_Spec Abi_Proofs
  Expr_Proofs2 Expr_Proofs3 CxxExpr_Model CxxExpr_Spec.

(** * Names *)
Lemma find_in {A} x (a : A) l : NoDup (map fst l) -> In (x, a) l -> find_name x l = Some a.
Proof.
  induction l as [|[y b] l IH]; intros N I; [destruct I|]. cbn [find_name]. cbn in N. inversion N; subst. destruct I as [E|I].
  - injection E as -> ->. rewrite String.eqb_refl. reflexivity.
  - destruct (String.eqb_spec x y) as [->|_]; [|apply IH; assumption]. exfalso. match goal with H : ~ In y _ |- _ => apply H end. apply (in_map fst) in I. exact I.
Qed.
Lemma find_none {A} x (l : list (string * A)) : ~ In x (map fst l) -> find_name x l = None.
Proof.
  induction l as [|[y b] l IH]; intros N; [reflexivity|]. cbn [find_name]. destruct (String.eqb_spec x y) as [->|_]; [destruct N; left; reflexivity|].
  apply IH. intros I. apply N. right. exact I.
Qed.
Lemma find_eq {A} x (a : A) l : find_name x ((x, a) :: l) = Some a.
Proof. cbn. rewrite String.eqb_refl. reflexivity. Qed.
Lemma find_ne {A} x y (a : A) l : x <> y -> find_name x ((y, a) :: l) = find_name x l.
Proof. intros N. cbn. destruct (String.eqb_spec x y); [contradiction|reflexivity]. Qed.
Lemma env_names l : map fst (params_env l) = map fst l.
Proof. unfold params_env. rewrite map_map. reflexivity. Qed.
Lemma env_in x t l : In (x, t) l -> In (x, LVar t) (params_env l).
Proof. intros I. apply (in_map (fun p => (fst p, LVar (snd p)))) in I. exact I. Qed.
Lemma dollar_inj a b : (a ++ "$")%string = (b ++ "$")%string -> a = b.
Proof.
  revert b. induction a as [|c a IH]; intros [|d b] E; cbn in E; try reflexivity.
  - injection E as <- E. destruct b; discriminate E.
  - injection E as -> E. destruct a; discriminate E.
  - injection E as <- E. f_equal. apply IH, E.
Qed.
Lemma plain_no_dollar x y : plain_name x -> x <> (y ++ "$")%string.
Proof. intros (H & _) E. apply (H y EmptyString). exact E. Qed.

(** * Types *)
Section Ty.
  Variables (gen : generator) (ord : nat -> list string -> list string) (apis : list api) (T : types).
  Hypothesis Hacc : accepted_bridge gen ord apis T.
  Lemma denotes_all args : Forall (fun a => forall c, cxx_type T (snd a) = Some c -> denotes apis (snd a) c) args ->
    forall cs, otraverse (fun a : string * ty => cxx_type T (snd a)) args = Some cs -> Forall2 (fun a c => denotes apis (snd a) c) args cs.
  Proof.
    induction 1 as [|a l H _ IH]; intros cs E; [injection E as <-; constructor|].
    apply otraverse_inv in E. destruct E as (b & bs & E1 & E2 & ->). constructor; auto.
  Qed.
  Lemma denotes_ok t : forall c, cxx_type T t = Some c -> denotes apis t c.
  Proof.
    induction t using ty_ind'; intros c E; try rewrite cxx_type_fn in E; cbn [cxx_type] in E; try discriminate E;
      try (destruct (cxx_type T t) as [c0|]; [|discriminate E]; injection E as <-; try constructor; auto;
           repeat match goal with b : bool |- _ => destruct b end; cbn [negb]; constructor; auto; fail).
    - destruct (atom_from_str (n_rust n)) as [a|] eqn:A; [injection E as <-; constructor; apply atom_from_str_inv, A|].
      destruct (resolve_name T (n_rust n)) as [p|] eqn:R; [|discriminate]. injection E as <-. constructor.
      + intros (a & Ea). congruence.
      + apply (resolve_stands _ _ _ _ Hacc), R.
    - injection E as <-. constructor.
    - apply obind_inv in E. destruct E as (cs & E1 & E). destruct ret as [r|].
      + destruct (cxx_type T r) as [c0|] eqn:Er; [|discriminate E]. injection E as <-. constructor; [apply denotes_all; assumption|]. auto.
      + injection E as <-. constructor. apply denotes_all; assumption.
  Qed.
  Lemma denotes_list args cs : otraverse (fun a : string * ty => cxx_type T (snd a)) args = Some cs -> Forall2 (fun a c => denotes apis (snd a) c) args cs.
  Proof. apply denotes_all. apply Forall_forall. intros a _. apply denotes_ok. Qed.
  Lemma full_name_ok p : qualified_name p = full_name p.
  Proof.
    unfold qualified_name, full_name. enough (K : forall l, (fold_right (fun s acc => "::" ++ s ++ acc) "" l ++ "::" ++ p_cxx p)%string = String.concat "::" (EmptyString :: l ++ [p_cxx p])) by apply K.
    induction l as [|s l IH]; [reflexivity|]. cbn [fold_right app]. rewrite !append_assoc, IH. destruct l; reflexivity.
  Qed.
End Ty.

Lemma string_type n : is_rust_string (TIdent n) = true <-> n_rust n = "String".
Proof. unfold is_rust_string. cbn. destruct (String.eqb_spec (n_rust n) "String"); split; congruence. Qed.
Lemma not_string t : (forall n, t <> TIdent n) -> is_rust_string t = false.
Proof. destruct t; try reflexivity. intros H. destruct (H n eq_refl). Qed.
Lemma string_ident t : is_rust_string t = true -> exists n, t = TIdent n /\ n_rust n = "String".
Proof. destruct t; try discriminate. intros H. exists n. split; [reflexivity|apply string_type, H]. Qed.
Lemma string_cxx T n : n_rust n = "String" -> cxx_type T (TIdent n) = Some (CAtom ARustString).
Proof. intros E. cbn. rewrite E. reflexivity. Qed.
Lemma string_indirect n T i : n_rust i = "String" -> forall b, needs_indirect_abi n T (TIdent i) = Some b -> b = true.
Proof. intros E b H. cbn [needs_indirect_abi] in H. destruct n; [discriminate H|]. cbn in H. rewrite E in H. cbn in H. congruence. Qed.
Lemma vec_indirect n T t b : needs_indirect_abi n T (TVec t) = Some b -> b = true.
Proof. intros H. cbn [needs_indirect_abi] in H. destruct n; [discriminate H|]. cbn in H. congruence. Qed.

Lemma no_ref_type T t c : (forall p m l u, t <> TRef p m l u) -> cxx_type T t = Some c -> ~ is_ref c.
Proof.
  intros N E (k & u & ->). destruct t; try rewrite cxx_type_fn in E; cbn [cxx_type] in E; try discriminate E;
    try (destruct (cxx_type T t); discriminate E).
  - destruct (atom_from_str (n_rust n)); [discriminate E|]. destruct (resolve_name T (n_rust n)); discriminate E.
  - destruct (N _ _ _ _ eq_refl).
  - apply obind_inv in E. destruct E as (cs & _ & E). destruct (match ret with Some _ => _ | None => _ end); discriminate E.
Qed.
Lemma not_void T t c : cxx_type T t = Some c -> c <> CVoid.
Proof.
  intros E ->. destruct t; try rewrite cxx_type_fn in E; cbn [cxx_type] in E; try discriminate E;
    try (destruct (cxx_type T t); discriminate E).
  - destruct (atom_from_str (n_rust n)); [discriminate E|]. destruct (resolve_name T (n_rust n)); discriminate E.
  - apply obind_inv in E. destruct E as (cs & _ & E). destruct (match ret with Some _ => _ | None => _ end); discriminate E.
Qed.

Ltac nr := intros (? & ? & ?); discriminate.
Section One.
  Variables (gen : generator) (ord : nat -> list string -> list string) (apis : list api) (T : types) (n : nat).
  Hypothesis Hacc : accepted_bridge gen ord apis T.
  Variables (F : list (string * (cty * list cty))) (this : member) (G : list (string * local_kind)).
  Notation cty_ok := (ctyped (passed_directly apis) F this G).
  Notation init_ok := (cinit (passed_directly apis) F this G).

  (** A variable of a type that is passed directly initialises one of the same type. *)
  Lemma var_init x t c : needs_indirect_abi n T t = Some false -> (forall u, t <> TBox u /\ t <> TUniquePtr u) ->
    cxx_type T t = Some c -> find_name x G = Some (LVar c) -> init_ok (CxVar x) c.
  Proof.
    intros D N E L. pose proof (direct_value _ _ _ _ Hacc n t c D E N) as P.
    assert (K : is_ref c \/ ~ is_ref c) by (destruct c; try (right; nr); left; unfold is_ref; eauto).
    destruct K as [(k & u & ->)|K].
    - apply (ci_ref _ _ _ _ _ _ _ k); [apply ct_ref, L|auto].
    - apply (ci_copy _ _ _ _ _ _ false); [exact K|apply ct_var; assumption|exact P].
  Qed.

  (** The user's parameter is initialised from the parameter of the shim. *)
  Lemma pass_arg_ok x t e p c : (forall u, t <> TCxxVector u) -> pass_arg n T x t = Some e -> cxx_shim_arg n T t = Some p ->
    cxx_type T t = Some c -> find_name x G = Some (LVar p) -> init_ok e c.
  Proof.
    intros NV Ee Ep Ec L.
    assert (R : is_rust_string t = false -> (forall u, t <> TBox u /\ t <> TUniquePtr u /\ t <> TVec u) ->
      obind (cxx_type T t) (fun c => obind (needs_indirect_abi n T t) (fun b => Some (if b then CPtr false c else c))) = Some p ->
      option_map (fun b : bool => if b then CxMove (CxDeref (CxVar x)) else CxVar x) (needs_indirect_abi n T t) = Some e -> init_ok e c).
    { intros _ N Ep' Ee'. rewrite Ec in Ep'. cbn [obind] in Ep'. destruct (needs_indirect_abi n T t) as [b|] eqn:D; [|discriminate]. cbn in Ep', Ee'.
      injection Ep' as <-. injection Ee' as <-. destruct b.
      - assert (K : ~ is_ref c). { apply (no_ref_type T t); [|exact Ec]. intros q m l u ->. discriminate D. }
        apply ci_move; [exact K|]. apply ct_move. eapply ct_deref. apply ct_var; [exact L|nr].
      - apply (var_init x t); [exact D|intros u; split; apply N|exact Ec|exact L]. }
    destruct (is_rust_string t) eqn:Es.
    - destruct (string_ident t Es) as (i & -> & Ei). unfold pass_arg in Ee. rewrite Es in Ee. injection Ee as <-.
      unfold cxx_shim_arg in Ep. rewrite Es, (string_cxx T i Ei) in Ep. injection Ep as <-. rewrite (string_cxx T i Ei) in Ec. injection Ec as <-.
      apply ci_move; [nr|]. eapply ct_bitcopy; [left; reflexivity|]. eapply ct_deref. apply ct_var; [exact L|nr].
    - unfold pass_arg in Ee. rewrite Es in Ee. unfold cxx_shim_arg in Ep. rewrite Es in Ep. unfold cxx_extern_arg in Ep.
      destruct t; try (apply R; [reflexivity|intros u; repeat split; discriminate|exact Ep|exact Ee]).
      + cbn [cxx_type] in *. destruct (cxx_type T t) as [cu|]; [|discriminate]. cbn in Ep, Ec, Ee. injection Ep as <-. injection Ec as <-. injection Ee as <-.
        apply ci_move; [nr|]. eapply ct_from_raw. apply ct_var; [exact L|nr].
      + cbn [cxx_type] in *. destruct (cxx_type T t) as [cu|]; [|discriminate]. cbn in Ep, Ec, Ee. injection Ep as <-. injection Ec as <-. injection Ee as <-.
        apply ci_move; [nr|]. eapply ct_bitcopy; [right; eexists; reflexivity|]. eapply ct_deref. apply ct_var; [exact L|nr].
      + cbn [cxx_type] in *. destruct (cxx_type T t) as [cu|]; [|discriminate]. cbn in Ep, Ec, Ee. injection Ep as <-. injection Ec as <-. injection Ee as <-.
        apply ci_move; [nr|]. eapply ct_unique. apply ct_var; [exact L|nr].
      + destruct (NV _ eq_refl).
  Qed.

  (** The result of the user's function. *)
  Definition result_of (r : option ty) (call : cexp) : Prop :=
    forall c, return_type T r = Some c -> forall t v, returned c t v -> cty_ok call t v.
  Lemma pass_result_slot r call e c : cxx_indirect_return_type T r = Some c -> result_of (Some r) call ->
    pass_result T true (Some r) call = Some e -> init_ok e c /\ ~ is_ref c.
  Proof.
    intros Ec R Ee. unfold result_of in R. cbn [return_type] in R.
    assert (K : cxx_indirect_return_type T r = cxx_type T r -> pass_result T true (Some r) call = Some call -> (forall p m l u, r <> TRef p m l u) -> init_ok e c /\ ~ is_ref c).
    { intros E1 E2 N. rewrite E1 in Ec. rewrite E2 in Ee. injection Ee as <-. pose proof (no_ref_type T r c N Ec) as K. split; [|exact K].
      apply ci_move; [exact K|]. apply (R c Ec). constructor. exact K. }
    destruct r; try (apply K; [reflexivity|reflexivity|discriminate]); cbn [cxx_indirect_return_type cxx_type pass_result] in *;
      (destruct (cxx_type T r) as [cu|]; [|discriminate]); cbn in Ec; injection Ec as <-; injection Ee as <-; (split; [apply ci_move; [nr|]|nr]).
    - eapply ct_into_raw; [apply (R _ eq_refl); constructor; nr|discriminate].
    - eapply ct_release; [apply (R _ eq_refl); constructor; nr|discriminate].
    - apply ct_addr. apply (R _ eq_refl). constructor.
  Qed.
  Lemma pass_result_direct r call e c : needs_indirect_abi n T r = Some false -> cxx_extern_return n T (Some r) = Some c -> result_of (Some r) call ->
    pass_result T false (Some r) call = Some e -> init_ok e c /\ c <> CVoid.
  Proof.
    intros D Ec R Ee. unfold result_of in R. cbn [return_type] in R.
    assert (K : cxx_extern_return n T (Some r) = obind (needs_indirect_abi n T r) (fun b : bool => if b then Some CVoid else cxx_type T r) ->
      pass_result T false (Some r) call = Some call -> (forall p m l u, r <> TRef p m l u) -> init_ok e c /\ c <> CVoid).
    { intros E1 E2 N. rewrite E1, D in Ec. cbn [obind] in Ec. rewrite E2 in Ee. injection Ee as <-. pose proof (no_ref_type T r c N Ec) as K. split; [|exact (not_void T r c Ec)].
      apply ci_move; [exact K|]. apply (R c Ec). constructor. exact K. }
    destruct r; try (apply K; [reflexivity|reflexivity|discriminate]); cbn [cxx_extern_return cxx_type pass_result] in *;
      try (destruct (cxx_type T r) as [cu|]; [|discriminate]); cbn in Ec, Ee; injection Ec as <-; injection Ee as <-; (split; [apply ci_move; [nr|]|discriminate]).
    - eapply ct_into_raw; [apply (R _ eq_refl); constructor; nr|discriminate].
    - eapply ct_release; [apply (R _ eq_refl); constructor; nr|discriminate].
    - apply ct_addr. apply (R _ eq_refl). constructor.
    - eapply ct_str_repr. apply (R _ eq_refl). constructor. nr.
    - eapply ct_slice_repr. apply (R _ eq_refl). constructor. nr.
  Qed.

  (** The parameter of the Rust function is initialised from that of the C++ function. *)
  Lemma hand_arg_ok x t e d c : (forall u, t <> TCxxVector u) -> hand_arg n T x t = Some e -> cxx_extern_arg n T t = Some d ->
    cxx_type T t = Some c -> find_name x G = Some (LVar c) ->
    (is_rust_string t = false -> needs_indirect_abi n T t = Some true -> find_name (x ++ "$") G = Some (LManual c)) -> init_ok e d.
  Proof.
    intros NV Ee Ed Ec L M. unfold hand_arg in Ee. apply obind_inv in Ee. destruct Ee as (b & D & Ee). unfold cxx_extern_arg in Ed.
    assert (K : (forall u, t <> TBox u /\ t <> TUniquePtr u) ->
      obind (cxx_type T t) (fun c => obind (needs_indirect_abi n T t) (fun b => Some (if b then CPtr false c else c))) = Some d ->
      e = (if b then CxAddr (if negb (is_rust_string t) && b then CxValue (x ++ "$") else CxVar x) else CxVar x) -> init_ok e d).
    { intros N Ed' ->. rewrite Ec, D in Ed'. cbn [obind] in Ed'. injection Ed' as <-. destruct b.
      - apply ci_move; [nr|]. apply ct_addr. destruct (is_rust_string t) eqn:Es; cbn [negb andb].
        + destruct (string_ident t Es) as (i & -> & Ei). rewrite (string_cxx T i Ei) in Ec. injection Ec as <-. apply ct_var; [exact L|nr].
        + apply ct_manual. apply M; [reflexivity|exact D].
      - apply (var_init x t); assumption. }
    assert (X : forall A (a b : A), Some a = Some b -> a = b) by congruence.
    assert (Kb : negb (is_rust_string t) && false = false) by (destruct (is_rust_string t); reflexivity).
    destruct t; try (apply K; [intros u; split; discriminate|exact Ed|apply X in Ee; rewrite <- Ee; destruct b; [reflexivity|]; rewrite Kb; reflexivity]).
    - cbn [needs_indirect_abi] in D. injection D as <-. cbn [cxx_type needs_indirect_abi option_map obind] in Ed, Ec. destruct (cxx_type T t) as [cu|]; [|discriminate]. injection Ed as <-. injection Ec as <-. injection Ee as <-.
      apply ci_move; [nr|]. eapply ct_into_raw; [apply ct_var; [exact L|nr]|discriminate].
    - cbn [needs_indirect_abi] in D. injection D as <-. cbn [cxx_type needs_indirect_abi option_map obind] in Ed, Ec. destruct (cxx_type T t) as [cu|]; [|discriminate]. injection Ed as <-. injection Ec as <-. injection Ee as <-.
      apply ci_move; [nr|]. eapply ct_release; [apply ct_var; [exact L|nr]|discriminate].
    - destruct (NV _ eq_refl).
  Qed.

  (** The result of the Rust function, returned directly. *)
  Lemma take_result_ok r call e c d : needs_indirect_abi n T r = Some false -> cxx_extern_return n T (Some r) = Some d -> cxx_type T r = Some c ->
    (forall t v, returned d t v -> cty_ok call t v) -> take_result T (Some r) call = Some e -> init_ok e c.
  Proof.
    intros D Ed Ec R Ee.
    assert (K : cxx_extern_return n T (Some r) = obind (needs_indirect_abi n T r) (fun b : bool => if b then Some CVoid else cxx_type T r) ->
      take_result T (Some r) call = Some call -> (forall p m l u, r <> TRef p m l u) -> init_ok e c).
    { intros E1 E2 N. rewrite E1, D in Ed. cbn [obind] in Ed. rewrite Ec in Ed. injection Ed as <-. rewrite E2 in Ee. injection Ee as <-.
      pose proof (no_ref_type T r c N Ec) as K. apply ci_move; [exact K|]. apply R. constructor. exact K. }
    destruct r; try (apply K; [reflexivity|reflexivity|discriminate]); cbn [cxx_extern_return cxx_type take_result] in *;
      try (destruct (cxx_type T r) as [cu|]; [|discriminate]); cbn in Ed, Ee, Ec; injection Ed as <-; injection Ee as <-; injection Ec as <-.
    - apply ci_move; [nr|]. eapply ct_from_raw. apply R. constructor. nr.
    - apply ci_move; [nr|]. eapply ct_unique. apply R. constructor. nr.
    - apply (ci_ref _ _ _ _ _ _ _ (negb mutable)); [|auto]. eapply ct_deref. apply R. constructor. nr.
    - apply ci_move; [nr|]. eapply ct_str_new. apply R. constructor. nr.
    - apply ci_move; [nr|]. eapply ct_slice_new. apply R. constructor. nr.
  Qed.
End One.
