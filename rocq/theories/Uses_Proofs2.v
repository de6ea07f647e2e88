(** Proofs about the names used in generated code: every use is asked for. *)
From Verif Require Import Base StrLib Syntax_Model Toposort_Model Toposort_Spec Toposort_Proofs2 TypeEq_Model Types_Model Types_Spec Types_Proofs Types_Proofs3 Types_Props
  Mangle_Model Abi_Model Header_Text Ifndef_Model Builtin_Model Builtin_Spec Builtin_Proofs Out_Model Out_Spec Uses_Model Uses_Spec Uses_Proofs.
Local Opaque HEADER lines tokens_of text_of.

Ltac srcs := unfold sources; cbn [map app In]; repeat (first [left; reflexivity | right]).

Section All.
  Variables (indirect : ty -> bool) (header : bool) (ord : nat -> list string -> list string) (apis : list api) (T : types) (errs : list cerr).
  Hypothesis Hc : collect ord apis = Some (T, errs).
  Let ops := generated_ops indirect header T apis.
  Notation good := (good ops).

  Lemma t_all_eq : t_all T = c_all (collect_apis apis).
  Proof. destruct (collect_facts _ _ _ _ Hc) as [order [terrs [imp [_ [_ [_ [_ [_ [_ [_ [_ [_ [_ [_ [_ [_ E]]]]]]]]]]]]]]]]. exact E. Qed.
  Lemma t_impls_eq : t_impls T = fold_left (add_implicit (c_aliases (collect_apis apis))) (c_all (collect_apis apis)) (c_impls (collect_apis apis)).
  Proof. destruct (collect_facts _ _ _ _ Hc) as [order [terrs [imp [_ [_ [_ [_ [_ [_ [_ [_ [_ [E _]]]]]]]]]]]]]. exact E. Qed.

  Lemma pick_asked t o : mentioned apis t -> In o (w_pick t) -> In o ops.
  Proof.
    intros M I. destruct (mentioned_all _ _ M) as [v [V1 V2]]. apply in_or_app. left. apply in_flat_map. exists v. rewrite t_all_eq. split; [exact V1|].
    destruct V2 as [<-|V2]; [exact I|]. rewrite <- (pick_eqb _ _ V2). exact I.
  Qed.
  Lemma repr_asked e o : In (AEnum e) apis -> In o (w_pick (TIdent (Named (atom_name (en_repr e)) []))) -> In o ops.
  Proof.
    intros M I.
    destruct (insert_covers (flat_map visited_of apis) [] (TIdent (Named (atom_name (en_repr e)) []))) as [v [V1 V2]].
    { apply in_flat_map. exists (AEnum e). split; [exact M|]. left. reflexivity. }
    apply in_or_app. left. apply in_flat_map. exists v. rewrite t_all_eq, c_all_eq. split; [exact V1|].
    destruct V2 as [<-|V2]; [exact I|]. rewrite <- (pick_eqb _ _ V2). exact I.
  Qed.

  Lemma atom_good a : (forall o, In o (w_pick (TIdent (Named (atom_name a) []))) -> In o ops) -> good (w_atom a).
  Proof.
    intros H. destruct a; cbn [w_atom]; try apply good_nil.
    all: eapply good_use; [srcs| |apply good_nil]; apply H; left; reflexivity.
  Qed.
  Lemma atom_name_from x a : atom_from_str x = Some a -> x = atom_name a.
  Proof.
    unfold atom_from_str. repeat match goal with |- (if String.eqb ?x ?s then _ else _) = _ -> _ => destruct (String.eqb_spec x s) as [->|_]; [intros H; injection H as <-; reflexivity|] end.
    discriminate.
  Qed.
  Lemma type_good t : mentioned apis t -> good (w_type t).
  Proof.
    induction t as [n|t IH|t IH|t IH|t IH|t IH|p m l t IH|m t IH|l|t IH|u th args ret IHa IHr| |m l t IH|t n IH] using ty_ind'; intros M; cbn [w_type];
      try exact (good_nil _).
    all: try (apply IH; eapply mentioned_trans; [exact M|repeat constructor]).
    all: try (eapply good_use; [srcs| |apply IH; eapply mentioned_trans; [exact M|repeat constructor]]; apply (pick_asked _ _ M); left; reflexivity).
    - destruct (atom_from_str (n_rust n)) as [a|] eqn:E; [|apply good_nil]. apply atom_good. intros o I. apply (pick_asked _ _ M).
      apply atom_name_from in E. cbn [w_pick n_rust] in *. rewrite E. exact I.
    - eapply good_use; [srcs| |apply good_nil]. apply (pick_asked _ _ M). left; reflexivity.
    - eapply good_use; [srcs| |]; [apply (pick_asked _ _ M); left; reflexivity|]. apply good_app.
      + destruct ret as [r|]; [|apply good_nil]. apply (IHr r eq_refl). eapply mentioned_trans; [exact M|]. repeat constructor.
      + assert (Ha : forall a, In a args -> mentioned apis (snd a)).
        { intros [x a] I. eapply mentioned_trans; [exact M|]. eapply oc_arg; [exact I|constructor]. }
        clear M. induction args as [|a args IHl]; [apply good_nil|]. inversion IHa; subst. apply good_app.
        * apply H1. apply Ha. left; reflexivity.
        * apply IHl; [assumption|]. intros b I. apply Ha. right; exact I.
  Qed.

  Definition msig (s : wsig) : Prop := (forall t, In t (ws_args s) -> mentioned apis t) /\ (forall t, ws_ret s = Some t -> mentioned apis t).
  Lemma good_when b l : (b = true -> good l) -> good (when b l).
  Proof. destruct b; [auto|intros _; apply good_nil]. Qed.
  Ltac inner M := first [exact M | eapply mentioned_trans; [exact M|repeat constructor]].

  Lemma ext_ret_good r : (forall t, r = Some t -> mentioned apis t) -> incl (w_extern_return_type indirect r) ops -> good (w_extern_return_type indirect r).
  Proof.
    intros M I. destruct r as [t|]; [|apply good_nil]. specialize (M t eq_refl).
    destruct t; cbn [w_extern_return_type] in *; try (apply type_good; inner M); try (destruct (indirect _); [apply good_nil|apply type_good, M]);
      (apply good_lit; [reflexivity|exact I]).
  Qed.
  Lemma ind_ret_good t : mentioned apis t -> good (w_indirect_return_type t).
  Proof. intros M. destruct t; cbn [w_indirect_return_type]; apply type_good; inner M. Qed.
  Lemma ext_arg_good t : mentioned apis t -> good (w_extern_arg t).
  Proof. intros M. destruct t; cbn [w_extern_arg]; apply type_good; inner M. Qed.
  Lemma ref_ret_good s : msig s -> good (match ws_ret s with Some (TRef _ _ _ t) => w_type t | Some t => w_type t | None => [] end).
  Proof. intros [_ M]. destruct (ws_ret s) as [t|]; [|apply good_nil]. specialize (M t eq_refl). destruct t; apply type_good; inner M. Qed.

  Lemma rust_decl_good s : msig s -> incl (w_rust_decl indirect s) ops -> good (w_rust_decl indirect s).
  Proof.
    intros M I. unfold w_rust_decl in *. pose proof (incl_app_l _ _ _ I) as I1.
    repeat apply good_app.
    - destruct (ws_throws s); [apply good_lit; [reflexivity|exact I1]|apply ext_ret_good; [apply M|exact I1]].
    - apply good_flat_map. intros t It. apply ext_arg_good, (proj1 M), It.
    - apply good_when. intros _. apply ref_ret_good, M.
  Qed.
  Lemma shim_decl_good s : msig s -> good (w_shim_decl s).
  Proof.
    intros M. apply good_app.
    - destruct (ws_ret s) as [t|] eqn:E; [|apply good_nil]. apply type_good, (proj2 M), E.
    - apply good_flat_map. intros t It. apply type_good, (proj1 M), It.
  Qed.
  Lemma shim_impl_good receiver s : msig s -> incl (w_shim_impl indirect header receiver s) ops -> good (w_shim_impl indirect header receiver s).
  Proof.
    intros M. unfold w_shim_impl. destruct (header && receiver); [intros; apply good_nil|]. intros I. apply incl_app_r in I.
    apply good_app; [apply shim_decl_good, M|]. destruct (negb header); [|apply good_nil]. cbn [when] in *.
    pose proof (incl_flat_map _ _ _ (incl_app_l _ _ _ I)) as I1. apply incl_app_r in I.
    pose proof (incl_app_l _ _ _ I) as I2. apply incl_app_r in I.
    pose proof (incl_app_l _ _ _ I) as I3. apply incl_app_r in I.
    pose proof (incl_app_l _ _ _ I) as I4. apply incl_app_r in I.
    apply good_app; [|apply good_app; [|apply good_app; [|apply good_app]]].
    - apply good_flat_map. intros t It. specialize (I1 t It). cbv beta in I1. apply good_when. intros E. rewrite E in I1. cbn [when] in I1.
      apply good_app; [apply good_lit; [reflexivity|exact (incl_app_l _ _ _ I1)]|]. apply good_app; [apply type_good, (proj1 M), It|].
      eapply good_use; [srcs| |apply good_nil]. apply I1. left; reflexivity.
    - destruct (ws_indirect_return indirect s).
      + apply good_app; [apply good_lit; [reflexivity|exact (incl_app_l _ _ _ I2)]|]. apply ref_ret_good, M.
      + destruct M as [_ M]. destruct (ws_ret s) as [t|]; [|apply good_nil]. specialize (M t eq_refl). destruct t; try apply good_nil; try (apply type_good, M).
        * apply good_want. eapply good_use; [srcs|apply I2; left; reflexivity|]. eapply good_use; [srcs| |apply good_nil].
          apply (pick_asked _ _ M). left; reflexivity.
        * apply good_want. eapply good_use; [srcs|apply I2; left; reflexivity|]. apply type_good, M.
    - destruct (ws_throws s); [apply good_lit; [reflexivity|exact I3]|apply good_nil].
    - destruct (ws_throws s); [apply good_lit; [reflexivity|exact I4]|apply good_nil].
    - destruct (ws_indirect_return indirect s); [|apply good_nil]. cbn [when] in *.
      destruct (ws_ret s) as [t|]; [|apply good_lit; [reflexivity|exact I]]. destruct t; first [apply good_lit; [reflexivity|exact I] | apply good_nil].
  Qed.
  Lemma trampoline_good t : mentioned apis t -> incl (w_trampoline indirect header t) ops -> good (w_trampoline indirect header t).
  Proof.
    intros M I. destruct t; try apply good_nil. cbn [w_trampoline] in *.
    match goal with |- good (w_rust_decl _ ?s ++ _) => assert (Ms : msig s) end.
    { split; cbn [ws_args ws_ret].
      - intros t It. apply in_map_iff in It. destruct It as [[x a] [<- It]]. eapply mentioned_trans; [exact M|]. eapply oc_arg; [exact It|constructor].
      - intros t ->. eapply mentioned_trans; [exact M|]. repeat constructor. }
    apply good_app; [apply rust_decl_good; [exact Ms|exact (incl_app_l _ _ _ I)]|apply shim_impl_good; [exact Ms|exact (incl_app_r _ _ _ I)]].
  Qed.
  Lemma cxx_shim_good s : msig s -> incl (w_cxx_shim indirect header s) ops -> good (w_cxx_shim indirect header s).
  Proof.
    intros M I. unfold w_cxx_shim in *.
    pose proof (incl_app_l _ _ _ I) as I1. apply incl_app_r in I.
    apply incl_app_r in I. apply incl_app_r in I. apply incl_app_r in I. apply incl_app_r in I.
    pose proof (incl_app_l _ _ _ I) as I2. apply incl_app_r in I.
    pose proof (incl_app_l _ _ _ I) as I3. apply incl_app_r in I.
    pose proof (incl_app_l _ _ _ I) as I4. apply incl_app_r in I.
    pose proof (incl_flat_map _ _ _ (incl_app_l _ _ _ I)) as I5. apply incl_app_r in I. apply incl_app_r in I.
    pose proof (incl_flat_map _ _ _ I) as I6. clear I.
    apply good_app; [|apply good_app; [|apply good_app; [|apply good_app; [|apply good_app; [|apply good_app; [|apply good_app; [|apply good_app; [|apply good_app; [|apply good_app]]]]]]]]].
    - destruct (ws_throws s); [apply good_lit; [reflexivity|exact I1]|apply ext_ret_good; [apply M|exact I1]].
    - apply good_flat_map. intros t It. destruct M as [M _]. specialize (M t It). destruct (is_rust_string t); [apply type_good, M|].
      destruct t; first [apply type_good, M | apply ext_arg_good, M].
    - apply good_when. intros _. destruct (ws_ret s) as [t|] eqn:E; [|apply good_nil]. apply ind_ret_good, (proj2 M), E.
    - destruct (ws_ret s) as [t|] eqn:E; [|apply good_nil]. apply type_good, (proj2 M), E.
    - apply good_flat_map. intros t It. apply type_good, (proj1 M), It.
    - destruct (ws_throws s); [apply good_lit; [reflexivity|exact I2]|apply good_nil].
    - destruct (ws_indirect_return indirect s); [|apply good_nil]. cbn [when] in *. apply good_app; [apply good_lit; [reflexivity|exact (incl_app_l _ _ _ I3)]|].
      destruct (ws_ret s) as [t|] eqn:E; [|apply good_nil]. apply ind_ret_good, (proj2 M), E.
    - destruct M as [_ M]. destruct (ws_ret s) as [t|]; [|apply good_nil]. specialize (M t eq_refl).
      destruct t; try apply good_nil; (destruct (negb (ws_indirect_return indirect s)); [|apply good_nil]); cbn [when] in *.
      + apply good_want. eapply good_use; [srcs|apply I4; left; reflexivity|]. eapply good_use; [srcs| |apply good_nil].
        apply (pick_asked _ _ M). left; reflexivity.
      + apply good_want. eapply good_use; [srcs|apply I4; left; reflexivity|]. apply type_good, M.
    - apply good_flat_map. intros t It. specialize (I5 t It). destruct M as [M _]. specialize (M t It). cbv beta in I5.
      assert (Ho : incl (when (indirect t) [inc_ IUtility; std_ "move"]) ops -> good (when (indirect t) [inc_ IUtility; std_ "move"])).
      { intros J. destruct (indirect t); [|apply good_nil]. apply good_lit; [reflexivity|exact J]. }
      destruct t; cbn [is_rust_string] in *; try (apply type_good, M); try (apply Ho, I5).
      + destruct (String.eqb _ _) eqn:E in *.
        * eapply good_want, good_use; [srcs| |eapply good_use; [srcs| |apply good_nil]].
          -- apply String.eqb_eq in E. apply (pick_asked _ _ M). cbn [w_pick]. rewrite E. left; reflexivity.
          -- apply I5. left; reflexivity.
        * apply Ho, I5.
      + apply good_want, good_app; [apply type_good, M|]. eapply good_use; [srcs| |apply good_nil]. apply I5. left; reflexivity.
    - destruct (ws_throws s); [|apply good_nil]. eapply good_use; [srcs| |apply good_nil]. apply I2. right; left; reflexivity.
    - apply good_flat_map. intros t It. apply trampoline_good; [apply (proj1 M), It|apply I6, It].
  Qed.
End All.
