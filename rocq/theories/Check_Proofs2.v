(** The type checker does not distinguish equal types, so it accepts every mentioned type. *)
From Verif Require Import Base Syntax_Model TypeEq_Model Toposort_Model
  Types_Model Types_Spec Types_Proofs Types_Proofs3 Types_Props Check_Model Check_Spec Check_Proofs.

Lemma occurs_trans u t : occurs u t -> forall w, occurs w u -> occurs w t.
Proof. induction 1; intros w Hw; [exact Hw| | | | | | | | | | |eapply oc_arg; eauto|apply oc_ret; auto]; constructor; auto. Qed.
Lemma mentioned_occurs apis t u : mentioned apis t -> occurs u t -> mentioned apis u.
Proof. intros [s f H1 H2 H3|f x t' H1 H2 H3|f t' H1 H2 H3|i H1 H3] Ho; [eapply me_field|eapply me_arg|eapply me_ret|eapply me_impl]; eauto using occurs_trans. Qed.

Section Acc.
  Context (gen : generator) (ord : nat -> list string -> list string) (apis : list api) (T : types)
          (Hacc : accepted_bridge gen ord apis T).

  Lemma named_eqb_rust n m : named_eqb n m = true -> n_rust n = n_rust m.
  Proof. unfold named_eqb. rewrite andb_true_iff. intros [H _]. apply String.eqb_eq. exact H. Qed.
  Ltac cong := intros a b; destruct a, b; cbn; try discriminate; try reflexivity; intros H; apply named_eqb_rust in H; rewrite H; reflexivity.

  Lemma box_cong : forall a b, ty_eqb a b = true -> check_type_box T a = check_type_box T b. Proof. cong. Qed.
  Lemma vec_cong : forall a b, ty_eqb a b = true -> check_type_rust_vec T a = check_type_rust_vec T b. Proof. cong. Qed.
  Lemma uptr_cong : forall a b, ty_eqb a b = true -> check_type_unique_ptr T a = check_type_unique_ptr T b. Proof. cong. Qed.
  Lemma sptr_cong : forall a b, ty_eqb a b = true -> check_type_shared_ptr T a = check_type_shared_ptr T b. Proof. cong. Qed.
  Lemma vector_cong : forall a b, ty_eqb a b = true -> check_type_cxx_vector T a = check_type_cxx_vector T b. Proof. cong. Qed.
  Lemma ref_cong p m : forall a b, ty_eqb a b = true -> check_type_ref T p m a = check_type_ref T p m b.
  Proof. unfold check_type_ref. destruct (m && negb p); cong. Qed.
  Lemma slice_cong a b : ty_eqb a b = true -> check_type_slice T a = check_type_slice T b.
  Proof.
    intros H. unfold check_type_slice. rewrite (unsized_cong T _ _ H). f_equal. f_equal. f_equal. revert a b H. cong.
  Qed.

  Lemma check_type_cong u v : ty_eqb u v = true -> check_type T v = [] -> check_type T u = [].
  Proof.
    intros H C. destruct u, v; cbn in H; try discriminate H; cbn [check_type] in C |- *; auto.
    - unfold check_type_ident in *. rewrite (named_eqb_rust _ _ H). exact C.
    - rewrite (box_cong _ _ H). exact C.
    - rewrite (vec_cong _ _ H). exact C.
    - rewrite (uptr_cong _ _ H). exact C.
    - rewrite (sptr_cong _ _ H). exact C.
    - unfold check_type_weak_ptr in *. rewrite (sptr_cong _ _ H). exact C.
    - rewrite !andb_true_iff in H. destruct H as [[[H1 H2] H3] H4]. apply Bool.eqb_prop in H1, H3. subst. rewrite (ref_cong _ _ _ _ H4). exact C.
    - rewrite (vector_cong _ _ H). exact C.
    - rewrite !andb_true_iff in H. destruct H as [[[[H1 H2] H3] H4] H5]. apply Bool.eqb_prop in H1, H3. subst. apply Nat.eqb_eq in H4. clear - C H4 H5.
      unfold check_type_fn in *. rewrite app_nil in *. destruct C as [C1 C2]. split; [exact C1|]. clear C1. revert args0 H4 H5 C2.
      induction args as [|[x a] args IH]; intros [|[y b] args'] H4 H5 C2; try discriminate; [reflexivity|].
      apply andb_true_iff in H5. destruct H5 as [H5 H6]. cbn [flat_map snd] in *. apply app_nil in C2. destruct C2 as [C2 C3]. apply app_nil.
      split; [|apply (IH args'); auto]. destruct a; auto. cbn in H5. destruct b; discriminate.
    - rewrite !andb_true_iff in H. destruct H as [[H1 H2] H3]. rewrite (slice_cong _ _ H3). exact C.
  Qed.

  Lemma mentioned_checked u : mentioned apis u -> check_type T u = [].
  Proof.
    intros H. destruct (all_ok _ _ _ _ Hacc _ H) as [v [Hv [->|E]]]; [exact (no_types _ _ _ _ Hacc _ Hv)|].
    apply (check_type_cong u v E). exact (no_types _ _ _ _ Hacc _ Hv).
  Qed.
End Acc.
