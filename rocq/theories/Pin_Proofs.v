(** Invariant: nothing that must stay in place is reachable by value or by &mut. *)
From Verif Require Import Base Syntax_Model TypeEq_Model Toposort_Model Types_Model Types_Spec Types_Proofs Types_Proofs3 Types_Props
  Check_Model Check_Spec Check_Proofs Check_Proofs2 Check_Props Pin_Model Pin_Spec.

Definition movable (w : world) (t : ty) : Prop := ~ immovable w t.
(** Every part of [t] that can be reached by value or by &mut is movable. *)
Fixpoint good (w : world) (t : ty) : Prop :=
  match t with
  | TBox t | TVec t | TArray t _ => good w t /\ movable w t
  | TRef p m _ t => good w t /\ (m = true -> p = false -> movable w t)
  | TSlice m _ t => good w t /\ (m = true -> movable w t)
  | TUniquePtr t | TSharedPtr t | TWeakPtr t | TCxxVector t => good w t
  | TIdent _ | TPtr _ _ | TStr _ | TFn _ _ _ _ | TVoid => True
  end.
Definition inv (w : world) (c : cap) : Prop :=
  match c with Own t | Mut t => good w t /\ movable w t | Ref t | Pinned t => good w t end.

Lemma unpin_movable w t : unpin w t = true -> movable w t.
Proof. intros U I. induction I; cbn in U; try congruence; auto. Qed.
Lemma trivial_movable w t : trivial w t = true -> movable w t.
Proof. intros U I. destruct I; cbn in U; congruence. Qed.
Lemma array_movable w t n : movable w (TArray t n) <-> movable w t.
Proof. split; intros M I; apply M; [constructor; exact I|inversion I; assumption]. Qed.
Ltac trivmov := let I := fresh in intros I; inversion I.

Lemma std_inv w c d : std_gives w c d -> inv w c -> inv w d.
Proof.
  destruct 1; cbn; intros Hi; repeat match goal with H : _ /\ _ |- _ => destruct H end; repeat split; auto using unpin_movable; try (apply array_movable; assumption); try (solve [trivmov]); intuition (try discriminate).
Qed.
Lemma lib_inv w c d : lib_gives w c d -> inv w c -> inv w d.
Proof.
  destruct 1; cbn; intros Hi; repeat match goal with H : _ /\ _ |- _ => destruct H end; repeat split; auto using unpin_movable, trivial_movable; try (solve [trivmov]); intuition (try discriminate).
Qed.

Section Acc.
  Context (gen : generator) (ord : nat -> list string -> list string) (apis : list api) (T : types) (w : world).
  Context (Hacc : accepted_bridge gen ord apis T) (Hw : rust_accepts w (rust_asserts T apis)) (Hb : builtin_names w apis).

  Lemma assert_ok a r : In a apis -> In r (rust_asserts T [a]) ->
    match r with NotUnpin x => w_unpin w x = false | IsUnpin x => w_unpin w x = true | KindIs x b => w_trivial w x = b end.
  Proof.
    intros I J. unfold rust_accepts in Hw. rewrite Forall_forall in Hw. apply (Hw r). unfold rust_asserts in *. cbn in J. rewrite app_nil_r in J. apply in_flat_map. exists a. auto.
  Qed.
  Lemma struct_trivial x : is_struct apis x -> w_trivial w x = true.
  Proof. intros (s & I & <-). apply (assert_ok _ (KindIs (p_rust (st_name s)) true) I). left. reflexivity. Qed.
  Lemma enum_trivial x : is_enum apis x -> w_trivial w x = true.
  Proof. intros (s & I & <-). apply (assert_ok _ (KindIs (p_rust (en_name s)) true) I). left. reflexivity. Qed.
  Lemma rust_unpin x : is_rust_type apis x -> w_unpin w x = true.
  Proof. intros (s & I & <-). apply (assert_ok _ (IsUnpin (p_rust (et_name s))) I). left. reflexivity. Qed.
  Lemma alias_trivial x : is_alias apis x -> has x (t_required_trivial T) = true -> w_trivial w x = true.
  Proof. intros (s & I & <-) H. apply (assert_ok _ (KindIs (p_rust (ta_name s)) true) I). cbn. rewrite H. left. reflexivity. Qed.
  Lemma name_movable n : w_unpin w (n_rust n) = true \/ w_trivial w (n_rust n) = true -> movable w (TIdent n).
  Proof. intros H I. inversion I; subst. destruct H; congruence. Qed.

  (** A name in the bridge that is not opaque. *)
  Lemma known_movable n : is_opaque_cxx T (n_rust n) = false ->
    (is_primitive (n_rust n) /\ n_rust n <> "CxxString"%string) \/ is_struct apis (n_rust n) \/ is_enum apis (n_rust n) \/ is_cxx_type apis (n_rust n) \/ is_rust_type apis (n_rust n) ->
    movable w (TIdent n).
  Proof.
    intros O D. apply name_movable.
    destruct (in_structs T (n_rust n)) eqn:Es; [right; apply struct_trivial, (structs_ok _ _ _ _ Hacc), Es|].
    destruct (in_enums T (n_rust n)) eqn:Ee; [right; apply enum_trivial, (enums_ok _ _ _ _ Hacc), Ee|].
    unfold is_opaque_cxx in O. rewrite Es, Ee in O. cbn [negb andb] in O. rewrite !andb_true_r in O.
    destruct (in_cxx T (n_rust n)) eqn:Ec; cbn in O.
    - apply negb_false_iff, andb_true_iff in O. destruct O as (Oa & Ot). right. apply alias_trivial; [apply (aliases_ok _ _ _ _ Hacc), Oa|exact Ot].
    - destruct D as [(P & N)|[D|[D|[D|D]]]].
      + left. assert (Q : ~ is_alias apis (n_rust n)). { intros A. enough (in_cxx T (n_rust n) = true) by congruence. apply (cxx_ok _ _ _ _ Hacc). right. left. exact A. }
        specialize (Hb _ P Q). apply String.eqb_neq in N. rewrite N in Hb. exact Hb.
      + apply (structs_ok _ _ _ _ Hacc) in D. congruence.
      + apply (enums_ok _ _ _ _ Hacc) in D. congruence.
      + apply (cxx_ok _ _ _ _ Hacc) in D. congruence.
      + left. apply rust_unpin, D.
  Qed.
  Lemma mentioned_known n : mentioned apis (TIdent n) ->
    is_primitive (n_rust n) \/ is_struct apis (n_rust n) \/ is_enum apis (n_rust n) \/ is_cxx_type apis (n_rust n) \/ is_rust_type apis (n_rust n).
  Proof.
    intros M. pose proof (mentioned_checked _ _ _ _ Hacc _ M) as C. cbn in C. unfold check_type_ident in C. apply err_if_nil in C.
    rewrite <- (structs_ok _ _ _ _ Hacc), <- (enums_ok _ _ _ _ Hacc), <- (cxx_ok _ _ _ _ Hacc), <- (rust_ok _ _ _ _ Hacc).
    unfold is_atom, is_primitive in *. destruct (atom_from_str (n_rust n)); [left; eauto|]. cbn in C.
    destruct (in_structs T _); [auto|]. destruct (in_enums T _); [auto|]. destruct (in_cxx T _); [auto|]. destruct (in_rust T _); [auto|]. discriminate.
  Qed.
  Lemma sized_movable t : mentioned apis t -> is_unsized T t = false -> movable w t.
  Proof.
    induction t; intros M U; try (intros I; inversion I; fail); cbn in U.
    - apply orb_false_iff in U. destruct U as (U & _). apply orb_false_iff in U. destruct U as (U1 & U2). apply String.eqb_neq in U1.
      apply known_movable; [exact U2|]. destruct (mentioned_known _ M); auto.
    - discriminate.
    - apply array_movable, IHt; [|exact U]. apply (mentioned_occurs _ _ _ M). constructor. constructor.
  Qed.
  (** A name used as element: C18 sees to it that it is Trivial. *)
  Lemma required_movable n r : used_at apis (n_rust n) (pos_of r) -> is_alias apis (n_rust n) -> movable w (TIdent n).
  Proof.
    intros U A. apply name_movable. right.
    destruct (in_structs T (n_rust n)) eqn:Es; [apply struct_trivial, (structs_ok _ _ _ _ Hacc), Es|].
    destruct (in_enums T (n_rust n)) eqn:Ee; [apply enum_trivial, (enums_ok _ _ _ _ Hacc), Ee|].
    apply alias_trivial; [exact A|]. destruct Hacc as ((Ho & Hc) & _).
    destruct (proj2 (C18_reasons ord apis T [] (n_rust n) r Ho Hc)) as (rs & I & _).
    - split; [right; left; exact A|]. rewrite <- (structs_ok _ _ _ _ Hacc), <- (enums_ok _ _ _ _ Hacc). repeat split; [congruence|congruence|exact U].
    - unfold has. destruct (assoc (n_rust n) (t_required_trivial T)) eqn:E; [reflexivity|]. exfalso. clear -I E. revert I E. generalize (n_rust n) as x. intros x I E.
      induction (t_required_trivial T) as [|(y, b) l IH]; [destruct I|]. cbn in E. destruct (String.eqb_spec x y) as [->|N]; [discriminate|].
      destruct I as [I|I]; [injection I as -> _; contradiction|auto].
  Qed.
  Lemma known_only n : only_cxx T (n_rust n) = false -> mentioned apis (TIdent n) -> n_rust n <> "CxxString"%string ->
    (is_alias apis (n_rust n) -> movable w (TIdent n)) -> movable w (TIdent n).
  Proof.
    intros O M N A. destruct (in_aliases T (n_rust n)) eqn:Ea; [apply A, (aliases_ok _ _ _ _ Hacc), Ea|].
    apply known_movable.
    - unfold is_opaque_cxx, only_cxx in *. rewrite Ea in *. cbn in *. rewrite andb_true_r in *. exact O.
    - destruct (mentioned_known _ M); auto.
  Qed.

  Lemma mentioned_good t : mentioned apis t -> good w t.
  Proof.
    induction t; intros M; cbn [good]; try exact Logic.I; pose proof (mentioned_checked _ _ _ _ Hacc _ M) as C; cbn in C;
      try (apply IHt, (mentioned_occurs _ _ _ M); constructor; constructor);
      (assert (M' : mentioned apis t) by (apply (mentioned_occurs _ _ _ M); constructor; constructor)); (split; [apply IHt, M'|]).
    - (* Box *) destruct t; try discriminate C. cbn in C. rewrite app_nil, !err_if_nil in C. destruct C as (C1 & C2). apply known_only; auto.
      + intros E. rewrite E in C2. discriminate.
      + apply (required_movable n RBoxTarget). cbn. eapply ua_box; exact M.
    - (* Vec *) destruct t; try discriminate C; [|trivmov]. cbn in C. destruct (only_cxx T (n_rust n)) eqn:O; [discriminate|]. apply known_only; auto.
      + intros E. rewrite E in C. discriminate.
      + apply (required_movable n RVecElement). cbn. eapply ua_vec; exact M.
    - (* Ref *) intros -> ->. unfold check_type_ref in C. cbn [negb andb] in C. rewrite app_nil in C. destruct C as (C & C').
      destruct t; try (solve [trivmov]); try discriminate C.
      + apply err_if_nil, orb_false_iff in C. destruct C as (C1 & C2). apply String.eqb_neq in C1. apply known_movable; [exact C2|]. destruct (mentioned_known _ M'); auto.
      + pose proof (mentioned_checked _ _ _ _ Hacc _ M') as D. cbn in D. apply err_if_nil in D.
        apply array_movable, sized_movable; [|exact D]. apply (mentioned_occurs _ _ _ M'). constructor. constructor.
    - (* slice *) intros ->. unfold check_type_slice in C. apply err_if_nil, negb_false_iff, orb_true_iff in C. destruct C as [C|C].
      + apply negb_true_iff in C. apply sized_movable; auto.
      + destruct t; try discriminate. apply orb_true_iff in C. destruct C as [C|C].
        * apply name_movable. left. apply rust_unpin, (rust_ok _ _ _ _ Hacc), C.
        * apply (required_movable n (RSlice true)); [|apply (aliases_ok _ _ _ _ Hacc), C]. cbn. eapply ua_slice; exact M.
    - (* array *) apply err_if_nil in C. apply sized_movable; auto.
  Qed.

  Lemma field_inv s f : In (AStruct s) apis -> In f (st_fields s) -> good w (v_ty f) /\ movable w (v_ty f).
  Proof.
    intros Is If. assert (M : mentioned apis (v_ty f)) by (eapply me_field; [exact Is|exact If|constructor]).
    split; [apply mentioned_good, M|]. apply sized_movable; [exact M|]. apply (field_sized _ _ _ _ Hacc s f Is If).
  Qed.

  Context (Hcb : forall t, callback_takes apis t -> movable w t).
  Lemma start_inv c : start apis c -> inv w c.
  Proof.
    destruct 1 as [f x t F A|f r F R|f t F R|f y u th args ret x t F A B|n D|n P N A|n|n|n|n|l Al]; cbn [inv good].
    - assert (M : mentioned apis t) by (eapply me_arg; [right; exact F|exact A|constructor]). split; [apply mentioned_good, M|].
      destruct (arg_sized _ _ _ _ Hacc f x t (or_intror F) A) as [((? & ? & ? & ? & ->) & _)|S]; [trivmov|]. apply sized_movable; assumption.
    - split; [|trivmov]. split; [exact Logic.I|]. intros Hm Hp. destruct (receiver_ok _ _ _ _ Hacc f r (or_intror F) R) as (_ & _ & D & _).
      assert (H := fn_api _ _ _ _ Hacc f (or_intror F)). unfold check_api_fn in H. rewrite !app_nil in H. destruct H as (_ & _ & H & _). rewrite R in H.
      unfold check_receiver in H. destruct (String.eqb (n_rust (rc_ty r)) "Self"); [discriminate|]. destruct (in_enums T _); [discriminate|].
      destruct (negb _ && negb _ && negb _); [discriminate|]. rewrite Hm, Hp in H. apply err_if_nil in H. cbn in H. apply known_movable; [exact H|tauto].
    - assert (M : mentioned apis t) by (eapply me_ret; [left; exact F|exact R|constructor]). split; [apply mentioned_good, M|].
      apply sized_movable; [exact M|]. apply (ret_sized _ _ _ _ Hacc f t (or_introl F) R).
    - split; [|apply Hcb; exists f, y, u, th, args, ret, x; auto]. apply mentioned_good. eapply me_arg; [left; exact F|exact A|]. eapply oc_arg; [exact B|constructor].
    - split; [exact Logic.I|]. apply name_movable. destruct D as [D|[D|D]]; [right; apply struct_trivial, D|right; apply enum_trivial, D|left; apply rust_unpin, D].
    - split; [exact Logic.I|]. apply name_movable. left. specialize (Hb _ P A). apply String.eqb_neq in N. rewrite N in Hb. exact Hb.
    - split; [exact Logic.I|trivmov].
    - split; [exact Logic.I|trivmov].
    - split; [exact Logic.I|trivmov].
    - split; [exact Logic.I|trivmov].
    - exact Logic.I.
  Qed.
  Lemma reach_inv c : reach w apis c -> inv w c.
  Proof.
    induction 1 as [c H|c d _ IH H|c d _ IH H|c d _ IH H]; [apply start_inv, H|exact (std_inv _ _ _ H IH)|exact (lib_inv _ _ _ H IH)|].
    destruct H as [s f n I J E|s f n I J E|s f n I J E]; cbn; apply (field_inv s f I J).
  Qed.
End Acc.
