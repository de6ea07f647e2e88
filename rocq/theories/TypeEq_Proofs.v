From Verif Require Import Base Syntax_Model TypeEq_Model TypeEq_Spec.

Lemma lt_eqb_eq a b : lt_eqb a b = true <-> a = b.
Proof.
  destruct a, b; cbn; try (split; congruence). rewrite String.eqb_eq. split; congruence.
Qed.
Lemma lts_eqb_eq a : forall b, lts_eqb a b = true <-> a = b.
Proof.
  induction a as [|x a IH]; intros [|y b]; cbn; try (split; congruence).
  rewrite andb_true_iff, String.eqb_eq, IH. split; [intros [-> ->]; reflexivity|intros H; injection H; auto].
Qed.
Lemma named_eqb_eq a b : named_eqb a b = true <-> a = b.
Proof.
  destruct a, b; unfold named_eqb; cbn. rewrite andb_true_iff, String.eqb_eq, lts_eqb_eq.
  split; [intros [-> ->]; reflexivity|intros H; injection H; auto].
Qed.
Lemma bool_eqb_eq a b : Bool.eqb a b = true <-> a = b.
Proof. apply Bool.eqb_true_iff. Qed.

Definition erase_args := fix go (l : list (string * ty)) := match l with [] => [] | a :: l => ("", erase (snd a)) :: go l end.
Definition free_args := fix go (l : list (string * ty)) : Prop := match l with [] => True | a :: l => ptr_array_free (snd a) /\ go l end.
Definition eqb_args := fix all (l : list (string * ty)) (l' : list (string * ty)) : bool :=
            match l, l' with
            | x :: l, y :: l' => ty_eqb (snd x) (snd y) && all l l'
            | _, _ => true
            end.

Lemma and_congr (A B C D : Prop) : (A <-> B) -> (C <-> D) -> (A /\ C <-> B /\ D). Proof. tauto. Qed.

Ltac one IH := rewrite IH; unfold same_type; cbn; split; [intros [? ?]; split; [congruence|assumption]|intros [H ?]; split; [injection H; auto|assumption]].

(** Equality is exactly "same type, without raw pointers and arrays". *)
Theorem ty_eqb_iff a : forall b, ty_eqb a b = true <-> same_type a b /\ ptr_array_free a.
Proof.
  induction a using ty_ind'; intros b; destruct b; cbn [ty_eqb];
    try (split; [discriminate|intros [H1 H2]; try discriminate H1; try contradiction H2]).
  - rewrite named_eqb_eq. unfold same_type. cbn. split; [intros ->; auto|intros [H _]; injection H; auto].
  - one IHa.
  - one IHa.
  - one IHa.
  - one IHa.
  - one IHa.
  - rewrite !andb_true_iff, !bool_eqb_eq, lt_eqb_eq, IHa. unfold same_type. cbn.
    split; [intros [[[-> ->] ->] [? ?]]; split; [congruence|assumption]|intros [E ?]; injection E as -> -> -> ?; auto].
  - rewrite lt_eqb_eq. unfold same_type. cbn. split; [intros ->; auto|intros [E _]; injection E; auto].
  - one IHa.
  - fold eqb_args. rewrite !andb_true_iff, !bool_eqb_eq, Nat.eqb_eq. unfold same_type. cbn [erase ptr_array_free].
    fold erase_args. fold free_args.
    assert (HA : List.length args = List.length args0 /\ eqb_args args args0 = true <-> erase_args args = erase_args args0 /\ free_args args).
    { clear H0. revert args0. induction args as [|x args IH]; intros [|y args0]; cbn; try (split; [intros [? _]; discriminate|intros [? _]; discriminate]).
      - tauto.
      - inversion H as [|? ? Hx Hr]; subst. specialize (IH Hr args0). rewrite andb_true_iff, Hx. unfold same_type.
        split.
        + intros [E [[E1 E2] E3]]. injection E as E. destruct (proj1 IH (conj E E3)) as [G1 G2]. rewrite E1, G1. auto.
        + intros [E [E2 E3]]. injection E as E1 E4. destruct (proj2 IH (conj E4 E3)) as [G1 G2]. rewrite G1. auto. }
    assert (HR : (match ret, ret0 with Some r, Some r' => ty_eqb r r' | None, None => true | _, _ => false end) = true <->
       (match ret with Some r => Some (erase r) | None => None end) = (match ret0 with Some r => Some (erase r) | None => None end)
        /\ (match ret with Some r => ptr_array_free r | None => True end)).
    { destruct ret as [r|], ret0 as [r'|]; try (split; [discriminate|intros [? _]; discriminate]).
      - rewrite (H0 r eq_refl r'). unfold same_type. split; [intros [-> ?]; auto|intros [E ?]; injection E; auto].
      - tauto. }
    split.
    + intros [[[[-> E2] ->] E4] E5]. destruct (proj1 HA (conj E4 E5)) as [-> F]. destruct (proj1 HR E2) as [-> G]. auto.
    + intros [E [F G]]. injection E as -> -> E1 E2. destruct (proj2 HA (conj E1 F)) as [H1 H2].
      pose proof (proj2 HR (conj E2 G)). auto 10.
  - split; intros; [split; [reflexivity|exact I]|reflexivity].
  - rewrite !andb_true_iff, !bool_eqb_eq, lt_eqb_eq, IHa. unfold same_type. cbn.
    split; [intros [[-> ->] [? ?]]; split; [congruence|assumption]|intros [E ?]; injection E as -> -> ?; auto].
Qed.

Definition hash_args := fix go (l : list (string * ty)) : list hval := match l with [] => [] | x :: l => ty_hash (snd x) ++ go l end.

Lemma ty_hash_erase t : ty_hash t = ty_hash (erase t).
Proof.
  induction t using ty_ind'; cbn; try congruence; try (rewrite IHt; reflexivity).
  fold hash_args. fold erase_args.
  assert (E : hash_args args = hash_args (erase_args args)).
  { clear H0. induction args as [|x args IH]; [reflexivity|]. inversion H as [|? ? Hx Hr]; subst. cbn. rewrite Hx, (IH Hr). reflexivity. }
  rewrite E. destruct ret as [r|]; [rewrite (H0 r eq_refl)|]; reflexivity.
Qed.

Lemma ty_hash_ok a b : ty_eqb a b = true -> ty_hash a = ty_hash b.
Proof. intros H. apply ty_eqb_iff in H. destruct H as [H _]. rewrite (ty_hash_erase a), (ty_hash_erase b). unfold same_type in H. rewrite H. reflexivity. Qed.

Lemma same_free a b : same_type a b -> ptr_array_free a -> ptr_array_free b.
Proof.
  assert (E : forall t, ptr_array_free t <-> ptr_array_free (erase t)).
  { induction t using ty_ind'; cbn; try tauto; auto. fold free_args. fold erase_args.
    assert (G : free_args args <-> free_args (erase_args args)).
    { clear H0. induction args as [|x args IH]; [cbn; tauto|]. inversion H as [|? ? Hx Hr]; subst. cbn. rewrite Hx, (IH Hr). tauto. }
    rewrite G. destruct ret as [r|]; [rewrite (H0 r eq_refl)|]; tauto. }
  unfold same_type. intros H Ha. apply (proj2 (E b)). rewrite <- H. apply (proj1 (E a)). exact Ha.
Qed.

Lemma ty_eqb_sym a b : ty_eqb a b = true -> ty_eqb b a = true.
Proof.
  rewrite !ty_eqb_iff. intros [H1 H2]. split; [symmetry; exact H1|]. eapply same_free; eauto.
Qed.
Lemma ty_eqb_trans a b c : ty_eqb a b = true -> ty_eqb b c = true -> ty_eqb a c = true.
Proof. rewrite !ty_eqb_iff. intros [H1 H2] [H3 H4]. split; [unfold same_type in *; congruence|exact H2]. Qed.

Lemma receiver_eqb_spec a b : receiver_eqb a b = true <->
  rc_pinned a = rc_pinned b /\ rc_lt a = rc_lt b /\ rc_mutable a = rc_mutable b /\ rc_ty a = rc_ty b.
Proof. unfold receiver_eqb. rewrite !andb_true_iff, !bool_eqb_eq, lt_eqb_eq, named_eqb_eq. tauto. Qed.

Lemma receiver_hash_ok a b : receiver_eqb a b = true -> receiver_hash a = receiver_hash b.
Proof. rewrite receiver_eqb_spec. unfold receiver_hash. intros [-> [-> [-> ->]]]. reflexivity. Qed.
