(** Bounds that accept more than those of the crate are not safe; and objects
    live exactly as long as a pointer owns them. *)
From Coq Require Import List Bool Arith Lia.
From Verif Require Import Thread_Model Thread_Spec Thread_Proofs.
Import ListNotations.

Lemma away B l s es e t c :
  safe B -> run B start l = Some (s, es) -> In e es -> is_object s (which e) t c ->
  sendable t = false -> what e <> Reads -> by_thread e <> c -> False.
Proof.
  intros S R I O Se W N. destruct (S _ _ _ R) as (_ & H & _). apply N. eapply H; eauto.
Qed.

Lemma both B l s es h k o t c :
  safe B -> run B start l = Some (s, es) ->
  step B s 0 (Read h) = Some (s, [Event 0 Reads o]) ->
  step B s 1 (Read k) = Some (s, [Event 1 Reads o]) ->
  is_object s o t c -> shareable t = false -> False.
Proof.
  intros S R A C O Y. destruct (S _ _ _ R) as (H & _).
  eapply (H _ _ _ _ _ _ _ _ _ _ A C); [left; reflexivity|left; reflexivity|].
  repeat split; cbn; [lia|]. right. right. eauto.
Qed.

Ltac go := cbn;
  repeat match goal with E : _ = true |- _ => progress (rewrite E; cbn) end; reflexivity.

Theorem safe_within B : safe B -> within B cxx.
Proof.
  intros S k s y. split; intro E.
  - destruct (sends cxx k s y) eqn:C; [reflexivity|exfalso]. destruct k; cbn in C.
    + subst s.
      eapply (away B [(0, New (Rust false y) Unique); (0, Move 0 1); (1, Write 0)]
                _ _ (Event 1 Writes 0) (Rust false y) 0 S);
        [go|left; reflexivity|eexists; reflexivity|reflexivity|discriminate|discriminate].
    + destruct s.
      * cbn in C. subst y.
        eapply (both B [(0, New (Rust true false) Shared); (0, Clone 0); (0, Move 1 1)]
                  _ _ 0 1 0 (Rust true false) 0 S);
          [go|go|go|eexists; reflexivity|reflexivity].
      * eapply (away B [(0, New (Rust false y) Shared); (0, Move 0 1); (1, Drop 0)]
                  _ _ (Event 1 Destroys 0) (Rust false y) 0 S);
          [go|left; reflexivity|eexists; reflexivity|reflexivity|discriminate|discriminate].
    + destruct s.
      * cbn in C. subst y.
        eapply (both B [(0, New (Rust true false) Shared); (0, Downgrade 0); (0, Move 1 1); (1, Upgrade 1)]
                  _ _ 0 2 0 (Rust true false) 0 S);
          [go|go|go|eexists; reflexivity|reflexivity].
      * eapply (away B [(0, New (Rust false y) Shared); (0, Downgrade 0); (0, Move 1 1); (1, Upgrade 1);
                        (0, Drop 0); (1, Drop 2)]
                  _ _ (Event 1 Destroys 0) (Rust false y) 0 S);
          [go|left; reflexivity|eexists; reflexivity|reflexivity|discriminate|discriminate].
  - destruct (syncs cxx k s y) eqn:C; [reflexivity|exfalso]. destruct k; cbn in C.
    + subst y.
      eapply (both B [(0, New (Rust s false) Unique); (0, LendPtr 0 1)] _ _ 0 0 0 (Rust s false) 0 S);
        [go|go|go|eexists; reflexivity|reflexivity].
    + destruct s.
      * cbn in C. subst y.
        eapply (both B [(0, New (Rust true false) Shared); (0, LendPtr 0 1)] _ _ 0 0 0 (Rust true false) 0 S);
          [go|go|go|eexists; reflexivity|reflexivity].
      * eapply (away B [(0, New (Rust false y) Shared); (0, LendPtr 0 1); (1, Clone 0); (0, Return 0);
                        (0, Drop 0); (1, Drop 1)]
                  _ _ (Event 1 Destroys 0) (Rust false y) 0 S);
          [go|left; reflexivity|eexists; reflexivity|reflexivity|discriminate|discriminate].
    + destruct s.
      * cbn in C. subst y.
        eapply (both B [(0, New (Rust true false) Shared); (0, Downgrade 0); (0, LendPtr 1 1); (1, Upgrade 1)]
                  _ _ 0 2 0 (Rust true false) 0 S);
          [go|go|go|eexists; reflexivity|reflexivity].
      * eapply (away B [(0, New (Rust false y) Shared); (0, Downgrade 0); (0, LendPtr 1 1); (1, Upgrade 1);
                        (0, Drop 0); (1, Drop 2)]
                  _ _ (Event 1 Destroys 0) (Rust false y) 0 S);
          [go|left; reflexivity|eexists; reflexivity|reflexivity|discriminate|discriminate].
Qed.

(** ** Nothing leaks *)

Definition kept (s : state) : Prop :=
  forall o x, nth_error (objs s) o = Some x -> alive x = true ->
  exists h H, get s h = Some H /\ hkind H <> Weak /\ hobj H = o.

Lemma kept_add s H : kept s -> kept (add s H).
Proof.
  intros K o x X A. destruct (K _ _ X A) as (h & J & G & W & O).
  exists h, J. rewrite get_add. pose proof (get_lt _ _ _ G).
  destruct (Nat.eqb_spec h (List.length (handles s))); [lia|auto].
Qed.

Lemma kept_with s h H H' :
  kept s -> get s h = Some H -> hkind H' = hkind H -> hobj H' = hobj H ->
  kept (with_handle s h (Some H')).
Proof.
  intros K G Q R o x X A. destruct (K _ _ X A) as (i & J & F & W & O).
  pose proof (get_lt _ _ _ G).
  destruct (Nat.eq_dec i h).
  - subst i. exists h, H'. rewrite get_with, Nat.eqb_refl by auto.
    assert (J = H) by congruence. subst J. repeat split; congruence.
  - exists i, J. rewrite get_with by auto. destruct (Nat.eqb_spec i h); [lia|auto].
Qed.

Lemma step_kept B s me a s' es : kept s -> step B s me a = Some (s', es) -> kept s'.
Proof.
  intros K E. destruct a as [t k|h|h|h|h to|h to|h to|h to|h|h|h|h]; cbn [step] in E;
    try (destruct (get s h) as [H|] eqn:G; [|discriminate]).
  - assert (N : forall k', k' <> Weak -> kept (State (objs s ++ [Object t me true])
        (handles s ++ [Some (Handle k' (List.length (objs s)) me [])]))).
    { intros k' W o x X A. cbn in X. rewrite nth_app_last in X.
      destruct (Nat.ltb_spec o (List.length (objs s))).
      - destruct (K _ _ X A) as (h & J & G & W' & O). pose proof (get_lt _ _ _ G).
        exists h, J. split; auto. unfold get. cbn. rewrite nth_error_app1 by auto. exact G.
      - destruct (Nat.eqb_spec o (List.length (objs s))); [|discriminate]. subst.
        exists (List.length (handles s)). eexists. unfold get. cbn.
        rewrite nth_error_app2, Nat.sub_diag by lia. cbn. eauto. }
    destruct k; try discriminate; injection E as <- <-; apply N; discriminate.
  - destruct (hkind H); try discriminate; destruct (holds me H); try discriminate;
      injection E as <- <-; now apply kept_add.
  - destruct (hkind H); try discriminate; destruct (holds me H); try discriminate;
      injection E as <- <-; now apply kept_add.
  - destruct (hkind H); try discriminate; destruct (holds me H); try discriminate;
      destruct (existsb _ _); injection E as <- <-; auto; now apply kept_add.
  - destruct (traits s H); destruct (_ && _); try discriminate; injection E as <- <-.
    eapply kept_with; eauto.
  - destruct (traits s H); destruct (_ && _); try discriminate; injection E as <- <-.
    eapply kept_with; eauto.
  - destruct (hkind H) eqn:Q; try discriminate; destruct (traits s H);
      destruct (_ && _); try discriminate; injection E as <- <-; eapply kept_with; eauto.
  - destruct (hkind H) eqn:Q; try discriminate; destruct (traits s H);
      destruct (_ && _); try discriminate; injection E as <- <-; eapply kept_with; eauto.
  - destruct (Nat.eqb _ _); try discriminate; injection E as <- <-; eapply kept_with; eauto.
  - destruct (hkind H); try discriminate; destruct (sees me H); try discriminate;
      injection E as <- <-; auto.
  - destruct (hkind H); try discriminate; destruct (owns me H || _); try discriminate;
      injection E as <- <-; auto.
  - destruct (owns me H); [|discriminate]. pose proof (get_lt _ _ _ G) as L.
    assert (N : forall o x, nth_error (objs s) o = Some x -> alive x = true ->
        o <> hobj H \/ hkind H = Weak ->
        exists i J, get (with_handle s h None) i = Some J /\ hkind J <> Weak /\ hobj J = o).
    { intros o x X A D. destruct (K _ _ X A) as (i & J & F & W & O).
      exists i, J. rewrite get_with by auto. destruct (Nat.eqb_spec i h); [|auto].
      subst i. assert (J = H) by congruence. subst J. destruct D; congruence. }
    assert (M : hkind H <> Weak ->
      (if existsb (is_strong (hobj H)) (handles (with_handle s h None))
       then Some (with_handle s h None, [])
       else Some (destroy (with_handle s h None) (hobj H), [Event me Destroys (hobj H)])) = Some (s', es) ->
      kept s').
    { intros W E'. destruct (existsb _ _) eqn:X; injection E' as <- <-.
      - intros o x Y A. destruct (Nat.eq_dec o (hobj H)).
        + subst o. now apply strong_spec in X.
        + eapply N; eauto.
      - intros o x Y A. unfold destroy in *. cbn [objs with_handle] in *.
        destruct (nth_error (objs s) (hobj H)) as [z|] eqn:Z.
        + cbn [objs handles] in *. destruct (Nat.eq_dec o (hobj H)).
          * subst o. rewrite put_same in Y by (now apply nth_some_lt in Z). injection Y as <-. discriminate.
          * rewrite put_other in Y by auto. destruct (N _ _ Y A) as (i & J & F); [auto|].
            exists i, J. exact F.
        + cbn [objs with_handle] in Y. destruct (Nat.eq_dec o (hobj H)); [congruence|]. eapply N; eauto. }
    destruct (hkind H) eqn:Q; try (apply M; [discriminate|exact E]).
    injection E as <- <-. intros o x Y A. eapply N; eauto.
Qed.

Lemma run_kept B l : forall s s' es, kept s -> run B s l = Some (s', es) -> kept s'.
Proof.
  induction l as [|(me & a) l IH]; cbn; intros s s' es K E.
  - now injection E as <- <-.
  - destruct (step B s me a) as [(s1 & e1)|] eqn:S; [|discriminate].
    destruct (run B s1 l) as [(s2 & e2)|] eqn:R; [|discriminate]. injection E as <- <-.
    eapply IH; [|exact R]. eapply step_kept; eauto.
Qed.

Lemma kept_start : kept start.
Proof. intros o x X. destruct o; discriminate. Qed.
