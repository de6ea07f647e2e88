From Coq Require Import List Bool Arith Lia.
From Verif Require Import Thread_Model Thread_Spec.
Import ListNotations.

(** ** Types *)

Lemma opaque_traits n :
  auto_send (cxx_type n) = false /\ auto_sync (cxx_type n) = false.
Proof. split; reflexivity. Qed.

Lemma send_is t : auto_send (repr t) = sendable t.
Proof.
  induction t; cbn; auto.
  - destruct send; reflexivity.
  - rewrite IHt. now rewrite andb_true_r.
Qed.

Lemma sync_is t : auto_sync (repr t) = shareable t.
Proof.
  induction t; cbn; auto.
  - destruct sync; reflexivity.
  - rewrite IHt. now rewrite andb_true_r.
Qed.

(** ** Lists *)

Lemma put_same {A} i (x : A) l : i < List.length l -> nth_error (put i x l) i = Some x.
Proof.
  revert i. induction l; intros [|i] H; cbn in *; try lia; auto. apply IHl. lia.
Qed.

Lemma put_other {A} i j (x : A) l : i <> j -> nth_error (put i x l) j = nth_error l j.
Proof.
  revert i j. induction l; intros [|i] [|j] H; cbn in *; auto; try lia.
Qed.

Lemma nth_some_lt {A} (l : list A) i x : nth_error l i = Some x -> i < List.length l.
Proof. intro H. apply nth_error_Some. congruence. Qed.

Lemma nth_app_last {A} (l : list A) x i :
  nth_error (l ++ [x]) i = if Nat.ltb i (List.length l) then nth_error l i
                           else if Nat.eqb i (List.length l) then Some x else None.
Proof.
  destruct (Nat.ltb_spec i (List.length l)).
  - now rewrite nth_error_app1.
  - rewrite nth_error_app2 by lia.
    destruct (Nat.eqb_spec i (List.length l)).
    + subst. now rewrite Nat.sub_diag.
    + destruct (i - List.length l) as [|k] eqn:E; [lia|]. cbn. destruct k; reflexivity.
Qed.

(** ** The state *)

Lemma get_lt s h H : get s h = Some H -> h < List.length (handles s).
Proof.
  unfold get. destruct (nth_error (handles s) h) as [[K|]|] eqn:E; try discriminate.
  intros _. now apply nth_some_lt in E.
Qed.

Lemma get_with s h H j :
  h < List.length (handles s) ->
  get (with_handle s h H) j = if Nat.eqb j h then H else get s j.
Proof.
  intro L. unfold get, with_handle. cbn.
  destruct (Nat.eqb_spec j h).
  - subst. rewrite put_same by auto. now destruct H.
  - rewrite put_other by auto. reflexivity.
Qed.

Lemma get_add s H j :
  get (add s H) j = if Nat.eqb j (List.length (handles s)) then Some H else get s j.
Proof.
  unfold get, add. cbn. rewrite nth_app_last.
  destruct (Nat.ltb_spec j (List.length (handles s))).
  - destruct (Nat.eqb_spec j (List.length (handles s))); [lia|reflexivity].
  - destruct (Nat.eqb_spec j (List.length (handles s))); [reflexivity|].
    destruct (nth_error (handles s) j) eqn:E; [apply nth_some_lt in E; lia|reflexivity].
Qed.

Definition placed (x : object) (H : handle) : Prop :=
  let s := sendable (otype x) in let y := shareable (otype x) in
  (hkind H = Unique -> s = false -> howner H = home x) /\
  (hkind H <> Unique -> s && y = false -> howner H = home x) /\
  forall t l, In (t, l) (loans H) ->
    match l with
    | LPtr => y = true /\ (hkind H <> Unique -> s = true)
    | LTarget => y = true
    | LMut => hkind H = Unique /\ s = true /\ loans H = [(t, LMut)]
    end.

Record inv (s : state) : Prop := {
  i_obj : forall h H, get s h = Some H ->
    exists x, nth_error (objs s) (hobj H) = Some x /\
      (hkind H <> Weak -> alive x = true) /\ placed x H;
  i_one : forall i j H K, i <> j -> get s i = Some H -> get s j = Some K ->
    hobj H = hobj K -> hkind H <> Unique
}.

Lemma inv_start : inv start.
Proof.
  split; intros; unfold get, start in *; cbn in *.
  - destruct h; discriminate.
  - destruct i; discriminate.
Qed.

(** Adding a handle to an object that has no UniquePtr. *)
Lemma inv_add s H x :
  inv s -> nth_error (objs s) (hobj H) = Some x ->
  (hkind H <> Weak -> alive x = true) -> placed x H -> hkind H <> Unique ->
  (forall i K, get s i = Some K -> hobj K = hobj H -> hkind K <> Unique) ->
  inv (add s H).
Proof.
  intros I X A P U N. split.
  - intros h K. rewrite get_add. destruct (Nat.eqb h (List.length (handles s))).
    + intro E. injection E as <-. cbn. eauto.
    + intro E. apply (i_obj _ I _ _ E).
  - intros i j K L D. rewrite !get_add.
    destruct (Nat.eqb_spec i (List.length (handles s))), (Nat.eqb_spec j (List.length (handles s)));
      intros E F G; try congruence.
    + eapply N; eauto. congruence.
    + eapply (i_one _ I); [exact D|eauto..].
Qed.

(** Replacing a handle by one of the same kind to the same object. *)
Lemma inv_with s h H H' :
  inv s -> get s h = Some H -> hkind H' = hkind H -> hobj H' = hobj H ->
  (forall x, nth_error (objs s) (hobj H) = Some x -> placed x H -> placed x H') ->
  inv (with_handle s h (Some H')).
Proof.
  intros I G K O P. pose proof (get_lt _ _ _ G) as L. split.
  - intros j J. rewrite get_with by auto. destruct (Nat.eqb j h).
    + intro E. injection E as <-. destruct (i_obj _ I _ _ G) as (x & X & A & Q).
      exists x. rewrite O, K. auto.
    + intro E. apply (i_obj _ I _ _ E).
  - intros i j A B D. rewrite !get_with by auto.
    destruct (Nat.eqb_spec i h), (Nat.eqb_spec j h); intros E F Q; try congruence.
    + injection E as <-. rewrite K. subst. eapply (i_one _ I); [exact D|eauto..]. congruence.
    + injection F as <-. subst. eapply (i_one _ I); [exact D|eauto..]. congruence.
    + eapply (i_one _ I); [exact D|eauto..].
Qed.

Lemma inv_drop s h H : inv s -> get s h = Some H -> inv (with_handle s h None).
Proof.
  intros I G. pose proof (get_lt _ _ _ G) as L. split.
  - intros j J. rewrite get_with by auto. destruct (Nat.eqb j h); [discriminate|].
    intro E. apply (i_obj _ I _ _ E).
  - intros i j A B D. rewrite !get_with by auto.
    destruct (Nat.eqb i h), (Nat.eqb j h); try discriminate.
    intros. eapply (i_one _ I); [exact D|eauto..].
Qed.

Lemma strong_spec s o :
  existsb (is_strong o) (handles s) = true <->
  exists h H, get s h = Some H /\ hkind H <> Weak /\ hobj H = o.
Proof.
  rewrite existsb_exists. split.
  - intros ([H|] & I & S); [|discriminate]. apply In_nth_error in I as (h & E).
    exists h, H. unfold get. rewrite E. cbn in S.
    destruct (hkind H); try discriminate; apply Nat.eqb_eq in S; repeat split; congruence.
  - intros (h & H & G & W & O). exists (Some H). split.
    + unfold get in G. destruct (nth_error (handles s) h) as [[K|]|] eqn:E; try discriminate.
      injection G as ->. eapply nth_error_In; eauto.
    + cbn. destruct (hkind H); try congruence; now apply Nat.eqb_eq.
Qed.

Lemma get_destroy s o h : get (destroy s o) h = get s h.
Proof. unfold destroy. destruct (nth_error (objs s) o); reflexivity. Qed.

Lemma inv_destroy s o :
  inv s -> existsb (is_strong o) (handles s) = false -> inv (destroy s o).
Proof.
  intros I N. split.
  - intros h H. rewrite get_destroy. intro G. destruct (i_obj _ I _ _ G) as (x & X & A & P).
    unfold destroy. destruct (nth_error (objs s) o) as [y|] eqn:E; [|eauto]. cbn.
    destruct (Nat.eq_dec o (hobj H)) as [Q|Q].
    + subst o. rewrite put_same by (now apply nth_some_lt in E).
      assert (x = y) by congruence. subst y. eexists. split; [reflexivity|]. split.
      * intro W. exfalso. assert (T : existsb (is_strong (hobj H)) (handles s) = true); [|congruence].
        apply strong_spec. eauto.
      * exact P.
    + rewrite put_other by auto. eauto.
  - intros i j H K D. rewrite !get_destroy. apply (i_one _ I); auto.
Qed.

Lemma is_loan_in me l L : existsb (is_loan me l) L = true <-> In (me, l) L.
Proof.
  rewrite existsb_exists. split.
  - intros ((t & k) & I & E). unfold is_loan in E. cbn in E. apply andb_prop in E as (E & F).
    apply Nat.eqb_eq in E. subst. destruct l, k; try discriminate; auto.
  - intro I. exists (me, l). split; auto. unfold is_loan. cbn. rewrite Nat.eqb_refl. now destruct l.
Qed.

Lemma owns_spec me H : owns me H = true <-> howner H = me /\ loans H = [].
Proof.
  unfold owns. rewrite andb_true_iff, Nat.eqb_eq. destruct (loans H); intuition congruence.
Qed.

Lemma holds_spec me H :
  holds me H = true <-> (howner H = me /\ lent_mut H = false) \/ In (me, LPtr) (loans H).
Proof.
  unfold holds. rewrite orb_true_iff, andb_true_iff, Nat.eqb_eq, negb_true_iff, is_loan_in. tauto.
Qed.

Lemma lent_mut_in H t : In (t, LMut) (loans H) -> lent_mut H = true.
Proof. intro I. unfold lent_mut. apply existsb_exists. exists (t, LMut). auto. Qed.

Lemma not_lent_mut H t : lent_mut H = false -> ~ In (t, LMut) (loans H).
Proof. intros L I. apply lent_mut_in in I. congruence. Qed.

(** A thread that can name a SharedPtr or WeakPtr may own another one. *)
Lemma holds_place x H me k :
  placed x H -> hkind H <> Unique -> k <> Unique -> holds me H = true ->
  placed x (Handle k (hobj H) me []).
Proof.
  intros (P & Q & R) U V W. split; [|split]; cbn; try tauto; try easy.
  intros _ S. apply holds_spec in W as [(W & _)|W]; [subst; auto|].
  destruct (R _ _ W) as (Y & Z). rewrite (Z U), Y in S. discriminate.
Qed.

Lemma traits_is s H x :
  nth_error (objs s) (hobj H) = Some x ->
  traits s H = (sendable (otype x), shareable (otype x)).
Proof. intro E. unfold traits. now rewrite E, send_is, sync_is. Qed.

(** ** Every step keeps the invariant *)

Lemma step_inv B s me a s' es :
  within B cxx -> inv s -> step B s me a = Some (s', es) -> inv s'.
Proof.
  intros W I. destruct a as [t k|h|h|h|h to|h to|h to|h to|h|h|h|h]; cbn [step].
  - destruct k; try discriminate; intro E; injection E as <- <-.
    + split.
      * intros h H. unfold get. cbn. rewrite nth_app_last.
        destruct (Nat.ltb_spec h (List.length (handles s))).
        -- intro G. assert (get s h = Some H) by exact G. destruct (i_obj _ I _ _ H1) as (x & X & A & P).
           exists x. rewrite nth_error_app1 by (now apply nth_some_lt in X). auto.
        -- destruct (Nat.eqb h (List.length (handles s))); [|discriminate].
           intro G. injection G as <-. cbn. eexists. rewrite nth_error_app2, Nat.sub_diag by lia.
           split; [reflexivity|]. split; [reflexivity|]. repeat split; cbn; auto; try congruence; tauto.
      * intros i j H K D. unfold get. cbn. rewrite !nth_app_last.
        destruct (Nat.ltb_spec i (List.length (handles s))), (Nat.ltb_spec j (List.length (handles s))).
        -- intros. eapply (i_one _ I); eauto.
        -- destruct (Nat.eqb j (List.length (handles s))); [|discriminate].
           intros G F O. injection F as <-. destruct (i_obj _ I i H G) as (x & X & _).
           apply nth_some_lt in X. cbn in O. lia.
        -- destruct (Nat.eqb i (List.length (handles s))); [|discriminate].
           intros F G O. injection F as <-. destruct (i_obj _ I j K G) as (x & X & _).
           apply nth_some_lt in X. cbn in O. lia.
        -- destruct (Nat.eqb_spec i (List.length (handles s))), (Nat.eqb_spec j (List.length (handles s)));
             try discriminate. lia.
    + split.
      * intros h H. unfold get. cbn. rewrite nth_app_last.
        destruct (Nat.ltb_spec h (List.length (handles s))).
        -- intro G. assert (get s h = Some H) by exact G. destruct (i_obj _ I _ _ H1) as (x & X & A & P).
           exists x. rewrite nth_error_app1 by (now apply nth_some_lt in X). auto.
        -- destruct (Nat.eqb h (List.length (handles s))); [|discriminate].
           intro G. injection G as <-. cbn. eexists. rewrite nth_error_app2, Nat.sub_diag by lia.
           split; [reflexivity|]. split; [reflexivity|]. repeat split; cbn; auto; try congruence; tauto.
      * intros i j H K D. unfold get. cbn. rewrite !nth_app_last.
        destruct (Nat.ltb_spec i (List.length (handles s))), (Nat.ltb_spec j (List.length (handles s))).
        -- intros. eapply (i_one _ I); eauto.
        -- destruct (Nat.eqb j (List.length (handles s))); [|discriminate].
           intros G F O. injection F as <-. destruct (i_obj _ I i H G) as (x & X & _).
           apply nth_some_lt in X. cbn in O. lia.
        -- destruct (Nat.eqb i (List.length (handles s))); [|discriminate].
           intros F G O. injection F as <-. cbn. congruence.
        -- destruct (Nat.eqb_spec i (List.length (handles s))), (Nat.eqb_spec j (List.length (handles s)));
             try discriminate. lia.
  - (* Clone *)
    destruct (get s h) as [H|] eqn:G; [|discriminate].
    destruct (i_obj _ I _ _ G) as (x & X & A & P).
    assert (N : hkind H <> Unique -> forall i K, get s i = Some K -> hobj K = hobj H -> hkind K <> Unique).
    { intros U i K F O. destruct (Nat.eq_dec i h); [congruence|]. eapply (i_one _ I i h); eauto. }
    destruct (hkind H) eqn:U; [discriminate| |];
      destruct (holds me H) eqn:Ho; try discriminate; intro E; injection E as <- <-;
      (eapply inv_add; [exact I|exact X|cbn; auto; congruence| |cbn; congruence|cbn; apply N; congruence]);
      eapply holds_place; eauto; congruence.
  - (* Downgrade *)
    destruct (get s h) as [H|] eqn:G; [|discriminate].
    destruct (i_obj _ I _ _ G) as (x & X & A & P).
    destruct (hkind H) eqn:U; try discriminate.
    destruct (holds me H) eqn:Ho; try discriminate. intro E. injection E as <- <-.
    eapply inv_add; [exact I|exact X|cbn; congruence| |cbn; congruence|].
    + eapply holds_place; eauto; congruence.
    + cbn. intros i K F O. destruct (Nat.eq_dec i h); [congruence|]. eapply (i_one _ I i h); eauto.
  - (* Upgrade *)
    destruct (get s h) as [H|] eqn:G; [|discriminate].
    destruct (i_obj _ I _ _ G) as (x & X & A & P).
    destruct (hkind H) eqn:U; try discriminate.
    destruct (holds me H) eqn:Ho; try discriminate.
    destruct (existsb (is_strong (hobj H)) (handles s)) eqn:S; intro E; injection E as <- <-; [|exact I].
    apply strong_spec in S as (i & K & F & Wk & O).
    destruct (i_obj _ I _ _ F) as (x' & X' & A' & _). rewrite O in X'.
    assert (x' = x) by congruence. subst x'.
    eapply inv_add; [exact I|exact X|cbn; intros _; auto| |cbn; congruence|].
    + eapply holds_place; eauto; congruence.
    + cbn. intros j L F' O'. destruct (Nat.eq_dec j h); [congruence|]. eapply (i_one _ I j h); eauto.
  - (* Move *)
    destruct (get s h) as [H|] eqn:G; [|discriminate].
    destruct (i_obj _ I _ _ G) as (x & X & A & P). rewrite (traits_is _ _ _ X).
    destruct (owns me H) eqn:Ow; [|discriminate]. cbn [andb].
    destruct (sends B _ _ _) eqn:S; [|discriminate]. intro E. injection E as <- <-.
    apply (proj1 (W _ _ _)) in S.
    eapply inv_with; [exact I|exact G|reflexivity|reflexivity|].
    intros x' X' _. assert (x' = x) by congruence. subst x'. repeat split; cbn.
    + intros U N. rewrite U in S. cbn in S. congruence.
    + intros U N. destruct (hkind H); cbn in S; congruence.
    + tauto.
  - (* LendPtr *)
    destruct (get s h) as [H|] eqn:G; [|discriminate].
    destruct (i_obj _ I _ _ G) as (x & X & A & P). rewrite (traits_is _ _ _ X).
    destruct (holds me H) eqn:Ho; [|discriminate]. cbn [andb].
    destruct (syncs B _ _ _) eqn:S; [|discriminate]. intro E. injection E as <- <-.
    apply (proj2 (W _ _ _)) in S.
    eapply inv_with; [exact I|exact G|reflexivity|reflexivity|].
    intros x' X' (P1 & P2 & P3). assert (x' = x) by congruence. subst x'. split; [|split]; cbn; auto.
    intros t l [Q|Q].
    + injection Q as <- <-. destruct (hkind H); cbn in S; try apply andb_prop in S as (? & ?);
        split; auto; congruence.
    + specialize (P3 _ _ Q). destruct l; auto.
      destruct P3 as (p1 & p2 & p3). exfalso.
      apply holds_spec in Ho as [(_ & L)|L].
      * apply (not_lent_mut _ _ L Q).
      * rewrite p3 in L. destruct L as [L|[]]. congruence.
  - (* LendTarget *)
    destruct (get s h) as [H|] eqn:G; [|discriminate].
    destruct (i_obj _ I _ _ G) as (x & X & A & P). rewrite (traits_is _ _ _ X).
    destruct (hkind H) eqn:U; try discriminate;
      (destruct (holds me H || existsb (is_loan me LTarget) (loans H)) eqn:Ho; [|discriminate]);
      cbn [andb]; (destruct (shareable (otype x)) eqn:S; [|discriminate]); intro E; injection E as <- <-;
      (eapply inv_with; [exact I|exact G|reflexivity|reflexivity|]);
      intros x' X' (P1 & P2 & P3); assert (x' = x) by congruence; subst x';
      (split; [|split]; cbn; [now apply P1|now apply P2|]);
      intros t l [Q|Q]; try (injection Q as <- <-; exact S);
      specialize (P3 _ _ Q); destruct l; auto;
      destruct P3 as (p1 & p2 & p3); exfalso;
      apply orb_prop in Ho as [Ho|Ho];
      try (apply is_loan_in in Ho; rewrite p3 in Ho; destruct Ho as [L|[]]; congruence);
      (apply holds_spec in Ho as [(_ & L)|L];
       [apply (not_lent_mut _ _ L Q)|rewrite p3 in L; destruct L as [L|[]]; congruence]).
  - (* LendMut *)
    destruct (get s h) as [H|] eqn:G; [|discriminate].
    destruct (i_obj _ I _ _ G) as (x & X & A & P). rewrite (traits_is _ _ _ X).
    destruct (hkind H) eqn:U; try discriminate.
    destruct (owns me H) eqn:Ow; [|discriminate]. cbn [andb].
    destruct (sendable (otype x)) eqn:S; [|discriminate]. intro E. injection E as <- <-.
    apply owns_spec in Ow as (O & L).
    eapply inv_with; [exact I|exact G|reflexivity|reflexivity|].
    intros x' X' (P1 & P2 & P3). assert (x' = x) by congruence. subst x'.
    split; [|split]; cbn; [now apply P1|now apply P2|].
    rewrite L. intros t l [Q|[]]. injection Q as <- <-. auto.
  - (* Return *)
    destruct (get s h) as [H|] eqn:G; [|discriminate].
    destruct (Nat.eqb (howner H) me); [|discriminate]. intro E. injection E as <- <-.
    eapply inv_with; [exact I|exact G|reflexivity|reflexivity|].
    intros x' X' (P1 & P2 & P3). split; [|split]; cbn; auto. tauto.
  - destruct (get s h) as [H|]; [|discriminate]. destruct (hkind H); try discriminate;
      (destruct (sees me H); [|discriminate]); intro E; now injection E as <- <-.
  - destruct (get s h) as [H|]; [|discriminate]. destruct (hkind H); try discriminate;
      (destruct (owns me H || _); [|discriminate]); intro E; now injection E as <- <-.
  - destruct (get s h) as [H|] eqn:G; [|discriminate].
    destruct (owns me H); [|discriminate].
    pose proof (inv_drop _ _ _ I G) as J.
    destruct (hkind H); try (intro E; injection E as <- <-; exact J);
      (destruct (existsb (is_strong (hobj H)) (handles (with_handle s h None))) eqn:N;
       intro E; injection E as <- <-; [exact J|now apply inv_destroy]).
Qed.

(** ** What an access needs *)

(** An operation that accesses an object: through which handle and how. *)
Lemma step_event B s me a s' es e :
  step B s me a = Some (s', es) -> In e es ->
  by_thread e = me /\
  exists h H, get s h = Some H /\ hobj H = which e /\ hkind H <> Weak /\
    match what e with
    | Reads => sees me H = true /\ s' = s
    | Writes => hkind H = Unique /\ (owns me H = true \/ In (me, LMut) (loans H)) /\ s' = s
    | Destroys => owns me H = true /\ s' = destroy (with_handle s h None) (hobj H) /\
        existsb (is_strong (hobj H)) (handles (with_handle s h None)) = false
    end.
Proof.
  intros E I. destruct a as [t k|h|h|h|h to|h to|h to|h to|h|h|h|h]; cbn [step] in E;
    try (destruct (get s h) as [H|] eqn:G; [|discriminate]).
  1: destruct k; try discriminate; injection E as <- <-; destruct I.
  1-2: destruct (hkind H); try discriminate; destruct (holds me H); try discriminate;
       injection E as <- <-; destruct I.
  1: destruct (hkind H); try discriminate; destruct (holds me H); try discriminate;
     destruct (existsb _ _); injection E as <- <-; destruct I.
  1-2: destruct (traits s H); destruct (_ && _); try discriminate; injection E as <- <-; destruct I.
  1-2: destruct (hkind H); try discriminate; destruct (traits s H);
       destruct (_ && _); try discriminate; injection E as <- <-; destruct I.
  1: destruct (Nat.eqb _ _); try discriminate; injection E as <- <-; destruct I.
  - destruct (hkind H) eqn:K; try discriminate; destruct (sees me H) eqn:S; try discriminate;
      injection E as <- <-; destruct I as [<-|[]]; cbn; split; auto;
      exists h, H; repeat split; auto; congruence.
  - destruct (hkind H) eqn:K; try discriminate.
    destruct (owns me H || _) eqn:S; try discriminate.
    injection E as <- <-. destruct I as [<-|[]]; cbn; split; auto.
    exists h, H. repeat split; auto; try congruence.
    apply orb_prop in S as [S|S]; auto. right. now apply is_loan_in.
  - destruct (owns me H) eqn:O; [|discriminate].
    destruct (hkind H) eqn:K; try (injection E as <- <-; destruct I);
      (destruct (existsb _ _) eqn:N; injection E as <- <-; [destruct I|]);
      destruct I as [<-|[]]; cbn; split; auto; exists h, H; repeat split; auto; congruence.
Qed.

Lemma sees_spec me H :
  sees me H = true <->
  (howner H = me /\ lent_mut H = false) \/ In (me, LPtr) (loans H) \/
  In (me, LTarget) (loans H) \/ In (me, LMut) (loans H).
Proof.
  unfold sees. rewrite !orb_true_iff, holds_spec, !is_loan_in. tauto.
Qed.

(** Through one UniquePtr: a thread that can change the target is the only one
    that can reach it. *)
Lemma alone x H a b :
  placed x H ->
  owns a H = true \/ In (a, LMut) (loans H) -> sees b H = true -> a = b.
Proof.
  intros (_ & _ & R) A S. apply sees_spec in S.
  destruct A as [A|A].
  - apply owns_spec in A as (O & L). rewrite L in S.
    destruct S as [(S & _)|[S|[S|S]]]; try easy. congruence.
  - destruct (R _ _ A) as (_ & _ & L). destruct S as [(_ & S)|S].
    + exfalso. eapply not_lent_mut; eauto.
    + rewrite L in S. destruct S as [[S|[]]|[[S|[]]|[S|[]]]]; congruence.
Qed.

Lemma owns_sees a H : owns a H = true -> sees a H = true.
Proof.
  intro O. apply owns_spec in O as (O & L). apply sees_spec. left. split; auto.
  unfold lent_mut. now rewrite L.
Qed.

(** A target that is not Sync is reached by one thread only. *)
Lemma one_place x H K a b :
  placed x H -> placed x K -> hobj H = hobj K ->
  (H <> K -> hkind H <> Unique /\ hkind K <> Unique) ->
  shareable (otype x) = false -> sees a H = true -> sees b K = true -> a = b.
Proof.
  intros P Q O D Y S T.
  assert (L : forall J c, placed x J -> sees c J = true ->
    (howner J = c /\ lent_mut J = false) \/ In (c, LMut) (loans J)).
  { intros J c (_ & _ & R) V. apply sees_spec in V as [V|[V|[V|V]]]; auto; specialize (R _ _ V); cbn in R.
    - destruct R; congruence.
    - congruence. }
  assert (U : forall J c, placed x J -> sees c J = true -> hkind J <> Unique -> c = home x).
  { intros J c V W Z. destruct (L J c V W) as [(E & _)|E].
    - subst c. apply V; auto. rewrite Y. apply andb_false_r.
    - destruct V as (_ & _ & V). destruct (V _ _ E). contradiction. }
  destruct (hkind H) eqn:KH.
  2, 3: destruct (hkind K) eqn:KK.
  2, 5: assert (N : H <> K) by congruence; destruct (D N); congruence.
  2-5: rewrite (U H a), (U K b); auto; congruence.
  assert (H = K).
  { assert (Dec : forall p q : kind, {p = q} + {p <> q}) by decide equality.
    assert (Dl : forall p q : loan, {p = q} + {p <> q}) by decide equality.
    assert (Dh : {H = K} + {H <> K}).
    { clear - Dec Dl. decide equality; try apply Nat.eq_dec.
      apply list_eq_dec. decide equality. apply Nat.eq_dec. }
    destruct Dh as [|N]; auto. destruct (D N). congruence. }
  subst K. destruct (L H a P S) as [(A & A')|A], (L H b Q T) as [(Z & Z')|Z]; try congruence.
  - exfalso. eapply not_lent_mut; eauto.
  - exfalso. eapply not_lent_mut; eauto.
  - destruct Q as (_ & _ & Q). destruct (Q _ _ A) as (_ & _ & E). rewrite E in Z.
    destruct Z as [Z|[]]. congruence.
Qed.

Lemma inv_race_free B s : inv s -> race_free B s.
Proof.
  intros I x a sx es y b sy fs e f E F Ie If (D & O & C).
  destruct (step_event _ _ _ _ _ _ _ E Ie) as (Te & h & H & G & Oh & Wh & Me).
  destruct (step_event _ _ _ _ _ _ _ F If) as (Tf & k & K & G' & Ok & Wk & Mf).
  destruct (i_obj _ I _ _ G) as (o & X & _ & P).
  destruct (i_obj _ I _ _ G') as (o' & X' & _ & P').
  assert (o' = o) by congruence. subst o'.
  assert (Sx : sees x H = true).
  { destruct (what e).
    - tauto.
    - destruct Me as (_ & [M|M] & _); [now apply owns_sees|]. apply sees_spec. auto.
    - destruct Me as (M & _). now apply owns_sees. }
  assert (Sy : sees y K = true).
  { destruct (what f).
    - tauto.
    - destruct Mf as (_ & [M|M] & _); [now apply owns_sees|]. apply sees_spec. auto.
    - destruct Mf as (M & _). now apply owns_sees. }
  assert (Same : what e <> Reads \/ what f <> Reads -> h = k).
  { intro N. destruct (Nat.eq_dec h k) as [|NE]; auto. exfalso.
    pose proof (i_one _ I _ _ _ _ NE G G' ltac:(congruence)) as U1.
    assert (NE' : k <> h) by auto.
    pose proof (i_one _ I _ _ _ _ NE' G' G ltac:(congruence)) as U2.
    assert (Last : forall i j (A C : handle), i <> j -> get s i = Some A -> get s j = Some C ->
      hobj A = hobj C -> hkind C <> Weak ->
      existsb (is_strong (hobj A)) (handles (with_handle s i None)) = false -> False).
    { intros i j A C' Nij Ga Gc Oac Wc N0.
      assert (T : existsb (is_strong (hobj A)) (handles (with_handle s i None)) = true); [|congruence].
      apply strong_spec. exists j, C'. rewrite get_with by (eapply get_lt; eauto).
      destruct (Nat.eqb_spec j i); [congruence|]. auto. }
    destruct N as [N|N].
    - destruct (what e); try congruence.
      + tauto.
      + destruct Me as (_ & _ & N0). eapply (Last h k); eauto. congruence.
    - destruct (what f); try congruence.
      + tauto.
      + destruct Mf as (_ & _ & N0). eapply (Last k h); eauto. congruence. }
  assert (Ce : what e <> Reads -> owns x H = true \/ In (x, LMut) (loans H)).
  { destruct (what e); tauto. }
  assert (Cf : what f <> Reads -> owns y K = true \/ In (y, LMut) (loans K)).
  { destruct (what f); tauto. }
  destruct C as [C|[C|(t & c & (l & Ob) & Sh)]].
  - assert (h = k) by auto. subst k. assert (K = H) by congruence. subst K.
    apply D. rewrite Te, Tf. eapply alone; eauto.
  - assert (h = k) by auto. subst k. assert (K = H) by congruence. subst K.
    apply D. rewrite Te, Tf. symmetry. eapply alone; eauto.
  - rewrite <- Oh, X in Ob. injection Ob as ->.
    apply D. rewrite Te, Tf. eapply one_place; [exact P|exact P'|congruence| |exact Sh|exact Sx|exact Sy].
    intro N. assert (h <> k) by congruence. assert (k <> h) by congruence. split.
    + eapply (i_one _ I h k); eauto. congruence.
    + eapply (i_one _ I k h); eauto. congruence.
Qed.

(** ** Histories *)

Lemma nth_put_keep (l : list object) o x y i z :
  nth_error l o = Some x -> otype y = otype x -> home y = home x ->
  nth_error l i = Some z ->
  exists z', nth_error (put o y l) i = Some z' /\ otype z' = otype z /\ home z' = home z.
Proof.
  intros E T Hm F. destruct (Nat.eq_dec o i).
  - subst. rewrite put_same by (now apply nth_some_lt in E). exists y. repeat split; congruence.
  - rewrite put_other by auto. eauto.
Qed.

Lemma step_objs B s me a s' es i x :
  step B s me a = Some (s', es) -> nth_error (objs s) i = Some x ->
  exists x', nth_error (objs s') i = Some x' /\ otype x' = otype x /\ home x' = home x /\
    (alive x = false -> alive x' = false).
Proof.
  intros E X.
  assert (Q : objs s' = objs s \/ (exists ob, objs s' = objs s ++ [ob]) \/
              exists o s0, s' = destroy s0 o /\ objs s0 = objs s).
  { destruct a as [t k|h|h|h|h to|h to|h to|h to|h|h|h|h]; cbn [step] in E;
      try (destruct (get s h) as [H|] eqn:G; [|discriminate]).
    1: destruct k; try discriminate; injection E as <- <-; right; left; cbn; eauto.
    1-2: destruct (hkind H); try discriminate; destruct (holds me H); try discriminate;
         injection E as <- <-; auto.
    1: destruct (hkind H); try discriminate; destruct (holds me H); try discriminate;
       destruct (existsb _ _); injection E as <- <-; auto.
    1-2: destruct (traits s H); destruct (_ && _); try discriminate; injection E as <- <-; auto.
    1-2: destruct (hkind H); try discriminate; destruct (traits s H);
         destruct (_ && _); try discriminate; injection E as <- <-; auto.
    1: destruct (Nat.eqb _ _); try discriminate; injection E as <- <-; auto.
    - destruct (hkind H); try discriminate; destruct (sees me H); try discriminate;
        injection E as <- <-; auto.
    - destruct (hkind H); try discriminate; destruct (owns me H || _); try discriminate;
        injection E as <- <-; auto.
    - destruct (owns me H); [|discriminate].
      destruct (hkind H); try (injection E as <- <-; auto; fail);
        (destruct (existsb _ _); injection E as <- <-; [auto|]);
        right; right; do 2 eexists; split; [reflexivity|reflexivity|reflexivity|reflexivity]. }
  destruct Q as [Q|[(ob & Q)|(o & s0 & -> & Q)]].
  - rewrite Q. eauto.
  - rewrite Q. rewrite nth_error_app1 by (now apply nth_some_lt in X). eauto.
  - rewrite <- Q in X. unfold destroy. destruct (nth_error (objs s0) o) as [z|] eqn:Z; [|eauto].
    cbn. destruct (Nat.eq_dec o i).
    + subst. rewrite put_same by (now apply nth_some_lt in Z). assert (z = x) by congruence. subst.
      eexists. split; [reflexivity|]. auto.
    + rewrite put_other by auto. eauto.
Qed.

Lemma run_objs B l : forall s s' es i x,
  run B s l = Some (s', es) -> nth_error (objs s) i = Some x ->
  exists x', nth_error (objs s') i = Some x' /\ otype x' = otype x /\ home x' = home x.
Proof.
  induction l as [|(me & a) l IH]; cbn; intros s s' es i x E X.
  - injection E as <- <-. eauto.
  - destruct (step B s me a) as [(s1 & e1)|] eqn:S; [|discriminate].
    destruct (run B s1 l) as [(s2 & e2)|] eqn:R; [|discriminate]. injection E as <- <-.
    destruct (step_objs _ _ _ _ _ _ _ _ S X) as (x' & X' & T & Hm & _).
    destruct (IH _ _ _ _ _ R X') as (x'' & X'' & T' & Hm'). exists x''. repeat split; congruence.
Qed.

Lemma run_inv B l : within B cxx -> forall s s' es,
  inv s -> run B s l = Some (s', es) -> inv s'.
Proof.
  intro W. induction l as [|(me & a) l IH]; cbn; intros s s' es I E.
  - now injection E as <- <-.
  - destruct (step B s me a) as [(s1 & e1)|] eqn:S; [|discriminate].
    destruct (run B s1 l) as [(s2 & e2)|] eqn:R; [|discriminate]. injection E as <- <-.
    eapply IH; [|exact R]. eapply step_inv; eauto.
Qed.

Lemma step_home B s me a s' es :
  inv s -> step B s me a = Some (s', es) -> stays_home s es.
Proof.
  intros I E e t c Ie (live & X) Se C.
  destruct (step_event _ _ _ _ _ _ _ E Ie) as (Te & h & H & G & Oh & Wh & Me).
  destruct (i_obj _ I _ _ G) as (x & X' & _ & P). rewrite Oh, X in X'. injection X' as <-.
  rewrite Te. destruct P as (P1 & P2 & P3). cbn in P1, P2, P3.
  assert (Ow : howner H = c).
  { destruct (hkind H) eqn:K; [apply P1; auto| |]; apply P2; try congruence; rewrite Se; reflexivity. }
  assert (OL : owns me H = true \/ In (me, LMut) (loans H) -> me = c).
  { intros [O|O].
    - apply owns_spec in O as (O & _). congruence.
    - destruct (P3 _ _ O) as (_ & S & _). congruence. }
  destruct (what e) eqn:Wt.
  - destruct C as [C|C]; [congruence|]. destruct Me as (S & _). apply sees_spec in S as [S|[S|[S|S]]].
    + destruct S. congruence.
    + destruct (P3 _ _ S). congruence.
    + specialize (P3 _ _ S). cbn in P3. congruence.
    + auto.
  - destruct Me as (_ & M & _). auto.
  - destruct Me as (M & _). auto.
Qed.

Lemma run_home B l : within B cxx -> forall s s' es,
  inv s -> run B s l = Some (s', es) -> stays_home s' es.
Proof.
  intro W. induction l as [|(me & a) l IH]; cbn; intros s s' es I E.
  - injection E as <- <-. intros e t c [].
  - destruct (step B s me a) as [(s1 & e1)|] eqn:S; [|discriminate].
    destruct (run B s1 l) as [(s2 & e2)|] eqn:R; [|discriminate]. injection E as <- <-.
    pose proof (step_inv _ _ _ _ _ _ W I S) as I1.
    intros e t c Ie Ob Se C. apply in_app_or in Ie as [Ie|Ie].
    + eapply (step_home _ _ _ _ _ _ I S); eauto.
      destruct (step_event _ _ _ _ _ _ _ S Ie) as (_ & h & H & G & Oh & _).
      destruct (i_obj _ I _ _ G) as (x & X & _). rewrite Oh in X.
      destruct (step_objs _ _ _ _ _ _ _ _ S X) as (x1 & X1 & T1 & H1 & _).
      destruct (run_objs _ _ _ _ _ _ _ R X1) as (x2 & X2 & T2 & H2).
      destruct Ob as (live & Ob). rewrite Ob in X2. injection X2 as <-. cbn in *.
      exists (alive x). rewrite X. destruct x. cbn in *. congruence.
    + eapply (IH _ _ _ I1 R); eauto.
Qed.

Definition dead (s : state) (o : nat) : Prop :=
  exists x, nth_error (objs s) o = Some x /\ alive x = false.

Lemma step_dead B s me a s' es o :
  step B s me a = Some (s', es) -> dead s o -> dead s' o.
Proof.
  intros E (x & X & A). destruct (step_objs _ _ _ _ _ _ _ _ E X) as (x' & X' & _ & _ & D).
  exists x'. auto.
Qed.

Lemma step_alive B s me a s' es e :
  inv s -> step B s me a = Some (s', es) -> In e es -> ~ dead s (which e).
Proof.
  intros I E Ie (y & Y & D).
  destruct (step_event _ _ _ _ _ _ _ E Ie) as (Te & h & H & G & Oh & Wh & Me).
  destruct (i_obj _ I _ _ G) as (x & X & A & _). rewrite Oh, Y in X. injection X as <-.
  rewrite A in D; auto. discriminate.
Qed.

Lemma step_single B s me a s' es :
  step B s me a = Some (s', es) -> List.length es <= 1.
Proof.
  intro E. destruct a as [t k|h|h|h|h to|h to|h to|h to|h|h|h|h]; cbn [step] in E;
    try (destruct (get s h) as [H|] eqn:G; [|discriminate]);
    repeat (match type of E with context [match ?x with _ => _ end] => destruct x end; try discriminate);
    injection E as <- <-; cbn; lia.
Qed.

Lemma step_kills B s me a s' es e :
  inv s -> step B s me a = Some (s', es) -> In e es -> what e = Destroys ->
  dead s' (which e) /\ es = [e].
Proof.
  intros I E Ie W.
  destruct (step_event _ _ _ _ _ _ _ E Ie) as (Te & h & H & G & Oh & Wh & Me).
  rewrite W in Me. destruct Me as (_ & -> & _). split.
  - destruct (i_obj _ I _ _ G) as (x & X & _).
    unfold destroy. cbn. rewrite X. cbn. rewrite <- Oh.
    eexists. cbn. rewrite put_same by (now apply nth_some_lt in X). split; reflexivity.
  - destruct es as [|e1 [|e2 es]]; cbn in *; [destruct Ie| |].
    + destruct Ie as [->|[]]; auto.
    + exfalso. apply step_single in E. cbn in E. lia.
Qed.

Lemma run_alive B l : within B cxx -> forall s s' es f,
  inv s -> run B s l = Some (s', es) -> In f es -> ~ dead s (which f).
Proof.
  intro W. induction l as [|(me & a) l IH]; cbn; intros s s' es f I E If D.
  - injection E as <- <-. destruct If.
  - destruct (step B s me a) as [(s1 & e1)|] eqn:S; [|discriminate].
    destruct (run B s1 l) as [(s2 & e2)|] eqn:R; [|discriminate]. injection E as <- <-.
    apply in_app_or in If as [If|If].
    + eapply step_alive; eauto.
    + eapply (IH s1); eauto; [eapply step_inv; eauto|eapply step_dead; eauto].
Qed.

Lemma run_no_use B l : within B cxx -> forall s s' es,
  inv s -> run B s l = Some (s', es) -> no_use_after es.
Proof.
  intro W. induction l as [|(me & a) l IH]; cbn; intros s s' es I E.
  - injection E as <- <-. intros l e r Q. destruct l; discriminate.
  - destruct (step B s me a) as [(s1 & e1)|] eqn:S; [|discriminate].
    destruct (run B s1 l) as [(s2 & e2)|] eqn:R; [|discriminate]. injection E as <- <-.
    pose proof (step_inv _ _ _ _ _ _ W I S) as I1.
    intros p e r Q We f If Eq.
    destruct (app_eq_app _ _ _ _ (eq_sym Q)) as (z & [(Z1 & Z2)|(Z1 & Z2)]).
    + eapply (IH _ _ _ I1 R z e r); eauto.
    + destruct z as [|e' z].
      * cbn in Z2. eapply (IH _ _ _ I1 R [] e r); eauto.
      * cbn in Z2. injection Z2 as <- Z2. 
        assert (Ie : In e e1) by (rewrite Z1; apply in_or_app; cbn; auto).
        destruct (step_kills _ _ _ _ _ _ _ I S Ie We) as (Dd & Si).
        rewrite Si in Z1. destruct p as [|? [|? ?]]; cbn in Z1; try discriminate.
        injection Z1 as Z1. subst z. cbn in Z2. subst r.
        eapply (run_alive _ _ W _ _ _ f I1 R); eauto. now rewrite Eq.
Qed.

Theorem within_safe B : within B cxx -> safe B.
Proof.
  intros W l s es R. split; [|split].
  - apply inv_race_free. eapply run_inv; eauto. apply inv_start.
  - eapply run_home; eauto. apply inv_start.
  - eapply run_no_use; eauto. apply inv_start.
Qed.
