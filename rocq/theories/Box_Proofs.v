(** Proofs about rust::Box in C++. *)
From Verif Require Import Base Store_Lib Box_Model Box_Spec.
Require Import Lia.

Definition b_own (r : kind * option nat) : list nat := match snd r with Some a => [a] | None => [] end.
Definition b_ok (h : list (option (option nat))) (r : kind * option nat) (t : kind * option nat) : Prop :=
  fst r = fst t /\
  match snd r, snd t with
  | None, None => True
  | Some a, Some v => cell h a = Some (Some v)
  | _, _ => False
  end.
Lemma b_ok_live h r t a : b_ok h r t -> In a (b_own r) -> cell h a <> None.
Proof. unfold b_ok, b_own. destruct (snd r), (snd t); cbn; try tauto. intros [_ E] [<-|[]]. congruence. Qed.
Lemma b_ok_frame h h' r t : b_ok h r t -> (forall a, In a (b_own r) -> cell h' a = cell h a) -> b_ok h' r t.
Proof. unfold b_ok, b_own. destruct (snd r), (snd t); cbn; try tauto. intros [? E] F. rewrite F by auto. auto. Qed.
Lemma b_own_nodup h r t : b_ok h r t -> NoDup (b_own r).
Proof. intros _. unfold b_own. destruct (snd r); repeat constructor. intros []. Qed.

Notation binv := (inv b_own b_ok).
Notation ghost := (list (nat * ((kind * option nat) * option (kind * option nat)))).
Local Hint Resolve b_ok_live b_ok_frame b_own_nodup : core.

Definition rel (st : list (option (option nat)) * list (nat * (kind * option nat))) (s : list (nat * (kind * option nat))) : Prop :=
  exists m : ghost, snd st = reprs m /\ binv (fst st) m /\ contents m = full s.

(** an object that owns the same cells *)
Lemma inv_retype h (m : ghost) x r t r' t' : binv h m -> lookup x m = Some (r, Some t) -> b_own r' = b_own r -> b_ok h r' t' ->
  binv h (set x (r', Some t') m).
Proof.
  intros I L E O. eapply inv_update; eauto; cbn; rewrite ?E; auto. intros a J. destruct (in_dec Nat.eq_dec a (b_own r)); auto.
Qed.
Lemma inv_null h (m : ghost) x r k : binv h m -> lookup x m = Some (r, None) -> binv h (set x ((k, None), Some (k, None)) m).
Proof.
  intros I L. eapply inv_update; eauto; cbn; try tauto. split; cbn; auto.
Qed.

Lemma set_ptr_reprs (m : ghost) x k p q o : lookup x m = Some ((k, q), o) -> forall o', set_ptr x p (reprs m) = reprs (set x ((k, p), o') m).
Proof. intros L o'. unfold set_ptr. rewrite (g_reprs_found _ _ _ L). cbn [fst]. now rewrite <- g_reprs_set. Qed.
Lemma ptr_of_reprs (m : ghost) x k p o : lookup x m = Some ((k, p), o) -> ptr_of x (reprs m) = Some p.
Proof. intros L. unfold ptr_of. now rewrite (g_reprs_found _ _ _ L). Qed.

Lemma B_drop h (m : ghost) x k p o : binv h m -> lookup x m = Some ((k, p), Some (k, o)) ->
  exists h', drop_if x (h, reprs m) = Some ((h', reprs m), destroyed o) /\ binv h' (set x ((k, p), None) m).
Proof.
  intros I L. unfold drop_if. rewrite (ptr_of_reprs _ _ _ _ _ L).
  pose proof (inv_lookup _ _ _ _ _ _ _ I L) as [_ O]. cbn [snd] in O.
  destruct p as [a|], o as [v|]; try contradiction.
  - unfold box_drop, free. rewrite O. cbn [bind]. eexists. split; [reflexivity|].
    eapply (inv_update b_own b_ok b_ok_live b_ok_frame b_own_nodup); [exact I|eassumption|..]; cbn -[cell].
    + exact Logic.I.
    + intros c _ N. apply cell_set_other. intros ->. apply N. now left.
    + tauto.
    + intros c J. destruct (Nat.eq_dec c a) as [->|N].
      * rewrite cell_set_same in J by congruence. congruence.
      * rewrite cell_set_other in J by auto. right. split; auto. intros [->|[]]; auto.
  - exists h. split; [reflexivity|]. eapply inv_update; eauto; cbn; tauto.
Qed.

(** a new allocation with an object *)
Lemma inv_new h (m : ghost) x r v : binv h m -> lookup x m = Some (r, None) ->
  binv (h ++ [Some (Some v)]) (set x ((IsBox, Some (List.length h)), Some (IsBox, Some v)) m).
Proof.
  intros I L. eapply (inv_update b_own b_ok b_ok_live b_ok_frame b_own_nodup); [exact I|eassumption|..]; cbn -[cell].
  - split; [reflexivity|]. cbn -[cell]. apply cell_app_new.
  - intros a J _. now apply cell_app_old.
  - intros a [<-|[]]. right. apply fresh_cell.
  - intros a J. apply cell_app_inv in J as [->|J]; auto.
Qed.
(** an allocation that was freed again *)
Lemma inv_freed h (m : ghost) : binv h m -> binv (h ++ [None]) m.
Proof.
  intros [O N A]. assert (C : forall a, cell (h ++ [None]) a = cell h a).
  { intros a. destruct (cell h a) eqn:E.
    - rewrite cell_app_old; congruence.
    - destruct (cell (h ++ [None]) a) eqn:F; [|reflexivity]. exfalso.
      assert (G : cell (h ++ [None]) a <> None) by congruence. apply cell_app_inv in G as [->|G]; [|congruence].
      rewrite cell_app_new in F. discriminate. }
  constructor; auto.
  - rewrite Forall_forall in *. intros p J. eapply slot_frame; eauto.
  - intros a. rewrite C. apply A.
Qed.
Lemma set_cell_last {K} (h : list (option K)) c d : set_cell (List.length h) d (h ++ [c]) = h ++ [d].
Proof. induction h as [|x h IH]; cbn; [reflexivity|]. now rewrite IH. Qed.
Lemma box_new_ok v throws h : box_new v throws h = Some (if throws then (None, h ++ [None]) else (Some (List.length h), h ++ [Some (Some v)])).
Proof.
  unfold box_new, box_alloc, alloc. destruct throws; cbn [allocation_dtor].
  - unfold box_dealloc, free. rewrite cell_app_new. cbn [bind]. now rewrite set_cell_last.
  - unfold store. rewrite cell_app_new. cbn [bind]. now rewrite set_cell_last.
Qed.
Lemma box_in_place_ok v throws h : box_in_place v throws h = Some (if throws then (None, h ++ [None]) else (Some (List.length h), h ++ [Some (Some v)])).
Proof.
  unfold box_in_place, box_alloc, alloc. destruct throws; cbn [allocation_dtor].
  - unfold box_dealloc, free. rewrite cell_app_new. cbn [bind]. now rewrite set_cell_last.
  - unfold store. rewrite cell_app_new. cbn [bind]. now rewrite set_cell_last.
Qed.
Lemma fresh_ge x (l : list nat) : x <= fold_right Nat.max x l.
Proof. induction l as [|y l IH]; cbn; lia. Qed.
Lemma fresh_name_ne x e : fresh_name x e <> x.
Proof. unfold fresh_name. pose proof (fresh_ge x (map fst e)). lia. Qed.
Lemma from_raw_ok elide tmp x raw h e : tmp <> x -> box_from_raw elide tmp x raw (h, e) = Some ((h, (x, (IsBox, raw)) :: e), []).
Proof.
  intros N. destruct elide; [reflexivity|]. unfold box_from_raw, box_move, ptr_of, set_ptr. rewrite lookup_here. cbn [option_map snd bind].
  rewrite lookup_past by auto. rewrite lookup_here. rewrite set_past by auto. rewrite set_here.
  unfold drop_if, ptr_of. rewrite lookup_past by auto. rewrite lookup_here. cbn [option_map snd bind].
  cbn. rewrite (proj2 (Nat.eqb_neq tmp x)), Nat.eqb_refl by auto. reflexivity.
Qed.

(** the kinds of variables are those of the specification *)
Lemma g_kind h (m : ghost) s x r t : binv h m -> contents m = full s -> lookup x m = Some (r, Some t) -> fst r = fst t.
Proof. intros I _ L. exact (proj1 (inv_lookup _ _ _ _ _ _ _ I L)). Qed.

Lemma step_ok o st s : rel st s ->
  match step o st with
  | Illegal => spec_step o s = Illegal
  | UB => False
  | Ok st' ob => exists s', spec_step o s = Ok s' ob /\ rel st' s'
  end.
Proof.
  destruct st as [h e]. intros (m & E & I & C). cbn [fst snd] in E, I. subst e.
  assert (UN : forall x, unused x (reprs m) = free_name x s).
  { intros x. unfold unused, free_name. rewrite g_reprs_lookup. destruct (lookup x s) as [t|] eqn:L.
    - destruct (g_found m s x C _ L) as (r & ->). reflexivity.
    - now rewrite (g_missing m s x C L). }
  assert (BX : forall x, match box x s with
     | Some o => exists p, lookup x m = Some ((IsBox, p), Some (IsBox, o)) /\ is_box x (reprs m) = true /\ lookup x s = Some (IsBox, o)
     | None => is_box x (reprs m) = false end).
  { intros x. unfold box, is_box. rewrite g_reprs_lookup. destruct (lookup x s) as [[k o']|] eqn:L.
    - destruct (g_found m s x C _ L) as ([k' p] & LM). rewrite LM. pose proof (g_kind _ _ _ _ _ _ I C LM) as K. cbn in K. subst k'.
      destruct k; cbn; eauto.
    - now rewrite (g_missing m s x C L). }
  assert (RW : forall x, match raw x s with
     | Some o => exists p, lookup x m = Some ((IsRaw, p), Some (IsRaw, o)) /\ is_raw x (reprs m) = true /\ lookup x s = Some (IsRaw, o)
     | None => is_raw x (reprs m) = false end).
  { intros x. unfold raw, is_raw. rewrite g_reprs_lookup. destruct (lookup x s) as [[k o']|] eqn:L.
    - destruct (g_found m s x C _ L) as ([k' p] & LM). rewrite LM. pose proof (g_kind _ _ _ _ _ _ I C LM) as K. cbn in K. subst k'.
      destruct k; cbn; eauto.
    - now rewrite (g_missing m s x C L). }
  assert (FN : forall x, free_name x s = true -> lookup x s = None /\ lookup x m = None).
  { intros x. unfold free_name. destruct (lookup x s) eqn:L; [discriminate|]. intros _. split; auto. eapply g_missing; eauto. }
  assert (NEWOK : forall x v, rel (h ++ [Some (Some v)], (x, (IsBox, Some (List.length h))) :: reprs m) ((x, (IsBox, Some v)) :: s)).
  { intros x v. pose proof (inv_declare b_own b_ok h m x (IsBox, None) I) as I1.
    pose proof (inv_new _ _ x _ v I1 (lookup_here _ _ _)) as I2. rewrite set_here in I2.
    eexists. cbn [fst snd]. split; [|split; [exact I2|]]; [reflexivity|]. rewrite g_contents_cons, full_cons. now rewrite C. }
  assert (THR : rel (h ++ [None], reprs m) s).
  { exists m. cbn [fst snd]. split; [reflexivity|]. split; [now apply inv_freed|exact C]. }
  destruct o; cbn [step spec_step].
  - (* New *) rewrite UN. destruct (free_name x s) eqn:F; [|reflexivity]. rewrite box_new_ok. destruct throws; eauto.
  - (* InPlace *) rewrite UN. destruct (free_name x s) eqn:F; [|reflexivity]. rewrite box_in_place_ok. destruct throws; [eauto|].
    rewrite from_raw_ok by apply fresh_name_ne. cbn [ret]. eauto.
  - (* Move *) rewrite UN. destruct (free_name x s) eqn:F; [|reflexivity]. destruct (FN x F) as [FS FM].
    specialize (BX y). destruct (box y s) as [o|]; [|now rewrite BX]. destruct BX as (p & LM & IB & LS). rewrite IB. cbn [andb].
    assert (N : x <> y) by congruence.
    unfold box_move. rewrite (ptr_of_reprs _ _ _ _ _ LM). cbn [bind ret0]. eexists. split; [reflexivity|].
    pose proof (inv_declare b_own b_ok h m x (IsBox, None) I) as I1.
    assert (LM1 : lookup y ((x, ((IsBox, None), None)) :: m) = Some ((IsBox, p), Some (IsBox, o))) by (rewrite lookup_past; auto).
    pose proof (inv_transfer b_own b_ok b_ok_live b_ok_frame b_own_nodup h _ x y _ _ N I1 (lookup_here _ _ _) LM1) as I2.
    assert (LM2 : lookup y (set y (fst ((IsBox, p), Some (IsBox, o)), None) (set x ((IsBox, p), Some (IsBox, o)) ((x, ((IsBox, None), None)) :: m))) = Some ((IsBox, p), None)).
    { apply lookup_set_same. rewrite set_here. rewrite lookup_past by auto. congruence. }
    pose proof (inv_null _ _ y _ IsBox I2 LM2) as I3. rewrite set_set, set_here, set_past in I3 by auto.
    eexists. cbn [fst snd]. split; [|split; [exact I3|]].
    + change ((x, (IsBox, p)) :: reprs m) with (reprs ((x, ((IsBox, p), Some (IsBox, o))) :: m)).
      erewrite set_ptr_reprs by (rewrite lookup_past by auto; exact LM). rewrite set_past by auto. reflexivity.
    + rewrite g_contents_cons, full_cons, g_contents_set, full_set, C. reflexivity.
  - (* Assign *) pose proof (BX x) as BX1. pose proof (BX y) as BX2.
    destruct (box x s) as [ox|]; [|now rewrite BX1]. destruct BX1 as (px & LX & -> & SX).
    destruct (box y s) as [oy|]; [|now rewrite BX2]. destruct BX2 as (py & LY & -> & SY). cbn [andb].
    unfold box_assign. destruct (B_drop h m x IsBox px ox I LX) as (h1 & -> & I1). cbn [bind].
    assert (L1 : lookup x (set x ((IsBox, px), None) m) = Some ((IsBox, px), None)) by (apply lookup_set_same; congruence).
    rewrite (ptr_of_reprs _ _ _ _ _ LY). cbn [bind ret].
    destruct (Nat.eqb_spec x y) as [->|N].
    + eexists. split; [reflexivity|]. pose proof (inv_null _ _ y _ IsBox I1 L1) as I2. rewrite set_set in I2.
      eexists. cbn [fst snd]. split; [|split; [exact I2|]].
      * rewrite (set_ptr_reprs m y IsBox py _ _ LY None). erewrite set_ptr_reprs by (apply lookup_set_same; congruence). rewrite set_set. reflexivity.
      * rewrite g_contents_set, full_set, C. reflexivity.
    + eexists. split; [reflexivity|].
      assert (LY1 : lookup y (set x ((IsBox, px), None) m) = Some ((IsBox, py), Some (IsBox, oy))) by (rewrite lookup_set_other; auto).
      pose proof (inv_transfer b_own b_ok b_ok_live b_ok_frame b_own_nodup h1 _ x y _ _ N I1 L1 LY1) as I2. rewrite set_set in I2.
      assert (L2 : lookup y (set y (fst ((IsBox, py), Some (IsBox, oy)), None) (set x ((IsBox, py), Some (IsBox, oy)) m)) = Some ((IsBox, py), None)).
      { apply lookup_set_same. rewrite lookup_set_other by auto. congruence. }
      pose proof (inv_null _ _ y _ IsBox I2 L2) as I3. rewrite set_set in I3.
      eexists. cbn [fst snd]. split; [|split; [exact I3|]].
      * rewrite (set_ptr_reprs m x IsBox py _ _ LX (Some (IsBox, oy))).
        erewrite set_ptr_reprs by (rewrite lookup_set_other by auto; exact LY). reflexivity.
      * rewrite !g_contents_set, !full_set, C. reflexivity.
  - (* Swap *) pose proof (BX x) as BX1. pose proof (BX y) as BX2.
    destruct (box x s) as [ox|]; [|now rewrite BX1]. destruct BX1 as (px & LX & -> & SX).
    destruct (box y s) as [oy|]; [|now rewrite BX2]. destruct BX2 as (py & LY & -> & SY). cbn [andb].
    unfold box_swap. rewrite (ptr_of_reprs _ _ _ _ _ LX), (ptr_of_reprs _ _ _ _ _ LY). cbn [bind ret0].
    eexists. split; [reflexivity|].
    destruct (Nat.eq_dec x y) as [->|N].
    + rewrite LX in LY. injection LY as <- <-. exists m. cbn [fst snd]. split; [|split; [exact I|]].
      * rewrite (set_ptr_reprs m y IsBox px _ _ LX (Some (IsBox, ox))). rewrite (set_same y _ m) by auto.
        rewrite (set_ptr_reprs m y IsBox px _ _ LX (Some (IsBox, ox))). rewrite (set_same y _ m); auto.
      * rewrite set_set, set_same; auto.
    + exists (set y ((IsBox, px), Some (IsBox, ox)) (set x ((IsBox, py), Some (IsBox, oy)) m)). cbn [fst snd]. split; [|split].
      * rewrite (set_ptr_reprs m x IsBox py _ _ LX (Some (IsBox, oy))).
        erewrite set_ptr_reprs by (rewrite lookup_set_other by auto; exact LY). reflexivity.
      * eapply inv_swap; eauto.
      * rewrite !g_contents_set, !full_set, C. reflexivity.
  - (* Destroy *) pose proof (BX x) as BX1. destruct (box x s) as [ox|]; [|now rewrite BX1]. destruct BX1 as (px & LX & -> & SX).
    destruct (B_drop h m x IsBox px ox I LX) as (h1 & -> & I1). cbn [bind ret]. eexists. split; [reflexivity|].
    exists (remove x m). cbn [fst snd]. split; [apply g_reprs_remove|]. split.
    + rewrite <- (remove_set x ((IsBox, px), None) m). eapply inv_forget; eauto. apply lookup_set_same. congruence.
    + now rewrite g_contents_remove, full_remove, C.
  - (* Get *) pose proof (BX x) as BX1. unfold is_box in BX1. rewrite g_reprs_lookup in *. destruct (box x s) as [ox|].
    + destruct BX1 as (px & LX & _ & SX). rewrite LX. cbn [option_map fst].
      pose proof (inv_lookup _ _ _ _ _ _ _ I LX) as [_ O]. cbn [snd] in O. destruct px as [a|], ox as [v|]; try contradiction; auto.
      rewrite O. eexists. split; [reflexivity|]. exists m. auto.
    + destruct (lookup x m) as [[[k p] t]|]; cbn in *; [|reflexivity]. destruct k; [discriminate|]. reflexivity.
  - (* Put *) pose proof (BX x) as BX1. unfold is_box in BX1. rewrite g_reprs_lookup in *. destruct (box x s) as [ox|].
    + destruct BX1 as (px & LX & _ & SX). rewrite LX. cbn [option_map fst].
      pose proof (inv_lookup _ _ _ _ _ _ _ I LX) as [_ O]. cbn [snd] in O. destruct px as [a|], ox as [w|]; try contradiction; auto.
      rewrite O. unfold store. rewrite O. cbn [bind ret0]. eexists. split; [reflexivity|].
      exists (set x ((IsBox, Some a), Some (IsBox, Some v)) m). cbn [fst snd]. split; [|split].
      * symmetry. eapply g_reprs_keep; eauto.
      * eapply (inv_update b_own b_ok b_ok_live b_ok_frame b_own_nodup); [exact I|eassumption|..]; cbn -[cell].
        -- split; [reflexivity|]. cbn -[cell]. apply cell_set_same. congruence.
        -- intros c _ N. apply cell_set_other. intros ->. apply N. now left.
        -- auto.
        -- intros c J. destruct (Nat.eq_dec c a) as [->|N]; auto. rewrite cell_set_other in J by auto. right. split; auto. intros [->|[]]; auto.
      * now rewrite g_contents_set, full_set, C.
    + destruct (lookup x m) as [[[k p] t]|]; cbn in *; [|reflexivity]. destruct k; [discriminate|]. reflexivity.
  - (* IntoRaw *) rewrite UN. destruct (free_name p s) eqn:F; [|reflexivity]. destruct (FN p F) as [FS FM].
    specialize (BX x). destruct (box x s) as [o|]; [|now rewrite BX]. destruct BX as (q & LM & IB & LS). rewrite IB. cbn [andb].
    assert (N : p <> x) by congruence.
    unfold box_into_raw. rewrite (ptr_of_reprs _ _ _ _ _ LM). cbn [bind]. eexists. split; [reflexivity|].
    pose proof (inv_declare b_own b_ok h m p (IsRaw, None) I) as I1.
    assert (LM1 : lookup x ((p, ((IsRaw, None), None)) :: m) = Some ((IsBox, q), Some (IsBox, o))) by (rewrite lookup_past; auto).
    pose proof (inv_transfer b_own b_ok b_ok_live b_ok_frame b_own_nodup h _ p x _ _ N I1 (lookup_here _ _ _) LM1) as I2.
    assert (LM2 : lookup x (set x (fst ((IsBox, q), Some (IsBox, o)), None) (set p ((IsBox, q), Some (IsBox, o)) ((p, ((IsRaw, None), None)) :: m))) = Some ((IsBox, q), None)).
    { apply lookup_set_same. rewrite set_here. rewrite lookup_past by auto. congruence. }
    pose proof (inv_null _ _ x _ IsBox I2 LM2) as I3. rewrite set_set, set_here, set_past in I3 by auto.
    pose proof (inv_lookup _ _ _ _ _ _ _ I LM) as [_ O]. cbn [snd] in O.
    pose proof (inv_retype h _ p _ _ (IsRaw, q) (IsRaw, o) I3 (lookup_here _ _ _) eq_refl (conj eq_refl O)) as I4. rewrite set_here in I4.
    eexists. cbn [fst snd]. split; [|split; [exact I4|]].
    + rewrite (set_ptr_reprs m x IsBox None _ _ LM (Some (IsBox, None))). reflexivity.
    + rewrite g_contents_cons, full_cons, g_contents_set, full_set, C. reflexivity.
  - (* FromRaw *) rewrite UN. destruct (free_name x s) eqn:F; [|reflexivity]. destruct (FN x F) as [FS FM].
    specialize (RW p). destruct (raw p s) as [o|]; [|now rewrite RW]. destruct RW as (q & LM & IB & LS). rewrite IB. cbn [andb].
    assert (N : x <> p) by congruence.
    rewrite (ptr_of_reprs _ _ _ _ _ LM). rewrite from_raw_ok by apply fresh_name_ne. cbn [ret]. eexists. split; [reflexivity|].
    pose proof (inv_declare b_own b_ok h m x (IsRaw, None) I) as I1.
    assert (LM1 : lookup p ((x, ((IsRaw, None), None)) :: m) = Some ((IsRaw, q), Some (IsRaw, o))) by (rewrite lookup_past; auto).
    pose proof (inv_transfer b_own b_ok b_ok_live b_ok_frame b_own_nodup h _ x p _ _ N I1 (lookup_here _ _ _) LM1) as I2.
    rewrite set_here in I2. rewrite set_past in I2 by auto.
    pose proof (inv_lookup _ _ _ _ _ _ _ I LM) as [_ O]. cbn [snd] in O.
    pose proof (inv_retype h _ x _ _ (IsBox, q) (IsBox, o) I2 (lookup_here _ _ _) eq_refl (conj eq_refl O)) as I4. rewrite set_here in I4.
    assert (LM2 : lookup p ((x, (IsBox, q, Some (IsBox, o))) :: set p (fst (IsRaw, q, Some (IsRaw, o)), None) m) = Some ((IsRaw, q), None)).
    { rewrite lookup_past by auto. apply lookup_set_same. congruence. }
    pose proof (inv_forget b_own b_ok h _ p _ I4 LM2) as I5.
    assert (RM : remove p ((x, (IsBox, q, Some (IsBox, o))) :: set p (fst (IsRaw, q, Some (IsRaw, o)), None) m) = (x, (IsBox, q, Some (IsBox, o))) :: remove p m).
    { cbn [remove]. rewrite (proj2 (Nat.eqb_neq p x)) by auto. now rewrite remove_set. }
    rewrite RM in I5. eexists. cbn [fst snd]. split; [|split; [exact I5|]].
    + rewrite g_reprs_remove. reflexivity.
    + rewrite g_contents_cons, full_cons, g_contents_remove, full_remove, C. reflexivity.
Qed.

Lemma run_ok ops : forall st s, rel st s ->
  match run ops st with
  | (Illegal, t) => spec_run ops s = (Illegal, t)
  | (UB, _) => False
  | (Ok st' ob, t) => exists s', spec_run ops s = (Ok s' ob, t) /\ rel st' s'
  end.
Proof.
  induction ops as [|o ops IH]; intros st s R; cbn [run spec_run].
  - eauto.
  - pose proof (step_ok o st s R) as S. destruct (step o st) as [| |st' ob].
    + now rewrite S.
    + exact S.
    + destruct S as (s' & -> & R'). specialize (IH st' s' R').
      destruct (run ops st') as [[| |st2 ob2] t].
      * now rewrite IH.
      * exact IH.
      * destruct IH as (s2 & -> & R2). eauto.
Qed.
Lemma rel_init : rel ([], []) [].
Proof. exists []. cbn. repeat split; auto; try constructor. intros a. unfold cell. destruct a; cbn; congruence. Qed.
