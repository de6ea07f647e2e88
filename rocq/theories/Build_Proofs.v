(** A build as a sequence of outputs, each left alone by the others. *)
From Verif Require Import Base Paths_Model Paths_Proofs Fs_Model Fs_Spec Fs_Proofs Fs_Proofs2 Fs_Proofs3 Build_Model Build_Spec.
From Coq Require Import Lia.

(** ** Where links lead *)
Lemma walk_names k s f rest : forall b c n, wf s -> tree s (c ++ b) = Some n -> (forall t, n <> Link t) -> (rest = [] \/ n = Dir) ->
  walk k (tree s) f c (map Normal b ++ rest) = walk k (tree s) f (c ++ b) rest.
Proof.
  intros b c n W T L E. destruct b as [|y b] using rev_ind; [rewrite app_nil_r; reflexivity|]. clear IHb.
  rewrite map_app, <- app_assoc. rewrite walk_through.
  - cbn [map app]. rewrite walk_cons. rewrite <- app_assoc, T. rewrite app_assoc in T. rewrite (wf_parent s W _ _ _ T). destruct n as [i| |t]; [reflexivity|reflexivity|exfalso; apply (L t); reflexivity].
  - intros a r ->. rewrite <- app_assoc, app_assoc in T. eapply wf_above; [exact W|exact T|destruct r; discriminate].
Qed.
Lemma up_snoc (u : name) x : map (fun _ : string => ParentDir) (u ++ [x]) = ParentDir :: map (fun _ => ParentDir) u.
Proof. rewrite map_app. induction u as [|y u IH]; cbn in *; [reflexivity|rewrite IH; reflexivity]. Qed.
Lemma walk_up k s f rest : forall u a, wf s -> tree s (a ++ u) = Some Dir ->
  walk k (tree s) f (a ++ u) (map (fun _ => ParentDir) u ++ rest) = walk k (tree s) f a rest.
Proof.
  induction u as [|x u IH] using rev_ind; intros a W T; [rewrite app_nil_r; reflexivity|]. rewrite up_snoc. cbn [app]. rewrite walk_cons, T.
  rewrite app_assoc, removelast_last. apply IH; [exact W|]. rewrite app_assoc in T. exact (wf_parent s W _ _ _ T).
Qed.
(** a link to [o], or a relative one in its place, leads to [o] *)
Definition stands_for (env : bool) (o l : name) (t : path) : Prop := t = absolute o \/ abstractly_relativize_symlink env (absolute o) (absolute l) = Relative t.
Lemma link_walk env s o d x t n rest : wf s -> tree s (d ++ [x]) = Some (Link t) -> stands_for env o (d ++ [x]) t ->
  tree s o = Some n -> (forall t, n <> Link t) -> (rest = [] \/ n = Dir) ->
  resolve s true (absolute (d ++ [x]) ++ rest) = walk 39 (tree s) true o rest.
Proof.
  intros W T St To Nl Er. assert (D := wf_parent s W _ _ _ T). rewrite absolute_snoc, <- app_assoc, resolve_dir by assumption. cbn [app]. rewrite walk_cons, D, T.
  replace (is_nil rest && negb true) with false by (destruct (is_nil rest); reflexivity).
  destruct St as [->|E].
  - unfold absolute. cbn [app]. rewrite walk_cons, D. apply (walk_names 39 s true rest o [] n); assumption.
  - destruct env; [discriminate|]. destruct (relativize_spec o (d ++ [x])) as (a & b & c & Eo & El & _ & Ea). unfold absolute in E. rewrite Ea in E. destruct c as [|y c _] using rev_ind; [discriminate|].
    assert (Et : t = map (fun _ => ParentDir) c ++ map Normal b) by (destruct (c ++ [y]) eqn:Z; [destruct c; discriminate|]; rewrite <- Z, removelast_last in E; congruence). subst t.
    rewrite app_assoc in El. apply app_inj_tail in El as [-> _]. rewrite <- app_assoc, walk_up by assumption. subst o. apply (walk_names 39 s true rest b a n); assumption.
Qed.

(** ** Programs *)
Lemma seq_both {A} (P1 P2 : fs -> Prop) (Q1 Q2 : fs -> A -> Prop) m : forall s, seq false P1 Q1 m s -> seq false P2 Q2 m s ->
  seq false (fun s => P1 s /\ P2 s) (fun s a => Q1 s a /\ Q2 s a) m s.
Proof.
  induction m as [a|o k IH]; intros s [H1 H2] [H3 H4]; (split; [auto|]); [auto|]. destruct H2 as [H2 _], H4 as [H4 _]. split; [|discriminate]. intros n s' r E. apply IH; eauto.
Qed.
Lemma seq_weaken {A} (P P' : fs -> Prop) (Q Q' : fs -> A -> Prop) m : (forall s, P s -> P' s) -> (forall s a, P s -> Q s a -> Q' s a) -> forall s, seq false P Q m s -> seq false P' Q' m s.
Proof.
  intros HP HQ. induction m as [a|o k IH]; intros s [H1 H2]; (split; [auto|]); [auto|]. destruct H2 as [H2 _]. split; [|discriminate]. intros n s' r E. apply IH. eauto.
Qed.
Definition makes_no_link (o : op) : Prop := match o with Symlink _ _ => False | _ => True end.
Lemma sys_no_link n s o q t : makes_no_link o -> tree (fst (sys n s o)) q = Some (Link t) -> tree s q = Some (Link t).
Proof.
  intros M. destruct o; cbn [sys fst]; try exact (fun H => H); try contradiction.
  - destruct (resolve s false p); cbn; try exact (fun H => H). destruct (name_eqb q q0); [discriminate|auto].
  - destruct (resolve s false p); cbn; try exact (fun H => H). destruct (tree s q0) as [[| |]|]; cbn; try exact (fun H => H); (destruct (name_eqb q q0); [discriminate|auto]).
  - destruct (resolve s false p); cbn; try exact (fun H => H). destruct (tree s q0) as [[| |]|]; cbn; try exact (fun H => H); [destruct (is_prefix q0 q); [discriminate|auto]|destruct (name_eqb q q0); [discriminate|auto]].
  - destruct (resolve s true p) as [q0|q0|]; cbn; try exact (fun H => H); [destruct (tree s q0) as [[| |]|]; cbn; exact (fun H => H)|destruct (name_eqb q q0); [discriminate|auto]].
Qed.
Lemma no_link_seq {A} (m : prog A) q : issues makes_no_link m -> forall s, (forall t, tree s q <> Some (Link t)) -> seq false (fun s => forall t, tree s q <> Some (Link t)) (fun _ _ => True) m s.
Proof.
  induction m as [a|o k IH]; intros I s H; (split; [exact H|]); [exact Logic.I|]. destruct I as [I1 I2]. split; [|discriminate]. intros n s' r E. apply IH; [apply I2|].
  intros t T. apply (H t). apply (sys_no_link n s o q t I1). rewrite E. exact T.
Qed.
Lemma create_no_link n : forall p, issues makes_no_link (create_dir_all n p).
Proof.
  assert (U : forall p e, issues makes_no_link (unless_dir p e)) by (intros p e; cbn; auto).
  induction n as [|n IH]; intros p; [exact Logic.I|]. cbn [create_dir_all]. destruct (is_nil p); [exact Logic.I|]. split; [exact Logic.I|]. intros r.
  destruct r as [|e|k|l|q|i|m]; [exact Logic.I| |exact (U p _)|exact (U p _)|exact (U p _)|exact (U p _)|exact (U p _)].
  destruct e; [|exact (U p _)|exact (U p _)|exact (U p _)|exact (U p _)|exact (U p _)].
  destruct (parent p) as [d|]; [|exact Logic.I]. apply issues_bind; [apply IH|]. intros [e|]; [exact Logic.I|].
  split; [exact Logic.I|]. intros r. destruct r; [exact Logic.I|exact (U p _)|exact (U p _)|exact (U p _)|exact (U p _)|exact (U p _)|exact (U p _)].
Qed.
Lemma write_no_link n : forall i off b, issues makes_no_link (write_all n i off b).
Proof. induction n as [|n IH]; intros i off [|c b]; try exact Logic.I. cbn [write_all]. split; [exact Logic.I|]. intros [| | | | | |[|k]]; try exact Logic.I. apply IH. Qed.
Lemma fs_write_no_link p c : issues makes_no_link (fs_write p c).
Proof. split; [exact Logic.I|]. intros r. destruct r; try exact Logic.I. apply write_no_link. Qed.
Lemma remove_no_link p : issues makes_no_link (best_effort_remove p).
Proof. split; [exact Logic.I|]. intros r. destruct r as [| |[| |]| | | |]; cbn; auto. Qed.
Lemma out_write_no_link p c : issues makes_no_link (out_write p c).
Proof.
  assert (X : issues makes_no_link (bind (best_effort_remove p) (fun _ => fs_write p c))) by (apply issues_bind; [apply remove_no_link|intros; apply fs_write_no_link]).
  unfold out_write. apply issues_bind; [cbn; auto|]. intros [|].
  - apply issues_bind; [cbn; auto|]. intros [b|]; [|exact X]. destruct (bytes_eqb b c); [exact Logic.I|exact X].
  - destruct (parent p) as [d|]; [|exact Logic.I]. apply issues_bind; [apply create_no_link|]. intros o. apply issues_bind; [apply fs_write_no_link|intros; exact Logic.I].
Qed.

(** ** Outputs one after the other *)
Inductive act := AWrite (c : list ascii) | AAbsolute (o : path) | ARelative (o : name) | ADirectory (o : name).
Definition task : Type := name * act.
Definition sort_of (a : act) : sort := match a with AWrite _ => AFile | _ => ALink end.
Definition run (env : bool) (t : task) : prog outcome :=
  match snd t with
  | AWrite c => out_write (absolute (fst t)) c
  | AAbsolute o => absolute_symlink_file o (absolute (fst t))
  | ARelative o => relative_symlink_file env (absolute o) (absolute (fst t))
  | ADirectory o => relative_symlink_dir env (absolute o) (absolute (fst t))
  end.
Definition done_in (env : bool) (s : fs) (t : task) : Prop :=
  match snd t with
  | AWrite c => contains s (fst t) c
  | AAbsolute o => tree s (fst t) = Some (Link o)
  | ARelative o | ADirectory o => exists t', tree s (fst t) = Some (Link t') /\ stands_for env o (fst t) t'
  end.
Lemma run_frame env t s : wf s -> fst t <> [] -> real_parents s (fst t) -> (forall c, snd t = AWrite c -> forall l, tree s (fst t) <> Some (Link l)) ->
  seq false (fun s' => wf s' /\ real_parents s' (fst t) /\ only_touches (fst t) s s' /\ (forall c, snd t = AWrite c -> forall l, tree s' (fst t) <> Some (Link l)))
    (fun s' o => o = None /\ done_in env s' t) (run env t) s.
Proof.
  destruct t as [p a]. cbn [fst]. intros W Np R L. destruct p as [|x d _] using rev_ind; [congruence|].
  assert (H : seq false (undisturbed d x s) (fun s' o => o = None /\ done_in env s' (d ++ [x], a)) (run env (d ++ [x], a)) s).
  { unfold run, done_in. cbn [fst snd]. destruct a as [c|o|o|o].
    - (* the file that was there may be kept *)
      eapply seq_weaken; [intros s' H; exact H| |apply out_write_frame; assumption]. cbn beta. intros s' o U (E & [[-> Rd]|Hc]); (split; [exact E|]); [|exact Hc].
      specialize (L c eq_refl). specialize (Rd 0%nat). cbn [sys] in Rd. destruct (parent_or s d x R) as [D|D]; [rewrite resolve_missing in Rd by assumption; discriminate|].
      rewrite resolve_in in Rd; [|exact W|exact D|intros _; exact L]. destruct (tree s (d ++ [x])) as [[i| |l]|] eqn:T; try discriminate; try rewrite T in Rd; try discriminate. injection Rd as Rd. exists i. auto.
    - apply absolute_frame; assumption.
    - unfold relative_symlink_file. apply seq_bind. eapply seq_mono; [|apply prepare_frame; assumption]. intros s1 e (U1 & -> & D1 & N1). apply seq_bind.
      assert (Y : forall t, stands_for env o (d ++ [x]) t -> seq false (undisturbed d x s) (fun s' o0 => o0 = None /\ exists t', tree s' (d ++ [x]) = Some (Link t') /\ stands_for env o (d ++ [x]) t') (symlink_file t (absolute (d ++ [x])) None) s1).
      { intros t Ht. eapply seq_mono; [|apply symlink_new; assumption]. cbn beta. intros s' o0 [E T]. split; [exact E|]. exists t. auto. }
      unfold relativize. rewrite parent_absolute. destruct (abstractly_relativize_symlink env (absolute o) (absolute (d ++ [x]))) as [r| |] eqn:Er; try (split; [exact U1|]; apply Y; left; reflexivity).
      split; [exact U1|]. split; [|discriminate]. intros n s' r0 E. cbn [sys] in E. injection E as <- <-. destruct (resolve s1 true (absolute o)) as [q|q|e]; try (split; [exact U1|]; apply Y; left; reflexivity).
      split; [exact U1|]. split; [|discriminate]. intros n2 s' r0 E. cbn [sys] in E. injection E as <- <-. destruct (resolve s1 true (join (absolute d) r)) as [q2|q2|e]; try (split; [exact U1|]; apply Y; left; reflexivity).
      destruct (name_eqb q q2); (split; [exact U1|]); apply Y; [right; exact Er|left; reflexivity].
    - unfold relative_symlink_dir. apply seq_bind. eapply seq_mono; [|apply prepare_frame; assumption]. intros s1 e (U1 & -> & D1 & N1). apply seq_bind.
      assert (Y : forall t, stands_for env o (d ++ [x]) t -> seq false (undisturbed d x s) (fun s' o0 => o0 = None /\ exists t', tree s' (d ++ [x]) = Some (Link t') /\ stands_for env o (d ++ [x]) t') (symlink_dir t (absolute (d ++ [x])) None) s1).
      { intros t Ht. split; [exact U1|]. split; [|discriminate]. intros n s' r E. cbn [sys] in E. rewrite resolve_in in E; [|exact (proj1 U1)|exact D1|discriminate]. rewrite N1 in E. injection E as <- <-.
        split; [apply u_set; auto; congruence|]. split; [reflexivity|]. exists t. split; [apply set_same|exact Ht]. }
      unfold relativize. rewrite parent_absolute. destruct (abstractly_relativize_symlink env (absolute o) (absolute (d ++ [x]))) as [r| |] eqn:Er; try (split; [exact U1|]; apply Y; left; reflexivity).
      split; [exact U1|]. split; [|discriminate]. intros n s' r0 E. cbn [sys] in E. injection E as <- <-. destruct (resolve s1 true (absolute o)) as [q|q|e]; try (split; [exact U1|]; apply Y; left; reflexivity).
      split; [exact U1|]. split; [|discriminate]. intros n2 s' r0 E. cbn [sys] in E. injection E as <- <-. destruct (resolve s1 true (join (absolute d) r)) as [q2|q2|e]; try (split; [exact U1|]; apply Y; left; reflexivity).
      destruct (name_eqb q q2); (split; [exact U1|]); apply Y; [right; exact Er|left; reflexivity]. }
  destruct a as [c|o|o|o].
  - assert (N := no_link_seq (run env (d ++ [x], AWrite c)) (d ++ [x]) (out_write_no_link _ c) s (L c eq_refl)). pose proof (seq_both _ _ _ _ _ s H N) as B.
    eapply seq_weaken; [| |exact B]; cbn beta; [intros s' ((W' & R' & T') & N'); auto|intros s' o' _ [E _]; exact E].
  - eapply seq_weaken; [| |exact H]; cbn beta; [intros s' (W' & R' & T'); repeat (split; [assumption|]); discriminate|auto].
  - eapply seq_weaken; [| |exact H]; cbn beta; [intros s' (W' & R' & T'); repeat (split; [assumption|]); discriminate|auto].
  - eapply seq_weaken; [| |exact H]; cbn beta; [intros s' (W' & R' & T'); repeat (split; [assumption|]); discriminate|auto].
Qed.

(** what is done stays done *)
Lemma touches_kept p q s s' n : only_touches p s s' -> is_prefix p q = false -> tree s q = Some n -> tree s' q = Some n.
Proof. intros (H & _) P T. destruct (H q P) as [E|(_ & E & _)]; congruence. Qed.
Lemma done_kept env p t s s' : wf s -> only_touches p s s' -> is_prefix p (fst t) = false -> done_in env s t -> done_in env s' t.
Proof.
  intros W T P. unfold done_in. destruct (snd t) as [c|o|o|o].
  - intros (i & Ti & Di). exists i. split; [eapply touches_kept; eassumption|]. destruct T as (_ & T & _). rewrite T; [exact Di|]. exact (wf_fresh s W _ _ Ti).
  - intros H. eapply touches_kept; eassumption.
  - intros (t' & H & St). exists t'. split; [eapply touches_kept; eassumption|exact St].
  - intros (t' & H & St). exists t'. split; [eapply touches_kept; eassumption|exact St].
Qed.
Lemma parents_kept p q s s' : only_touches p s s' -> unrelated p q -> real_parents s q -> real_parents s' q.
Proof.
  intros (H & _) [P _] R a x r ->. assert (Pa : is_prefix p a = false).
  { destruct (is_prefix p a) eqn:E; [|reflexivity]. apply is_prefix_spec in E as [u ->]. rewrite <- app_assoc in P. assert (is_prefix p (p ++ u ++ x :: r) = true) by (apply is_prefix_spec; eauto). congruence. }
  destruct (H a Pa) as [E|(_ & _ & E)]; [rewrite E; exact (R a x r eq_refl)|auto].
Qed.

Section Tasks.
  Variables (O : list (sort * name)) (env : bool) (s0 : fs).
  Hypothesis Clear : ForallOrdPairs unrelated (map snd O).
  Hypothesis Names : forall k q, In (k, q) O -> q <> [].
  Definition good (s : fs) : Prop :=
    (wf s /\ (forall k q, In (k, q) O -> real_parents s q) /\ (forall q t, In (AFile, q) O -> tree s q <> Some (Link t))) /\
    (forall q, (forall k o, In (k, o) O -> is_prefix o q = false) -> tree s q = tree s0 q \/ tree s0 q = None /\ tree s q = Some Dir /\ exists k o, In (k, o) O /\ is_prefix q o = true) /\
    (forall i, (i < fresh s0)%nat -> data s i = data s0 i) /\ (fresh s0 <= fresh s)%nat.
  Lemma clear_in k q k' q' : In (k, q) O -> In (k', q') O -> (k, q) = (k', q') \/ unrelated q q'.
  Proof.
    revert k q k' q'. induction O as [|[k0 q0] l IH]; intros k q k' q' H H'; [destruct H|]. inversion Clear as [|? ? F F']; subst. rewrite Forall_forall in F.
    assert (X : forall k q, In (k, q) l -> unrelated q0 q) by (intros k1 q1 I; apply F, in_map_iff; exists (k1, q1); auto).
    destruct H as [E|H], H' as [E'|H'].
    - left. congruence.
    - injection E as <- <-. right. eapply X, H'.
    - injection E' as <- <-. right. destruct (X _ _ H). split; assumption.
    - apply IH; try assumption. intros k1 q1 I. apply (Names k1 q1). right. exact I.
  Qed.
  Lemma good_step t s s' : In (sort_of (snd t), fst t) O -> good s ->
    wf s' /\ real_parents s' (fst t) /\ only_touches (fst t) s s' /\ (forall c, snd t = AWrite c -> forall l, tree s' (fst t) <> Some (Link l)) -> good s'.
  Proof.
    intros I ((W & R & L) & T & D & F) (W' & R' & (T1 & T2 & T3) & L'). split; [split; [exact W'|split]|split; [|split]].
    - intros k q Iq. destruct (clear_in _ _ _ _ I Iq) as [E|U]; [injection E as _ <-; exact R'|]. eapply parents_kept; [split; [exact T1|split; [exact T2|exact T3]]|exact U|eapply R, Iq].
    - intros q l Iq. destruct (clear_in _ _ _ _ I Iq) as [E|[U _]].
      + injection E as E <-. destruct (snd t) as [c|o|o|o] eqn:Et; try discriminate. exact (L' c eq_refl l).
      + destruct (T1 q U) as [E|(_ & _ & E)]; rewrite E; [apply L, Iq|discriminate].
    - intros q Eq. destruct (T1 q (Eq _ _ I)) as [E|(P & E & E')].
      + rewrite E. apply T, Eq.
      + destruct (T q Eq) as [E2|(E2 & E3 & _)]; [|congruence]. right. split; [congruence|]. split; [exact E'|]. eauto.
    - intros i Li. rewrite T2 by lia. apply D, Li.
    - lia.
  Qed.
  (** [dn] have been done, [td] remain *)
  Definition progress (dn td : list task) (s : fs) : Prop :=
    good s /\ Forall (done_in env s) dn /\ (forall t, In t td -> In (sort_of (snd t), fst t) O) /\
    (forall t t', In t dn -> In t' td -> is_prefix (fst t') (fst t) = false) /\ ForallOrdPairs unrelated (map fst td).
  Lemma progress_run {A} (f : outcome -> prog A) Post t dn td s : progress dn (t :: td) s ->
    (forall s', progress (t :: dn) td s' -> seq false good Post (f None) s') -> seq false good Post (bind (run env t) f) s.
  Proof.
    intros (G & D & I & B & U) K. apply seq_bind. assert (It := I t (or_introl eq_refl)). pose proof G as ((W & R & L) & _).
    eapply seq_weaken; [| |apply (run_frame env t s W (Names _ _ It) (R _ _ It))].
    - intros s'. apply good_step; assumption.
    - cbn beta. intros s' o H [-> Dn]. assert (G' := good_step t s s' It G H). apply K. split; [exact G'|]. split; [|split; [|split]].
      + constructor; [exact Dn|]. rewrite Forall_forall in D |- *. intros t0 I0. eapply done_kept; [exact W|exact (proj1 (proj2 (proj2 H)))|apply (B t0 t I0); left; reflexivity|apply D, I0].
      + intros t0 I0. apply I. right. exact I0.
      + intros t0 t' [<-|I0] I'; [|apply (B t0 t' I0); right; exact I']. inversion U as [|? ? Fu ?]; subst. rewrite Forall_forall in Fu. apply (Fu (fst t')). apply in_map, I'.
      + inversion U; assumption.
    - intros c Ec l. apply L. destruct t as [q a]. cbn [fst snd] in *. subst a. exact It.
  Qed.
  Lemma progress_andthen {A} (k : prog (errno + A)) Post t dn td s : progress dn (t :: td) s ->
    (forall s', progress (t :: dn) td s' -> seq false good Post k s') -> seq false good Post (andthen (run env t) k) s.
  Proof. intros P K. unfold andthen. eapply progress_run; [exact P|]. intros s' P'. apply K, P'. Qed.
  Lemma progress_ignoring {A} (k : prog A) Post t dn td s : progress dn (t :: td) s ->
    (forall s', progress (t :: dn) td s' -> seq false good Post k s') -> seq false good Post (ignoring (run env t) k) s.
  Proof. intros P K. unfold ignoring. eapply progress_run; [exact P|]. intros s' P'. apply K, P'. Qed.
End Tasks.

(** ** The build in terms of names *)
Lemma join_absolute a b : join (absolute a) (map Normal b) = absolute (a ++ b).
Proof. unfold absolute. rewrite map_app. destruct b; reflexivity. Qed.
Lemma local_landing src : local_relative_path src = map Normal (landing src).
Proof.
  unfold local_relative_path, landing.
  assert (H : forall acc, fold_left (fun rel c => match c with RootDir | CurDir => rel | ParentDir => pop rel | Normal _ => join rel [c] end) src (map Normal acc) =
    map Normal (fold_left (fun l c => match c with Normal n => l ++ [n] | ParentDir => removelast l | RootDir | CurDir => l end) src acc)).
  { induction src as [|c src IH]; intros acc; [reflexivity|]. cbn [fold_left]. destruct c; try apply IH; [rewrite pop_normal; apply IH|rewrite join_normal; apply IH]. }
  exact (H []).
Qed.
Lemma dotted_ext r e : r <> [] -> with_appended_extension (map Normal r) e = Some (map Normal (dotted r e)).
Proof. destruct r as [|x r _] using rev_ind; [congruence|]. intros _. rewrite ext_map. unfold dotted. rewrite removelast_last, last_last. reflexivity. Qed.

Definition bridge_tasks (p : place) (b : bridge) : list task :=
  let r := landing (br_source b) in
  [(header_at p r, AWrite (br_header b)); (magic_at p r, ARelative (header_at p r)); (code_at p r, AWrite (br_implementation b));
   (shared_header_at p r, ARelative (header_at p r)); (shared_code_at p r, ARelative (code_at p r))].
Definition tasks (p : place) (embedded : list ascii) (l : list bridge) : list task :=
  match at_prefix p with [] => [] | _ => [(crate_at p, ADirectory (at_manifest p))] end ++
  match at_header p with
  | None => [(shared_cxx_h_at p, AWrite embedded); (cxx_h_at p, ARelative (shared_cxx_h_at p))]
  | Some h => [(cxx_h_at p, AAbsolute (absolute h)); (shared_cxx_h_at p, AAbsolute (absolute h))]
  end ++ flat_map (bridge_tasks p) l.
Lemma tasks_outputs p e l : map (fun t => (sort_of (snd t), fst t)) (tasks p e l) = outputs p (map (fun b => landing (br_source b)) l).
Proof.
  unfold tasks, outputs. rewrite !map_app. f_equal; [destruct (at_prefix p); reflexivity|]. f_equal; [destruct (at_header p); reflexivity|].
  induction l as [|b l IH]; [reflexivity|]. cbn [flat_map map]. etransitivity; [apply map_app|]. apply (f_equal2 (@app _)); [reflexivity|exact IH].
Qed.
Lemma outputs_nonempty p l : forall k q, In (k, q) (outputs p l) -> q <> [].
Proof.
  intros k q I -> . unfold outputs in I. rewrite !in_app_iff in I. destruct I as [I|[I|I]].
  - destruct (at_prefix p); [destruct I|]. destruct I as [I|[]]. injection I as _ I. unfold crate_at in I. destruct (at_out p); discriminate.
  - assert (N1 : cxx_h_at p <> []) by (unfold cxx_h_at, include_dir; destruct (at_out p); discriminate). assert (N2 : shared_cxx_h_at p <> []) by (unfold shared_cxx_h_at; destruct (at_shared p); discriminate).
    destruct (at_header p); destruct I as [I|[I|[]]]; injection I as _ I; congruence.
  - apply in_flat_map in I as (r & _ & I).
    assert (N : forall a b e, a ++ b ++ dotted r e <> []) by (intros a b e E; apply app_eq_nil in E as [_ E]; apply app_eq_nil in E as [_ E]; unfold dotted in E; destruct (removelast r); discriminate).
    destruct I as [I|[I|[I|[I|[I|[]]]]]]; injection I as _ I; revert I.
    + apply N.
    + unfold magic_at, include_dir. destruct (at_out p); discriminate.
    + unfold code_at. destruct (at_out p); discriminate.
    + apply N.
    + apply N.
Qed.

Section Build.
  Variables (p : place) (prj : project) (embedded : list ascii) (others : list path) (l : list bridge) (s0 : fs).
  Let O := outputs p (map (fun b => landing (br_source b)) l).
  Hypothesis Loc : located p prj.
  Hypothesis Clear : clear p (map (fun b => landing (br_source b)) l).
  Let env := pr_target_set prj.
  Let good := good O s0.
  Let progress := progress O env s0.
  Lemma Names : forall k q, In (k, q) O -> q <> []. Proof using. apply outputs_nonempty. Qed.

  Lemma bridge_ok b {A} (f : errno + path -> prog A) Post dn td s : landing (br_source b) <> [] -> progress dn (bridge_tasks p b ++ td) s ->
    (forall s', progress (rev (bridge_tasks p b) ++ dn) td s' -> seq false good Post (f (inr (absolute (code_at p (landing (br_source b)))))) s') ->
    seq false good Post (bind (generate_bridge prj b) f) s.
  Proof.
    intros Nl P K. set (r := landing (br_source b)) in *. destruct Loc as (L1 & L2 & L3 & L4 & L5).
    assert (E : generate_bridge prj b =
      andthen (run env (header_at p r, AWrite (br_header b))) (
      ignoring (run env (magic_at p r, ARelative (header_at p r))) (
      andthen (run env (code_at p r, AWrite (br_implementation b))) (
      ignoring (run env (shared_header_at p r, ARelative (header_at p r))) (
      ignoring (run env (shared_code_at p r, ARelative (code_at p r))) (
      Ret (inr (absolute (code_at p r))))))))).
    { unfold generate_bridge, generated_paths. rewrite local_landing. fold r. rewrite !dotted_ext by exact Nl. rewrite L1, L3, L4.
      change [Normal "cxxbridge"] with (map Normal ["cxxbridge"]). change [Normal "include"] with (map Normal ["include"]). change [Normal "sources"] with (map Normal ["sources"]).
      rewrite !join_absolute. unfold run. cbn [fst snd]. unfold header_at, magic_at, code_at, shared_header_at, shared_code_at, include_dir.
      rewrite <- !app_assoc. cbn [app]. reflexivity. }
    rewrite E. clear E. apply seq_bind.
    eapply (progress_andthen O env s0 Clear Names); [exact P|]. intros s1 P1. eapply (progress_ignoring O env s0 Clear Names); [exact P1|]. intros s2 P2.
    eapply (progress_andthen O env s0 Clear Names); [exact P2|]. intros s3 P3. eapply (progress_ignoring O env s0 Clear Names); [exact P3|]. intros s4 P4.
    eapply (progress_ignoring O env s0 Clear Names); [exact P4|]. intros s5 P5. split; [exact (proj1 P5)|]. apply K. exact P5.
  Qed.
  Lemma bridges_ok : forall bs {A} (f : errno + list path -> prog A) Post dn s, (forall b, In b bs -> landing (br_source b) <> []) -> progress dn (flat_map (bridge_tasks p) bs) s ->
    (forall s', progress (rev (flat_map (bridge_tasks p) bs) ++ dn) [] s' -> seq false good Post (f (inr (map (fun b => absolute (code_at p (landing (br_source b)))) bs))) s') ->
    seq false good Post (bind (generate_bridges prj bs) f) s.
  Proof.
    induction bs as [|b bs IH]; intros A f Post dn s Hn P K; [apply K; exact P|]. cbn [generate_bridges]. apply seq_bind. cbn [flat_map] in P.
    eapply bridge_ok; [apply Hn; left; reflexivity|exact P|]. intros s1 P1. apply (IH _ _ _ (rev (bridge_tasks p b) ++ dn)); [intros b' I; apply Hn; right; exact I|exact P1|]. intros s2 P2.
    split; [exact (proj1 P2)|]. apply K. cbn [flat_map]. rewrite rev_app_distr, <- app_assoc. exact P2.
  Qed.
  Lemma build_ok : (forall b, In b l -> landing (br_source b) <> []) -> ready p (map (fun b => landing (br_source b)) l) s0 ->
    seq false good (fun s r => r = inr (map (fun b => absolute (code_at p (landing (br_source b)))) l, absolute (include_dir p) :: absolute (crate_dir p) :: others) /\
      forall t, In t (tasks p embedded l) -> done_in env s t) (build prj embedded others l) s0.
  Proof.
    intros Hn [W R Lk].
    assert (P : progress [] (tasks p embedded l) s0).
    { split; [split; [split; [exact W|]; split; [exact R|exact Lk]|]; split; [left; reflexivity|]; split; [auto|lia]|]. split; [constructor|]. split; [|split].
      - intros t I. unfold O. rewrite <- (tasks_outputs p embedded l). apply in_map_iff. exists t. auto.
      - intros t t' [].
      - unfold clear in Clear. rewrite <- (tasks_outputs p embedded l), map_map in Clear. cbn [snd] in Clear. exact Clear. }
    destruct Loc as (L1 & L2 & L3 & L4 & L5). unfold build, make_crate_dir. unfold tasks in P. apply seq_bind.
    assert (X : exists c, crate_dir p = c /\ forall s dn, progress dn (match at_header p with None => [(shared_cxx_h_at p, AWrite embedded); (cxx_h_at p, ARelative (shared_cxx_h_at p))] | Some h => [(cxx_h_at p, AAbsolute (absolute h)); (shared_cxx_h_at p, AAbsolute (absolute h))] end ++ flat_map (bridge_tasks p) l) s ->
      incl (match at_prefix p with [] => [] | _ => [(crate_at p, ADirectory (at_manifest p))] end) dn ->
      seq false good (fun s r => r = inr (map (fun b => absolute (code_at p (landing (br_source b)))) l, absolute (include_dir p) :: absolute c :: others) /\ forall t, In t (tasks p embedded l) -> done_in env s t)
        (bind (make_include_dir prj embedded) (fun r => match r with inl e => Ret (inl e) | inr include_dir => bind (generate_bridges prj l) (fun r => Ret match r with inl e => inl e | inr files => inr (files, include_dir :: absolute c :: others) end) end)) s).
    { exists (crate_dir p). split; [reflexivity|]. intros s dn Pd Id. unfold make_include_dir. rewrite L3, L4, L5.
      change [Normal "cxxbridge"] with (map Normal ["cxxbridge"]). change [Normal "include"] with (map Normal ["include"]). change [Normal "rust"] with (map Normal ["rust"]). change [Normal "cxx.h"] with (map Normal ["cxx.h"]).
      rewrite !join_absolute. rewrite <- !app_assoc. cbn [app].
      assert (Fin : forall dn s, progress dn (flat_map (bridge_tasks p) l) s -> (forall t, In t (tasks p embedded l) -> In t dn \/ In t (flat_map (bridge_tasks p) l)) ->
        seq false good (fun s r => r = inr (map (fun b => absolute (code_at p (landing (br_source b)))) l, absolute (include_dir p) :: absolute (crate_dir p) :: others) /\ forall t, In t (tasks p embedded l) -> done_in env s t)
        (bind (generate_bridges prj l) (fun r => Ret match r with inl e => inl e | inr files => inr (files, absolute (at_out p ++ ["cxxbridge"; "include"]) :: absolute (crate_dir p) :: others) end)) s).
      { intros dn0 s1 P1 H1. apply (bridges_ok l _ _ dn0); [exact Hn|exact P1|]. intros s2 (G2 & D2 & _). split; [exact G2|]. split; [reflexivity|]. intros t I. rewrite Forall_forall in D2. apply D2. apply in_or_app. destruct (H1 t I); [right; assumption|left; apply -> in_rev; assumption]. }
      assert (HT : forall t, In t (tasks p embedded l) -> In t dn \/ In t (match at_header p with None => [(shared_cxx_h_at p, AWrite embedded); (cxx_h_at p, ARelative (shared_cxx_h_at p))] | Some h => [(cxx_h_at p, AAbsolute (absolute h)); (shared_cxx_h_at p, AAbsolute (absolute h))] end) \/ In t (flat_map (bridge_tasks p) l)).
      { intros t I. unfold tasks in I. rewrite !in_app_iff in I. destruct I as [I|I]; [left; apply Id, I|right; exact I]. }
      destruct (at_header p) as [h|]; cbn [option_map]; apply seq_bind.
      - change (absolute_symlink_file (absolute h) (absolute (at_out p ++ ["cxxbridge"; "include"; "rust"; "cxx.h"]))) with (run env ((at_out p ++ ["cxxbridge"; "include"; "rust"; "cxx.h"]), AAbsolute (absolute h))).
        change (absolute_symlink_file (absolute h) (absolute (at_shared p ++ ["rust"; "cxx.h"]))) with (run env ((at_shared p ++ ["rust"; "cxx.h"]), AAbsolute (absolute h))).
        assert (Ec : cxx_h_at p = at_out p ++ ["cxxbridge"; "include"; "rust"; "cxx.h"]) by (unfold cxx_h_at, include_dir; rewrite <- app_assoc; reflexivity). rewrite <- Ec.
        eapply (progress_andthen O env s0 Clear Names); [exact Pd|]. intros s1 P1. eapply (progress_andthen O env s0 Clear Names); [exact P1|]. intros s2 P2. split; [exact (proj1 P2)|].
        apply Fin with (1 := P2). intros t I. destruct (HT t I) as [I1|[I1|I1]]; [left; right; right; exact I1| |right; exact I1]. destruct I1 as [<-|[<-|[]]]; left; [right; left; reflexivity|left; reflexivity].
      - change (out_write (absolute (at_shared p ++ ["rust"; "cxx.h"])) embedded) with (run env (shared_cxx_h_at p, AWrite embedded)).
        change (absolute (at_shared p ++ ["rust"; "cxx.h"])) with (absolute (shared_cxx_h_at p)).
        assert (Ec : cxx_h_at p = at_out p ++ ["cxxbridge"; "include"; "rust"; "cxx.h"]) by (unfold cxx_h_at, include_dir; rewrite <- app_assoc; reflexivity). rewrite <- Ec.
        change (relative_symlink_file (pr_target_set prj) (absolute (shared_cxx_h_at p)) (absolute (cxx_h_at p))) with (run env (cxx_h_at p, ARelative (shared_cxx_h_at p))).
        eapply (progress_andthen O env s0 Clear Names); [exact Pd|]. intros s1 P1. eapply (progress_andthen O env s0 Clear Names); [exact P1|]. intros s2 P2. split; [exact (proj1 P2)|].
        apply Fin with (1 := P2). intros t I. destruct (HT t I) as [I1|[I1|I1]]; [left; right; right; exact I1| |right; exact I1]. destruct I1 as [<-|[<-|[]]]; left; [right; left; reflexivity|left; reflexivity]. }
    destruct X as (c & Ec & X). rewrite Ec. rewrite L1. destruct (at_prefix p) as [|x pre] eqn:Ep.
    - cbn [map app] in *. rewrite L2. split; [exact (proj1 P)|]. assert (Ec' : c = at_manifest p) by (rewrite <- Ec; unfold crate_dir; rewrite Ep; reflexivity). rewrite <- Ec'. eapply X; [exact P|intros t []].
    - cbn [map]. change (Normal x :: map Normal pre) with (map Normal (x :: pre)). rewrite L2, L3. change [Normal "cxxbridge"] with (map Normal ["cxxbridge"]). change [Normal "crate"] with (map Normal ["crate"]).
      rewrite !join_absolute. rewrite <- !app_assoc. cbn [app].
      assert (Er : relative_symlink_dir (pr_target_set prj) (absolute (at_manifest p)) (absolute (at_out p ++ "cxxbridge" :: "crate" :: x :: pre)) = run env (crate_at p, ADirectory (at_manifest p))).
      { unfold run, crate_at. cbn [fst snd]. rewrite Ep. reflexivity. }
      rewrite Er. eapply (progress_ignoring O env s0 Clear Names); [exact P|]. intros s1 P1. split; [exact (proj1 P1)|].
      assert (Ec' : c = at_out p ++ ["cxxbridge"; "crate"]) by (rewrite <- Ec; unfold crate_dir; rewrite Ep; reflexivity). rewrite <- Ec'. eapply X; [exact P1|intros t I; exact I].
  Qed.
End Build.
