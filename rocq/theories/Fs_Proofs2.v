(** One process without faults: what it touches; and faults: what it preserves. *)
From Verif Require Import Base Paths_Model Fs_Model Fs_Spec Fs_Proofs.
From Coq Require Import Lia.

Lemma snoc_cases {A} (q : list A) x p y : q ++ [x] = p ++ [y] -> q = p /\ x = y.
Proof. apply app_inj_tail. Qed.
Lemma set_same s q n : tree (set_node s q n) q = n. Proof. cbn. rewrite name_eqb_refl. reflexivity. Qed.
Lemma set_other s q n r : r <> q -> tree (set_node s q n) r = tree s r. Proof. intros N. cbn. destruct (name_eqb_spec r q); congruence. Qed.
Lemma prefix_len (a b : name) : is_prefix a b = true -> (List.length a <= List.length b)%nat.
Proof. rewrite is_prefix_spec. intros [r ->]. rewrite app_length. lia. Qed.
Lemma prefix_antisym a b : is_prefix a b = true -> is_prefix b a = true -> a = b.
Proof. rewrite !is_prefix_spec. intros [r ->] [r' E]. apply (f_equal (@List.length _)) in E as L. rewrite !app_length in L. destruct r; [rewrite app_nil_r; reflexivity|cbn in L; lia]. Qed.
Lemma above_not_below (q : name) x r : is_prefix (q ++ x :: r) q = false.
Proof. destruct (is_prefix (q ++ x :: r) q) eqn:E; [|reflexivity]. apply prefix_len in E. rewrite app_length in E. cbn in E. lia. Qed.

Lemma wf_set s d x n : wf s -> tree s d = Some Dir -> (tree s (d ++ [x]) = Some Dir -> n = Some Dir) -> (forall i, n = Some (File i) -> (i < fresh s)%nat) -> wf (set_node s (d ++ [x]) n).
Proof.
  intros W D Ne Nf. split.
  - rewrite set_other; [apply (wf_root s W)|]. destruct d; discriminate.
  - intros q y m E. destruct (name_eqb_spec (q ++ [y]) (d ++ [x])) as [Eq|Nq].
    + apply snoc_cases in Eq as [-> ->]. rewrite set_other; [exact D|]. intros Ed. apply (f_equal (@List.length _)) in Ed. rewrite app_length in Ed. cbn in Ed. lia.
    + rewrite set_other in E by exact Nq. apply (wf_parent s W) in E. destruct (name_eqb_spec q (d ++ [x])) as [->|Nq']; [rewrite set_same; apply Ne; exact E|rewrite set_other by exact Nq'; exact E].
  - intros q i E. cbn in E |- *. destruct (name_eqb q (d ++ [x])); [apply Nf; exact E|exact (wf_fresh s W q i E)].
Qed.
Lemma wf_data s i d : wf s -> wf (set_data s i d).
Proof. intros [A B C]. split; assumption. Qed.
Lemma real_set s p q n : real_parents s p -> (n = None \/ n = Some Dir \/ (forall y r, p <> q ++ y :: r)) -> real_parents (set_node s q n) p.
Proof.
  intros R H a x r E. cbn. destruct (name_eqb_spec a q) as [->|N]; [|exact (R a x r E)]. destruct H as [->|[->|H]]; auto. exfalso. exact (H x r E).
Qed.
Definition remove_below (s : fs) (p : name) : fs := Fs (fun r => if is_prefix p r then None else tree s r) (data s) (fresh s).
Lemma wf_remove s d x : wf s -> wf (remove_below s (d ++ [x])).
Proof.
  intros W. split; cbn.
  - destruct d; cbn; apply (wf_root s W).
  - intros q y m E. destruct (is_prefix (d ++ [x]) (q ++ [y])) eqn:P; [discriminate|]. apply (wf_parent s W) in E. destruct (is_prefix (d ++ [x]) q) eqn:P'; [|exact E].
    apply is_prefix_spec in P' as [r ->]. assert (is_prefix (d ++ [x]) (((d ++ [x]) ++ r) ++ [y]) = true) by (apply is_prefix_spec; exists (r ++ [y]); rewrite <- !app_assoc; reflexivity). congruence.
  - intros q i E. destruct (is_prefix (d ++ [x]) q); [discriminate|exact (wf_fresh s W q i E)].
Qed.
Lemma real_remove s p : real_parents s p -> real_parents (remove_below s p) p.
Proof. intros R q x r E. cbn. subst p. rewrite above_not_below. exact (R q x r eq_refl). Qed.

(** making all missing directories, whatever happens in between *)
Section Mkdirs.
  Variables (p : name) (Rl : fs -> fs -> Prop) (Phi : fs -> Prop).
  Hypothesis Hwf : forall s, Phi s -> wf s /\ real_parents s p.
  Hypothesis Hdir : forall s s' q x r, p = q ++ x :: r -> Rl s s' -> tree s q = Some Dir -> tree s' q = Some Dir.
  Hypothesis Hmk : forall s q y x r, p = (q ++ [y]) ++ x :: r -> Phi s -> tree s q = Some Dir -> tree s (q ++ [y]) = None -> Phi (set_node s (q ++ [y]) (Some Dir)).
  Fixpoint rg {A} (Gt : fs -> fs -> Prop) (Post : fs -> A -> Prop) (m : prog A) (s0 : fs) : Prop :=
    forall s, Rl s0 s -> Phi s ->
    match m with
    | Ret a => Post s a
    | Call o k => forall n s' r, sys n s o = (s', r) -> Gt s s' /\ Phi s' /\ rg Gt Post (k r) s'
    end.
  Variable Gt : fs -> fs -> Prop.
  Hypothesis Grefl : forall s, Gt s s.
  Hypothesis Gmk : forall s q y x r, p = (q ++ [y]) ++ x :: r -> Phi s -> tree s q = Some Dir -> tree s (q ++ [y]) = None -> Gt s (set_node s (q ++ [y]) (Some Dir)).
  Lemma rg_bind {A B} (m : prog A) (f : A -> prog B) Post Q : forall s0,
    rg Gt Post m s0 -> (forall s a, Post s a -> forall s', Rl s s' -> Phi s' -> Post s' a) -> (forall s, Phi s -> Rl s s) -> (forall s s' s'', Rl s s' -> Rl s' s'' -> Rl s s'') ->
    (forall s a, Phi s -> Post s a -> rg Gt Q (f a) s) -> rg Gt Q (bind m f) s0.
  Proof.
    induction m as [a|o k IH]; intros s0 H St Rr Rt Hf.
    - cbn [bind]. cbn [rg] in H.
      assert (X : forall s, Rl s0 s -> Phi s -> rg Gt Q (f a) s) by (intros s R Ph; apply Hf; [exact Ph|apply H; assumption]).
      destruct (f a) as [b|o k] eqn:E; cbn [rg] in X |- *; intros s R Ph; specialize (X s R Ph); specialize (X s (Rr s Ph) Ph); exact X.
    - cbn [bind rg] in *. intros s R Ph n s' r E. destruct (H s R Ph n s' r E) as (G1 & P1 & H1). split; [exact G1|]. split; [exact P1|]. apply IH; assumption.
  Qed.
  Lemma unless_dir_ok q x r e : p = q ++ x :: r -> forall s0, tree s0 q = Some Dir -> rg Gt (fun s o => o = None /\ tree s q = Some Dir) (unless_dir (absolute q) e) s0.
  Proof.
    intros E s0 D. cbn [unless_dir is_dir bind rg]. intros s R Ph n s' r0 Sy. destruct (Hwf s Ph) as [W Rp]. assert (D' : tree s q = Some Dir) by (apply (Hdir s0 s q x r); assumption).
    cbn [sys] in Sy. rewrite <- (app_nil_r (absolute q)), resolve_dir, walk_nil, D' in Sy by assumption. injection Sy as <- <-.
    split; [apply Grefl|]. split; [exact Ph|]. intros s2 R2 Ph2. cbn. split; [reflexivity|]. apply (Hdir s s2 q x r); assumption.
  Qed.
  Lemma mkdirs_ok (Rr : forall s, Phi s -> Rl s s) (Rt : forall s s' s'', Rl s s' -> Rl s' s'' -> Rl s s'') n : forall q x r, p = q ++ x :: r -> (List.length q < n)%nat -> forall s0,
    rg Gt (fun s o => o = None /\ tree s q = Some Dir) (create_dir_all n (absolute q)) s0.
  Proof.
    induction n as [|n IH]; intros q x r E L s0; [lia|]. cbn [create_dir_all absolute is_nil rg]. fold (absolute q). intros s R Ph m s' r0 Sy. destruct (Hwf s Ph) as [W Rp]. cbn [sys] in Sy.
    destruct q as [|y q _] using rev_ind.
    { change (resolve s false (absolute [])) with (walk 40 (tree s) false [] [RootDir]) in Sy. rewrite walk_cons, (wf_root s W), walk_nil in Sy. injection Sy as <- <-.
      split; [apply Grefl|]. split; [exact Ph|]. apply (unless_dir_ok [] x r); [exact E|apply (wf_root s W)]. }
    assert (Eq : p = q ++ y :: (x :: r)) by (rewrite E, <- app_assoc; reflexivity).
    destruct (Rp q y (x :: r) Eq) as [Dq|Dq].
    - rewrite resolve_missing in Sy; [|exact W| |exact Dq].
      2:{ apply (real_below s _ (x :: r)). rewrite <- E. exact Rp. }
      injection Sy as <- <-. split; [apply Grefl|]. split; [exact Ph|]. rewrite parent_absolute.
      eapply rg_bind; [apply (IH q y (x :: r)); [exact Eq|rewrite app_length in L; cbn in L; lia]|intros s1 a [-> D1] s2 R2 _; split; [reflexivity|apply (Hdir s1 s2 q y (x :: r)); assumption]|exact Rr|exact Rt|].
      intros s1 a Ph1 [-> D1]. cbn [rg]. intros s2 R2 Ph2 m2 s2' r2 Sy2. destruct (Hwf s2 Ph2) as [W2 Rp2]. assert (D2 : tree s2 q = Some Dir) by (apply (Hdir s1 s2 q y (x :: r)); assumption).
      cbn [sys] in Sy2. rewrite resolve_in in Sy2; [|exact W2|exact D2|discriminate].
      destruct (Rp2 (q ++ [y]) x r E) as [N2|N2]; rewrite N2 in Sy2; injection Sy2 as <- <-.
      + split; [apply (Gmk s2 q y x r); assumption|]. split; [apply (Hmk s2 q y x r); assumption|]. cbn [rg]. intros s3 R3 _. split; [reflexivity|]. apply (Hdir (set_node s2 (q ++ [y]) (Some Dir)) s3 (q ++ [y]) x r); [exact E|exact R3|apply set_same].
      + split; [apply Grefl|]. split; [exact Ph2|]. apply (unless_dir_ok (q ++ [y]) x r); assumption.
    - rewrite resolve_in in Sy; [|exact W|exact Dq|discriminate].
      destruct (Rp (q ++ [y]) x r E) as [N|N]; rewrite N in Sy; injection Sy as <- <-.
      + split; [apply (Gmk s q y x r); assumption|]. split; [apply (Hmk s q y x r); assumption|]. cbn [rg]. intros s3 R3 _. split; [reflexivity|]. apply (Hdir (set_node s (q ++ [y]) (Some Dir)) s3 (q ++ [y]) x r); [exact E|exact R3|apply set_same].
      + split; [apply Grefl|]. split; [exact Ph|]. apply (unless_dir_ok (q ++ [y]) x r); assumption.
  Qed.
End Mkdirs.
Lemma fs_create_ok p (Rl : fs -> fs -> Prop) (Phi : fs -> Prop) (Gt : fs -> fs -> Prop) : 
  (forall s, Phi s -> wf s /\ real_parents s p) ->
  (forall s s' q x r, p = q ++ x :: r -> Rl s s' -> tree s q = Some Dir -> tree s' q = Some Dir) ->
  (forall s q y x r, p = (q ++ [y]) ++ x :: r -> Phi s -> tree s q = Some Dir -> tree s (q ++ [y]) = None -> Phi (set_node s (q ++ [y]) (Some Dir))) ->
  (forall s, Gt s s) ->
  (forall s q y x r, p = (q ++ [y]) ++ x :: r -> Phi s -> tree s q = Some Dir -> tree s (q ++ [y]) = None -> Gt s (set_node s (q ++ [y]) (Some Dir))) ->
  (forall s, Phi s -> Rl s s) -> (forall s s' s'', Rl s s' -> Rl s' s'' -> Rl s s'') ->
  forall q x, p = q ++ [x] -> forall s0, rg Rl Phi Gt (fun s o => o = None /\ tree s q = Some Dir) (fs_create_dir_all (absolute q)) s0.
Proof.
  intros H1 H2 H3 H4 H5 H6 H7 q x E s0. unfold fs_create_dir_all. apply (mkdirs_ok p Rl Phi H1 H2 H3 Gt H4 H5 H6 H7) with (x := x) (r := []); [exact E|].
  unfold absolute. cbn. rewrite map_length. lia.
Qed.
Lemma rg_seq {A} (Phi : fs -> Prop) Gt Post (m : prog A) : forall s, Phi s -> rg eq Phi Gt Post m s -> seq false Phi Post m s.
Proof.
  induction m as [a|o k IH]; intros s Ph H; cbn [rg seq] in *; (split; [exact Ph|]); specialize (H s eq_refl Ph); [exact H|].
  split; [|discriminate]. intros n s' r E. destruct (H n s' r E) as (_ & P1 & H1). apply IH; assumption.
Qed.
Lemma seq_weaken {A} f (P2 P : fs -> Prop) (Post : fs -> A -> Prop) m : (forall s, P2 s -> P s) -> forall s, seq f P2 Post m s -> seq f P (fun s a => P2 s /\ Post s a) m s.
Proof.
  intros I. induction m as [a|o k IH]; intros s [H1 H2]; (split; [auto|]); [auto|]. destruct H2 as [H2 H3]. split; intros; apply IH; eauto.
Qed.

(** ** What is touched *)
Section Frame.
  Variables (d : name) (x : string) (s0 : fs).
  Let p := d ++ [x].
  Definition undisturbed (s : fs) : Prop := wf s /\ real_parents s p /\ only_touches p s0 s.
  Lemma not_self q : is_prefix p q = false -> q <> p.
  Proof. intros P ->. rewrite is_prefix_refl in P. discriminate. Qed.
  Lemma u_mkdir s q y z r : p = (q ++ [y]) ++ z :: r -> undisturbed s -> tree s q = Some Dir -> tree s (q ++ [y]) = None -> undisturbed (set_node s (q ++ [y]) (Some Dir)).
  Proof.
    intros E (W & R & T1 & T2 & T3) D N. split; [apply wf_set; auto; discriminate|]. split; [apply real_set; auto|]. split; [|split; assumption].
    intros a Pa. destruct (name_eqb_spec a (q ++ [y])) as [->|Na]; [|rewrite set_other by exact Na; apply T1; exact Pa].
    right. rewrite set_same. split; [apply is_prefix_spec; exists (z :: r); exact E|]. split; [|reflexivity]. destruct (T1 _ Pa) as [T|(_ & T & _)]; congruence.
  Qed.
  Lemma p_not_above : forall y r, p <> (d ++ [x]) ++ y :: r.
  Proof using. intros y r E. apply (f_equal (@List.length _)) in E. unfold p in E. rewrite !app_length in E. cbn in E. lia. Qed.
  Lemma u_set s n : undisturbed s -> tree s d = Some Dir -> (tree s p = Some Dir -> n = Some Dir) -> (forall i, n <> Some (File i)) -> undisturbed (set_node s p n).
  Proof.
    intros (W & R & T1 & T2 & T3) D Ne Nf. split; [apply wf_set; auto; intros i ->; exfalso; eapply Nf; reflexivity|].
    split; [apply real_set; [exact R|right; right; apply p_not_above]|]. split; [|split; assumption].
    intros a Pa. rewrite set_other by (apply not_self; exact Pa). apply T1. exact Pa.
  Qed.
  Lemma u_remove s : undisturbed s -> undisturbed (remove_below s p).
  Proof.
    intros (W & R & T1 & T2 & T3). split; [apply wf_remove, W|]. split; [apply real_remove, R|]. split; [|split; assumption]. intros a Pa. cbn. rewrite Pa. apply T1, Pa.
  Qed.
  Lemma u_data s i b : (fresh s0 <= i)%nat -> undisturbed s -> undisturbed (set_data s i b).
  Proof.
    intros L (W & R & T1 & T2 & T3). split; [apply wf_data, W|]. split; [exact R|]. split; [exact T1|]. split; [|exact T3]. intros j Lj. cbn. destruct (Nat.eqb_spec j i); [lia|auto].
  Qed.
  Lemma u_new s : undisturbed s -> tree s d = Some Dir -> tree s p = None ->
    undisturbed (Fs (fun r => if name_eqb r p then Some (File (fresh s)) else tree s r) (fun j => if Nat.eqb j (fresh s) then [] else data s j) (S (fresh s))).
  Proof.
    intros (W & R & T1 & T2 & T3) D N. split; [|split; [|split; [|split]]].
    - assert (W' : wf (Fs (tree s) (data s) (S (fresh s)))) by (destruct W as [A B C]; split; auto; intros q i H; cbn in H |- *; specialize (C q i H); lia).
      pose proof (wf_set _ d x (Some (File (fresh s))) W' D) as H. destruct H as [A B C]; [unfold p in N; cbn; rewrite N; discriminate|intros i E; injection E as <-; cbn; lia|]. split; assumption.
    - pose proof (real_set s p p (Some (File (fresh s))) R (or_intror (or_intror p_not_above))) as H. exact H.
    - intros a Pa. cbn. destruct (name_eqb_spec a p) as [->|]; [exfalso; apply (not_self p Pa); reflexivity|]. apply T1, Pa.
    - intros j Lj. cbn. destruct (Nat.eqb_spec j (fresh s)); [lia|auto].
    - cbn. lia.
  Qed.
  Lemma resolve_p s f : wf s -> tree s d = Some Dir -> (f = true -> forall t, tree s p <> Some (Link t)) ->
    resolve s f (absolute p) = match tree s p with None => Missing p | Some _ => At p end.
  Proof. apply resolve_in. Qed.
  Lemma resolve_p_missing s f : wf s -> real_parents s p -> tree s d = None -> resolve s f (absolute p) = Fails ENOENT.
  Proof. apply resolve_missing. Qed.
  Definition stored (c : list ascii) (s : fs) (o : outcome) : Prop := o = None /\ contains s p c.
  Lemma write_new c s : undisturbed s -> tree s d = Some Dir -> tree s p = None -> seq false undisturbed (stored c) (fs_write (absolute p) c) s.
  Proof.
    intros U D N. split; [exact U|]. split; [|discriminate]. intros n s' r E. cbn [sys] in E.
    rewrite resolve_p in E; [|apply U|exact D|intros _ t H; rewrite N in H; discriminate]. rewrite N in E. injection E as <- <-.
    pose (s1 := Fs (fun r => if name_eqb r p then Some (File (fresh s)) else tree s r) (fun j => if Nat.eqb j (fresh s) then [] else data s j) (S (fresh s))). fold s1.
    apply seq_mono with (P := fun s2 o => (o = None -> contains s2 p c) /\ (false = false -> o = None)); [intros s2 o [H1 H2]; specialize (H2 eq_refl); split; [exact H2|auto]|].
    apply (seq_write_all false undisturbed (fun s2 o => o = None -> contains s2 p c) (fun s2 => undisturbed s2 /\ tree s2 = tree s1) (fresh s) c).
    - intros s2 H. apply H.
    - intros s2 b [H1 H2]. split; [apply u_data; [apply U|exact H1]|exact H2].
    - intros s2 [H1 H2] Ed _. exists (fresh s). split; [rewrite H2; cbn; rewrite name_eqb_refl; reflexivity|exact Ed].
    - discriminate.
    - lia.
    - lia.
    - split; [apply u_new; assumption|reflexivity].
    - cbn. rewrite Nat.eqb_refl. reflexivity.
  Qed.
  Lemma remove_existing s n : undisturbed s -> tree s p = Some n ->
    seq false undisturbed (fun s1 _ => undisturbed s1 /\ tree s1 d = Some Dir /\ tree s1 p = None) (best_effort_remove (absolute p)) s.
  Proof.
    intros U N. assert (D : tree s d = Some Dir) by (eapply wf_parent; [apply U|exact N]).
    assert (Ls : resolve s false (absolute p) = At p) by (rewrite resolve_p by (try apply U; try exact D; discriminate); rewrite N; reflexivity).
    assert (Nd : d <> p) by (intros E; apply (f_equal (@List.length _)) in E; unfold p in E; rewrite app_length in E; cbn in E; lia).
    split; [exact U|]. split; [|discriminate]. intros m s' r E. cbn [sys] in E. rewrite Ls, N in E. injection E as <- <-.
    destruct n as [i| |t]; cbn [kind_of].
    - split; [exact U|]. split; [|discriminate]. intros m2 s2 r2 E2. cbn [sys] in E2. rewrite Ls, N in E2. injection E2 as <- <-.
      assert (U2 : undisturbed (set_node s p None)) by (apply u_set; auto; congruence). split; [exact U2|]. split; [exact U2|]. split; [rewrite set_other by exact Nd; exact D|apply set_same].
    - split; [exact U|]. split; [|discriminate]. intros m2 s2 r2 E2. cbn [sys] in E2. rewrite Ls, N in E2. injection E2 as <- <-.
      assert (U2 := u_remove s U). split; [exact U2|]. split; [exact U2|]. cbn. rewrite is_prefix_refl. split; [|reflexivity]. unfold p. rewrite above_not_below. exact D.
    - split; [exact U|]. split; [|discriminate]. intros m2 s2 r2 E2. cbn [sys] in E2. rewrite Ls, N in E2. injection E2 as <- <-.
      assert (U2 : undisturbed (set_node s p None)) by (apply u_set; auto; congruence). split; [exact U2|]. split; [exact U2|]. split; [rewrite set_other by exact Nd; exact D|apply set_same].
  Qed.
  Lemma lstat_false s : wf s -> real_parents s p -> sys 0 s (Lstat (absolute p)) = (s, match tree s p with Some n => RKind (kind_of n) | None => RErr ENOENT end).
  Proof.
    intros W R. cbn [sys]. destruct (parent_or s d x R) as [D|D].
    - rewrite resolve_p_missing by assumption. destruct (tree s p) eqn:E; [|reflexivity]. apply (wf_parent s W) in E. congruence.
    - rewrite resolve_p by (try assumption; discriminate). destruct (tree s p) eqn:E; [rewrite E; reflexivity|reflexivity].
  Qed.
  Lemma make_parent s : undisturbed s -> tree s p = None ->
    seq false undisturbed (fun s1 o => undisturbed s1 /\ o = None /\ tree s1 d = Some Dir /\ tree s1 p = None) (fs_create_dir_all (absolute d)) s.
  Proof.
    intros U N. pose (P2 := fun s1 => undisturbed s1 /\ tree s1 p = None).
    eapply seq_mono; [|apply (seq_weaken false P2 undisturbed (fun s1 o => o = None /\ tree s1 d = Some Dir)); [intros s1 H; apply H|]].
    - intros s1 o [[H1 H2] [H3 H4]]. auto.
    - apply rg_seq with (Gt := fun _ _ => True); [split; assumption|]. apply fs_create_ok with (p := p) (x := x); auto.
      + intros s1 [H _]. split; apply H.
      + intros s1 s2 q y r E <- H. exact H.
      + intros s1 q y z r E [H1 H2] D M. split; [apply (u_mkdir s1 q y z r); assumption|]. rewrite set_other; [exact H2|]. rewrite E. intros E2. apply (f_equal (@List.length _)) in E2. rewrite app_length in E2. cbn in E2. lia.
      + intros s1 s2 s3 -> ->. reflexivity.
  Qed.
  Lemma out_write_frame c : wf s0 -> real_parents s0 p ->
    seq false undisturbed (fun s o => o = None /\ (s = s0 /\ reading_gives s0 (absolute p) c \/ contains s p c)) (out_write (absolute p) c) s0.
  Proof.
    intros W R. assert (U : undisturbed s0) by (split; [exact W|]; split; [exact R|]; split; [auto|]; split; auto).
    unfold out_write. apply seq_bind. split; [exact U|]. split; [|discriminate]. intros n s' r E.
    pose proof (lstat_false s0 W R) as Ls. change (sys 0 s0 (Lstat (absolute p))) with (sys n s0 (Lstat (absolute p))) in Ls. rewrite Ls in E. injection E as <- <-. clear Ls.
    destruct (tree s0 p) as [nd|] eqn:N.
    - split; [exact U|]. apply seq_bind. split; [exact U|]. split; [|discriminate]. intros m s1 r1 E1. injection E1 as <- <-. split; [exact U|].
      assert (X : seq false undisturbed (fun s o => o = None /\ (s = s0 /\ reading_gives s0 (absolute p) c \/ contains s p c)) (bind (best_effort_remove (absolute p)) (fun _ => fs_write (absolute p) c)) s0).
      { apply seq_bind. eapply seq_mono; [|apply (remove_existing s0 nd); assumption]. intros s1 _ (U1 & D1 & N1). eapply seq_mono; [|apply write_new; assumption]. intros s2 o [H1 H2]. auto. }
      destruct (resolve s0 true (absolute p)) as [q|q|e] eqn:Rq; try exact X. destruct (tree s0 q) as [[i| |t]|] eqn:Tq; try exact X.
      destruct (bytes_eqb_spec (data s0 i) c) as [<-|Nc]; [|exact X]. split; [exact U|]. split; [reflexivity|]. left. split; [reflexivity|]. intros k. cbn [sys]. rewrite Rq, Tq. reflexivity.
    - split; [exact U|]. change (parent (absolute p)) with (parent (absolute (d ++ [x]))). rewrite parent_absolute. apply seq_bind. eapply seq_mono; [|apply make_parent; assumption].
      intros s1 o (U1 & -> & D1 & N1). apply seq_bind. eapply seq_mono; [|apply (seq_weaken false undisturbed undisturbed); [auto|apply (write_new c); assumption]].
      intros s2 o [U2 [-> H2]]. split; [exact U2|]. split; [reflexivity|]. right. exact H2.
  Qed.
  Lemma prepare_frame : wf s0 -> real_parents s0 p ->
    seq false undisturbed (fun s o => undisturbed s /\ o = None /\ tree s d = Some Dir /\ tree s p = None) (prepare_parent (absolute p)) s0.
  Proof.
    intros W R. assert (U : undisturbed s0) by (split; [exact W|]; split; [exact R|]; split; [auto|]; split; auto).
    unfold prepare_parent. apply seq_bind. split; [exact U|]. split; [|discriminate]. intros n s' r E.
    pose proof (lstat_false s0 W R) as Ls. change (sys 0 s0 (Lstat (absolute p))) with (sys n s0 (Lstat (absolute p))) in Ls. rewrite Ls in E. injection E as <- <-. clear Ls.
    destruct (tree s0 p) as [nd|] eqn:N; (split; [exact U|]).
    - apply seq_bind. eapply seq_mono; [|apply (remove_existing s0 nd); assumption]. intros s1 _ (U1 & D1 & N1). split; [exact U1|]. auto.
    - change (parent (absolute p)) with (parent (absolute (d ++ [x]))). rewrite parent_absolute. eapply seq_mono; [|apply make_parent; assumption]. auto.
  Qed.
  Lemma symlink_new t e s : undisturbed s -> tree s d = Some Dir -> tree s p = None ->
    seq false undisturbed (fun s' o => o = None /\ tree s' p = Some (Link t)) (symlink_file t (absolute p) e) s.
  Proof.
    intros U D N. split; [exact U|]. split; [|discriminate]. intros n s' r E. cbn [sys] in E. rewrite resolve_p in E by (try apply U; try exact D; discriminate). rewrite N in E. injection E as <- <-.
    split; [apply u_set; auto; congruence|]. split; [reflexivity|apply set_same].
  Qed.
  Lemma absolute_frame t : wf s0 -> real_parents s0 p ->
    seq false undisturbed (fun s o => o = None /\ tree s p = Some (Link t)) (absolute_symlink_file t (absolute p)) s0.
  Proof.
    intros W R. unfold absolute_symlink_file. apply seq_bind. eapply seq_mono; [|apply prepare_frame; assumption]. intros s1 o (U1 & -> & D1 & N1). apply symlink_new; assumption.
  Qed.
  (** a relative link leads from the directory of the link to what the original leads to *)
  Definition leads (original t : path) (s : fs) : Prop :=
    t = original \/ exists q, resolve s true original = At q /\ resolve s true (join (absolute d) t) = At q.
  Lemma relative_frame env original : wf s0 -> real_parents s0 p ->
    seq false undisturbed (fun s o => o = None /\ exists t s1, tree s p = Some (Link t) /\ s = set_node s1 p (Some (Link t)) /\ tree s1 p = None /\ leads original t s1) (relative_symlink_file env original (absolute p)) s0.
  Proof.
    intros W R. unfold relative_symlink_file. apply seq_bind. eapply seq_mono; [|apply prepare_frame; assumption]. intros s1 o (U1 & -> & D1 & N1).
    assert (X : forall t, leads original t s1 -> seq false undisturbed (fun s o => o = None /\ exists t s1, tree s p = Some (Link t) /\ s = set_node s1 p (Some (Link t)) /\ tree s1 p = None /\ leads original t s1) (symlink_file t (absolute p) None) s1).
    { intros t L. split; [exact U1|]. split; [|discriminate]. intros n s' r E. cbn [sys] in E. rewrite resolve_p in E by (try apply U1; try exact D1; discriminate). rewrite N1 in E. injection E as <- <-.
      split; [apply u_set; auto; congruence|]. split; [reflexivity|]. exists t, s1. split; [apply set_same|]. auto. }
    apply seq_bind. unfold relativize. change (parent (absolute p)) with (parent (absolute (d ++ [x]))). rewrite parent_absolute.
    destruct (abstractly_relativize_symlink env original (absolute p)) as [r| |] eqn:Er; try (split; [exact U1|]; apply X; left; reflexivity).
    split; [exact U1|]. split; [|discriminate]. intros n s' r0 E. cbn [sys] in E. injection E as <- <-.
    destruct (resolve s1 true original) as [q|q|e] eqn:Rq; try (split; [exact U1|]; apply X; left; reflexivity).
    split; [exact U1|]. split; [|discriminate]. intros n2 s' r0 E. cbn [sys] in E. injection E as <- <-.
    destruct (resolve s1 true (join (absolute d) r)) as [q2|q2|e] eqn:Rq2; try (split; [exact U1|]; apply X; left; reflexivity).
    destruct (name_eqb_spec q q2) as [<-|]; (split; [exact U1|]); apply X; [right; exists q; auto|left; reflexivity].
  Qed.
End Frame.

(** ** Whatever fails and wherever a run stops, nothing is left that keeps the next run from succeeding *)
Fixpoint issues {A} (P : op -> Prop) (m : prog A) : Prop :=
  match m with Ret _ => True | Call o k => P o /\ forall r, issues P (k r) end.
Lemma issues_bind {A B} (P : op -> Prop) (m : prog A) (f : A -> prog B) : issues P m -> (forall a, issues P (f a)) -> issues P (bind m f).
Proof. induction m as [a|o k IH]; cbn; intros H Hf; [apply Hf|]. destruct H as [H1 H2]. split; auto. Qed.
Lemma issues_steps {A} faults (P : op -> Prop) (Phi : fs -> Prop) : (forall s o, P o -> Phi s -> (forall n, Phi (fst (sys n s o))) /\ (forall s', faulted s o s' -> Phi s')) ->
  forall s (m : prog A) s' m', issues P m -> Phi s -> steps faults (s, m) (s', m') -> Phi s'.
Proof.
  intros H s m s' m' I Ph R. remember (s, m) as a eqn:Ea. remember (s', m') as b eqn:Eb. revert s m Ea I Ph. induction R as [a|a b c S R IH]; intros s m -> I Ph; [congruence|].
  inversion S as [n s1 o k s2 r E|s1 o k s2 F E]; subst; destruct I as [I1 I2]; destruct (H s o I1 Ph) as [H1 H2].
  - eapply IH; [reflexivity|reflexivity|apply I2|]. specialize (H1 n). rewrite E in H1. exact H1.
  - eapply IH; [reflexivity|reflexivity|apply I2|]. apply H2, E.
Qed.
Definition above_or_at (p : name) (o : op) : Prop :=
  match o with
  | Lstat _ | Stat _ | Read _ | Realpath _ | Write _ _ _ => True
  | Mkdir q => exists a x r, q = absolute a /\ p = a ++ x :: r
  | Unlink q | RemoveAll q | Symlink _ q | OpenTrunc q => q = absolute p
  end.
Definition sound (p : name) (s : fs) : Prop := wf s /\ real_parents s p.
Lemma sound_kept d x s o : above_or_at (d ++ [x]) o -> sound (d ++ [x]) s -> (forall n, sound (d ++ [x]) (fst (sys n s o))) /\ (forall s', faulted s o s' -> sound (d ++ [x]) s').
Proof.
  intros Po [W R]. assert (Sd : sound (d ++ [x]) s) by (split; assumption).
  assert (Pn : forall y r, d ++ [x] <> (d ++ [x]) ++ y :: r) by (intros y r E; apply (f_equal (@List.length _)) in E; rewrite !app_length in E; cbn in E; lia).
  split.
  - intros n. destruct o as [q|q|q|q|q|q|q|t q|q|i off b]; cbn [above_or_at] in Po; cbn [sys]; try exact Sd.
    + destruct Po as (a & y & r & -> & E). destruct a as [|z a _] using rev_ind.
      { change (resolve s false (absolute [])) with (walk 40 (tree s) false [] [RootDir]). rewrite walk_cons, (wf_root s W), walk_nil. exact Sd. }
      assert (E2 : d ++ [x] = a ++ z :: (y :: r)) by (rewrite E, <- app_assoc; reflexivity).
      destruct (R a z (y :: r) E2) as [D|D].
      * rewrite resolve_missing; [exact Sd|exact W| |exact D]. apply (real_below s _ (y :: r)). rewrite <- E. exact R.
      * rewrite resolve_in by (auto; discriminate). destruct (tree s (a ++ [z])) as [m|] eqn:N; cbn [fst]; [exact Sd|]. split; [apply wf_set; auto; discriminate|apply real_set; auto].
    + subst q. destruct (parent_or s d x R) as [D|D]; [rewrite resolve_missing by assumption; exact Sd|]. rewrite resolve_in by (auto; discriminate).
      destruct (tree s (d ++ [x])) as [[i| |t]|] eqn:N; cbn [fst]; try exact Sd; rewrite N; cbn [fst]; try exact Sd; (split; [apply wf_set; auto; [congruence|discriminate]|apply real_set; auto]).
    + subst q. destruct (parent_or s d x R) as [D|D]; [rewrite resolve_missing by assumption; exact Sd|]. rewrite resolve_in by (auto; discriminate).
      destruct (tree s (d ++ [x])) as [[i| |t]|] eqn:N; cbn [fst]; try exact Sd; rewrite N; cbn [fst]; try exact Sd.
      * split; [apply wf_remove, W|apply real_remove, R].
      * split; [apply wf_set; auto; [congruence|discriminate]|apply real_set; auto].
    + subst q. destruct (parent_or s d x R) as [D|D]; [rewrite resolve_missing by assumption; exact Sd|]. rewrite resolve_in by (auto; discriminate).
      destruct (tree s (d ++ [x])) as [m|] eqn:N; cbn [fst]; try exact Sd. split; [apply wf_set; auto; [congruence|discriminate]|apply real_set; auto].
    + subst q. pose proof (resolve_found s true (absolute (d ++ [x])) W) as F. destruct (resolve s true (absolute (d ++ [x]))) as [q|q|e] eqn:Rq; cbn [fst]; try exact Sd.
      * destruct (tree s q) as [[i| |t]|]; cbn [fst]; try exact Sd. split; [apply wf_data, W|exact R].
      * destruct F as (d' & x' & -> & D' & N'). split.
        -- assert (W' : wf (Fs (tree s) (data s) (S (fresh s)))) by (destruct W as [A B C]; split; auto; intros q i H; cbn in H |- *; specialize (C q i H); lia).
           pose proof (wf_set _ d' x' (Some (File (fresh s))) W' D') as H. destruct H as [A B C]; [cbn; rewrite N'; discriminate|intros i E; injection E as <-; cbn; lia|]. split; assumption.
        -- apply (real_set s (d ++ [x]) (d' ++ [x']) (Some (File (fresh s))) R). right. right. intros y r E.
           (* then the file is missing because a directory above it is, or it exists and so do they *)
           destruct (parent_or s d x R) as [D|D]; [rewrite resolve_missing in Rq by assumption; discriminate|].
           assert (E3 : exists l, d = (d' ++ [x']) ++ l).
           { destruct r as [|z r _] using rev_ind; [change ((d' ++ [x']) ++ [y]) with ((d' ++ [x']) ++ [y]) in E; apply snoc_cases in E as [-> _]; exists []; rewrite app_nil_r; reflexivity|].
             change (y :: r ++ [z]) with ((y :: r) ++ [z]) in E. rewrite app_assoc in E. apply snoc_cases in E as [-> _]. exists (y :: r). reflexivity. }
           destruct E3 as [l ->]. destruct l as [|z l]; [rewrite app_nil_r in D; congruence|]. assert (H := wf_above s (d' ++ [x']) (z :: l) _ W D). rewrite N' in H. discriminate H. discriminate.
    + split; [apply wf_data, W|exact R].
  - intros s' F. inversion F as [|q q' t Rq Tq Ht Hp]; subst; [exact Sd|]. cbn in Po. subst q.
    destruct (parent_or s d x R) as [D|D]; [rewrite resolve_missing in Rq by assumption; discriminate|].
    rewrite resolve_in in Rq by (auto; discriminate). destruct (tree s (d ++ [x])) eqn:N; [|discriminate]. injection Rq as <-.
    split.
    + split; cbn; [|exact Hp|].
      * destruct (Ht []) as [E|(_ & E & _)]; [rewrite E; apply (wf_root s W)|]. destruct d; discriminate.
      * intros q i E. destruct (Ht q) as [E2|[E2 _]]; [|congruence]. rewrite E2 in E. exact (wf_fresh s W q i E).
    + intros q y r E. cbn. destruct (Ht q) as [E2|[E2 _]]; [rewrite E2; exact (R q y r E)|left; exact E2].
Qed.
Lemma create_issues d x n : forall a r, d ++ [x] = a ++ r -> r <> [] -> issues (above_or_at (d ++ [x])) (create_dir_all n (absolute a)).
Proof.
  induction n as [|n IH]; intros a r E Nr; [exact Logic.I|]. cbn [create_dir_all absolute is_nil]. fold (absolute a).
  assert (Pa : above_or_at (d ++ [x]) (Mkdir (absolute a))) by (destruct r as [|y r]; [congruence|exists a, y, r; auto]).
  assert (U : forall e, issues (above_or_at (d ++ [x])) (unless_dir (absolute a) e)) by (intros e; cbn; auto).
  split; [exact Pa|]. intros r0. destruct r0 as [|e| | | | |]; try exact Logic.I; try apply U. destruct e; try apply U.
  destruct a as [|y a _] using rev_ind; [rewrite parent_root; exact Logic.I|]. rewrite parent_absolute. apply issues_bind.
  - apply (IH a (y :: r)); [rewrite E, <- app_assoc; reflexivity|discriminate].
  - intros [e|]; [exact Logic.I|]. split; [exact Pa|]. intros r0. destruct r0; try exact Logic.I; apply U.
Qed.
Lemma write_issues (P : op -> Prop) n : (forall i off b, P (Write i off b)) -> forall i off b, issues P (write_all n i off b).
Proof. intros H. induction n as [|n IH]; intros i off [|c b]; cbn; auto. split; [apply H|]. intros r. destruct r as [| | | | | |[|k]]; cbn; auto. Qed.
Lemma remove_issues d x : issues (above_or_at (d ++ [x])) (best_effort_remove (absolute (d ++ [x]))).
Proof. split; [exact Logic.I|]. intros r. destruct r as [| |[]| | | |]; cbn; auto. Qed.
Lemma fs_write_issues d x c : issues (above_or_at (d ++ [x])) (fs_write (absolute (d ++ [x])) c).
Proof. split; [reflexivity|]. intros r. destruct r; try exact Logic.I. apply write_issues. intros; exact Logic.I. Qed.
Lemma out_write_issues d x c : issues (above_or_at (d ++ [x])) (out_write (absolute (d ++ [x])) c).
Proof.
  assert (X : issues (above_or_at (d ++ [x])) (bind (best_effort_remove (absolute (d ++ [x]))) (fun _ => fs_write (absolute (d ++ [x])) c))) by (apply issues_bind; [apply remove_issues|intros; apply fs_write_issues]).
  unfold out_write. apply issues_bind; [cbn; auto|]. intros [|].
  - apply issues_bind; [cbn; auto|]. intros [b|]; [|exact X]. destruct (bytes_eqb b c); [exact Logic.I|exact X].
  - rewrite parent_absolute. apply issues_bind; [apply (create_issues d x _ d [x]); [reflexivity|discriminate]|]. intros o. apply issues_bind; [apply fs_write_issues|intros; exact Logic.I].
Qed.
Lemma prepare_issues d x : issues (above_or_at (d ++ [x])) (prepare_parent (absolute (d ++ [x]))).
Proof.
  unfold prepare_parent. apply issues_bind; [cbn; auto|]. intros [|]; [apply issues_bind; [apply remove_issues|intros; exact Logic.I]|].
  rewrite parent_absolute. apply (create_issues d x _ d [x]); [reflexivity|discriminate].
Qed.
Lemma absolute_issues d x t : issues (above_or_at (d ++ [x])) (absolute_symlink_file t (absolute (d ++ [x]))).
Proof. apply issues_bind; [apply prepare_issues|]. intros o. cbn. auto. Qed.
Lemma relative_issues d x env t : issues (above_or_at (d ++ [x])) (relative_symlink_file env t (absolute (d ++ [x]))).
Proof.
  apply issues_bind; [apply prepare_issues|]. intros o. apply issues_bind; [|cbn; auto]. unfold relativize. destruct (abstractly_relativize_symlink env t (absolute (d ++ [x]))); try exact Logic.I.
  rewrite parent_absolute. cbn. split; [exact Logic.I|]. intros r0. destruct r0; try exact Logic.I. cbn. auto.
Qed.
