(** Several processes at once. *)
From Verif Require Import Base Paths_Model Fs_Model Fs_Spec Fs_Proofs Fs_Proofs2.
From Coq Require Import Lia.

Section Conc.
  Variables (d : name) (x : string) (sI : fs) (Cl : option node -> Prop).
  Hypothesis HclN : Cl None.
  Let p := d ++ [x].
  (** what is known about the file system stays true: directories stay, and so does [Cl] of what [p] is *)
  Definition more (s s' : fs) : Prop :=
    (forall q y r, p = q ++ y :: r -> tree s q = Some Dir -> tree s' q = Some Dir) /\ (Cl (tree s p) -> Cl (tree s' p)).
  Definition stage (s : fs) : Prop := undisturbed d x sI s /\ (Cl (tree s p) \/ s = sI).
  Definition grows (s s' : fs) : Prop := more s s' /\ (fresh s <= fresh s')%nat.
  Lemma more_refl s : more s s. Proof. split; auto. Qed.
  Lemma more_trans s s' s'' : more s s' -> more s' s'' -> more s s''.
  Proof. intros [A B] [A' B']. split; [intros q y r E H; apply (A' q y r E), (A q y r E), H|auto]. Qed.
  Lemma grows_refl s : grows s s. Proof. split; [apply more_refl|auto]. Qed.
  Lemma more_dir s s' : more s s' -> tree s d = Some Dir -> tree s' d = Some Dir.
  Proof. intros [A _]. apply (A d x []). reflexivity. Qed.
  Lemma d_not_p : d <> p.
  Proof using. intros E. apply (f_equal (@List.length _)) in E. unfold p in E. rewrite app_length in E. cbn in E. lia. Qed.
  Lemma above_not_p q y r : p = q ++ y :: r -> q <> p.
  Proof using. intros E E2. rewrite E2 in E. apply (f_equal (@List.length _)) in E. rewrite app_length in E. cbn in E. lia. Qed.

  Notation guar Post m s := (rg more stage grows Post m s).
  Lemma more_set s n : Cl n -> grows s (set_node s p n).
  Proof.
    intros C. split; [|cbn; lia]. split.
    - intros q y r E H. rewrite set_other by (eapply above_not_p; exact E). exact H.
    - intros _. rewrite set_same. exact C.
  Qed.
  Lemma more_remove s : grows s (remove_below s p).
  Proof.
    split; [|cbn; lia]. split.
    - intros q y r E H. cbn. assert (N : is_prefix p q = false) by (rewrite E; apply above_not_below). rewrite N. exact H.
    - intros _. cbn. rewrite is_prefix_refl. exact HclN.
  Qed.
  Lemma create_guar s0 : guar (fun s o => o = None /\ tree s d = Some Dir) (fs_create_dir_all (absolute d)) s0.
  Proof.
    apply fs_create_ok with (p := p) (x := x); try reflexivity.
    - intros s [(A & B & _) _]. split; assumption.
    - intros s s' q y r E [M _]. apply (M q y r E).
    - intros s q y z r E [U C] D N. split; [apply (u_mkdir d x sI s q y z r); assumption|]. left.
      rewrite set_other by (intros E2; apply (above_not_p _ z r E); symmetry; exact E2).
      destruct (tree s p) as [n|] eqn:Np; [|exact HclN]. exfalso. assert (H := wf_above s (q ++ [y]) (z :: r) n (proj1 U)). rewrite <- E in H. specialize (H Np). rewrite N in H. discriminate H. discriminate.
    - apply grows_refl.
    - intros s q y z r E [U C] D N. split; [|cbn; lia]. split.
      + intros a w l Ea H. cbn. destruct (name_eqb_spec a (q ++ [y])); [reflexivity|exact H].
      + rewrite set_other by (intros E2; apply (above_not_p _ z r E); symmetry; exact E2). auto.
    - intros s _. apply more_refl.
    - apply more_trans.
  Qed.
  Lemma lstat_at n s : stage s -> sys n s (Lstat (absolute p)) = (s, match tree s p with Some n => RKind (kind_of n) | None => RErr ENOENT end).
  Proof. intros [(W & R & _) _]. change (sys n s (Lstat (absolute p))) with (sys 0 s (Lstat (absolute p))). apply lstat_false; assumption. Qed.
  Lemma exists_guar s0 : guar (fun s (e : bool) => if e then tree s d = Some Dir else Cl (tree s p)) (fs_exists (absolute p)) s0.
  Proof.
    cbn [fs_exists rg]. intros s M St n s' r E. rewrite lstat_at in E by exact St. injection E as <- <-. split; [apply grows_refl|]. split; [exact St|].
    intros s2 M2 St2. destruct (tree s p) as [nd|] eqn:N.
    - apply (more_dir s); [exact M2|]. eapply wf_parent; [apply St|exact N].
    - apply M2. rewrite N. exact HclN.
  Qed.
  Lemma remove_guar s0 : tree s0 d = Some Dir -> guar (fun s (_ : unit) => tree s d = Some Dir /\ Cl (tree s p)) (best_effort_remove (absolute p)) s0.
  Proof.
    intros D0. cbn [best_effort_remove rg]. intros s M St n s' r E. rewrite lstat_at in E by exact St. injection E as <- <-. split; [apply grows_refl|]. split; [exact St|].
    assert (D : tree s d = Some Dir) by (apply (more_dir s0); assumption).
    assert (Ls : forall s2, more s s2 -> stage s2 -> resolve s2 false (absolute p) = match tree s2 p with None => Missing p | Some _ => At p end).
    { intros s2 M2 [(W & R & _) _]. apply (resolve_p d x); [exact W|apply (more_dir s); assumption|discriminate]. }
    assert (Same : forall s2, more s s2 -> stage s2 -> Cl (tree s2 p) \/ tree s2 p = tree s p).
    { intros s2 M2 [_ [C2| ->]]; [auto|]. destruct St as [_ [C| ->]]; [left; apply M2, C|right; reflexivity]. }
    assert (Fin : forall s1 s2, more s s1 -> tree s1 d = Some Dir -> Cl (tree s1 p) -> more s1 s2 -> tree s2 d = Some Dir /\ Cl (tree s2 p)).
    { intros s1 s2 _ D1 C1 M2. split; [apply (more_dir s1); assumption|apply M2, C1]. }
    destruct (tree s p) as [nd|] eqn:N.
    2:{ cbn [rg]. intros s2 M2 _. apply (Fin s s2); auto; [apply more_refl|rewrite N; exact HclN]. }
    assert (Un : nd <> Dir -> guar (fun s (_ : unit) => tree s d = Some Dir /\ Cl (tree s p)) (Call (Unlink (absolute p)) (fun _ => Ret tt)) s).
    { intros Nd. cbn [rg]. intros s2 M2 St2 n2 s3 r3 E3. cbn [sys] in E3. rewrite Ls in E3 by assumption.
      assert (D2 : tree s2 d = Some Dir) by (apply (more_dir s); assumption).
      destruct (tree s2 p) as [n3|] eqn:N2; [rewrite N2 in E3|].
      - assert (Rm : n3 <> Dir -> grows s2 (set_node s2 p None) /\ stage (set_node s2 p None) /\ (forall s4, more (set_node s2 p None) s4 -> stage s4 -> tree s4 d = Some Dir /\ Cl (tree s4 p))).
        { intros N3. split; [apply more_set, HclN|]. split.
          - split; [apply u_set; try assumption; try apply St2; [fold p; rewrite N2; congruence|discriminate]|]. left. rewrite set_same. exact HclN.
          - intros s4 M4 _. apply (Fin (set_node s2 p None) s4); auto; [eapply more_trans; [exact M2|apply more_set, HclN]|rewrite set_other by apply d_not_p; exact D2|rewrite set_same; exact HclN]. }
        destruct n3 as [i| |t]; injection E3 as <- <-; try (apply Rm; discriminate).
        split; [apply grows_refl|]. split; [exact St2|]. cbn. intros s4 M4 _. apply (Fin s2 s4); auto. destruct (Same s2 M2 St2) as [C|C]; [exact C|congruence].
      - injection E3 as <- <-. split; [apply grows_refl|]. split; [exact St2|]. cbn. intros s4 M4 _. apply (Fin s2 s4); auto. rewrite N2. exact HclN. }
    destruct nd as [i| |t]; cbn [kind_of]; try (apply Un; discriminate). clear Un.
    cbn [rg]. intros s2 M2 St2 n2 s3 r3 E3. cbn [sys] in E3. rewrite Ls in E3 by assumption.
    assert (D2 : tree s2 d = Some Dir) by (apply (more_dir s); assumption).
    assert (Stay : Cl (tree s2 p) -> grows s2 s2 /\ stage s2 /\ (forall s4, more s2 s4 -> stage s4 -> tree s4 d = Some Dir /\ Cl (tree s4 p))).
    { intros C2. split; [apply grows_refl|]. split; [exact St2|]. intros s4 M4 _. apply (Fin s2 s4); auto. }
    destruct (tree s2 p) as [n3|] eqn:N2; [rewrite N2 in E3|].
    - destruct n3 as [i| |t]; injection E3 as <- <-.
      + apply Stay. destruct (Same s2 M2 St2) as [C|C]; congruence.
      + change (Fs _ (data s2) (fresh s2)) with (remove_below s2 p). split; [apply more_remove|]. split.
        * split; [apply u_remove, St2|]. left. cbn. rewrite is_prefix_refl. exact HclN.
        * intros s4 M4 _. apply (Fin (remove_below s2 p) s4); auto; [eapply more_trans; [exact M2|apply more_remove]| |].
          -- cbn. replace (is_prefix p d) with false by (symmetry; apply above_not_below). exact D2.
          -- cbn. rewrite is_prefix_refl. exact HclN.
      + split; [apply more_set, HclN|]. split.
        * split; [apply u_set; try assumption; try apply St2; [fold p; rewrite N2; congruence|discriminate]|]. left. rewrite set_same. exact HclN.
        * intros s4 M4 _. apply (Fin (set_node s2 p None) s4); auto; [eapply more_trans; [exact M2|apply more_set, HclN]|rewrite set_other by apply d_not_p; exact D2|rewrite set_same; exact HclN].
    - injection E3 as <- <-. apply Stay. exact HclN.
  Qed.

  (** ** Processes that have not finished their part *)
  Section Early.
    Variable Win : fs -> fs -> prog outcome -> Prop.
    Fixpoint early (m : prog outcome) (s0 : fs) : Prop :=
      forall s, more s0 s -> stage s ->
      match m with
      | Ret _ => False
      | Call o k => forall n s' r, sys n s o = (s', r) -> grows s s' /\ stage s' /\ (early (k r) s' \/ Win s s' (k r))
      end.
    Lemma early_more m s s' : early m s -> more s s' -> early m s'.
    Proof. destruct m as [a|o k]; cbn [early]; intros H M s2 M2; apply H; eapply more_trans; eassumption. Qed.
    Lemma early_bind {A} (m : prog A) (f : A -> prog outcome) Post : forall s0, stage s0 -> guar Post m s0 -> (forall s a, stage s -> Post s a -> early (f a) s) -> early (bind m f) s0.
    Proof.
      induction m as [a|o k IH]; intros s0 St H Hf.
      - cbn [bind]. apply Hf; [exact St|]. apply H; [apply more_refl|exact St].
      - cbn [bind early rg] in *. intros s M Ss n s' r E. destruct (H s M Ss n s' r E) as (G1 & S1 & H1). split; [exact G1|]. split; [exact S1|]. left. apply IH; assumption.
    Qed.
  End Early.
End Conc.

(** ** Writers *)
Inductive writing (c : list ascii) (i : nat) : nat -> prog outcome -> Prop :=
| w_done : writing c i (List.length c) (Ret None)
| w_more off k : (off < List.length c)%nat -> (forall j, (0 < j <= List.length c - off)%nat -> writing c i (off + j) (k (RCount j))) ->
    writing c i off (Call (Write i off (skipn off c)) k).
Lemma skipn_plus {A} (c : list A) a b : skipn a (skipn b c) = skipn (b + a) c.
Proof. revert c. induction b as [|b IH]; intros c; [reflexivity|]. destruct c; [rewrite !skipn_nil; reflexivity|]. cbn [skipn Nat.add]. apply IH. Qed.
Lemma write_all_writing c i f : f None = Ret None -> forall n off, (List.length c - off <= n)%nat -> (off <= List.length c)%nat -> writing c i off (bind (write_all n i off (skipn off c)) f).
Proof.
  intros Hf. induction n as [|n IH]; intros off L O.
  - replace off with (List.length c) by lia. rewrite skipn_all. cbn. rewrite Hf. constructor.
  - cbn [write_all]. destruct (skipn off c) as [|b r] eqn:E.
    + assert (off = List.length c) as -> by (apply (f_equal (@List.length _)) in E; rewrite skipn_length in E; cbn in E; lia). cbn. rewrite Hf. constructor.
    + cbn [bind]. rewrite <- E. assert (off < List.length c)%nat by (apply (f_equal (@List.length _)) in E; rewrite skipn_length in E; cbn in E; lia).
      apply w_more; [assumption|]. intros j Lj. destruct j as [|j]; [lia|]. rewrite skipn_plus. apply IH; lia.
Qed.
Lemma write_all_writing' c i : forall n off, (List.length c - off <= n)%nat -> (off <= List.length c)%nat -> writing c i off (write_all n i off (skipn off c)).
Proof.
  induction n as [|n IH]; intros off L O.
  - replace off with (List.length c) by lia. rewrite skipn_all. cbn. constructor.
  - cbn [write_all]. destruct (skipn off c) as [|b r] eqn:E.
    + assert (off = List.length c) as -> by (apply (f_equal (@List.length _)) in E; rewrite skipn_length in E; cbn in E; lia). constructor.
    + rewrite <- E. assert (off < List.length c)%nat by (apply (f_equal (@List.length _)) in E; rewrite skipn_length in E; cbn in E; lia).
      apply w_more; [assumption|]. intros j Lj. destruct j as [|j]; [lia|]. rewrite skipn_plus. apply IH; lia.
Qed.
Lemma writing_ret c i off o : writing c i off (Ret o) -> off = List.length c /\ o = None.
Proof. intros W. inversion W. auto. Qed.
Lemma writing_same c i off m : writing c i off m -> forall j off', writing c j off' m -> (off < List.length c)%nat -> j = i /\ off' = off.
Proof. intros W j off' W' L. inversion W; subst; [lia|]. inversion W'; subst. auto. Qed.

Lemma nth_error_ext' {A} (a b : list A) : (List.length a <= List.length b)%nat -> (forall n, (n < List.length b)%nat -> nth_error a n = nth_error b n) -> a = b.
Proof.
  revert b. induction a as [|y a IH]; intros b L H.
  - destruct b as [|z b]; [reflexivity|]. specialize (H 0%nat). cbn in H. discriminate H. lia.
  - destruct b as [|z b]; [cbn in L; lia|]. assert (H0 := H 0%nat). cbn in H0. injection H0 as ->; [|lia]. f_equal. apply IH; [cbn in L; lia|]. intros n Ln. apply (H (S n)). cbn. lia.
Qed.
Lemma overwrite_len d off b c : (List.length d <= c)%nat -> (off + List.length b <= c)%nat -> (List.length (overwrite d off b) <= c)%nat.
Proof. intros A B. unfold overwrite. rewrite !app_length, firstn_length, repeat_length, skipn_length. lia. Qed.
Lemma overwrite_before d off b n : (n < off)%nat -> (n < List.length d)%nat -> nth_error (overwrite d off b) n = nth_error d n.
Proof.
  intros A B. unfold overwrite. rewrite nth_error_app1 by (rewrite firstn_length; lia).
  revert d n A B. induction off as [|o IH]; intros d n A B; [lia|]. destruct d as [|y d]; [cbn in B; lia|]. destruct n as [|n]; [reflexivity|]. cbn. apply IH; cbn in *; lia.
Qed.
Lemma overwrite_in d off b n : (off <= n < off + List.length b)%nat -> nth_error (overwrite d off b) n = nth_error b (n - off).
Proof.
  intros A. unfold overwrite. rewrite app_assoc. assert (L : List.length (firstn off d ++ repeat zero (off - List.length d)) = off) by (rewrite app_length, firstn_length, repeat_length; lia).
  rewrite nth_error_app2 by lia. rewrite L. rewrite nth_error_app1 by lia. reflexivity.
Qed.
Lemma nth_error_firstn {A} (l : list A) n : forall m, (n < m)%nat -> nth_error (firstn m l) n = nth_error l n.
Proof. revert l. induction n as [|n IH]; intros l [|m] L; try lia; destruct l; cbn; auto. apply IH. lia. Qed.
Lemma nth_error_skipn {A} (l : list A) a : forall n, nth_error (skipn a l) n = nth_error l (a + n).
Proof. revert l. induction a as [|a IH]; intros l n; [reflexivity|]. destruct l; [destruct n; reflexivity|]. cbn. apply IH. Qed.

Section Writers.
  Variables (d : name) (x : string) (sI : fs) (c : list ascii).
  Let p := d ++ [x].
  (** nothing is there, or a file made by one of the processes *)
  Definition ours (n : option node) : Prop := n = None \/ exists i, (fresh sI <= i)%nat /\ n = Some (File i).
  Lemma ours_none : ours None. Proof. left. reflexivity. Qed.
  Definition wins (s s' : fs) (m : prog outcome) : Prop :=
    (exists i, (fresh sI <= i < fresh s')%nat /\ tree s' p = Some (File i) /\ data s' i = [] /\ writing c i 0 m)
    \/ (m = Ret None /\ s' = s /\ reading_gives s (absolute p) c).
  Notation stage := (stage d x sI ours).
  Notation more := (more d x ours).
  Notation grows := (grows d x ours).
  Notation early := (early d x sI ours wins).
  Lemma open_early k s0 : (forall i, writing c i 0 (k (RFd i))) -> tree s0 d = Some Dir -> ours (tree s0 p) -> early (Call (OpenTrunc (absolute p)) k) s0.
  Proof.
    intros Hk D0 O0. cbn [Fs_Proofs3.early]. intros s M St n s' r E. assert (D : tree s d = Some Dir) by (apply (more_dir d x ours s0); assumption).
    assert (O : ours (tree s p)) by (apply M, O0).
    cbn [sys] in E. rewrite (resolve_p d x) in E; [|apply St|exact D|fold p; intros _ t H; rewrite H in O; destruct O as [O|(i & _ & O)]; discriminate]. fold p in E.
    destruct O as [O|(i & Li & O)]; rewrite O in E.
    - injection E as <- <-. pose proof (u_new d x sI s (proj1 St) D) as U. fold p in U. specialize (U O).
      assert (Lf : (fresh sI <= fresh s)%nat) by apply St.
      split; [|split].
      + split; [|cbn; lia]. split.
        * intros q y r Eq H. cbn. destruct (name_eqb_spec q p) as [Ep|]; [|exact H]. exfalso. exact (above_not_p d x q y r Eq Ep).
        * intros _. cbn. fold p. rewrite name_eqb_refl. right. exists (fresh s). auto.
      + split; [exact U|]. left. cbn. fold p. rewrite name_eqb_refl. right. exists (fresh s). auto.
      + right. left. exists (fresh s). cbn. rewrite name_eqb_refl, Nat.eqb_refl. split; [lia|]. split; [reflexivity|]. split; [reflexivity|apply Hk].
    - rewrite O in E. injection E as <- <-. split; [|split].
      + split; [|cbn; lia]. split; auto.
      + split; [apply u_data; [exact Li|apply St]|]. left. right. exists i. auto.
      + right. left. exists i. cbn. rewrite Nat.eqb_refl. split; [split; [exact Li|exact (wf_fresh s (proj1 (proj1 St)) p i O)]|]. split; [exact O|]. split; [reflexivity|apply Hk].
  Qed.
  Lemma remove_write_early s0 : stage s0 -> tree s0 d = Some Dir -> early (bind (best_effort_remove (absolute p)) (fun _ => fs_write (absolute p) c)) s0.
  Proof.
    intros St D. eapply early_bind; [exact St|apply remove_guar; [apply ours_none|exact D]|]. intros s _ Ss [D1 O1]. apply open_early; try assumption.
    intros i. apply (write_all_writing' c i (List.length c) 0); lia.
  Qed.
  Lemma out_write_early s0 : stage s0 -> early (out_write (absolute p) c) s0.
  Proof.
    intros St. unfold out_write. eapply early_bind; [exact St|apply exists_guar, ours_none|]. intros s e Ss H. destruct e.
    - unfold fs_read. cbn [bind Fs_Proofs3.early]. intros s1 M1 St1 n s' r E. cbn [sys] in E. injection E as <- <-.
      assert (D1 : tree s1 d = Some Dir) by (apply (more_dir d x ours s); assumption).
      split; [apply grows_refl|]. split; [exact St1|].
      destruct (resolve s1 true (absolute p)) as [q|q|e] eqn:R; try (left; apply remove_write_early; assumption).
      destruct (tree s1 q) as [[i| |t]|] eqn:T; try (left; apply remove_write_early; assumption).
      destruct (bytes_eqb_spec (data s1 i) c) as [Ed|N]; [|left; apply remove_write_early; assumption].
      right. right. split; [reflexivity|]. split; [reflexivity|]. intros k. cbn [sys]. rewrite R, T, Ed. reflexivity.
    - change (parent (absolute p)) with (parent (absolute (d ++ [x]))). rewrite parent_absolute.
      assert (X := create_guar d x sI ours ours_none s).
      assert (Y : forall s1, more s s1 -> stage s1 -> ours (tree s1 p)) by (intros s1 M _; apply M, H).
      (* the absence of a foreign file is remembered *)
      assert (Z : forall A (m : prog A) Post s, ours (tree s p) -> rg more stage grows Post m s -> rg more stage grows (fun s a => Post s a /\ ours (tree s p)) m s).
      { clear. intros A m Post. induction m as [a|o k IH]; intros s O H; cbn [rg] in *.
        - intros s1 M S1. split; [apply H; assumption|apply M, O].
        - intros s1 M S1 n s' r E. destruct (H s1 M S1 n s' r E) as (G & S' & H'). split; [exact G|]. split; [exact S'|]. apply IH; [|exact H']. apply G, M, O. }
      eapply early_bind; [exact Ss|apply Z; [exact H|exact X]|]. intros s1 o S1 [[-> D1] O1]. unfold fs_write. cbn [bind]. apply open_early; try assumption.
      intros i. apply (write_all_writing c i (fun o => Ret (prefer None o))) with (n := List.length c) (off := 0%nat); [reflexivity|lia|lia].
  Qed.

  Definition status (s : fs) (m : prog outcome) : Prop :=
    early m s \/ (exists i off, writing c i off m /\ (fresh sI <= i < fresh s)%nat /\ ours (tree s p)) \/ m = Ret None.
  Definition good (s : fs) (ps : list (prog outcome)) : Prop :=
    (s = sI /\ ~ ours (tree s p) /\ reading_gives s (absolute p) c) \/
    exists J, (fresh sI <= J)%nat /\ tree s p = Some (File J) /\ (List.length (data s J) <= List.length c)%nat /\
      forall b, (b < List.length c)%nat -> nth_error (data s J) b = nth_error c b \/ exists m off, In m ps /\ writing c J off m /\ (off <= b)%nat.
  Definition invw (s : fs) (ps : list (prog outcome)) : Prop :=
    stage s /\ Forall (status s) ps /\ ((exists m, In m ps /\ early m s) \/ good s ps).
  Lemma status_grows s s' m : grows s s' -> status s m -> status s' m.
  Proof.
    intros [M L] [H|[(i & off & H1 & H2 & H3)|H]]; [left; eapply early_more; eassumption| |right; right; exact H].
    right. left. exists i, off. split; [exact H1|]. split; [lia|]. apply M, H3.
  Qed.
  Lemma ours_dec n : ours n \/ ~ ours n.
  Proof.
    destruct n as [[i| |t]|]; [|right; intros [H|(i & _ & H)]; discriminate|right; intros [H|(i & _ & H)]; discriminate|left; left; reflexivity].
    destruct (le_lt_dec (fresh sI) i) as [L|L]; [left; right; exists i; auto|right; intros [H|(j & Lj & H)]; [discriminate|injection H as ->; lia]].
  Qed.
  Lemma reading_ours s i : stage s -> tree s p = Some (File i) -> reading_gives s (absolute p) c -> data s i = c.
  Proof.
    intros [(W & R & _) _] T H. specialize (H 0%nat). cbn [sys] in H. rewrite (resolve_p d x) in H; [fold p in H; rewrite T in H; rewrite T in H; injection H as H; exact H|exact W|eapply wf_parent; [exact W|exact T]|fold p; intros _ t Ht; congruence].
  Qed.
  Lemma inv_early pre o k post s n s' r : stage s -> Forall (status s) (pre ++ Call o k :: post) -> early (Call o k) s -> sys n s o = (s', r) -> invw s' (pre ++ k r :: post).
  Proof.
    intros St F H E. cbn [Fs_Proofs3.early] in H. destruct (H s (more_refl d x ours s) St n s' r E) as (G & S' & Hk).
    apply Forall_app in F as [F1 F2]. apply Forall_cons_iff in F2 as [_ F2].
    assert (Fp : forall P : prog outcome -> Prop, P (k r) -> (forall m, status s' m -> P m) -> Forall P (pre ++ k r :: post)).
    { intros P Pk Pm. apply Forall_app. split; [|constructor; [exact Pk|]]; (eapply Forall_impl; [|eassumption]; intros m Hm; apply Pm; eapply status_grows; eassumption). }
    assert (In' : In (k r) (pre ++ k r :: post)) by (apply in_or_app; right; left; reflexivity).
    split; [exact S'|]. destruct Hk as [Hk|[(i & Li & T & D & W)|(Ek & -> & Rd)]].
    - split; [apply Fp; [left; exact Hk|auto]|]. left. exists (k r). auto.
    - split; [apply Fp; [right; left; exists i, 0%nat; split; [exact W|]; split; [lia|]; rewrite T; right; exists i; split; [lia|reflexivity]|auto]|]. right. right.
      exists i. split; [lia|]. split; [exact T|]. rewrite D. split; [cbn; lia|]. intros b Lb. right. exists (k r), 0%nat. split; [exact In'|]. split; [exact W|lia].
    - split; [apply Fp; [right; right; exact Ek|auto]|]. right. destruct (ours_dec (tree s p)) as [O|O].
      + right. destruct O as [O|(J & LJ & O)].
        * exfalso. specialize (Rd 0%nat). cbn [sys] in Rd. destruct (parent_or s d x (proj1 (proj2 (proj1 St)))) as [D|D].
          -- rewrite (resolve_p_missing d x) in Rd by (try exact D; apply St). discriminate.
          -- rewrite (resolve_p d x) in Rd; [fold p in Rd; rewrite O in Rd; discriminate|apply St|exact D|fold p; congruence].
        * exists J. split; [exact LJ|]. split; [exact O|]. rewrite (reading_ours s J St O Rd). split; [lia|]. auto.
      + left. split; [|split; assumption]. destruct (proj2 St) as [H1|H1]; [contradiction|exact H1].
  Qed.
  Lemma inv_step s pre m post s' m' : invw s (pre ++ m :: post) -> step false (s, m) (s', m') -> invw s' (pre ++ m' :: post).
  Proof.
    intros (St & F & H) Sx. inversion Sx as [n s1 o k s2 r E|]; [|discriminate]. subst. clear Sx.
    assert (Fm : status s (Call o k)) by (rewrite Forall_forall in F; apply F; apply in_or_app; right; left; reflexivity).
    destruct Fm as [Fm|[(i & off & W & Li & O)|Fm]]; [eapply inv_early; eassumption| |discriminate].
    destruct H as [(m0 & Hin & Em)|H].
    { destruct (in_app_or _ _ _ Hin) as [Hp|[<-|Hp]]; [| |].
      2:{ eapply inv_early; eassumption. }
      all: assert (Hin' : In m0 (pre ++ k r :: post)) by (apply in_or_app; cbn; auto).
      all: inversion W as [|off' k' Loff Wk]; subst; cbn [sys] in E;
        assert (Lj : (0 < Nat.min (S n) (List.length (skipn off c)) <= List.length c - off)%nat) by (rewrite skipn_length; lia);
        remember (Nat.min (S n) (List.length (skipn off c))) as j eqn:Ej; clear Ej; injection E as <- <-;
        assert (G : grows s (set_data s i (overwrite (data s i) off (firstn j (skipn off c))))) by (split; [split; auto|cbn; lia]);
        apply Forall_app in F as [F1 F2]; apply Forall_cons_iff in F2 as [_ F2];
        (split; [split; [apply u_data; [apply Li|apply St]|left; exact O]|]); (split; [|left; exists m0; split; [exact Hin'|eapply early_more; [exact Em|apply G]]]);
        (apply Forall_app; split; [|constructor; [right; left; exists i, (off + j)%nat; split; [apply Wk; exact Lj|split; [cbn; lia|exact O]]|]]);
        (eapply Forall_impl; [|eassumption]; intros m Hm; eapply status_grows; eassumption). }
    inversion W as [|off' k' Loff Wk]; subst. cbn [sys] in E.
    assert (Lj : (0 < Nat.min (S n) (List.length (skipn off c)) <= List.length c - off)%nat) by (rewrite skipn_length; lia).
    remember (Nat.min (S n) (List.length (skipn off c))) as j eqn:Ej. clear Ej. injection E as <- <-.
    assert (G : grows s (set_data s i (overwrite (data s i) off (firstn j (skipn off c))))) by (split; [split; auto|cbn; lia]).
    split; [split; [apply u_data; [apply Li|apply St]|left; exact O]|]. split.
    { apply Forall_app in F as [F1 F2]. apply Forall_cons_iff in F2 as [_ F2].
      apply Forall_app; split; [|constructor; [right; left; exists i, (off + j)%nat; split; [apply Wk; exact Lj|split; [cbn; lia|exact O]]|]];
        (eapply Forall_impl; [|eassumption]; intros m Hm; eapply status_grows; eassumption). }
    right. destruct H as [(_ & No & _)|(J & LJ & T & Ld & Hb)]; [contradiction|]. right. exists J. split; [exact LJ|]. split; [exact T|].
    assert (Lb : List.length (firstn j (skipn off c)) = j) by (rewrite firstn_length, skipn_length; lia).
    assert (Inew : In (k (RCount j)) (pre ++ k (RCount j) :: post)) by (apply in_or_app; right; left; reflexivity).
    cbn [data set_data]. destruct (Nat.eqb_spec J i) as [->|Ni].
    - split; [apply overwrite_len; [exact Ld|rewrite Lb; lia]|]. intros b Lbb.
      destruct (le_lt_dec off b) as [Lob|Lob]; [destruct (le_lt_dec (off + j) b) as [Lo2|Lo2]|].
      + right. exists (k (RCount j)), (off + j)%nat. split; [exact Inew|]. split; [apply Wk; exact Lj|exact Lo2].
      + left. rewrite overwrite_in by (rewrite Lb; lia). rewrite nth_error_firstn by lia. rewrite nth_error_skipn. f_equal. lia.
      + destruct (Hb b Lbb) as [Hc|(m & off1 & Hin & W1 & L1)].
        * left. rewrite overwrite_before; [exact Hc|exact Lob|]. apply nth_error_Some. rewrite Hc. apply nth_error_Some. exact Lbb.
        * right. destruct (in_app_or _ _ _ Hin) as [Hp|[<-|Hp]]; [exists m, off1; split; [apply in_or_app; auto|auto]| |exists m, off1; split; [apply in_or_app; cbn; auto|auto]].
          destruct (writing_same c i off _ W i off1 W1 Loff) as [_ ->]. lia.
    - split; [exact Ld|]. intros b Lbb. destruct (Hb b Lbb) as [Hc|(m & off1 & Hin & W1 & L1)]; [left; exact Hc|].
      right. destruct (in_app_or _ _ _ Hin) as [Hp|[<-|Hp]]; [exists m, off1; split; [apply in_or_app; auto|auto]| |exists m, off1; split; [apply in_or_app; cbn; auto|auto]].
      destruct (writing_same c i off _ W J off1 W1 Loff) as [-> _]. congruence.
  Qed.
  Lemma inv_schedule s ps s' ps' : invw s ps -> schedule (s, ps) (s', ps') -> invw s' ps'.
  Proof.
    intros H R. remember (s, ps) as a eqn:Ea. remember (s', ps') as b eqn:Eb. revert s ps Ea H. induction R as [a|s1 pre m post s2 m' z S R IH]; intros s0 ps0 Ea H.
    - rewrite Eb in Ea. injection Ea as -> ->. exact H.
    - injection Ea as <- <-. eapply IH; [exact Eb|reflexivity|]. eapply inv_step; eassumption.
  Qed.
  Lemma inv_start ps : wf sI -> real_parents sI p -> ps <> [] -> (forall m, In m ps -> m = out_write (absolute p) c) -> invw sI ps.
  Proof.
    intros W R N H. assert (St : stage sI) by (split; [split; [exact W|]; split; [exact R|]; split; [auto|]; split; auto|right; reflexivity]).
    split; [exact St|]. split.
    - apply Forall_forall. intros m Hm. rewrite (H m Hm). left. apply out_write_early, St.
    - left. destruct ps as [|m ps]; [congruence|]. exists m. split; [left; reflexivity|]. rewrite (H m (or_introl eq_refl)). apply out_write_early, St.
  Qed.
  Lemma contains_reading s q y cc : wf s -> tree s q = Some Dir -> contains s (q ++ [y]) cc -> reading_gives s (absolute (q ++ [y])) cc.
  Proof.
    intros W D (i & T & <-) n. cbn [sys]. rewrite resolve_in; [rewrite T; rewrite T; reflexivity|exact W|exact D|intros _ t; congruence].
  Qed.
  Lemma inv_end s ps : invw s ps -> (forall m, In m ps -> exists o, m = Ret o) -> (forall m, In m ps -> m = Ret None) /\ reading_gives s (absolute p) c.
  Proof.
    intros (St & F & H) Hr. split.
    - intros m Hm. rewrite Forall_forall in F. destruct (Hr m Hm) as [o ->]. destruct (F _ Hm) as [E|[(i & off & W & _)|E]]; [exfalso; exact (E s (more_refl d x ours s) St)| |exact E].
      destruct (writing_ret c i off o W) as [_ ->]. reflexivity.
    - destruct H as [(m & Hm & E)|[(_ & _ & Rd)|(J & LJ & T & Ld & Hb)]]; [|exact Rd|].
      + exfalso. destruct (Hr m Hm) as [o ->]. exact (E s (more_refl d x ours s) St).
      + apply contains_reading; [apply St|eapply wf_parent; [apply St|exact T]|]. exists J. split; [exact T|]. apply nth_error_ext'; [exact Ld|]. intros b Lb.
        destruct (Hb b Lb) as [Hc|(m & off & Hm & W & L)]; [exact Hc|]. destruct (Hr m Hm) as [o ->]. destruct (writing_ret c J off o W) as [-> _]. lia.
  Qed.
End Writers.

(** ** Links *)
Section Linkers.
  Variables (d : name) (x : string) (sI : fs) (Tg : path -> Prop).
  Let p := d ++ [x].
  Definition linked (n : option node) : Prop := exists t, Tg t /\ n = Some (Link t).
  Definition free (n : option node) : Prop := n = None \/ linked n.
  Lemma free_none : free None. Proof. left. reflexivity. Qed.
  Definition winl (s s' : fs) (m : prog outcome) : Prop := m = Ret None /\ linked (tree s' p).
  Notation stage := (stage d x sI free).
  Notation more := (more d x free).
  Notation grows := (grows d x free).
  Notation early := (early d x sI free winl).
  Notation guar Post m s := (rg more stage grows Post m s).
  Definition ready (s : fs) : Prop := tree s d = Some Dir /\ free (tree s p).
  Lemma ready_more s s' : more s s' -> ready s -> ready s'.
  Proof. intros M [A B]. split; [apply (more_dir d x free s); assumption|apply M, B]. Qed.
  Lemma keep_guar {A} (m : prog A) Post : forall s, free (tree s p) -> guar Post m s -> guar (fun s a => Post s a /\ free (tree s p)) m s.
  Proof.
    induction m as [a|o k IH]; intros s O H; cbn [rg] in *.
    - intros s1 M S1. split; [apply H; assumption|apply M, O].
    - intros s1 M S1 n s' r E. destruct (H s1 M S1 n s' r E) as (G & S' & H'). split; [exact G|]. split; [exact S'|]. apply IH; [|exact H']. apply G, M, O.
  Qed.
  Lemma link_bind {A B} (m : prog A) (f : A -> prog B) Post Q s0 : guar Post m s0 -> (forall s a, stage s -> Post s a -> guar Q (f a) s) -> (forall s s' a, more s s' -> Post s a -> Post s' a) -> guar Q (bind m f) s0.
  Proof.
    intros H Hf Hm. eapply rg_bind; [exact H| | | |exact Hf].
    - intros s a P s' M _. eapply Hm; eassumption.
    - intros s _. apply more_refl.
    - intros s1 s2 s3. apply more_trans.
  Qed.
  Lemma prepare_guar s0 : guar (fun s o => o = None /\ ready s) (prepare_parent (absolute p)) s0.
  Proof.
    unfold prepare_parent. eapply link_bind; [apply exists_guar, free_none| |intros s s' [|] M H; [apply (more_dir d x free s); assumption|apply M, H]].
    intros s e St H. destruct e.
    - eapply link_bind; [apply remove_guar; [apply free_none|exact H]| |intros s1 s' _ M [H1 H2]; split; [apply (more_dir d x free s1); assumption|apply M, H2]].
      intros s1 u S1 H1. cbn [rg]. intros s2 M2 S2. split; [reflexivity|]. apply (ready_more s1); assumption.
    - change (parent (absolute p)) with (parent (absolute (d ++ [x]))). rewrite parent_absolute.
      pose proof (keep_guar _ _ s H (create_guar d x sI free free_none s)) as K.
      assert (Mono : forall A (m : prog A) (P Q : fs -> A -> Prop), (forall s a, P s a -> Q s a) -> forall s, guar P m s -> guar Q m s).
      { clear. intros A m P Q I. induction m as [a|o k IH]; intros s H; cbn [rg] in *; [auto|]. intros s1 M S1 n s' r E. destruct (H s1 M S1 n s' r E) as (G & S' & H'). auto. }
      eapply Mono; [|exact K]. intros s1 o [[-> H1] H2]. split; [reflexivity|]. split; assumption.
  Qed.
  Lemma symlink_early t e s0 : Tg t -> ready s0 -> early (symlink_file t (absolute p) e) s0.
  Proof.
    intros Ht Rd. unfold symlink_file. cbn [Fs_Proofs3.early]. intros s M St n s' r E. destruct (ready_more s0 s M Rd) as [D F].
    cbn [sys] in E. rewrite (resolve_p d x) in E by (try exact D; try apply St; discriminate). fold p in E. destruct F as [F|(t' & Ht' & F)]; rewrite F in E; injection E as <- <-.
    - assert (L : free (Some (Link t))) by (right; exists t; auto). split; [apply more_set, L|]. split.
      + split; [apply u_set; try apply St; try exact D; [fold p; rewrite F; discriminate|discriminate]|]. left. fold p. rewrite set_same. exact L.
      + right. split; [reflexivity|]. exists t. rewrite set_same. auto.
    - split; [apply grows_refl|]. split; [exact St|]. right. split; [reflexivity|]. exists t'. auto.
  Qed.
  Lemma absolute_early t s0 : Tg t -> stage s0 -> early (absolute_symlink_file t (absolute p)) s0.
  Proof. intros Ht St. eapply early_bind; [exact St|apply prepare_guar|]. intros s o S [-> R]. apply symlink_early; assumption. Qed.
  Lemma relative_early env t s0 : Tg t -> (forall r, abstractly_relativize_symlink env t (absolute p) = Relative r -> Tg r) -> stage s0 -> early (relative_symlink_file env t (absolute p)) s0.
  Proof.
    intros Ht Hr St. eapply early_bind; [exact St|apply prepare_guar|]. intros s o S [-> R].
    apply early_bind with (Post := fun s a => ready s /\ Tg a); [exact S| |intros s1 a S1 [R1 Ha]; apply symlink_early; assumption].
    unfold relativize. change (parent (absolute p)) with (parent (absolute (d ++ [x]))). rewrite parent_absolute.
    assert (K : forall s1 a, ready s1 -> Tg a -> guar (fun s a => ready s /\ Tg a) (Ret a) s1) by (intros s1 a R1 Ha; cbn [rg]; intros s2 M _; split; [apply (ready_more s1); assumption|exact Ha]).
    destruct (abstractly_relativize_symlink env t (absolute p)) as [r| |]; try (apply K; assumption).
    specialize (Hr r eq_refl). cbn [rg]. intros s1 M1 S1 n s' r1 E. cbn [sys] in E. injection E as <- <-. split; [apply grows_refl|]. split; [exact S1|]. assert (R1 := ready_more s s1 M1 R).
    destruct (resolve s1 true t) as [q|q|e]; try (apply K; assumption).
    cbn [rg]. intros s2 M2 S2 n2 s' r2 E. cbn [sys] in E. injection E as <- <-. split; [apply grows_refl|]. split; [exact S2|]. assert (R2 := ready_more s1 s2 M2 R1).
    apply K; [exact R2|]. destruct (resolve s2 true (join (absolute d) r)); try assumption. destruct (name_eqb q q0); assumption.
  Qed.
  Definition invl (s : fs) (ps : list (prog outcome)) : Prop :=
    stage s /\ Forall (fun m => early m s \/ m = Ret None) ps /\ ((exists m, In m ps /\ early m s) \/ linked (tree s p)).
  Lemma invl_step s pre m post s' m' : invl s (pre ++ m :: post) -> step false (s, m) (s', m') -> invl s' (pre ++ m' :: post).
  Proof.
    intros (St & F & _) Sx. inversion Sx as [n s1 o k s2 r E|]; [|discriminate]. subst. clear Sx. apply Forall_app in F as [F1 F2]. apply Forall_cons_iff in F2 as [Fm F2].
    destruct Fm as [Fm|Fm]; [|discriminate]. cbn [Fs_Proofs3.early] in Fm. destruct (Fm s (more_refl d x free s) St n s' r E) as (G & S' & Hk).
    split; [exact S'|]. split.
    - apply Forall_app; split; [|constructor; [destruct Hk as [Hk|[Hk _]]; auto|]]; (eapply Forall_impl; [|eassumption]; intros m [Hm|Hm]; [left; eapply early_more; [exact Hm|apply G]|right; exact Hm]).
    - destruct Hk as [Hk|[_ Hk]]; [left; exists (k r); split; [apply in_or_app; right; left; reflexivity|exact Hk]|right; exact Hk].
  Qed.
  Lemma invl_schedule s ps s' ps' : invl s ps -> schedule (s, ps) (s', ps') -> invl s' ps'.
  Proof.
    intros H R. remember (s, ps) as a eqn:Ea. remember (s', ps') as b eqn:Eb. revert s ps Ea H. induction R as [a|s1 pre m post s2 m' z S R IH]; intros s0 ps0 Ea H.
    - rewrite Eb in Ea. injection Ea as -> ->. exact H.
    - injection Ea as <- <-. eapply IH; [exact Eb|reflexivity|]. eapply invl_step; eassumption.
  Qed.
  Lemma invl_start ps : wf sI -> real_parents sI p -> ps <> [] -> (forall m, In m ps -> (exists t, Tg t /\ m = absolute_symlink_file t (absolute p)) \/
      exists env t, Tg t /\ (forall r, abstractly_relativize_symlink env t (absolute p) = Relative r -> Tg r) /\ m = relative_symlink_file env t (absolute p)) -> invl sI ps.
  Proof.
    intros W R N H. assert (St : stage sI) by (split; [split; [exact W|]; split; [exact R|]; split; [auto|]; split; auto|right; reflexivity]).
    assert (E : forall m, In m ps -> early m sI).
    { intros m Hm. destruct (H m Hm) as [(t & Ht & ->)|(env & t & Ht & Hr & ->)]; [apply absolute_early; assumption|apply relative_early; assumption]. }
    split; [exact St|]. split; [apply Forall_forall; intros m Hm; left; apply E, Hm|]. left. destruct ps as [|m ps]; [congruence|]. exists m. split; [left; reflexivity|apply E; left; reflexivity].
  Qed.
  Lemma invl_end s ps : invl s ps -> (forall m, In m ps -> exists o, m = Ret o) -> (forall m, In m ps -> m = Ret None) /\ linked (tree s p).
  Proof.
    intros (St & F & H) Hr. split.
    - intros m Hm. rewrite Forall_forall in F. destruct (Hr m Hm) as [o ->]. destruct (F _ Hm) as [E|E]; [exfalso; exact (E s (more_refl d x free s) St)|exact E].
    - destruct H as [(m & Hm & E)|H]; [|exact H]. exfalso. destruct (Hr m Hm) as [o ->]. exact (E s (more_refl d x free s) St).
  Qed.
End Linkers.
