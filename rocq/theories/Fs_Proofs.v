From Verif Require Import Base Paths_Model Fs_Model Fs_Spec.
From Coq Require Import Lia.

(** ** Names *)
Lemma name_eqb_spec a : forall b, reflect (a = b) (name_eqb a b).
Proof.
  induction a as [|x a IH]; intros [|y b]; cbn; try (constructor; congruence).
  destruct (String.eqb_spec x y) as [->|N]; cbn; [|constructor; congruence]. destruct (IH b) as [->|N]; constructor; congruence.
Qed.
Lemma name_eqb_refl a : name_eqb a a = true. Proof. destruct (name_eqb_spec a a); congruence. Qed.
Lemma is_prefix_spec a : forall b, is_prefix a b = true <-> exists r, b = a ++ r.
Proof.
  induction a as [|x a IH]; intros b; cbn; [split; [exists b; reflexivity|reflexivity]|]. destruct b as [|y b]; [split; [discriminate|intros [r E]; discriminate]|].
  rewrite andb_true_iff, IH, String.eqb_eq. split; [intros [-> [r ->]]; exists r; reflexivity|intros [r E]; injection E as -> ->; split; [reflexivity|exists r; reflexivity]].
Qed.
Lemma is_prefix_refl a : is_prefix a a = true. Proof. apply is_prefix_spec. exists []. rewrite app_nil_r. reflexivity. Qed.
Lemma bytes_eqb_spec a : forall b, reflect (a = b) (bytes_eqb a b).
Proof.
  induction a as [|x a IH]; intros [|y b]; cbn; try (constructor; congruence).
  destruct (Ascii.eqb_spec x y) as [->|N]; cbn; [|constructor; congruence]. destruct (IH b) as [->|N]; constructor; congruence.
Qed.

(** ** Resolution *)
Lemma walk_nil k t f cur : walk k t f cur [] = At cur. Proof. destruct k; reflexivity. Qed.
Lemma walk_cons k t f cur c rest : walk k t f cur (c :: rest) =
  match t cur with
  | Some Dir =>
      match c with
      | RootDir => walk k t f [] rest
      | CurDir => walk k t f cur rest
      | ParentDir => walk k t f (removelast cur) rest
      | Normal x =>
          match t (cur ++ [x]) with
          | None => if is_nil rest then Missing (cur ++ [x]) else Fails ENOENT
          | Some (Link tgt) =>
              if is_nil rest && negb f then At (cur ++ [x])
              else match k with O => Fails ELOOP | S k => walk k t f cur (tgt ++ rest) end
          | Some _ => walk k t f (cur ++ [x]) rest
          end
      end
  | _ => Fails ENOTDIR
  end.
Proof. destruct k; reflexivity. Qed.
Lemma walk_through k t f l : forall cur rest, (forall a b, l = a ++ b -> t (cur ++ a) = Some Dir) -> walk k t f cur (map Normal l ++ rest) = walk k t f (cur ++ l) rest.
Proof.
  induction l as [|x l IH]; intros cur rest H; [rewrite app_nil_r; reflexivity|]. cbn [map app]. rewrite walk_cons.
  assert (H0 := H [] (x :: l) eq_refl). rewrite app_nil_r in H0. rewrite H0. rewrite (H [x] l eq_refl). rewrite IH.
  - rewrite <- app_assoc. reflexivity.
  - intros a b ->. rewrite <- app_assoc. apply (H (x :: a) b). reflexivity.
Qed.
Lemma wf_above s q l n : wf s -> tree s (q ++ l) = Some n -> l <> [] -> tree s q = Some Dir.
Proof.
  intros W. revert n. induction l as [|x l IH] using rev_ind; intros n E N; [congruence|]. rewrite app_assoc in E. apply (wf_parent s W) in E.
  destruct l as [|y l]; [rewrite app_nil_r in E; exact E|]. eapply IH; [exact E|discriminate].
Qed.
Lemma absolute_snoc d x : absolute (d ++ [x]) = absolute d ++ [Normal x].
Proof. unfold absolute. rewrite map_app. reflexivity. Qed.
Lemma resolve_dir s f d rest : wf s -> tree s d = Some Dir -> resolve s f (absolute d ++ rest) = walk 40 (tree s) f d rest.
Proof.
  intros W D. unfold resolve, absolute. cbn [app]. rewrite walk_cons, (wf_root s W). rewrite walk_through; [reflexivity|].
  intros a b ->. cbn [app]. destruct b as [|y b]; [rewrite app_nil_r in D; exact D|]. eapply wf_above; [exact W|exact D|discriminate].
Qed.
Lemma resolve_in s f d x : wf s -> tree s d = Some Dir -> (f = true -> forall t, tree s (d ++ [x]) <> Some (Link t)) ->
  resolve s f (absolute (d ++ [x])) = match tree s (d ++ [x]) with None => Missing (d ++ [x]) | Some _ => At (d ++ [x]) end.
Proof.
  intros W D L. rewrite absolute_snoc, resolve_dir by assumption. rewrite walk_cons, D. destruct (tree s (d ++ [x])) as [[i| |t]|] eqn:E; try apply walk_nil.
  - destruct f; [exfalso; apply (L eq_refl t); reflexivity|reflexivity].
  - reflexivity.
Qed.
(** the longest existing part *)
Lemma missing_above s p : wf s -> real_parents s p -> forall d r, p = d ++ r -> tree s d = None -> r <> [] ->
  exists a x b, d = a ++ x :: b /\ tree s a = Some Dir /\ tree s (a ++ [x]) = None.
Proof.
  intros W R d. induction d as [|x d IH] using rev_ind; intros r E N Nr; [rewrite (wf_root s W) in N; discriminate|].
  rewrite <- app_assoc in E. destruct (R d x r E) as [D|D].
  - destruct (IH (x :: r) E D) as (a & y & b & -> & Da & Dn); [discriminate|]. exists a, y, (b ++ [x]). split; [rewrite <- app_assoc; reflexivity|]. split; assumption.
  - exists d, x, []. split; [reflexivity|]. split; assumption.
Qed.
Lemma resolve_missing s f d x : wf s -> real_parents s (d ++ [x]) -> tree s d = None -> resolve s f (absolute (d ++ [x])) = Fails ENOENT.
Proof.
  intros W R N. destruct (missing_above s _ W R d [x] eq_refl N) as (a & y & b & -> & Da & Dn); [discriminate|].
  assert (E : absolute ((a ++ y :: b) ++ [x]) = absolute a ++ Normal y :: map Normal (b ++ [x])) by (unfold absolute; rewrite <- app_assoc, map_app; reflexivity).
  rewrite E, resolve_dir by assumption. rewrite walk_cons, Da, Dn. destruct b; reflexivity.
Qed.
Lemma parent_or s d x : real_parents s (d ++ [x]) -> tree s d = None \/ tree s d = Some Dir.
Proof. intros R. exact (R d x [] eq_refl). Qed.
Lemma real_below s d r : real_parents s (d ++ r) -> real_parents s d.
Proof. intros R q x l ->. apply (R q x (l ++ r)). rewrite <- app_assoc. reflexivity. Qed.
Lemma parent_absolute d x : parent (absolute (d ++ [x])) = Some (absolute d).
Proof.
  unfold parent, absolute. cbn [rev map]. rewrite map_app, rev_app_distr. cbn. rewrite rev_app_distr, rev_involutive. cbn. reflexivity.
Qed.
Lemma parent_root : parent (absolute []) = None. Proof. reflexivity. Qed.

(** a walk that ends where nothing is ends at a new file once there is one *)
Lemma walk_create i k : forall t f rest cur q, t q = None -> walk k t f cur rest = Missing q ->
  walk k (fun r => if name_eqb r q then Some (File i) else t r) f cur rest = At q.
Proof.
  induction k as [|k IHk]; intros t f rest; (induction rest as [|c rest IH]; intros cur q Q E; [rewrite walk_nil in E; discriminate|]);
    rewrite walk_cons in E; rewrite walk_cons; cbv beta;
    (destruct (name_eqb_spec cur q) as [->|Nc]; [rewrite Q in E; discriminate|]);
    (destruct (t cur) as [[j| |tg]|] eqn:Ec; try discriminate); destruct c as [| | |x]; auto;
    (destruct (t (cur ++ [x])) as [n|] eqn:En;
     [destruct (name_eqb_spec (cur ++ [x]) q) as [<-|Nx]; [congruence|]; destruct n as [j| |tg]; auto; destruct (is_nil rest && negb f); try discriminate; auto
     |destruct rest; cbn in E; [injection E as <-; rewrite name_eqb_refl; apply walk_nil|discriminate]]).
Qed.
(** where walks end *)
Lemma walk_found k : forall s f rest cur, wf s -> tree s cur <> None ->
  match walk k (tree s) f cur rest with
  | At q => tree s q <> None
  | Missing q => exists d x, q = d ++ [x] /\ tree s d = Some Dir /\ tree s q = None
  | Fails _ => True
  end.
Proof.
  induction k as [|k IHk]; intros s f rest; (induction rest as [|c rest IH]; intros cur W C; [rewrite walk_nil; exact C|]);
    rewrite walk_cons; (destruct (tree s cur) as [[j| |tg]|] eqn:Ec; try exact Logic.I);
    (destruct c as [| | |x];
     [apply IH; [exact W|rewrite (wf_root s W); discriminate]
     |apply IH; [exact W|congruence]
     |apply IH; [exact W|destruct cur as [|y cur _] using rev_ind; [cbn [removelast]; congruence|rewrite removelast_last; rewrite (wf_parent s W _ _ _ Ec); discriminate]]
     |]);
    (destruct (tree s (cur ++ [x])) as [n|] eqn:En; [|destruct rest; cbn; [exists cur, x; auto|exact Logic.I]]);
    (destruct n as [j| |tg]; [apply IH; [exact W|congruence]|apply IH; [exact W|congruence]|]);
    (destruct (is_nil rest && negb f); [congruence|]); try exact Logic.I.
  apply IHk; [exact W|congruence].
Qed.
Lemma resolve_found s f p : wf s -> match resolve s f p with
  | At q => tree s q <> None
  | Missing q => exists d x, q = d ++ [x] /\ tree s d = Some Dir /\ tree s q = None
  | Fails _ => True end.
Proof. intros W. apply walk_found; [exact W|]. rewrite (wf_root s W). discriminate. Qed.

(** ** Sequential programs *)
Section Seq.
  Context {A : Type} (faults : bool) (Phi : fs -> Prop).
  Fixpoint seq (Post : fs -> A -> Prop) (m : prog A) (s : fs) : Prop :=
    Phi s /\
    match m with
    | Ret a => Post s a
    | Call o k => (forall n s' r, sys n s o = (s', r) -> seq Post (k r) s') /\ (faults = true -> forall s', faulted s o s' -> seq Post (k (RErr EIO)) s')
    end.
  Lemma seq_sound Post m : forall s, seq Post m s -> forall s' m', steps faults (s, m) (s', m') -> seq Post m' s'.
  Proof.
    intros s H s' m' R. remember (s, m) as x eqn:Ex. remember (s', m') as y eqn:Ey. revert s m Ex H Ey.
    induction R as [x|x y z S R IH]; intros s m -> H Ey.
    - injection Ey as <- <-. exact H.
    - inversion S as [n s1 o k s2 r E|s1 o k s2 F E]; subst; cbn in H; destruct H as [_ [H1 H2]].
      + eapply IH; [reflexivity|eapply H1; exact E|reflexivity].
      + eapply IH; [reflexivity|eapply H2; [exact F|exact E]|reflexivity].
  Qed.
  Lemma seq_phi Post m s : seq Post m s -> Phi s. Proof. destruct m; intros [H _]; exact H. Qed.
  Lemma seq_mono (P Q : fs -> A -> Prop) m : (forall s a, P s a -> Q s a) -> forall s, seq P m s -> seq Q m s.
  Proof.
    intros I. induction m as [a|o k IH]; intros s [H1 H2]; (split; [exact H1|]); [auto|]. destruct H2 as [H2 H3]. split; intros; apply IH; eauto.
  Qed.
End Seq.
Lemma seq_bind {A B} faults Phi (m : prog A) (f : A -> prog B) Post : forall s,
  seq faults Phi (fun s a => seq faults Phi Post (f a) s) m s -> seq faults Phi Post (bind m f) s.
Proof.
  induction m as [a|o k IH]; intros s [H1 H2]; cbn; [exact H2|]. split; [exact H1|]. destruct H2 as [H2 H3]. split; intros; apply IH; eauto.
Qed.

(** ** Writing all bytes *)
Lemma overwrite_end c off n : (off <= List.length c)%nat ->
  overwrite (firstn off c) off (firstn n (skipn off c)) = firstn (off + n) c.
Proof.
  intros L. unfold overwrite. assert (E : List.length (firstn off c) = off) by (rewrite firstn_length; lia).
  rewrite E, Nat.sub_diag. cbn [repeat app]. rewrite firstn_firstn, Nat.min_id. rewrite (skipn_all2 (firstn off c)) by (rewrite E; lia). rewrite app_nil_r.
  rewrite <- (firstn_skipn off c) at 3. rewrite firstn_app. rewrite E. rewrite firstn_firstn, Nat.min_r by lia. f_equal. f_equal. lia.
Qed.
Lemma data_set s i d : data (set_data s i d) i = d. Proof. cbn. rewrite Nat.eqb_refl. reflexivity. Qed.
Section WriteAll.
  Variables (faults : bool) (Phi : fs -> Prop) (Post : fs -> outcome -> Prop) (Now : fs -> Prop) (i : nat) (c : list ascii).
  Hypothesis Hphi : forall s, Now s -> Phi s.
  Hypothesis Hset : forall s d, Now s -> Now (set_data s i d).
  Hypothesis Hend : forall s, Now s -> data s i = c -> Post s None.
  Hypothesis Herr : forall s e, Now s -> Post s (Some e).
  Lemma seq_write_all n : forall off s, (List.length c - off <= n)%nat -> (off <= List.length c)%nat -> Now s -> data s i = firstn off c ->
    seq faults Phi (fun s o => Post s o /\ (faults = false -> o = None)) (write_all n i off (skipn off c)) s.
  Proof.
    induction n as [|n IH]; intros off s L O N D.
    - rewrite skipn_all2 by lia. cbn. split; [auto|]. split; [|reflexivity]. apply Hend; [exact N|]. rewrite D. apply firstn_all2. lia.
    - cbn [write_all]. destruct (skipn off c) as [|b r] eqn:E.
      + split; [auto|]. split; [|reflexivity]. apply Hend; [exact N|]. rewrite D. apply firstn_all2. apply (f_equal (@List.length _)) in E. rewrite skipn_length in E. cbn in E. lia.
      + split; [auto|]. split.
        * intros k s' r0 Sy. cbn [sys] in Sy. rewrite <- E in Sy.
          assert (Lk : (0 < Nat.min (S k) (List.length (skipn off c)))%nat) by (rewrite E; cbn; lia).
          assert (Lm := Nat.le_min_r (S k) (List.length (skipn off c))). remember (Nat.min (S k) (List.length (skipn off c))) as mn eqn:Emn. clear Emn.
          injection Sy as <- <-. destruct mn as [|j]; [lia|].
          rewrite <- E.
          assert (Lj : (S j <= List.length c - off)%nat) by (rewrite <- skipn_length; exact Lm).
          replace (skipn (S j) (skipn off c)) with (skipn (off + S j) c).
          2:{ clear. revert c. induction off as [|o IHo]; intros c; [reflexivity|]. destruct c; [rewrite !skipn_nil; reflexivity|]. cbn [skipn Nat.add]. apply IHo. }
          apply IH; [lia|lia|apply Hset, N|]. rewrite data_set, D. apply overwrite_end. exact O.
        * intros -> s' F. cbn. assert (s' = s) as -> by (inversion F; reflexivity). split; [auto|]. split; [auto|discriminate].
  Qed.
End WriteAll.

(** ** Whatever fails, Ok means that the content is there *)
Lemma resolve_tree s s' f p : tree s = tree s' -> resolve s f p = resolve s' f p.
Proof. intros E. unfold resolve. rewrite E. reflexivity. Qed.
Lemma seq_true_weaken {A} faults (m : prog A) (Post : fs -> A -> Prop) : (forall s a, Post s a) -> forall s, seq faults (fun _ => True) Post m s.
Proof. intros H. induction m as [a|o k IH]; intros s; (split; [exact Logic.I|]); [apply H|]. split; intros; apply IH. Qed.
Lemma walk_missing k : forall t f p cur q, walk k t f cur p = Missing q -> t q = None.
Proof.
  induction k as [|k IHk]; intros t f p; induction p as [|c p IH]; intros cur q; rewrite ?walk_nil; try discriminate; rewrite walk_cons;
    (destruct (t cur) as [[j| |tg]|]; try discriminate); (destruct c as [| | |x]; try apply IH);
    (destruct (t (cur ++ [x])) as [[j| |tg]|] eqn:En; try apply IH;
     [destruct (is_nil p && negb f); try discriminate; try apply IHk
     |destruct p; cbn; try discriminate; intros H; injection H as <-; exact En]).
Qed.
Lemma fs_write_ok p c s : seq true (fun _ => True) (fun s o => o = None -> reading_gives s p c) (fs_write p c) s.
Proof.
  unfold fs_write. split; [exact Logic.I|]. split.
  - intros n s' r E. cbn [sys] in E.
    assert (X : forall q i s1, resolve s1 true p = At q -> tree s1 q = Some (File i) -> data s1 i = [] ->
      seq true (fun _ => True) (fun s o => o = None -> reading_gives s p c) (write_all (List.length c) i 0 c) s1).
    { intros q i s1 R T D. apply seq_mono with (P := fun s o => (o = None -> reading_gives s p c) /\ (true = false -> o = None)); [tauto|].
      apply (seq_write_all true (fun _ => True) (fun s o => o = None -> reading_gives s p c) (fun s2 => tree s2 = tree s1) i c); auto; try (cbn; lia).
      - intros s2 E2 Ed _ m. cbn [sys]. rewrite (resolve_tree s2 s1) by exact E2. rewrite R, E2, T, Ed. reflexivity.
      - discriminate. }
    destruct (resolve s true p) as [q|q|e] eqn:R.
    + destruct (tree s q) as [[i| |t]|] eqn:T; injection E as <- <-; try (split; [exact Logic.I|discriminate]).
      apply (X q i); [exact R|exact T|apply data_set].
    + injection E as <- <-. apply (X q (fresh s)); cbn; [| |rewrite Nat.eqb_refl; reflexivity].
      * unfold resolve. cbn [tree]. apply walk_create; [|exact R].
        exact (walk_missing 40 (tree s) true p [] q R).
      * rewrite name_eqb_refl. reflexivity.
    + injection E as <- <-. split; [exact Logic.I|discriminate].
  - intros _ s' _. split; [exact Logic.I|discriminate].
Qed.
Lemma out_write_ok p c s : seq true (fun _ => True) (fun s o => o = None -> reading_gives s p c) (out_write p c) s.
Proof.
  assert (W : forall s, seq true (fun _ => True) (fun s o => o = None -> reading_gives s p c) (bind (best_effort_remove p) (fun _ => fs_write p c)) s).
  { intros s0. apply seq_bind. apply seq_true_weaken. intros s1 _. apply fs_write_ok. }
  unfold out_write. apply seq_bind. apply seq_true_weaken. intros s0 e. destruct e.
  - apply seq_bind. unfold fs_read. split; [exact Logic.I|]. split.
    + intros n s' r E. injection E as <- <-. split; [exact Logic.I|].
      destruct (resolve s0 true p) as [q|q|e] eqn:R; try apply W. destruct (tree s0 q) as [[i| |t]|] eqn:T; try apply W.
      destruct (bytes_eqb_spec (data s0 i) c) as [<-|Nc]; [|apply W]. split; [exact Logic.I|]. intros _ m. cbn [sys]. rewrite R, T. reflexivity.
    + intros _ s' _. split; [exact Logic.I|]. apply W.
  - destruct (parent p) as [d|]; [|split; [exact Logic.I|discriminate]]. apply seq_bind. apply seq_true_weaken. intros s1 err. apply seq_bind.
    eapply seq_mono; [|apply fs_write_ok]. intros s2 o H. split; [exact Logic.I|]. destruct o; [discriminate|exact H].
Qed.
