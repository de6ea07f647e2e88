From Verif Require Import Base Span_Model Span_Spec.
From Coq Require Import NArith Lia Permutation Sorted.
Open Scope N_scope.

Lemma len_pos c : 1 <= len_utf8 c.
Proof. unfold len_utf8. destruct (c <? 128), (c <? 2048), (c <? 65536); lia. Qed.
Lemma bytes_app a b : bytes (a ++ b) = bytes a + bytes b.
Proof. induction a as [|c a IH]; cbn; [reflexivity|]. fold (bytes (a ++ b)) (bytes a). lia. Qed.
Lemma bytes_cons c a : bytes (c :: a) = len_utf8 c + bytes a.
Proof. reflexivity. Qed.
Lemma slice_app a b : slice_from (a ++ b) (bytes a) = Some b.
Proof.
  induction a as [|c a IH]; [destruct b; reflexivity|]. cbn [app slice_from]. rewrite bytes_cons. assert (P := len_pos c).
  destruct (N.eqb_spec (len_utf8 c + bytes a) 0); [lia|]. destruct (N.leb_spec (len_utf8 c) (len_utf8 c + bytes a)); [|lia].
  replace (len_utf8 c + bytes a - len_utf8 c) with (bytes a) by lia. exact IH.
Qed.
Lemma find_app l r : ~ In newline l -> find_newline (l ++ newline :: r) = Some (bytes l).
Proof.
  induction l as [|c l IH]; intros N; [reflexivity|]. cbn [app find_newline]. destruct (N.eqb_spec c newline) as [->|]; [elim N; left; reflexivity|].
  rewrite IH by (intros I; apply N; right; exact I). reflexivity.
Qed.
Lemma next_app a l r : ~ In newline l -> next_line (a ++ l ++ newline :: r) (bytes a) = Some (bytes (a ++ l ++ [newline])).
Proof.
  intros N. unfold next_line. rewrite slice_app, find_app by exact N. rewrite !bytes_app. change (bytes [newline]) with 1. f_equal. lia.
Qed.
Lemma repeat_S n s o : repeat_next (S n) s o = match repeat_next n s o with Some o' => next_line s o' | None => None end.
Proof.
  revert o. induction n as [|n IH]; intros o; [cbn; destruct (next_line s o); reflexivity|].
  change (repeat_next (S (S n)) s o) with (match next_line s o with Some o' => repeat_next (S n) s o' | None => None end).
  change (repeat_next (S n) s o) with (match next_line s o with Some o' => repeat_next n s o' | None => None end).
  destruct (next_line s o); [apply IH|reflexivity].
Qed.

(** ** where a position is *)
Lemma position_line s k : position s k -> exists a l, s = a ++ l /\ ~ In newline l /\ snd k = List.length l /\
  (1 <= fst k)%nat /\ forall r, repeat_next (fst k - 1) (s ++ r) 0 = Some (bytes a) /\ (fst k = 1%nat -> a = []).
Proof.
  induction 1 as [l N|a k l P IH N].
  - exists [], l. repeat split; auto.
  - destruct IH as (a0 & l0 & -> & N0 & _ & L & R). exists (((a0 ++ l0) ++ [newline])), l. repeat split; auto.
    + rewrite <- !app_assoc. reflexivity.
    + cbn. lia.
    + cbn [fst]. replace (S (fst k) - 1)%nat with (S (fst k - 1)) by lia. rewrite repeat_S.
      specialize (R (newline :: l ++ r)). replace (((a0 ++ l0) ++ newline :: l) ++ r) with ((a0 ++ l0) ++ newline :: l ++ r) by (rewrite <- !app_assoc; reflexivity).
      rewrite (proj1 R), <- app_assoc. rewrite next_app by exact N0. rewrite <- app_assoc. reflexivity.
    + cbn in *. lia.
Qed.
Lemma position_det s k : position s k -> forall k', position s k' -> k = k'.
Proof.
  assert (X : forall (a l a' l' : list char), ~ In newline l -> ~ In newline l' -> a ++ newline :: l = a' ++ newline :: l' -> a = a' /\ l = l').
  { induction a as [|x a IH]; intros l a' l' N N' E; destruct a' as [|y a']; cbn in E.
    - injection E as ->. auto.
    - injection E as <- ->. elim N. apply in_or_app. right. left. reflexivity.
    - injection E as -> <-. elim N'. apply in_or_app. right. left. reflexivity.
    - injection E as -> E. destruct (IH _ _ _ N N' E) as [-> ->]. auto. }
  induction 1 as [l N|a k l P IH N]; intros k' P'; inversion P' as [l' N' E|a' k'' l' P'' N' E]; subst.
  - reflexivity.
  - elim N. apply in_or_app. right. left. reflexivity.
  - elim N'. apply in_or_app. right. left. reflexivity.
  - apply X in E as [-> ->]; [|exact N'|exact N]. rewrite (IH _ P''). reflexivity.
Qed.
Lemma position_ex s : exists k, position s k.
Proof.
  induction s as [|c s (k & IH)] using rev_ind; [exists (1, 0)%nat; apply (p_first []); auto|].
  destruct (N.eq_dec c newline) as [->|Nc].
  - exists (S (fst k), 0)%nat. apply (p_later s k []); auto.
  - inversion IH as [l N|a k0 l P N]; subst.
    + exists (1, List.length (s ++ [c]))%nat. apply p_first. rewrite in_app_iff. cbn. intuition congruence.
    + exists (S (fst k0), List.length (l ++ [c])). rewrite <- app_assoc. cbn [app]. apply p_later; [exact P|].
      rewrite in_app_iff. cbn. intuition congruence.
Qed.

(** later text: either on the same line or after newlines *)
Lemma position_app s k m : position s k -> exists k', position (s ++ m) k' /\
  ((~ In newline m /\ fst k' = fst k /\ snd k' = snd k + List.length m)%nat \/
   (exists m1 m2, m = m1 ++ newline :: m2 /\ ~ In newline m2 /\ (fst k < fst k')%nat /\ snd k' = List.length m2 /\
      forall r, repeat_next (fst k' - fst k) (s ++ m ++ r) (bytes s) = Some (bytes (s ++ m1 ++ [newline])))).
Proof.
  intros P. induction m as [|c m IH] using rev_ind.
  - exists k. rewrite app_nil_r. split; [exact P|]. left. cbn. repeat split; auto.
  - destruct IH as (k' & P' & IH). destruct (N.eq_dec c newline) as [->|Nc].
    + exists (S (fst k'), 0)%nat. split; [rewrite app_assoc; apply (p_later (s ++ m) k' []); auto|]. right. exists m, []. repeat split; auto.
      * destruct IH as [(_ & -> & _)|(m1 & m2 & _ & _ & L & _)]; cbn; lia.
      * intros r. cbn [fst]. destruct IH as [(N & -> & _)|(m1 & m2 & -> & N & L & _ & R)].
        -- replace (S (fst k) - fst k)%nat with 1%nat by lia. cbn [repeat_next]. rewrite <- app_assoc. cbn [app].
           rewrite next_app by exact N. reflexivity.
        -- replace (S (fst k') - fst k)%nat with (S (fst k' - fst k)) by lia. rewrite repeat_S. specialize (R (newline :: r)).
           replace (((m1 ++ newline :: m2) ++ [newline]) ++ r) with ((m1 ++ newline :: m2) ++ newline :: r) by (rewrite <- !app_assoc; reflexivity). rewrite R.
           replace (s ++ (m1 ++ newline :: m2) ++ newline :: r) with ((s ++ m1 ++ [newline]) ++ m2 ++ newline :: r) by (rewrite <- !app_assoc; reflexivity).
           rewrite next_app by exact N. repeat rewrite <- app_assoc. reflexivity.
    + destruct IH as [(N & A & B)|(m1 & m2 & -> & N & L & B & R)].
      * assert (N' : ~ In newline (m ++ [c])) by (rewrite in_app_iff; cbn; intuition congruence).
        exists (fst k', S (snd k')). split.
        -- rewrite app_assoc. inversion P' as [l Nl|a k0 l Pa Nl]; subst; cbn [fst snd].
           ++ replace (S (List.length (s ++ m))) with (List.length ((s ++ m) ++ [c])) by (rewrite (app_length (s ++ m)); cbn; lia).
              apply p_first. rewrite in_app_iff. cbn. intuition congruence.
           ++ rewrite <- app_assoc. cbn [app]. replace (S (List.length l)) with (List.length (l ++ [c])) by (rewrite app_length; cbn; lia).
              apply p_later; [exact Pa|]. rewrite in_app_iff. cbn. intuition congruence.
        -- left. cbn [fst snd]. repeat split; [exact N'|exact A|]. rewrite app_length. cbn. lia.
      * exists (fst k', S (snd k')). split.
        -- inversion P' as [l Nl E|a k0 l Pa Nl E]; subst.
           ++ elim Nl. rewrite !in_app_iff. right. right. left. reflexivity.
           ++ rewrite app_assoc, <- E. cbn [fst snd]. rewrite <- app_assoc. cbn [app].
              replace (S (List.length l)) with (List.length (l ++ [c])) by (rewrite app_length; cbn; lia).
              apply p_later; [exact Pa|]. rewrite in_app_iff. cbn. intuition congruence.
        -- right. exists m1, (m2 ++ [c]). cbn [fst snd]. repeat split.
           ++ rewrite <- app_assoc. reflexivity.
           ++ rewrite in_app_iff. cbn. intuition congruence.
           ++ exact L.
           ++ rewrite app_length. cbn. lia.
           ++ intros r. specialize (R (c :: r)). rewrite <- R. rewrite <- !app_assoc. reflexivity.
Qed.

Lemma column_app source a l r : source = a ++ l ++ r -> column_bytes source (bytes a) (List.length l) = Some (bytes l).
Proof. intros ->. unfold column_bytes. rewrite slice_app, firstn_app, firstn_all, Nat.sub_diag. cbn. rewrite app_nil_r. reflexivity. Qed.

Theorem display_range_spec pre mid post k k' : position pre k -> position (pre ++ mid) k' ->
  display_range (pre ++ mid ++ post) k k' = Some (bytes pre, bytes pre + bytes mid).
Proof.
  intros P P'. destruct (position_app _ _ mid P) as (k0 & P0 & H). rewrite (position_det _ _ P' _ P0). clear k' P' P0.
  destruct (position_line _ _ P) as (a & l & -> & N & C & L & R). unfold display_range.
  rewrite (proj1 (R (mid ++ post))). rewrite C. rewrite (column_app _ a l (mid ++ post)) by (rewrite <- app_assoc; reflexivity).
  destruct H as [(Nm & E1 & E2)|(m1 & m2 & -> & N2 & L2 & E2 & R2)].
  - rewrite E1, Nat.eqb_refl. replace (bytes a + bytes l - bytes l) with (bytes a) by lia. rewrite E2, C.
    rewrite <- app_length. rewrite (column_app _ a (l ++ mid) post) by (rewrite <- !app_assoc; reflexivity).
    rewrite !bytes_app. do 2 f_equal. lia.
  - destruct (Nat.eqb_spec (fst k) (fst k0)); [lia|]. destruct (Nat.ltb_spec (fst k0) (fst k)); [lia|].
    rewrite <- bytes_app. rewrite R2, E2.
    rewrite (column_app _ ((a ++ l) ++ m1 ++ [newline]) m2 post) by (repeat rewrite <- app_assoc; reflexivity).
    rewrite !bytes_app, !bytes_cons. change (bytes []) with 0. do 2 f_equal. lia.
Qed.

(** ** the order *)
Lemma position_order s m k k' : position s k -> position (s ++ m) k' -> key_le k k' = true /\ (m <> [] -> key_le k' k = false).
Proof.
  intros P P'. destruct (position_app _ _ m P) as (k0 & P0 & H). rewrite (position_det _ _ P' _ P0). unfold key_le.
  destruct H as [(_ & E1 & E2)|(m1 & m2 & -> & _ & L & _)].
  - rewrite E1, E2, Nat.eqb_refl, Nat.ltb_irrefl. cbn. split; [apply Nat.leb_le; lia|]. intros Nm. apply Nat.leb_gt. destruct m; [congruence|cbn; lia].
  - split.
    + destruct (Nat.ltb_spec (fst k) (fst k0)); [reflexivity|lia].
    + intros _. destruct (Nat.ltb_spec (fst k0) (fst k)); [lia|]. destruct (Nat.eqb_spec (fst k0) (fst k)); [lia|reflexivity].
Qed.
Lemma insert_perm {E} (start : E -> nat * nat) e l : Permutation (e :: l) (insert start e l).
Proof.
  induction l as [|x l IH]; [reflexivity|]. cbn. destruct (key_le (start e) (start x)); [reflexivity|].
  rewrite perm_swap. constructor. exact IH.
Qed.
Lemma sort_perm {E} (start : E -> nat * nat) l : Permutation l (sort_errors start l).
Proof. induction l as [|e l IH]; [constructor|]. cbn. rewrite <- insert_perm. constructor. exact IH. Qed.
Lemma key_total a b : key_le a b = false -> key_le b a = true.
Proof.
  unfold key_le. rewrite orb_false_iff, andb_false_iff, orb_true_iff, andb_true_iff, Nat.ltb_lt, Nat.ltb_ge, !Nat.eqb_eq, Nat.eqb_neq, Nat.leb_le, Nat.leb_gt. lia.
Qed.
Lemma key_trans a b c : key_le a b = true -> key_le b c = true -> key_le a c = true.
Proof.
  unfold key_le. rewrite !orb_true_iff, !andb_true_iff, !Nat.ltb_lt, !Nat.eqb_eq, !Nat.leb_le. lia.
Qed.
Lemma insert_sorted {E} (start : E -> nat * nat) e l : StronglySorted (fun a b => key_le (start a) (start b) = true) l ->
  StronglySorted (fun a b => key_le (start a) (start b) = true) (insert start e l).
Proof.
  induction 1 as [|x l S IH F]; [repeat constructor|]. cbn. destruct (key_le (start e) (start x)) eqn:K.
  - constructor; [constructor; assumption|]. constructor; [exact K|]. eapply Forall_impl; [|exact F]. intros y. apply key_trans. exact K.
  - constructor; [exact IH|]. apply Forall_forall. intros y I. apply (Permutation_in _ (Permutation_sym (insert_perm start e l))) in I as [<-|I].
    + apply key_total. exact K.
    + rewrite Forall_forall in F. auto.
Qed.
Lemma sort_sorted {E} (start : E -> nat * nat) l : StronglySorted (fun a b => key_le (start a) (start b) = true) (sort_errors start l).
Proof. induction l as [|e l IH]; [constructor|]. cbn. apply insert_sorted. exact IH. Qed.
(** stability: errors at one position keep their order *)
Lemma insert_filter {E} (start : E -> nat * nat) k e l :
  StronglySorted (fun a b => key_le (start a) (start b) = true) l ->
  filter (fun x => key_le (start x) k && key_le k (start x)) (insert start e l) = filter (fun x => key_le (start x) k && key_le k (start x)) (e :: l).
Proof.
  induction 1 as [|x l S IH F]; [reflexivity|]. cbn [insert]. destruct (key_le (start e) (start x)) eqn:K; [reflexivity|].
  cbn [filter] in *. rewrite IH. destruct (key_le (start e) k && key_le k (start e))%bool eqn:A; [|reflexivity].
  destruct (key_le (start x) k && key_le k (start x))%bool eqn:B; [|reflexivity].
  apply andb_prop in A as [A1 A2], B as [B1 B2]. rewrite (key_trans _ _ _ A1 B2) in K. discriminate.
Qed.
Lemma sort_stable {E} (start : E -> nat * nat) k l :
  filter (fun x => key_le (start x) k && key_le k (start x)) (sort_errors start l) = filter (fun x => key_le (start x) k && key_le k (start x)) l.
Proof.
  induction l as [|e l IH]; [reflexivity|]. cbn [sort_errors fold_right]. fold (sort_errors start l).
  rewrite insert_filter by apply sort_sorted. cbn [filter]. rewrite IH. reflexivity.
Qed.

(** ** the shebang *)
Lemma starts_with_spec p s : starts_with p s = true <-> exists r, s = p ++ r.
Proof.
  unfold starts_with. destruct (list_eq_dec N.eq_dec (firstn (List.length p) s) p) as [E|E].
  - split; [|reflexivity]. intros _. exists (skipn (List.length p) s). rewrite <- E at 1. symmetry. apply firstn_skipn.
  - split; [discriminate|]. intros (r & ->). elim E. rewrite firstn_app, firstn_all, Nat.sub_diag. cbn. apply app_nil_r.
Qed.
Lemma from_newline_spec s : exists l, s = l ++ from_newline s /\ ~ In newline l /\ (from_newline s = [] \/ exists r, from_newline s = newline :: r).
Proof.
  induction s as [|c s (l & E & N & H)]; [exists []; auto|]. cbn [from_newline]. destruct (N.eqb_spec c newline) as [->|Nc].
  - exists []. cbn. split; [reflexivity|]. split; [tauto|]. right. eauto.
  - exists (c :: l). cbn. rewrite <- E. split; [reflexivity|]. split; [intuition congruence|exact H].
Qed.
Lemma parsed_cases source : parsed_text source = source \/
  exists l, source = [35; 33] ++ l ++ parsed_text source /\ ~ In newline l /\ (parsed_text source = [] \/ exists r, parsed_text source = newline :: r) /\
            forall r, source <> [35; 33; 91] ++ r.
Proof.
  unfold parsed_text. destruct (starts_with [35; 33] source) eqn:A; [|left; reflexivity].
  destruct (starts_with [35; 33; 91] source) eqn:B; [left; reflexivity|]. right. cbn [andb negb].
  destruct (proj1 (starts_with_spec _ _) A) as (r & ->). cbn [app from_newline]. change (35 =? newline) with false. change (33 =? newline) with false. cbn iota.
  destruct (from_newline_spec r) as (l & E & N & H). exists l. rewrite <- E. split; [reflexivity|]. split; [exact N|]. split; [exact H|].
  intros r' E'. assert (X : starts_with [35; 33; 91] (35 :: 33 :: r) = true) by (apply (proj2 (starts_with_spec _ _)); exists r'; exact E'). change (starts_with [35; 33; 91] (35 :: 33 :: r)) with (starts_with [35; 33; 91] ([35; 33] ++ r)) in X. rewrite X in B. discriminate.
Qed.
Lemma position_shift p l a k : position a k -> ~ In newline l -> ~ In newline p -> (exists r, a = newline :: r) -> position (p ++ l ++ a) k.
Proof.
  intros P Nl Np. induction P as [m N|a k m P IH N]; intros (r & E).
  - elim N. rewrite E. left. reflexivity.
  - destruct a as [|c a].
    + cbn in *. assert (k = (1, 0)%nat) as -> by (eapply position_det; [exact P|apply (p_first []); auto]).
      rewrite app_assoc. apply (p_later (p ++ l) (1%nat, List.length (p ++ l))); [apply p_first; rewrite in_app_iff; tauto|exact N].
    + rewrite !app_assoc. apply p_later; [|exact N]. rewrite <- app_assoc. apply IH. cbn in E. injection E as -> _. eauto.
Qed.

Lemma bytes_size s : bytes s = size s.
Proof.
  unfold size, Lossy_Spec.utf8_text. induction s as [|c s IH]; [reflexivity|]. cbn [bytes fold_right map List.concat]. fold (bytes s).
  rewrite app_length, Nat2N.inj_add, IH. f_equal. unfold len_utf8, Lossy_Spec.utf8.
  destruct (c <? 128); [reflexivity|]. destruct (c <? 2048); [reflexivity|]. destruct (c <? 65536); reflexivity.
Qed.
