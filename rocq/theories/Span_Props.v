(** C79: errors are reported at the place in the file that caused them. *)
From Verif Require Import Base Span_Model Span_Spec Span_Proofs.
From Coq Require Import NArith Lia Permutation Sorted.
Open Scope N_scope.

(** For every file, and any piece [mid] of the text handed to the parser: the range shown for it is
    found without a panic, and it is that piece of the file, byte for byte.  Only the empty place before
    the line break of a shebang is moved, to the start of the file. *)
Theorem C79_points : forall source a mid post k k',
  parsed_text source = a ++ mid ++ post -> position a k -> position (a ++ mid) k' ->
  exists before, source = before ++ mid ++ post /\ (exists shebang, before = shebang ++ a) /\
    ((a <> [] \/ source = parsed_text source) /\ display_range source k k' = Some (size before, size before + size mid) \/
     a = [] /\ exists e, display_range source k k' = Some (0, e) /\ e <= size before + size mid).
Proof.
  setoid_rewrite <- bytes_size.
  intros source a mid post k k' E P P'. destruct (parsed_cases source) as [S|(l & S & N & H & _)].
  - exists a. split; [congruence|]. split; [exists []; reflexivity|]. left. split; [right; congruence|].
    replace source with (a ++ mid ++ post) by congruence. apply display_range_spec; assumption.
  - rewrite E in S, H. exists ([35; 33] ++ l ++ a). split; [rewrite S at 1; rewrite <- !app_assoc; reflexivity|].
    split; [exists ([35; 33] ++ l); rewrite <- app_assoc; reflexivity|].
    assert (Np : ~ In newline [35; 33]) by (cbn; intros [X|[X|[]]]; discriminate).
    destruct a as [|c a].
    + right. split; [reflexivity|]. cbn [app] in *. assert (k = (1, 0)%nat) as -> by (eapply position_det; [exact P|apply (p_first []); auto]).
      destruct mid as [|d mid].
      * assert (k' = (1, 0)%nat) as -> by (eapply position_det; [exact P'|apply (p_first []); auto]).
        exists 0. split; [|lia]. change (display_range source (1, 0)%nat (1, 0)%nat = Some (bytes [], bytes [] + bytes [])).
        apply (display_range_spec [] [] source); apply (p_first []); auto.
      * destruct H as [H|(r & H)]; [discriminate|]. cbn in H. injection H as -> _.
        exists (bytes [] + bytes ([35; 33] ++ l ++ newline :: mid)). split.
        -- replace source with ([] ++ ([35; 33] ++ l ++ newline :: mid) ++ post) by (rewrite S; cbn; rewrite <- app_assoc; reflexivity).
           apply display_range_spec; [apply (p_first []); auto|]. cbn [app]. apply (position_shift [35; 33] l); eauto.
        -- cbn [app]. rewrite ?app_nil_r. repeat (rewrite ?bytes_cons, ?bytes_app). change (bytes []) with 0. lia.
    + left. split; [left; discriminate|]. destruct H as [H|(r & H)]; [discriminate|]. cbn in H. injection H as -> _.
      replace source with (([35; 33] ++ l ++ newline :: a) ++ mid ++ post) by (rewrite S; rewrite <- !app_assoc; reflexivity).
      apply display_range_spec; [apply position_shift; eauto|]. rewrite <- !app_assoc. apply (position_shift [35; 33] l); eauto. cbn. eauto.
Qed.
Print Assumptions C79_points.

(** Every place in the text has exactly one position, so the theorem speaks about all of them. *)
Theorem C79_positions : forall a, exists k, position a k /\ forall k', position a k' -> k' = k.
Proof. intros a. destruct (position_ex a) as (k & P). exists k. split; [exact P|]. intros k' P'. eapply position_det; eassumption. Qed.
Print Assumptions C79_positions.

(** All errors are reported, each once, those earlier in the file first, and those at the same place in
    the order they were found. *)
Theorem C79_order : forall E (start : E -> nat * nat) (errors : list E),
  Permutation errors (sort_errors start errors) /\
  (forall l1 x l2 y l3 a m, sort_errors start errors = l1 ++ x :: l2 ++ y :: l3 ->
     position a (start y) -> position (a ++ m) (start x) -> m = []) /\
  (forall k same, (forall x, same x = true <-> start x = k) -> filter same (sort_errors start errors) = filter same errors).
Proof.
  intros E start errors. split; [apply sort_perm|]. split.
  - intros l1 x l2 y l3 a m Eq Py Px. destruct m as [|c m]; [reflexivity|]. exfalso.
    assert (K : key_le (start x) (start y) = true).
    { assert (S := sort_sorted start errors). rewrite Eq in S. clear - S. induction l1 as [|z l1 IH]; cbn in S; inversion S as [|? ? S' F]; subst; [|exact (IH S')].
      rewrite Forall_forall in F. apply F. apply in_or_app. right. left. reflexivity. }
    destruct (position_order _ (c :: m) _ _ Py Px) as [_ H]. rewrite H in K by discriminate. discriminate.
  - intros k same H.
    assert (X : forall l, filter same l = filter (fun x => key_le (start x) k && key_le k (start x)) l).
    { intros l. apply filter_ext. intros x. apply eq_true_iff_eq. rewrite H, andb_true_iff. unfold key_le.
      rewrite !orb_true_iff, !andb_true_iff, !Nat.ltb_lt, !Nat.eqb_eq, !Nat.leb_le. split; [intros ->; lia|].
      intros []. destruct (start x), k. cbn in *. f_equal; lia. }
    rewrite !X. apply sort_stable.
Qed.
Print Assumptions C79_order.

(** The generator reads what rustc compiles: false, [#! [...]] is an attribute for rustc and a shebang
    line here, so that everything on that line is ignored. *)
Theorem C79_shebang_refuted : exists source, rust_reads source source /\ parsed_text source = [].
Proof.
  exists [35; 33; 32; 91; 97; 93]. split; [|reflexivity]. right. split; [|reflexivity]. right. exists [32]. split.
  - apply sk_space; [left; reflexivity|constructor].
  - exists [97; 93]. reflexivity.
Qed.
Print Assumptions C79_shebang_refuted.
Theorem C79_shebang_partial : forall source,
  (forall w, attribute_first source w -> w = []) -> rust_reads source (parsed_text source).
Proof.
  intros source H. destruct (starts_with [35; 33] source && negb (starts_with [35; 33; 91] source))%bool eqn:B.
  - apply andb_prop in B as [A B]. destruct (parsed_cases source) as [S|(l & S & N & C & D)].
    + exfalso. unfold parsed_text in S. rewrite A, B in S. cbn in S. apply (proj1 (starts_with_spec _ _)) in A as (r & ->).
      cbn [app from_newline] in S. change (35 =? newline) with false in S. change (33 =? newline) with false in S. cbn iota in S.
      destruct (from_newline_spec r) as (l & E & _). apply (f_equal (@List.length _)) in S, E. rewrite app_length in E. cbn in S. lia.
    + left. exists l, (parsed_text source). repeat split; auto. intros w Aw. assert (Ew := H w Aw). subst w. destruct Aw as (_ & r & Es). exact (D r Es).
  - right. unfold parsed_text. rewrite B. split; [|reflexivity]. apply andb_false_iff in B as [B|B].
    + left. intros r ->. assert (X : starts_with [35; 33] ([35; 33] ++ r) = true) by (apply (proj2 (starts_with_spec _ _)); eauto). congruence.
    + right. exists []. split; [constructor|]. apply negb_false_iff in B. apply (proj1 (starts_with_spec _ _)) in B as (r & ->). exists r. reflexivity.
Qed.
Print Assumptions C79_shebang_partial.

(** "#!x", line break, "é = b", an error at "b". *)
Example C79_nonvacuous :
  let source := [35; 33; 120; 10; 233; 32; 61; 32; 98] in
  parsed_text source = [10; 233; 32; 61; 32] ++ [98] ++ [] /\ position [10; 233; 32; 61; 32] (2, 4)%nat /\
  position ([10; 233; 32; 61; 32] ++ [98]) (2, 5)%nat /\ display_range source (2, 4)%nat (2, 5)%nat = Some (9, 10) /\
  (forall w, attribute_first source w -> w = []) /\
  sort_errors snd [(true, (3, 1)%nat); (false, (2, 4)%nat); (true, (2, 4)%nat)] = [(false, (2, 4)%nat); (true, (2, 4)%nat); (true, (3, 1)%nat)].
Proof.
  assert (P : forall l, ~ In newline l -> position (newline :: l) (2, List.length l)%nat).
  { intros l N. apply (p_later [] (1, 0)%nat l); [apply (p_first []); auto|exact N]. }
  repeat split.
  - apply (P [233; 32; 61; 32]). cbn. intros X. repeat destruct X as [X|X]; discriminate || contradiction.
  - apply (P [233; 32; 61; 32; 98]). cbn. intros X. repeat destruct X as [X|X]; discriminate || contradiction.
  - intros w (S & r & E). exfalso. cbn in E. injection E as E. inversion S as [|c w' I S' Ew|l w' _ _ Ew|l w' _ _ Ew]; subst; cbn in E; try discriminate.
    injection E as <- _. cbn in I. repeat destruct I as [I|I]; discriminate || contradiction.
Qed.
