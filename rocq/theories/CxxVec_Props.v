(** C39: CxxVector operations match a sequence. *)
From Verif Require Import Base CxxVec_Model CxxVec_Spec.
Require Import Lia.

Section Proofs.
Context {V : Type}.
Variable grow : nat -> nat.

(** the buffer holds the elements of the list and then unused memory *)
Definition holds (v : vec V) (l : list V) : Prop :=
  size v = List.length l /\ exists spare, cells v = map Full l ++ repeat Raw spare.

Lemma holds_nth v l i x : holds v l -> nth_error l i = Some x -> nth_error (cells v) i = Some (Full x).
Proof.
  intros (S & n & E) N. rewrite E, nth_error_app1.
  - rewrite nth_error_map, N. reflexivity.
  - rewrite map_length. apply nth_error_Some. congruence.
Qed.
Lemma set_full (l : list V) : forall i x rest, i < List.length l ->
  set_cell i (Full x) (map Full l ++ rest) = map Full (replace i x l) ++ rest.
Proof.
  induction l as [|y l IH]; intros i x rest L; [inversion L|].
  destruct i as [|i]; cbn; [reflexivity|]. rewrite IH; [reflexivity|]. cbn in L. lia.
Qed.
Lemma replace_length (l : list V) : forall i x, List.length (replace i x l) = List.length l.
Proof. induction l as [|y l IH]; intros [|i] x; cbn; auto. Qed.
Lemma replace_none (l : list V) : forall i x, nth_error l i = None -> replace i x l = l.
Proof. induction l as [|y l IH]; intros [|i] x E; cbn in *; try reflexivity; [discriminate|]. now rewrite IH. Qed.
Lemma replace_nth (l : list V) : forall i x j, i < List.length l ->
  nth_error (replace i x l) j = if Nat.eqb j i then Some x else nth_error l j.
Proof.
  induction l as [|y l IH]; intros i x j L; [inversion L|].
  destruct i as [|i], j as [|j]; cbn; try reflexivity. apply IH. cbn in L. lia.
Qed.
Lemma set_at (l : list (cell V)) c c' rest : set_cell (List.length l) c (l ++ c' :: rest) = l ++ c :: rest.
Proof. induction l as [|y l IH]; cbn; [reflexivity|]. now rewrite IH. Qed.

Lemma assign_holds v l p x : holds v l -> p < List.length l ->
  exists v', assign v p x = Some v' /\ holds v' (replace p x l).
Proof.
  intros H L. destruct (nth_error l p) as [y|] eqn:E; [|apply nth_error_None in E; lia].
  unfold assign. rewrite (holds_nth _ _ _ _ H E). eexists. split; [reflexivity|].
  destruct H as (S & n & Q). split; cbn [size cells].
  - now rewrite replace_length.
  - exists n. rewrite Q. now apply set_full.
Qed.
Lemma slice_holds v l : holds v l -> forall l' p, l = firstn p l ++ l' -> p <= List.length l ->
  from_raw_parts v p (List.length l') = Some l'.
Proof.
  intros H l'. induction l' as [|x l' IH]; intros p E L; [reflexivity|]. cbn [List.length from_raw_parts].
  assert (N : nth_error l p = Some x).
  { rewrite E, nth_error_app2; rewrite firstn_length_le by exact L; [|lia]. now rewrite Nat.sub_diag. }
  unfold read_cell. rewrite (holds_nth _ _ _ _ H N). rewrite (IH (S p)); [reflexivity| |].
  - assert (F : firstn (S p) l = firstn p l ++ [x]).
    { clear -N. revert l N. induction p as [|p IH]; intros [|y l] N; cbn in *; try discriminate; [now inversion N|]. now rewrite (IH _ N). }
    rewrite F, <- app_assoc. exact E.
  - assert (p < List.length l) by (apply nth_error_Some; congruence). lia.
Qed.

Lemma write_holds ws : forall v l, holds v l ->
  exists v', write_all 0 (List.length l) ws v = Some v' /\ holds v' (fold_left (fun l w => replace (fst w) (snd w) l) ws l).
Proof.
  induction ws as [|(k, x) ws IH]; intros v l H; cbn [write_all fold_left fst snd Nat.add]; [eauto|].
  destruct (Nat.ltb_spec k (List.length l)) as [L|L].
  - destruct (assign_holds v l k x H L) as (v1 & -> & H1). destruct (IH v1 _ H1) as (v2 & E & H2). rewrite replace_length in E. eauto.
  - rewrite replace_none by (apply nth_error_None; exact L). apply IH, H.
Qed.
Lemma step_holds o v l : holds v l -> exists v' ob, step grow o v = Some (v', ob) /\ holds v' (fst (lstep o l)) /\ ob = snd (lstep o l).
Proof.
  intros H. pose proof H as (S & n & Q). destruct o; cbn [step lstep fst snd].
  - exists v. eexists. split; [reflexivity|]. split; [exact H|]. unfold r_len, cxx_size. now rewrite S.
  - exists v. eexists. split; [reflexivity|]. split; [exact H|]. unfold r_is_empty, r_len, cxx_size. rewrite S. now destruct l.
  - unfold r_get, r_len, cxx_size, cxx_get_unchecked. destruct (Nat.ltb_spec pos (size v)) as [L|L].
    + rewrite S in L. destruct (nth_error l pos) as [x|] eqn:E; [|apply nth_error_None in E; lia].
      unfold read_cell. rewrite (holds_nth _ _ _ _ H E). exists v. eexists. split; [reflexivity|auto].
    + exists v. eexists. split; [reflexivity|]. split; [exact H|]. rewrite S in L. f_equal. symmetry. now apply nth_error_None.
  - unfold r_index_mut, r_len, cxx_size, cxx_get_unchecked. destruct (Nat.ltb_spec pos (size v)) as [L|L].
    + rewrite S in L. destruct (nth_error l pos) as [y|] eqn:E; [|apply nth_error_None in E; lia].
      destruct (assign_holds v l pos x H L) as (v' & -> & H'). exists v'. eexists. split; [reflexivity|auto].
    + rewrite S in L. assert (E : nth_error l pos = None) by now apply nth_error_None.
      rewrite E, replace_none by exact E. exists v. eexists. split; [reflexivity|auto].
  - unfold r_as_slice, r_len, cxx_size, cxx_get_unchecked. rewrite S. destruct l as [|x l].
    + exists v. eexists. split; [reflexivity|auto].
    + change (Nat.eqb (List.length (x :: l)) 0) with false. change (Nat.ltb 0 (List.length (x :: l))) with true. cbv iota. rewrite (slice_holds v (x :: l) H (x :: l) 0 eq_refl); [|cbn; lia].
      exists v. eexists. split; [reflexivity|auto].
  - assert (E : r_as_mut_slice v = Some (0, List.length l)).
    { unfold r_as_mut_slice, r_len, cxx_size, cxx_get_unchecked. rewrite S. destruct l as [|x l]; [reflexivity|].
      change (Nat.eqb (List.length (x :: l)) 0) with false. change (Nat.ltb 0 (List.length (x :: l))) with true. cbv iota. rewrite (slice_holds v (x :: l) H (x :: l) 0 eq_refl); [reflexivity|cbn; lia]. }
    rewrite E. destruct (write_holds ws v l H) as (v' & -> & H'). eexists. eexists. split; [reflexivity|auto].
  - unfold r_push, cxx_push_back, std_push_back. rewrite S, Q.
    assert (LM : List.length l = List.length (map (@Full V) l)) by now rewrite map_length.
    rewrite LM. destruct n as [|n].
    + cbn [repeat]. rewrite app_nil_r, Nat.eqb_refl. cbn [repeat].
      rewrite nth_error_app2, Nat.sub_diag by lia. cbn [nth_error]. rewrite set_at.
      eexists. eexists. split; [reflexivity|]. split; [|reflexivity]. split; cbn [size cells].
      * rewrite app_length, map_length. cbn. lia.
      * exists (grow (List.length (map (@Full V) l))). rewrite map_app, <- app_assoc. reflexivity.
    + destruct (Nat.eqb_spec (List.length (map (@Full V) l)) (List.length (map (@Full V) l ++ repeat Raw (Datatypes.S n)))) as [X|X].
      { rewrite app_length, repeat_length in X. lia. }
      cbn [repeat]. rewrite nth_error_app2, Nat.sub_diag by lia. cbn [nth_error]. rewrite set_at.
      eexists. eexists. split; [reflexivity|]. split; [|reflexivity]. split; cbn [size cells].
      * rewrite app_length, map_length. cbn. lia.
      * exists n. rewrite map_app, <- app_assoc. reflexivity.
  - unfold r_pop, r_is_empty, r_len, cxx_size. rewrite S. destruct l as [|x l] using rev_ind; [|clear IHl].
    + exists v. eexists. split; [reflexivity|auto].
    + rewrite app_length, Nat.add_comm in *. cbn [List.length Nat.add Nat.eqb] in *.
      unfold cxx_pop_back. rewrite S.
      assert (N : nth_error (cells v) (List.length l) = Some (Full x)).
      { eapply holds_nth; [exact H|]. rewrite nth_error_app2, Nat.sub_diag by lia. reflexivity. }
      rewrite N. eexists. eexists. split; [reflexivity|]. rewrite removelast_last. split.
      * split; cbn [size cells]; [reflexivity|]. exists (Datatypes.S n). rewrite Q, map_app, <- app_assoc. cbn [map app repeat].
        rewrite <- (map_length (@Full V) l). apply set_at.
      * f_equal. destruct (l ++ [x]) as [|y r] eqn:E; [destruct l; discriminate|]. rewrite <- E. now rewrite last_last.
Qed.
Lemma run_holds ops : forall v l, holds v l -> exists v' t, run grow ops v = Some (v', t) /\ holds v' (fst (lrun ops l)) /\ t = snd (lrun ops l).
Proof.
  induction ops as [|o ops IH]; intros v l H; cbn [run lrun].
  - exists v, []. auto.
  - destruct (step_holds o v l H) as (v1 & ob & -> & H1 & ->). destruct (lstep o l) as [l1 ob]. cbn [fst snd] in *.
    destruct (IH v1 l1 H1) as (v2 & t & -> & H2 & ->). destruct (lrun ops l1) as [l2 t]. cbn [fst snd] in *. eexists. eexists. split; [reflexivity|auto].
Qed.
Lemma destroy_holds v l : holds v l -> cxx_destroy v = Some l.
Proof.
  intros (S & n & Q). unfold cxx_destroy. rewrite S, Q, <- (map_length (@Full V) l), firstn_app, firstn_all, Nat.sub_diag.
  cbn [firstn]. rewrite app_nil_r. clear. induction l as [|x l IH]; [reflexivity|]. cbn [map fold_right]. now rewrite IH.
Qed.

Definition iholds (st : iter V * list nat) (s : list V * nat) : Prop :=
  holds (it_v (fst st)) (fst s) /\ it_index (fst st) = snd s /\ snd s <= List.length (fst s) /\ snd st = seq 0 (snd s).
Lemma nth_seq k n : nth_error (seq 0 n) k = if Nat.ltb k n then Some k else None.
Proof.
  destruct (Nat.ltb_spec k n) as [L|L].
  - rewrite (nth_error_nth' _ 0) by (rewrite seq_length; exact L). now rewrite seq_nth.
  - apply nth_error_None. now rewrite seq_length.
Qed.
Lemma nth_firstn {A} (l : list A) k n : k < n -> nth_error (firstn n l) k = nth_error l k.
Proof.
  revert l k. induction n as [|n IH]; intros l k L; [lia|]. destruct l as [|x l]; [reflexivity|].
  destruct k as [|k]; [reflexivity|]. cbn. apply IH. lia.
Qed.
Lemma istep_holds b o st s : iholds st s -> exists st' ob, istep b o st = Some (st', ob) /\ iholds st' (fst (listep b o s)) /\ ob = snd (listep b o s).
Proof.
  destruct st as [[v i] refs], s as [l n]. intros (H & E & L & R). cbn [fst snd it_v it_index] in *. subst i refs.
  assert (SZ : size v = List.length l) by apply H.
  destruct o; cbn [istep listep].
  - assert (X : (if b then iter_mut_next (Iter v n) else iter_next (Iter v n)) =
                if Nat.ltb n (List.length l) then Some (Iter v (n + 1), Some n) else Some (Iter v n, None)).
    { destruct b; unfold iter_mut_next, iter_next, r_index_mut, r_get, r_len, cxx_size, cxx_get_unchecked; cbn [it_v it_index]; rewrite SZ;
        destruct (Nat.ltb n (List.length l)); reflexivity. }
    rewrite X. destruct (Nat.ltb_spec n (List.length l)) as [Q|Q].
    + eexists. eexists. split; [reflexivity|]. split; [|reflexivity]. split; [exact H|]. cbn [fst snd it_index]. repeat split; try lia.
      now rewrite seq_S.
    + eexists. eexists. split; [reflexivity|]. split; [|reflexivity]. split; [exact H|]. cbn [fst snd it_index]. auto.
  - unfold iter_len, r_len, cxx_size. cbn [it_v it_index]. rewrite SZ. destruct (Nat.leb_spec n (List.length l)) as [Q|Q]; [|lia].
    eexists. eexists. split; [reflexivity|]. split; [|reflexivity]. split; [exact H|]. cbn. auto.
  - rewrite nth_seq. cbn [fst snd it_v]. destruct (Nat.ltb_spec k n) as [Q|Q].
    + rewrite nth_firstn by exact Q. destruct (nth_error l k) as [x|] eqn:N; [|apply nth_error_None in N; lia].
      unfold read_cell. rewrite (holds_nth _ _ _ _ H N).
      eexists. eexists. split; [reflexivity|]. split; [|reflexivity]. split; [exact H|]. cbn. auto.
    + assert (N : nth_error (firstn n l) k = None) by (apply nth_error_None; rewrite firstn_length; lia). rewrite N.
      eexists. eexists. split; [reflexivity|]. split; [|reflexivity]. split; [exact H|]. cbn. auto.
  - destruct b; cbn [andb].
    + rewrite nth_seq. cbn [it_v it_index fst snd]. destruct (Nat.ltb_spec k n) as [Q|Q].
      * destruct (assign_holds v l k x H) as (v' & -> & H'); [lia|].
        eexists. eexists. split; [reflexivity|]. split; [|reflexivity]. split; [exact H'|]. cbn. rewrite replace_length. auto.
      * eexists. eexists. split; [reflexivity|]. split; [|reflexivity]. split; [exact H|]. cbn. auto.
    + eexists. eexists. split; [reflexivity|]. split; [|reflexivity]. split; [exact H|]. cbn. auto.
Qed.
Lemma irun_holds b ops : forall st s, iholds st s -> exists st' t, irun b ops st = Some (st', t) /\ iholds st' (fst (lirun b ops s)) /\ t = snd (lirun b ops s).
Proof.
  induction ops as [|o ops IH]; intros st s H; cbn [irun lirun].
  - exists st, []. auto.
  - destruct (istep_holds b o st s H) as (v1 & ob & -> & H1 & ->). destruct (listep b o s) as [l1 ob]. cbn [fst snd] in *.
    destruct (IH v1 l1 H1) as (v2 & t & -> & H2 & ->). destruct (lirun b ops l1) as [l2 t]. cbn [fst snd] in *. eexists. eexists. split; [reflexivity|auto].
Qed.
End Proofs.

(** Every history of operations on a CxxVector, whatever the growth of the buffer, runs
    without undefined behaviour and with the results of the same operations on a list; when
    the vector is destroyed, exactly the elements of that list are. *)
Theorem C39_sequence : forall (V : Type) (grow : nat -> nat) (ops : list (op V)),
  exists v, run grow ops cxx_new = Some (v, snd (lrun ops [])) /\ cxx_destroy v = Some (fst (lrun ops [])).
Proof.
  intros V grow ops. destruct (run_holds grow ops cxx_new []) as (v & t & E & H & ->).
  - split; [reflexivity|]. now exists 0.
  - exists v. split; [exact E|]. now apply destroy_holds.
Qed.
Print Assumptions C39_sequence.

(** Iterating over a vector that holds [l]: any mixture of [next], [len], reads and (for the
    mutable iterator) writes through any of the references given out so far runs without
    undefined behaviour or panic, and as on the list: the [n]-th call of [next] gives the
    [n]-th element, once, then None forever, and [len] is the number of elements to come. *)
Theorem C39_iteration : forall (V : Type) (grow : nat -> nat) (setup : list (op V)) v (ops : list (iop V)) mutable,
  run grow setup cxx_new = Some (v, snd (lrun setup [])) ->
  let l := fst (lrun setup []) in
  exists i refs, irun mutable ops (r_iter v, []) = Some ((i, refs), snd (lirun mutable ops (l, 0))) /\
    NoDup refs /\ cxx_destroy (it_v i) = Some (fst (fst (lirun mutable ops (l, 0)))).
Proof.
  intros V grow setup v ops b E l.
  destruct (run_holds grow setup cxx_new []) as (v' & t & E' & H & ->); [split; [reflexivity|now exists 0]|].
  rewrite E in E'. inversion E'; subst v'.
  destruct (irun_holds grow b ops (r_iter v, []) (l, 0)) as ([i refs] & t & Q & (A & B & C & D) & ->).
  - split; [exact H|]. cbn. repeat split; lia.
  - exists i, refs. split; [exact Q|]. cbn [fst snd] in *. split; [rewrite D; apply seq_NoDup|]. now apply destroy_holds.
Qed.
Print Assumptions C39_iteration.

Example C39_nonvacuous :
  let ops := [Push 1; Push 2; Push 3; Pop; Push 4; IndexMut 0 9; IndexMut 7 0; Get 1; Get 3; AsSlice; AsMutSlice [(1, 7); (3, 1); (1, 2)]; Len] in
  run (fun n => n) ops cxx_new =
    Some (Vec [Full 9; Full 2; Full 4] 3,
          [ODone; ODone; ODone; OElem (Some 3); ODone; OWrote true; OWrote false; OElem (Some 2); OElem None; OSlice [9; 2; 4]; OLen 3; OLen 3]) /\
  irun true [Next; Remaining; Next; Write 0 5; Read 0; Next; Next; Remaining; Next] (r_iter (Vec [Full 9; Full 2; Full 4] 3), []) =
    Some ((Iter (Vec [Full 5; Full 2; Full 4] 3) 3, [0; 1; 2]),
          [IElem (Some 0); ILen 2; IElem (Some 1); IDone; IRead 5; IElem (Some 2); IElem None; ILen 0; IElem None]).
Proof. split; reflexivity. Qed.
