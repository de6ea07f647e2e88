(** C45: iterating a rust::Slice visits every element once. *)
Require Import ZArith Lia.
From Verif Require Import Base Slice_Model.
Local Open Scope Z_scope.

(** a slice that exists in memory: it does not wrap around and is no larger than an object may be *)
Definition in_memory (s : slice) : Prop :=
  0 < ptr s /\ 0 <= count s < W /\ 0 <= elem_size s /\ elem_size s * count s < half /\ ptr s + elem_size s * count s < W.
(** the address of element [i] *)
Definition element (s : slice) (i : Z) : Z := ptr s + elem_size s * i.

(** The claim is false for elements of size 0, such as an opaque Rust type without fields: the
    loop visits nothing, and the distance from begin() to end() divides by zero. *)
Theorem C45_refuted : exists s, in_memory s /\ count s = 3 /\
  (forall fuel, traverse fuel (begin s) (end_ s) = Some []) /\ diff (end_ s) (begin s) = None.
Proof.
  exists (Slice 8 3 0). split; [unfold in_memory, W, half; cbn; lia|]. split; [reflexivity|]. split; [|reflexivity].
  intros [|fuel]; reflexivity.
Qed.
Theorem C45_zero_size_refuted : forall s fuel, in_memory s -> elem_size s = 0 ->
  traverse fuel (begin s) (end_ s) = Some [] /\ diff (end_ s) (begin s) = None.
Proof.
  intros s fuel (P & C & _ & _ & Q) Z0.
  assert (E : end_ s = begin s).
  { unfold end_, begin. cbn [stride]. rewrite Z0. rewrite Z.mul_0_l. unfold u. rewrite Z.mod_0_l by (unfold W; lia). rewrite Z.add_0_r, Z.mod_small; auto. lia. }
  rewrite E. split.
  - destruct fuel; cbn; unfold ne; now rewrite Z.eqb_refl.
  - unfold diff, begin. cbn [stride]. rewrite Z0. reflexivity.
Qed.

Section Positive.
Variable s : slice.
Hypothesis M : in_memory s.
Hypothesis POS : 0 < elem_size s.

Lemma elem_bound i : 0 <= i <= count s -> 0 <= elem_size s * i <= elem_size s * count s.
Proof. intros. nia. Qed.
Lemma u_small z : 0 <= z < W -> u z = z.
Proof. intros. now apply Z.mod_small. Qed.
Lemma u_add a b : u (a + u b) = u (a + b).
Proof. unfold u. rewrite Zplus_mod_idemp_r. reflexivity. Qed.
Lemma u_sub a b : u (a - u b) = u (a - b).
Proof. unfold u. rewrite Zminus_mod_idemp_r. reflexivity. Qed.
Lemma u_mul a b : u (a * u b) = u (a * b).
Proof. unfold u. rewrite Zmult_mod_idemp_r. reflexivity. Qed.
Lemma bounds i : 0 <= i <= count s -> 0 < element s i < W.
Proof. intros L. pose proof (elem_bound i L). destruct M as (A & B & C & D & E). unfold element. lia. Qed.

(** the iterator at index [i] *)
Definition at_index (i : Z) : iter := Iter (element s i) (elem_size s).
Lemma it_plus i n : 0 <= i + n <= count s -> plus (at_index i) n = at_index (i + n).
Proof.
  intros L. unfold plus, at_index. cbn [pos stride]. f_equal.
  rewrite u_mul, u_add. rewrite u_small; unfold element; [lia|]. pose proof (bounds _ L). unfold element in *. lia.
Qed.
Lemma it_minus i n : 0 <= i - n <= count s -> minus (at_index i) n = at_index (i - n).
Proof.
  intros L. unfold minus, at_index. cbn [pos stride]. f_equal.
  rewrite u_mul, u_sub. rewrite u_small; unfold element; [lia|]. pose proof (bounds _ L). unfold element in *. lia.
Qed.
Lemma it_incr i : 0 <= i < count s -> incr (at_index i) = at_index (i + 1).
Proof. intros L. unfold incr, at_index. cbn. f_equal. pose proof (bounds (i + 1) ltac:(lia)). unfold element in *. rewrite u_small; lia. Qed.
Lemma it_decr i : 0 < i <= count s -> decr (at_index i) = at_index (i - 1).
Proof. intros L. unfold decr, at_index. cbn. f_equal. pose proof (bounds (i - 1) ltac:(lia)). unfold element in *. rewrite u_small; lia. Qed.
Lemma it_begin : begin s = at_index 0.
Proof. unfold begin, at_index, element. f_equal. lia. Qed.
Lemma it_end : end_ s = at_index (count s).
Proof.
  unfold end_, begin, at_index. cbn [stride]. rewrite u_add. f_equal. rewrite u_small; [reflexivity|].
  pose proof (bounds (count s)). destruct M as (_ & C & _). unfold element in *. lia.
Qed.
Lemma signed_size : signed (elem_size s) = elem_size s \/ count s = 0.
Proof.
  destruct M as (A & B & C & D & E). destruct (Z.eq_dec (count s) 0); [now right|left].
  assert (elem_size s < half) by nia. unfold signed. rewrite u_small by (unfold half, W in *; lia). now rewrite (proj2 (Z.ltb_lt _ _)).
Qed.
Lemma it_diff i j : 0 < count s -> 0 <= i <= count s -> 0 <= j <= count s -> diff (at_index i) (at_index j) = Some (i - j).
Proof.
  intros CP LI LJ. unfold diff, at_index. cbn [stride pos]. destruct signed_size as [->|]; [|lia].
  rewrite (proj2 (Z.eqb_neq _ _)) by lia. f_equal.
  assert (S : signed (element s i - element s j) = elem_size s * (i - j)).
  { unfold element. replace (ptr s + elem_size s * i - (ptr s + elem_size s * j)) with (elem_size s * (i - j)) by lia.
    pose proof (elem_bound i LI). pose proof (elem_bound j LJ). destruct M as (A & B & C & D & E). unfold signed.
    destruct (Z.le_gt_cases 0 (i - j)).
    - rewrite u_small by (unfold half, W in *; nia). rewrite (proj2 (Z.ltb_lt _ _)) by nia. reflexivity.
    - replace (u (elem_size s * (i - j))) with (elem_size s * (i - j) + W).
      + rewrite (proj2 (Z.ltb_ge _ _)); unfold half, W in *; nia.
      + unfold u. rewrite <- (Z.mod_add _ 1) by (unfold W; lia). rewrite Z.mul_1_l. rewrite Z.mod_small; unfold half, W in *; nia. }
  rewrite S. rewrite Z.mul_comm. apply Z.quot_mul. lia.
Qed.
Lemma elem_lt i j : element s i < element s j <-> i < j.
Proof. unfold element. nia. Qed.
Lemma elem_eq i j : element s i = element s j <-> i = j.
Proof. unfold element. split; [nia|now intros ->]. Qed.
Lemma traverse_from n : forall fuel i, 0 <= i -> i + Z.of_nat n = count s -> (n <= fuel)%nat ->
  traverse fuel (at_index i) (at_index (count s)) = Some (map (fun k => element s (i + Z.of_nat k)) (seq 0 n)).
Proof.
  induction n as [|n IH]; intros fuel i LI E F.
  - replace i with (count s) by lia. destruct fuel; cbn; unfold ne; now rewrite Z.eqb_refl.
  - destruct fuel as [|fuel]; [lia|]. cbn [traverse]. unfold ne at 1. cbn [pos at_index].
    rewrite (proj2 (Z.eqb_neq _ _)) by (rewrite elem_eq; lia). cbn [negb]. rewrite it_incr by lia.
    rewrite (IH fuel (i + 1)) by lia. cbn [option_map seq map]. f_equal. f_equal.
    + unfold deref. cbn [pos at_index]. f_equal. lia.
    + rewrite <- seq_shift, map_map. apply map_ext. intros k. f_equal. lia.
Qed.
End Positive.

(** For elements of any other size: the loop from begin() to end() visits the elements in index
    order, each once, and size() of them. *)
Theorem C45_iteration_partial : forall s fuel, in_memory s -> 0 < elem_size s -> (Z.to_nat (count s) <= fuel)%nat ->
  traverse fuel (begin s) (end_ s) = Some (map (fun k => element s (Z.of_nat k)) (seq 0 (Z.to_nat (count s)))).
Proof.
  intros s fuel M P F. rewrite (it_begin s), (it_end s M P). pose proof M as (_ & C & _).
  rewrite (traverse_from s M P (Z.to_nat (count s)) fuel 0) by lia. reflexivity.
Qed.
(** The random-access laws, for the iterators at indexes [i] and [j] of one slice, the end
    included. *)
Theorem C45_random_access_partial : forall s i j, in_memory s -> 0 < elem_size s -> 0 <= i <= count s -> 0 <= j <= count s ->
  let a := plus (begin s) i in let b := plus (begin s) j in
  end_ s = plus (begin s) (count s)
  /\ deref a = element s i
  /\ plus a (j - i) = b /\ minus a (i - j) = b
  /\ it_index a (j - i) = deref b
  /\ (0 < count s -> diff b a = Some (j - i))
  /\ (i < count s -> incr a = plus (begin s) (i + 1) /\ post_incr a = (a, incr a))
  /\ (0 < i -> decr a = plus (begin s) (i - 1) /\ post_decr a = (a, decr a))
  /\ (eq a b = true <-> i = j) /\ (ne a b = true <-> i <> j)
  /\ (lt a b = true <-> i < j) /\ (le a b = true <-> i <= j) /\ (gt a b = true <-> i > j) /\ (ge a b = true <-> i >= j).
Proof.
  intros s i j M P LI LJ a b. unfold a, b. rewrite (it_begin s).
  rewrite (it_end s M P). pose proof M as (_ & C & _). rewrite !(it_plus s M P 0) by lia. rewrite !Z.add_0_l.
  split; [reflexivity|]. split; [reflexivity|]. rewrite (it_plus s M P) by lia. rewrite (it_minus s M P) by lia.
  replace (i + (j - i)) with j by lia. replace (i - (i - j)) with j by lia. split; [reflexivity|]. split; [reflexivity|].
  split. { pose proof (it_plus s M P i (j - i) ltac:(lia)) as E. replace (i + (j - i)) with j in E by lia. unfold plus in E. unfold it_index, deref. now injection E. }
  split. { intros. now apply it_diff. }
  split. { intros. rewrite (it_plus s M P) by lia. rewrite (it_incr s M P) by lia. split; [f_equal; lia|]. unfold post_incr.
    pose proof (it_incr s M P i ltac:(lia)) as E. unfold incr in E. rewrite E. f_equal. }
  split. { intros. rewrite (it_plus s M P) by lia. rewrite (it_decr s M P) by lia. split; [f_equal; lia|]. unfold post_decr.
    pose proof (it_decr s M P i ltac:(lia)) as E. unfold decr in E. rewrite E. f_equal. }
  unfold eq, ne, lt, le, gt, ge. cbn [pos at_index]. rewrite negb_true_iff, Z.eqb_neq, Z.eqb_eq, !Z.ltb_lt, !Z.leb_le.
  pose proof (elem_lt s P i j). pose proof (elem_lt s P j i). pose proof (elem_eq s P i j). repeat split; try tauto; lia.
Qed.
(** Indexing, for any size: at() throws exactly outside. *)
Theorem C45_index : forall s n, in_memory s -> 0 <= n < W ->
  at_ s n = (if n <? count s then Some (element s n) else None)
  /\ (n < count s -> index s n = element s n)
  /\ (0 < count s -> front s = ptr s /\ back s = element s (count s - 1)).
Proof.
  intros s n (A & B & C & D & E) L.
  assert (G : forall k, 0 <= k < count s -> index s k = element s k).
  { intros k K. unfold index, element. rewrite u_add. apply u_small. nia. }
  unfold at_. split; [|split].
  - destruct (Z.leb_spec (count s) n); destruct (Z.ltb_spec n (count s)); try lia; auto. now rewrite G by lia.
  - intros. apply G. lia.
  - intros. unfold front, back. rewrite !G by lia. split; [unfold element; lia|reflexivity].
Qed.
(** The empty slice, made from nothing or from a null pointer: nothing is visited, and the
    pointer is one Rust accepts. *)
Theorem C45_empty : forall align size fuel, 0 < align < half -> 0 <= size < half ->
  let s := slice_default align size in let s' := slice_new 0 0 align size in
  s' = s /\ ptr s = align /\ in_memory s /\ traverse fuel (begin s) (end_ s) = Some [].
Proof.
  intros align size fuel A S. cbn zeta. split; [reflexivity|]. split; [reflexivity|].
  assert (M : in_memory (slice_default align size)) by (unfold in_memory, W, half in *; cbn [ptr count elem_size slice_default]; lia).
  split; [exact M|].
  destruct (Z.eq_dec size 0) as [->|N].
  - now apply C45_zero_size_refuted.
  - rewrite C45_iteration_partial; auto; cbn; try lia.
Qed.

Example C45_nonvacuous :
  let s := Slice 4096 3 24 in in_memory s /\ 0 < elem_size s /\
  traverse 3 (begin s) (end_ s) = Some [4096; 4120; 4144] /\ diff (begin s) (end_ s) = Some (-3) /\
  deref (plus (plus (begin s) 2) (-1)) = 4120 /\ at_ s 3 = None /\ at_ s 2 = Some 4144.
Proof. unfold in_memory, W, half. cbn. repeat split; lia. Qed.
Example C45_zero_size_nonvacuous : in_memory (Slice 8 3 0) /\ elem_size (Slice 8 3 0) = 0.
Proof. unfold in_memory, W, half. cbn. lia. Qed.

Print Assumptions C45_refuted.
Print Assumptions C45_zero_size_refuted.
Print Assumptions C45_iteration_partial.
Print Assumptions C45_random_access_partial.
Print Assumptions C45_index.
Print Assumptions C45_empty.
