(** C15, C16: equality and hashing of types; ordered set and map. *)
From Verif Require Import Base Syntax_Model TypeEq_Model OrdMap_Model TypeEq_Spec TypeEq_Proofs OrdMap_Proofs.

Local Definition id (s : string) : ty := TIdent (Named s []).

(** C15, full claim: *)
Definition C15_claim : Prop :=
  equivalence ty_eqb /\ (forall a b, ty_eqb a b = true -> ty_hash a = ty_hash b).

(** False: raw pointers and arrays are not equal to themselves. *)
Theorem C15_equality_refuted : ~ C15_claim /\ exists t u, ty_eqb t t = false /\ ty_eqb u u = false.
Proof.
  split.
  - intros [[R _ _] _]. specialize (R (TPtr true (id "u8"))). discriminate.
  - exists (TPtr false (id "u8")), (TArray (id "u8") 4). split; reflexivity.
Qed.
Print Assumptions C15_equality_refuted.

(** What equality decides, for all types. *)
Theorem C15_equality_partial : forall a b, ty_eqb a b = true <-> same_type a b /\ ptr_array_free a.
Proof. exact ty_eqb_iff. Qed.
Print Assumptions C15_equality_partial.

(** Everything but reflexivity holds for all types; reflexivity for types without
    raw pointers and arrays.  Receivers are compared by a full equivalence. *)
Theorem C15_equivalence_partial :
  (forall t, ptr_array_free t -> ty_eqb t t = true) /\
  (forall a b, ty_eqb a b = true -> ty_eqb b a = true) /\
  (forall a b c, ty_eqb a b = true -> ty_eqb b c = true -> ty_eqb a c = true) /\
  (forall a b, ty_eqb a b = true -> ty_hash a = ty_hash b) /\
  equivalence receiver_eqb /\
  (forall a b, receiver_eqb a b = true -> receiver_hash a = receiver_hash b).
Proof.
  split; [intros t H; apply ty_eqb_iff; split; [reflexivity|exact H]|].
  split; [exact ty_eqb_sym|]. split; [exact ty_eqb_trans|]. split; [exact ty_hash_ok|]. split; [|exact receiver_hash_ok].
  split; intros *; rewrite !receiver_eqb_spec; [tauto| |]; intuition congruence.
Qed.
Print Assumptions C15_equivalence_partial.

(** Types recorded in the ordered set [Types::all] after inserting [l], for any
    hasher [fin] over the hash stream. *)
Definition recorded (fin : list hval -> N) (l : list ty) : list ty :=
  os_vec (fold_left (fun s t => fst (os_insert (fun t => fin (ty_hash t)) ty_eqb s t)) l os_new).

(** Each mentioned type without raw pointers/arrays is recorded exactly once. *)
Theorem C15_recorded_once_partial : forall fin l t, In t l -> ptr_array_free t ->
  (exists a x b, recorded fin l = a ++ x :: b /\ same_type t x) /\
  (forall a x b y c, recorded fin l = a ++ x :: b ++ y :: c -> same_type t x -> ~ same_type t y).
Proof.
  intros fin l t Ht Hf. unfold recorded.
  assert (E : recorded fin l = firsts ty_eqb [] l).
  { unfold recorded. pose proof (os_run_spec (fun t => fin (ty_hash t)) ty_eqb) as G. unfold os_run in G. rewrite G; [reflexivity|].
    intros x y H. f_equal. apply ty_hash_ok. exact H. }
  unfold recorded in E. rewrite E. split.
  - assert (C : existsb (ty_eqb t) (firsts ty_eqb [] l) = true).
    { clear E. induction l as [|z l IH] using rev_ind; [destruct Ht|].
      assert (G : forall l seen, ptr_array_free t -> In t l -> existsb (ty_eqb t) seen = false -> existsb (ty_eqb t) (firsts ty_eqb seen l) = true).
      { clear - Hf. induction l as [|y l IH]; intros seen Hf' Hin Hs; [destruct Hin|]. cbn.
        destruct (ty_eqb t y) eqn:Ety.
        - destruct (existsb (ty_eqb y) seen) eqn:Ey.
          + exfalso. apply existsb_exists in Ey. destruct Ey as [w [W1 W2]].
            assert (existsb (ty_eqb t) seen = true) by (apply existsb_exists; exists w; split; [exact W1|eapply ty_eqb_trans; eauto]). congruence.
          + cbn. rewrite Ety. reflexivity.
        - destruct Hin as [->|Hin]; [rewrite (proj2 (ty_eqb_iff t t) (conj eq_refl Hf)) in Ety; discriminate|].
          destruct (existsb (ty_eqb y) seen) eqn:Ey; [apply IH; auto|].
          cbn. rewrite Ety. cbn. apply IH; auto. cbn. rewrite Ety. exact Hs. }
      apply G; auto. }
    apply existsb_exists in C. destruct C as [x [C1 C2]]. apply in_split in C1. destruct C1 as [a [b C1]]. exists a, x, b.
    split; [exact C1|]. apply ty_eqb_iff in C2. tauto.
  - intros a x b y c H Hx Hy. apply firsts_later in H.
    assert (ty_eqb y x = true); [|congruence]. apply ty_eqb_iff. split; [unfold same_type in *; congruence|].
    eapply same_free; eauto.
Qed.
Print Assumptions C15_recorded_once_partial.

(** ... but a raw pointer mentioned twice is recorded twice. *)
Theorem C15_recorded_once_refuted : forall fin, exists t, recorded fin [t; t] = [t; t].
Proof.
  intros fin. exists (TPtr true (id "T")). unfold recorded. cbn. unfold os_insert, hs_insert, hs_contains, probe. cbn.
  rewrite andb_false_r. reflexivity.
Qed.
Print Assumptions C15_recorded_once_refuted.

Example C15_nonvacuous :
  let t := TFn true false [("x", TRef false true (Some "a") (TVec (id "u8")))] (Some (TBox (id "T"))) in
  let u := TFn true false [("y", TRef false true (Some "a") (TVec (id "u8")))] (Some (TBox (id "T"))) in
  ptr_array_free t /\ same_type t u /\ t <> u /\ ty_eqb t u = true.
Proof. cbn. repeat split. discriminate. Qed.

(** C16.  For any key type with an equivalence [eqb] and any hash compatible with
    it: after any history of insertions, the set iterates the first occurrence of
    each key in insertion order, pairwise different, and contains exactly the
    inserted keys. *)
Theorem C16_ordered_set : forall (K : Type) (h : K -> N) (eqb : K -> K -> bool),
  equivalence eqb -> (forall x y, eqb x y = true -> h x = h y) ->
  forall ops : list K,
  let s := fold_left (fun s k => fst (os_insert h eqb s k)) ops os_new in
  os_vec s = firsts eqb [] ops /\
  ForallOrdPairs (fun x y => eqb x y = false) (os_vec s) /\
  (forall k, existsb (eqb k) (os_vec s) = existsb (eqb k) ops) /\
  (forall k, snd (os_insert h eqb s k) = negb (existsb (eqb k) ops)).
Proof.
  intros K h eqb HE Hh ops s.
  assert (E : os_vec s = firsts eqb [] ops) by (subst s; exact (os_run_spec h eqb Hh ops os_new)).
  split; [exact E|]. split; [rewrite E; apply (firsts_distinct eqb HE)|].
  assert (M : forall k, existsb (eqb k) (os_vec s) = existsb (eqb k) ops).
  { intros k. rewrite E. pose proof (firsts_mem eqb HE ops [] k) as F. rewrite !app_nil_r in F. exact F. }
  split; [exact M|]. intros k.
  assert (I : forall ops s, os_set s = rev (os_vec s) ->
      os_set (fold_left (fun s k => fst (os_insert h eqb s k)) ops s) = rev (os_vec (fold_left (fun s k => fst (os_insert h eqb s k)) ops s))).
  { clear. induction ops as [|x ops IH]; intros s Hs; [exact Hs|]. cbn. apply IH.
    unfold os_insert, hs_insert. destruct (hs_contains h eqb (os_set s) x); cbn; [exact Hs|]. rewrite rev_app_distr, Hs. reflexivity. }
  specialize (I ops os_new eq_refl). fold s in I.
  unfold os_insert, hs_insert. rewrite (contains_eqb h eqb Hh). rewrite <- M.
  assert (existsb (eqb k) (os_set s) = existsb (eqb k) (os_vec s)) as ->.
  { rewrite I. destruct (existsb (eqb k) (os_vec s)) eqn:X.
    - apply existsb_exists in X. destruct X as [x [X1 X2]]. apply existsb_exists. exists x. rewrite <- in_rev. auto.
    - destruct (existsb (eqb k) (rev (os_vec s))) eqn:Y; [|reflexivity]. apply existsb_exists in Y. destruct Y as [x [X1 X2]].
      rewrite <- in_rev in X1. assert (existsb (eqb k) (os_vec s) = true) by (apply existsb_exists; eauto). congruence. }
  destruct (existsb (eqb k) (os_vec s)); reflexivity.
Qed.
Print Assumptions C16_ordered_set.

(** The same for the map: no indexing panic, keys in order of first insertion, each
    with the value inserted last; [insert] returns the previous value and
    [contains_key] reports exactly the inserted keys. *)
Theorem C16_ordered_map : forall (K V : Type) (h : K -> N) (eqb : K -> K -> bool),
  equivalence eqb -> (forall x y, eqb x y = true -> h x = h y) ->
  forall ops : list (K * V),
  exists m, om_run h eqb ops om_new = Ok m /\
    map fst (om_vec m) = firsts eqb [] (map fst ops) /\
    (forall k v, In (k, v) (om_vec m) -> last_value eqb ops k = Some v) /\
    (forall k, om_contains h eqb m k = is_some (last_value eqb ops k)) /\
    (forall k v, exists m', om_insert h eqb m k v = Ok (m', last_value eqb ops k)).
Proof.
  intros K V h eqb HE Hh ops. destruct (om_run_inv h eqb HE Hh ops) as [m [E I]]. exists m.
  split; [exact E|]. split; [apply (i_keys _ _ _ I)|]. split; [apply (i_vals _ _ _ I)|].
  split; [intros k; apply (om_contains_spec h eqb HE Hh _ _ _ I)|].
  intros k v. destruct (om_step h eqb HE Hh ops m k v I) as [m' [E' _]]. eauto.
Qed.
Print Assumptions C16_ordered_map.

Example C16_nonvacuous :
  equivalence Nat.eqb /\
  om_run (fun k => N.of_nat (k mod 2)) Nat.eqb [(5, "a"); (3, "b"); (5, "c")] om_new
  = Ok (OMap [(5, 0); (3, 1)] [(5, "c"); (3, "b")]).
Proof.
  split; [|reflexivity]. split.
  - apply Nat.eqb_refl.
  - intros x y. rewrite !Nat.eqb_eq. congruence.
  - intros x y z. rewrite !Nat.eqb_eq. congruence.
Qed.
