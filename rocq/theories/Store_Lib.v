(** Objects that own heap cells, for the models of rust::String, rust::Box, rust::Vec and
    rust::Error in C++: variables hold representations, a heap is a list of cells whose
    addresses are never reused, and an invariant says that every cell that is not freed is
    owned by exactly one object. *)
From Verif Require Import Base.
Require Import Lia Permutation.

(** * Variables *)
Fixpoint lookup {A} (x : nat) (e : list (nat * A)) : option A :=
  match e with [] => None | (y, a) :: e => if Nat.eqb x y then Some a else lookup x e end.
Fixpoint remove {A} (x : nat) (e : list (nat * A)) : list (nat * A) :=
  match e with [] => [] | (y, a) :: e => if Nat.eqb x y then e else (y, a) :: remove x e end.
Fixpoint set {A} (x : nat) (v : A) (e : list (nat * A)) : list (nat * A) :=
  match e with [] => [] | (y, a) :: e => if Nat.eqb x y then (y, v) :: e else (y, a) :: set x v e end.

(** * The heap: [None] is a freed cell *)
Section Heap.
Context {K : Type}.
Notation heap := (list (option K)).
Definition cell (h : heap) (a : nat) : option K := match nth_error h a with Some c => c | None => None end.
Fixpoint set_cell (a : nat) (c : option K) (h : heap) : heap :=
  match h, a with
  | [], _ => []
  | _ :: h, 0 => c :: h
  | x :: h, S a => x :: set_cell a c h
  end.
Definition alloc (k : K) (h : heap) : nat * heap := (List.length h, h ++ [Some k]).
(** [None]: freeing what is not there *)
Definition free (a : nat) (h : heap) : option heap :=
  match cell h a with Some _ => Some (set_cell a None h) | None => None end.
Definition store (a : nat) (k : K) (h : heap) : option heap :=
  match cell h a with Some _ => Some (set_cell a (Some k) h) | None => None end.
End Heap.

(** * Lemmas *)
Lemma cell_set_same {K} (h : list (option K)) a c : cell h a <> None -> cell (set_cell a c h) a = c.
Proof.
  revert a. induction h as [|x h IH]; intros [|a] N; try reflexivity; try (now elim N). apply IH. exact N.
Qed.
Lemma cell_set_other {K} (h : list (option K)) a b c : b <> a -> cell (set_cell a c h) b = cell h b.
Proof.
  revert a b. induction h as [|x h IH]; intros [|a] [|b] N; try reflexivity; try congruence. apply (IH a b). congruence.
Qed.
Lemma cell_app_old {K} (h : list (option K)) k a : cell h a <> None -> cell (h ++ [k]) a = cell h a.
Proof.
  unfold cell. intros N. rewrite nth_error_app1; [reflexivity|]. apply nth_error_Some. destruct (nth_error h a); [discriminate|congruence].
Qed.
Lemma cell_app_new {K} (h : list (option K)) k : cell (h ++ [k]) (List.length h) = k.
Proof. unfold cell. rewrite nth_error_app2, Nat.sub_diag by lia. reflexivity. Qed.
Lemma cell_app_inv {K} (h : list (option K)) k a : cell (h ++ [k]) a <> None -> a = List.length h \/ cell h a <> None.
Proof.
  destruct (Nat.eq_dec a (List.length h)) as [->|N]; auto. right. revert H. unfold cell.
  destruct (Nat.lt_ge_cases a (List.length h)) as [L|L].
  - now rewrite nth_error_app1.
  - rewrite nth_error_app2 by lia. destruct (a - List.length h) eqn:E; [lia|]. cbn. destruct n; cbn; congruence.
Qed.
Lemma cell_fresh {K} (h : list (option K)) a : cell h a <> None -> a <> List.length h.
Proof. unfold cell. intros N ->. apply N. rewrite (proj2 (nth_error_None h _)); auto. Qed.
Lemma length_set {K} (h : list (option K)) a c : List.length (set_cell a c h) = List.length h.
Proof. revert a. induction h as [|x h IH]; intros [|a]; cbn; auto. Qed.

Lemma lookup_set_same {A} x (v : A) e : lookup x e <> None -> lookup x (set x v e) = Some v.
Proof. induction e as [|[y a] e IH]; cbn; [congruence|]. destruct (Nat.eqb_spec x y); cbn; [now rewrite (proj2 (Nat.eqb_eq x y))|]. rewrite (proj2 (Nat.eqb_neq x y)) by auto. auto. Qed.
Lemma lookup_set_other {A} x y (v : A) e : x <> y -> lookup x (set y v e) = lookup x e.
Proof.
  intros N. induction e as [|[z a] e IH]; cbn; [reflexivity|]. destruct (Nat.eqb_spec y z) as [->|]; cbn.
  - now rewrite (proj2 (Nat.eqb_neq x z)).
  - now rewrite IH.
Qed.
Lemma lookup_split {A} x (e : list (nat * A)) v : lookup x e = Some v ->
  exists e1 e2, e = e1 ++ (x, v) :: e2 /\ lookup x e1 = None /\ (forall w, set x w e = e1 ++ (x, w) :: e2) /\ remove x e = e1 ++ e2.
Proof.
  induction e as [|[y a] e IH]; cbn; [discriminate|]. destruct (Nat.eqb_spec x y) as [->|N].
  - intros E. inversion E; subst. exists [], e. auto.
  - intros E. destruct (IH E) as (e1 & e2 & -> & L & S & R). exists ((y, a) :: e1), e2. cbn.
    rewrite (proj2 (Nat.eqb_neq x y)) by auto. repeat split; auto. 2: now rewrite R. intros w. now rewrite S.
Qed.
Lemma set_set {A} x (v w : A) e : set x v (set x w e) = set x v e.
Proof. induction e as [|[z a] e IH]; cbn; [reflexivity|]. destruct (Nat.eqb x z) eqn:E; cbn; rewrite E; congruence. Qed.
Lemma set_same {A} x (v : A) e : lookup x e = Some v -> set x v e = e.
Proof. induction e as [|[z a] e IH]; cbn; [reflexivity|]. destruct (Nat.eqb x z); intros E; [congruence|]. now rewrite IH. Qed.
Lemma map_set {A B} (f : A -> B) x v e : set x (f v) (map (fun p => (fst p, f (snd p))) e) = map (fun p => (fst p, f (snd p))) (set x v e).
Proof. induction e as [|[z a] e IH]; cbn; [reflexivity|]. destruct (Nat.eqb x z); cbn; congruence. Qed.
Lemma map_lookup {A B} (f : A -> B) x e : lookup x (map (fun p => (fst p, f (snd p))) e) = option_map f (lookup x e).
Proof. induction e as [|[z a] e IH]; cbn; [reflexivity|]. destruct (Nat.eqb x z); cbn; congruence. Qed.
Lemma map_remove {A B} (f : A -> B) x e : remove x (map (fun p => (fst p, f (snd p))) e) = map (fun p => (fst p, f (snd p))) (remove x e).
Proof. induction e as [|[z a] e IH]; cbn; [reflexivity|]. destruct (Nat.eqb x z); cbn; congruence. Qed.

(** * Ownership.  [R] are representations, [T] what they represent. *)
Section Own.
Context {K R T : Type}.
Variable own : R -> list nat.
Variable ok : list (option K) -> R -> T -> Prop.
Hypothesis ok_live : forall h r t a, ok h r t -> In a (own r) -> cell h a <> None.
Hypothesis ok_frame : forall h h' r t, ok h r t -> (forall a, In a (own r) -> cell h' a = cell h a) -> ok h' r t.
Hypothesis own_nodup : forall h r t, ok h r t -> NoDup (own r).

(** A variable, its representation, and what that represents: [None] if it is memory that
    currently holds no object *)
Notation slot := (R * option T)%type.
Definition owned1 (s : slot) : list nat := match snd s with Some _ => own (fst s) | None => [] end.
Definition owned (m : list (nat * slot)) : list nat := flat_map (fun p => owned1 (snd p)) m.
Definition reprs (m : list (nat * slot)) : list (nat * R) := map (fun p => (fst p, fst (snd p))) m.
Definition contents (m : list (nat * slot)) : list (nat * option T) := map (fun p => (fst p, snd (snd p))) m.
Definition slot_ok (h : list (option K)) (s : slot) : Prop := match snd s with Some t => ok h (fst s) t | None => True end.

(** every object is what it should be, no cell has two owners, and no cell has none *)
Record inv (h : list (option K)) (m : list (nat * slot)) : Prop := Inv {
  inv_ok : Forall (fun p => slot_ok h (snd p)) m;
  inv_nodup : NoDup (owned m);
  inv_all : forall a, cell h a <> None -> In a (owned m) }.

Lemma owned_app m1 m2 : owned (m1 ++ m2) = owned m1 ++ owned m2.
Proof. unfold owned. apply flat_map_app. Qed.
Lemma owned_mid m1 x s m2 : Permutation (owned (m1 ++ (x, s) :: m2)) (owned1 s ++ owned (m1 ++ m2)).
Proof. rewrite !owned_app. cbn. rewrite !app_assoc. apply Permutation_app_tail. apply Permutation_app_comm. Qed.
Lemma inv_perm h m m' : Permutation m m' -> inv h m -> inv h m'.
Proof.
  intros P [O N A]. assert (Q : Permutation (owned m) (owned m')) by (unfold owned; now apply Permutation_flat_map).
  constructor.
  - eapply Permutation_Forall; eauto.
  - eapply Permutation_NoDup; eauto.
  - intros a L. eapply Permutation_in; eauto.
Qed.
Lemma slot_live h s a : slot_ok h s -> In a (owned1 s) -> cell h a <> None.
Proof. unfold slot_ok, owned1. destruct (snd s); [|now intros _ []]. intros O I. eapply ok_live; eauto. Qed.
Lemma slot_frame h h' s : slot_ok h s -> (forall a, In a (owned1 s) -> cell h' a = cell h a) -> slot_ok h' s.
Proof. unfold slot_ok, owned1. destruct (snd s); auto. intros O F. eapply ok_frame; eauto. Qed.
Lemma slot_nodup h s : slot_ok h s -> NoDup (owned1 s).
Proof. unfold slot_ok, owned1. destruct (snd s); [|constructor]. intros O. eapply own_nodup; eauto. Qed.

Lemma inv_live h m a : inv h m -> In a (owned m) -> cell h a <> None.
Proof.
  intros [O _ _] I. unfold owned in I. apply in_flat_map in I as ([x s] & I & J). rewrite Forall_forall in O.
  eapply slot_live; [apply (O _ I)|exact J].
Qed.

(** changing one variable, keeping the cells of all others *)
Lemma inv_update h m x s h' s' :
  inv h m -> lookup x m = Some s ->
  slot_ok h' s' ->
  (forall a, cell h a <> None -> ~ In a (owned1 s) -> cell h' a = cell h a) ->
  (forall a, In a (owned1 s') -> In a (owned1 s) \/ cell h a = None) ->
  (forall a, cell h' a <> None -> In a (owned1 s') \/ (cell h a <> None /\ ~ In a (owned1 s))) ->
  inv h' (set x s' m).
Proof.
  intros I L OK' FR NEW ALL. destruct (lookup_split x m s L) as (m1 & m2 & E & _ & ST & _). rewrite ST. clear ST.
  subst m. pose proof (owned_mid m1 x s m2) as P.
  assert (I' : inv h ((x, s) :: m1 ++ m2)) by (eapply inv_perm; [|exact I]; symmetry; apply Permutation_middle).
  eapply inv_perm; [apply Permutation_middle|].
  destruct I' as [O N A]. inversion O as [|? ? SO OR]; subst. cbn [snd] in SO.
  change (owned ((x, s) :: m1 ++ m2)) with (owned1 s ++ owned (m1 ++ m2)) in *.
  assert (LV : forall a, In a (owned (m1 ++ m2)) -> cell h a <> None).
  { intros a J. unfold owned in J. apply in_flat_map in J as ([y s2] & J1 & J2). rewrite Forall_forall in OR.
    eapply slot_live; [apply (OR _ J1)|exact J2]. }
  assert (DJ : forall a, In a (owned (m1 ++ m2)) -> ~ In a (owned1 s)).
  { intros a J J'. clear -N J J'. induction (owned1 s) as [|b l IH]; [destruct J'|]. inversion N as [|? ? NI N']; subst.
    destruct J' as [->|J']; [apply NI, in_or_app; auto|auto]. }
  constructor.
  - constructor; [exact OK'|]. rewrite Forall_forall in *. intros [y s2] J. cbn. specialize (OR _ J). cbn in OR.
    apply (slot_frame h); auto. intros a K'. assert (Q : In a (owned (m1 ++ m2))) by (unfold owned; apply in_flat_map; eexists; eauto).
    apply FR; auto.
  - change (owned ((x, s') :: m1 ++ m2)) with (owned1 s' ++ owned (m1 ++ m2)).
    assert (N2 : NoDup (owned (m1 ++ m2))) by (clear -N; induction (owned1 s); [exact N|inversion N; auto]). clear N. rename N2 into N.
    assert (DJ' : forall a, In a (owned1 s') -> ~ In a (owned (m1 ++ m2))).
    { intros a J J'. destruct (NEW a J) as [Q|Q]; [eapply DJ; eauto|]. exact (LV a J' Q). }
    pose proof (slot_nodup h' s' OK') as ND. clear -N ND DJ'. induction (owned1 s') as [|b l IH]; [exact N|].
    inversion ND; subst. cbn. constructor.
    + intros J. apply in_app_or in J as [J|J]; [auto|]. apply (DJ' b); cbn; auto.
    + apply IH; auto. intros a J. apply DJ'. now right.
  - change (owned ((x, s') :: m1 ++ m2)) with (owned1 s' ++ owned (m1 ++ m2)).
    intros a J. apply in_or_app. destruct (ALL a J) as [Q|[Q1 Q2]]; auto. right.
    specialize (A a Q1). apply in_app_or in A as [A|A]; [contradiction|exact A].
Qed.

(** a variable without object may appear and disappear *)
Lemma inv_declare h m x r : inv h m -> inv h ((x, (r, None)) :: m).
Proof. intros [O N A]. constructor; auto. constructor; [exact I|exact O]. Qed.
Lemma inv_forget h m x r : inv h m -> lookup x m = Some (r, None) -> inv h (remove x m).
Proof.
  intros I L. destruct (lookup_split x m _ L) as (m1 & m2 & -> & _ & _ & ->).
  eapply inv_perm in I; [|symmetry; apply Permutation_middle]. destruct I as [O N A]. constructor; auto. now inversion O.
Qed.
(** changing bits that represent nothing *)
Lemma inv_garbage h m x r r' : inv h m -> lookup x m = Some (r, None) -> inv h (set x (r', None) m).
Proof.
  intros I L. eapply inv_update; eauto; cbn; try tauto.
Qed.
(** swapping what two variables hold *)
Lemma set_swap_perm m x y (s t : slot) : x <> y -> lookup x m = Some s -> lookup y m = Some t ->
  exists rest, Permutation m ((x, s) :: (y, t) :: rest) /\ forall s' t', Permutation (set y t' (set x s' m)) ((x, s') :: (y, t') :: rest).
Proof.
  intros N LX LY. destruct (lookup_split x m s LX) as (m1 & m2 & E & LN & ST & _).
  assert (LY' : forall v, lookup y (m1 ++ (x, v) :: m2) = Some t).
  { intros v. rewrite <- LY, E. clear -N. induction m1 as [|[z a] m1 IH]; cbn.
    - rewrite (proj2 (Nat.eqb_neq y x)) by auto. reflexivity.
    - now rewrite IH. }
  exists (remove y (m1 ++ m2)).
  assert (RR : forall v, exists e1 e2, m1 ++ (x, v) :: m2 = e1 ++ (y, t) :: e2 /\ (forall w, set y w (m1 ++ (x, v) :: m2) = e1 ++ (y, w) :: e2)
     /\ Permutation (e1 ++ e2) ((x, v) :: remove y (m1 ++ m2))).
  { intros v. destruct (lookup_split y _ t (LY' v)) as (e1 & e2 & E1 & _ & ST1 & RM). exists e1, e2. repeat split; auto.
    rewrite <- RM. clear -N. induction m1 as [|[z a] m1 IH]; cbn.
    - rewrite (proj2 (Nat.eqb_neq y x)) by auto. reflexivity.
    - destruct (Nat.eqb y z).
      + symmetry. apply Permutation_middle.
      + rewrite IH. apply perm_swap. }
  split.
  - destruct (RR s) as (e1 & e2 & E1 & _ & P). rewrite E, E1. rewrite <- Permutation_middle. rewrite P. apply perm_swap.
  - intros s' t'. rewrite ST. destruct (RR s') as (e1 & e2 & E1 & ST1 & P). rewrite ST1.
    rewrite <- Permutation_middle. rewrite P. apply perm_swap.
Qed.
Lemma inv_swap h m x y s t : x <> y -> inv h m -> lookup x m = Some s -> lookup y m = Some t ->
  inv h (set y s (set x t m)).
Proof.
  intros N I LX LY. destruct (set_swap_perm m x y s t N LX LY) as (rest & P & Q).
  eapply inv_perm; [symmetry; apply Q|]. eapply inv_perm in I; [|exact P].
  destruct I as [O ND A]. assert (PP : Permutation (owned ((x, s) :: (y, t) :: rest)) (owned ((x, t) :: (y, s) :: rest))).
  { cbn. rewrite !app_assoc. apply Permutation_app_tail, Permutation_app_comm. }
  constructor.
  - inversion O as [|? ? O1 O2]; subst. inversion O2 as [|? ? O3 O4]; subst. constructor; [exact O3|]. constructor; [exact O1|exact O4].
  - eapply Permutation_NoDup; eauto.
  - intros a J. eapply Permutation_in; eauto.
Qed.
(** bits copied from one variable to memory without object: the object is now there, the bits
    left behind represent nothing *)
Lemma inv_transfer h m x y r s : x <> y -> inv h m -> lookup x m = Some (r, None) -> lookup y m = Some s ->
  inv h (set y (fst s, None) (set x s m)).
Proof.
  intros N I LX LY. pose proof (inv_swap h m x y _ _ N I LX LY) as J.
  pose proof (inv_garbage h _ y r (fst s) J) as G.
  rewrite set_set in G. apply G. apply lookup_set_same. rewrite lookup_set_other by auto. congruence.
Qed.
(** what a variable holds *)
Lemma inv_lookup h m x r t : inv h m -> lookup x m = Some (r, Some t) -> ok h r t.
Proof.
  intros [O _ _] L. destruct (lookup_split x m _ L) as (m1 & m2 & -> & _). apply Forall_app in O as [_ O]. now inversion O.
Qed.
(** the cells of a live variable are not touched by an allocation *)
Lemma inv_nothing h : (forall a, cell h a = None) -> inv h [].
Proof. intros H. constructor; [constructor|constructor|]. intros a J. now rewrite H in J. Qed.
End Own.

(** * States described by a ghost list *)
Section Ghost.
Context {R T : Type}.
Notation ghost := (list (nat * (R * option T))).
(** a list of texts, values, ... as the contents of a ghost list *)
Definition full (s : list (nat * T)) : list (nat * option T) := map (fun p => (fst p, Some (snd p))) s.
Lemma g_reprs_lookup (m : ghost) x : lookup x (reprs m) = option_map fst (lookup x m).
Proof. exact (map_lookup (fun s : R * option T => fst s) x m). Qed.
Lemma g_reprs_found (m : ghost) x s : lookup x m = Some s -> lookup x (reprs m) = Some (fst s).
Proof. intros L. now rewrite g_reprs_lookup, L. Qed.
Lemma g_reprs_set (m : ghost) x s : set x (fst s) (reprs m) = reprs (set x s m).
Proof. exact (map_set (fun s : R * option T => fst s) x s m). Qed.
Lemma g_reprs_keep (m : ghost) x r o o' : lookup x m = Some (r, o) -> reprs (set x (r, o') m) = reprs m.
Proof. intros L. rewrite <- g_reprs_set. cbn. apply set_same. now rewrite g_reprs_lookup, L. Qed.
Lemma g_reprs_remove (m : ghost) x : remove x (reprs m) = reprs (remove x m).
Proof. exact (map_remove (fun s : R * option T => fst s) x m). Qed.
Lemma g_contents_lookup (m : ghost) x : lookup x (contents m) = option_map snd (lookup x m).
Proof. exact (map_lookup (fun s : R * option T => snd s) x m). Qed.
Lemma g_contents_set (m : ghost) x s : contents (set x s m) = set x (snd s) (contents m).
Proof. symmetry. exact (map_set (fun s : R * option T => snd s) x s m). Qed.
Lemma g_contents_remove (m : ghost) x : contents (remove x m) = remove x (contents m).
Proof. symmetry. exact (map_remove (fun s : R * option T => snd s) x m). Qed.
Lemma g_contents_cons (m : ghost) x r o : contents ((x, (r, o)) :: m) = (x, o) :: contents m.
Proof. reflexivity. Qed.
Lemma full_lookup s x : lookup x (full s) = option_map Some (lookup x s).
Proof. exact (map_lookup Some x s). Qed.
Lemma full_set s x t : full (set x t s) = set x (Some t) (full s).
Proof. symmetry. exact (map_set Some x t s). Qed.
Lemma full_remove s x : full (remove x s) = remove x (full s).
Proof. symmetry. exact (map_remove Some x s). Qed.
Lemma full_cons s x t : full ((x, t) :: s) = (x, Some t) :: full s.
Proof. reflexivity. Qed.
Lemma g_found (m : ghost) s x : contents m = full s -> forall t, lookup x s = Some t -> exists r, lookup x m = Some (r, Some t).
Proof.
  intros C t L. pose proof (g_contents_lookup m x) as Q. rewrite C, full_lookup, L in Q. cbn in Q.
  destruct (lookup x m) as [[r o]|]; cbn in Q; [|discriminate]. injection Q as <-. eauto.
Qed.
Lemma g_missing (m : ghost) s x : contents m = full s -> lookup x s = None -> lookup x m = None.
Proof.
  intros C L. pose proof (g_contents_lookup m x) as Q. rewrite C, full_lookup, L in Q. now destruct (lookup x m).
Qed.
Lemma g_found_inv (m : ghost) s x r o : contents m = full s -> lookup x m = Some (r, o) -> exists t, lookup x s = Some t /\ o = Some t.
Proof.
  intros C L. pose proof (g_contents_lookup m x) as Q. rewrite C, full_lookup, L in Q. cbn in Q.
  destruct (lookup x s) as [t|]; cbn in Q; [|discriminate]. exists t. split; [reflexivity|congruence].
Qed.
(** what is owned when every variable holds an object *)
Lemma g_owned (own : R -> list nat) (m : ghost) : forall s, contents m = full s ->
  owned own m = flat_map (fun p => own (snd p)) (reprs m) /\ map fst (reprs m) = map fst s.
Proof.
  induction m as [|[x [r o]] m IH]; intros [|[y t] s] C; try discriminate; auto.
  rewrite g_contents_cons, full_cons in C. injection C as -> E C. subst o. destruct (IH s C) as [A B]. split.
  - change (owned own ((y, (r, Some t)) :: m)) with (own r ++ owned own m). rewrite A. reflexivity.
  - change (map fst (reprs ((y, (r, Some t)) :: m))) with (y :: map fst (reprs m)). rewrite B. reflexivity.
Qed.
End Ghost.
Lemma fresh_cell {K} (h : list (option K)) : cell h (List.length h) = None.
Proof. destruct (cell h (List.length h)) eqn:E; [|reflexivity]. exfalso. refine (cell_fresh h _ _ eq_refl). congruence. Qed.
Lemma remove_set {A} x (v : A) e : remove x (set x v e) = remove x e.
Proof. induction e as [|[z a] e IH]; cbn; [reflexivity|]. destruct (Nat.eqb x z) eqn:E; cbn; rewrite E; congruence. Qed.
Lemma set_comm {A} x y (v w : A) e : x <> y -> set x v (set y w e) = set y w (set x v e).
Proof.
  intros N. induction e as [|[z a] e IH]; cbn; [reflexivity|].
  destruct (Nat.eqb_spec y z) as [->|M]; destruct (Nat.eqb_spec x z) as [->|M']; cbn; try congruence.
  - rewrite (proj2 (Nat.eqb_neq x z)), Nat.eqb_refl by auto. reflexivity.
  - rewrite (proj2 (Nat.eqb_neq y z)), Nat.eqb_refl by auto. reflexivity.
  - rewrite (proj2 (Nat.eqb_neq y z)), (proj2 (Nat.eqb_neq x z)) by auto. congruence.
Qed.
Lemma lookup_here {A} x (v : A) e : lookup x ((x, v) :: e) = Some v.
Proof. cbn. now rewrite Nat.eqb_refl. Qed.
Lemma set_here {A} x (v w : A) e : set x w ((x, v) :: e) = (x, w) :: e.
Proof. cbn. now rewrite Nat.eqb_refl. Qed.
Lemma lookup_past {A} x y (v : A) e : y <> x -> lookup y ((x, v) :: e) = lookup y e.
Proof. intros N. cbn. now rewrite (proj2 (Nat.eqb_neq y x)). Qed.
Lemma set_past {A} x y (v w : A) e : y <> x -> set y w ((x, v) :: e) = (x, v) :: set y w e.
Proof. intros N. cbn. now rewrite (proj2 (Nat.eqb_neq y x)). Qed.
