(** Specification for C99: the laws that Rust's documentation states for comparison and hashing, and what it means that
    calls through a pointer are calls of the target. *)
From Verif Require Import Base Handle_Model.

Section Laws.
  Context {T H F : Type} (tr : traits T H F).
  Notation eqv a b := (tr_eq tr a b = true).
  (** PartialEq, PartialOrd *)
  Record partial_laws : Prop := PartialLaws
    { pa_sym : forall a b, eqv a b -> eqv b a;
      pa_trans : forall a b c, eqv a b -> eqv b c -> eqv a c;
      pa_ne : forall a b, tr_ne tr a b = negb (tr_eq tr a b);
      pa_equal : forall a b, tr_partial_cmp tr a b = Some Eq <-> eqv a b;
      pa_lt : forall a b, tr_lt tr a b = true <-> tr_partial_cmp tr a b = Some Lt;
      pa_gt : forall a b, tr_gt tr a b = true <-> tr_partial_cmp tr a b = Some Gt;
      pa_le : forall a b, tr_le tr a b = true <-> tr_lt tr a b = true \/ eqv a b;
      pa_ge : forall a b, tr_ge tr a b = true <-> tr_gt tr a b = true \/ eqv a b;
      pa_dual : forall a b, tr_lt tr a b = true <-> tr_gt tr b a = true;
      pa_lt_trans : forall a b c, tr_lt tr a b = true -> tr_lt tr b c = true -> tr_lt tr a c = true }.
  (** Eq, Ord *)
  Record total_laws : Prop := TotalLaws
    { to_partial : partial_laws;
      to_refl : forall a, eqv a a;
      to_cmp : forall a b, tr_partial_cmp tr a b = Some (tr_cmp tr a b) }.
  (** Hash with Eq *)
  Definition hash_law : Prop := forall a b h, eqv a b -> tr_hash tr a h = tr_hash tr b h.
End Laws.

(** * Programs that use an object through Read, Seek and Write *)
(** Each call may depend on the answers before *)
Inductive prog := Stop | Do (c : call) (k : answer -> prog).
Inductive without (bad : call -> Prop) : prog -> Prop :=
| wo_stop : without bad Stop
| wo_do c k : ~ bad c -> (forall a, without bad (k a)) -> without bad (Do c k).

Section Run.
  Context {S : Type}.
  (** On the object itself: the answers and the state at the end *)
  Fixpoint direct (target : @io S) (p : prog) (s : S) : S * list answer :=
    match p with
    | Stop => (s, [])
    | Do c k => let (s, a) := target c s in let (s, l) := direct target (k a) s in (s, a :: l)
    end.
  (** Through a pointer *)
  Fixpoint through (target : @io S) (p : prog) (q : option S) : res (option S * list answer) :=
    match p with
    | Stop => Ok (q, [])
    | Do c k => bind (ptr_io target c q) (fun r => bind (through target (k (snd r)) (fst r)) (fun r' => Ok (fst r', snd r :: snd r')))
    end.
End Run.
