(** What users expect of the comparison code derived for shared types, stated without the
    model's code. *)
From Verif Require Import Base Syntax_Model.
Require Import ZArith.

(** The first element at which [d] answers something other than "equal" decides. *)
Definition first_decides {A R : Type} (equal : R) (d : A -> R) (l : list A) (r : R) : Prop :=
  (r = equal /\ forall x, In x l -> d x = equal) \/
  (r <> equal /\ exists before x after, l = before ++ x :: after /\ d x = r /\
                                        forall y, In y before -> d y = equal).

(** The laws of Rust's Ord, PartialOrd and PartialEq for one type. *)
Record lawful_ord {V : Type} (eq : V -> V -> bool) (pcmp : V -> V -> option comparison)
       (cmp : V -> V -> comparison) : Prop := LawfulOrd {
  lo_eq : forall x y, eq x y = true <-> cmp x y = Eq;
  lo_partial : forall x y, pcmp x y = Some (cmp x y);
  lo_refl : forall x, cmp x x = Eq;
  lo_opp : forall x y, cmp y x = CompOpp (cmp x y);
  lo_trans : forall x y z c, cmp x y = c -> cmp y z = c -> cmp x z = c;
  lo_congr : forall x y z, cmp x y = Eq -> cmp x z = cmp y z
}.

(** The laws of PartialOrd and PartialEq alone. *)
Record lawful_partial {V : Type} (eq : V -> V -> bool) (pcmp : V -> V -> option comparison) : Prop :=
  LawfulPartial {
  lp_eq : forall x y, eq x y = true <-> pcmp x y = Some Eq;
  lp_opp : forall x y, pcmp y x = option_map CompOpp (pcmp x y)
}.

(** When an operator is offered in C++ *)
Definition trait_derived (s : struct_) (t : trait) : Prop := In t (st_derives s).

(** Decimal text and such: a function that separates all integers *)
Definition separates {A B : Type} (show : A -> B) : Prop := forall x y, show x = show y -> x = y.

(** Identifiers contain no parenthesis. *)
Fixpoint no_paren (s : string) : Prop :=
  match s with
  | EmptyString => True
  | String c s => c <> "("%char /\ no_paren s
  end.
