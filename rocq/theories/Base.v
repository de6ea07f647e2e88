(** Shared vocabulary of the model: results with explicit panics, atoms. *)
From Coq Require Export List String Ascii ZArith NArith Bool Lia.
From Coq Require Export ZifyBool ZifyN ZifyNat.
Export ListNotations.
Open Scope string_scope.
Open Scope list_scope.

(** Outcome of a fallible Rust computation.  [Err] is a reported compile error
    (syn::Error / Errors::error), [Panic] is a Rust panic (assertion, arithmetic
    overflow with overflow checks on, unwrap on None, unreachable!). *)
Inductive res (A : Type) : Type :=
| Ok (a : A)
| Err (msg : string)
| Panic (msg : string).
Arguments Ok {A} _.
Arguments Err {A} _.
Arguments Panic {A} _.

Definition bind {A B} (r : res A) (f : A -> res B) : res B :=
  match r with Ok a => f a | Err m => Err m | Panic m => Panic m end.

(** syntax/atom.rs 6-23: enum Atom. *)
Inductive atom : Set :=
| ABool | AChar | AU8 | AU16 | AU32 | AU64 | AUsize
| AI8 | AI16 | AI32 | AI64 | AIsize | AF32 | AF64 | ACxxString | ARustString.

(** syntax/atom.rs 5: derive(PartialEq). *)
Definition atom_eqb (a b : atom) : bool :=
  match a, b with
  | ABool, ABool | AChar, AChar | AU8, AU8 | AU16, AU16 | AU32, AU32 | AU64, AU64
  | AUsize, AUsize | AI8, AI8 | AI16, AI16 | AI32, AI32 | AI64, AI64 | AIsize, AIsize
  | AF32, AF32 | AF64, AF64 | ACxxString, ACxxString | ARustString, ARustString => true
  | _, _ => false
  end.

Lemma atom_eqb_eq a b : atom_eqb a b = true <-> a = b.
Proof. destruct a, b; simpl; split; congruence. Qed.

(** syntax/atom.rs 60-82: AsRef<str> for Atom. *)
Definition atom_name (a : atom) : string :=
  match a with
  | ABool => "bool" | AChar => "c_char" | AU8 => "u8" | AU16 => "u16" | AU32 => "u32"
  | AU64 => "u64" | AUsize => "usize" | AI8 => "i8" | AI16 => "i16" | AI32 => "i32"
  | AI64 => "i64" | AIsize => "isize" | AF32 => "f32" | AF64 => "f64"
  | ACxxString => "CxxString" | ARustString => "String"
  end.

(** syntax/atom.rs 30-51: Atom::from_str. *)
Definition atom_from_str (s : string) : option atom :=
  if String.eqb s "bool" then Some ABool else
  if String.eqb s "c_char" then Some AChar else
  if String.eqb s "u8" then Some AU8 else
  if String.eqb s "u16" then Some AU16 else
  if String.eqb s "u32" then Some AU32 else
  if String.eqb s "u64" then Some AU64 else
  if String.eqb s "usize" then Some AUsize else
  if String.eqb s "i8" then Some AI8 else
  if String.eqb s "i16" then Some AI16 else
  if String.eqb s "i32" then Some AI32 else
  if String.eqb s "i64" then Some AI64 else
  if String.eqb s "isize" then Some AIsize else
  if String.eqb s "f32" then Some AF32 else
  if String.eqb s "f64" then Some AF64 else
  if String.eqb s "CxxString" then Some ACxxString else
  if String.eqb s "String" then Some ARustString else None.

Lemma atom_from_name a : atom_from_str (atom_name a) = Some a.
Proof. destruct a; reflexivity. Qed.

Lemma atom_from_str_inv s a : atom_from_str s = Some a -> s = atom_name a.
Proof.
  unfold atom_from_str.
  repeat match goal with
  | |- context [String.eqb s ?x] => destruct (String.eqb_spec s x); [intros H; injection H; intros; subst; reflexivity|]
  end. discriminate.
Qed.

Definition is_some {A} (o : option A) : bool := match o with Some _ => true | None => false end.
Definition is_none {A} (o : option A) : bool := negb (is_some o).

(** Membership in a list of strings. *)
Definition smem (x : string) (l : list string) : bool := existsb (String.eqb x) l.

Lemma smem_In x l : smem x l = true <-> In x l.
Proof.
  unfold smem. rewrite existsb_exists. split.
  - intros [y [Hy He]]. apply String.eqb_eq in He. now subst.
  - intros H. exists x. split; [assumption|apply String.eqb_refl].
Qed.

Lemma smem_false x l : smem x l = false <-> ~ In x l.
Proof. rewrite <- smem_In. destruct (smem x l); split; congruence. Qed.

(** Association list lookup, first match. *)
Fixpoint assoc {A} (k : string) (l : list (string * A)) : option A :=
  match l with
  | [] => None
  | (k', v) :: r => if String.eqb k k' then Some v else assoc k r
  end.

Lemma assoc_In {A} k (l : list (string * A)) v : assoc k l = Some v -> In (k, v) l.
Proof.
  induction l as [|[k' v'] l IH]; simpl; [discriminate|].
  destruct (String.eqb_spec k k').
  - intros H; injection H; intros; subst; auto.
  - auto.
Qed.

Lemma assoc_None {A} k (l : list (string * A)) : assoc k l = None <-> ~ In k (map fst l).
Proof.
  induction l as [|[k' v'] l IH]; simpl; [tauto|].
  destruct (String.eqb_spec k k'); subst.
  - split; [discriminate|intros H; exfalso; apply H; auto].
  - rewrite IH. split; intros H; [intros [E|E]; [congruence|auto]|auto].
Qed.

Lemma assoc_NoDup {A} k (l : list (string * A)) v :
  NoDup (map fst l) -> In (k, v) l -> assoc k l = Some v.
Proof.
  induction l as [|[k' v'] l IH]; simpl; [tauto|].
  intros Hnd [E|Hin]; inversion Hnd as [|? ? Hni Hnd']; subst.
  - injection E; intros; subst. rewrite String.eqb_refl; reflexivity.
  - destruct (String.eqb_spec k k'); subst.
    + exfalso; apply Hni. apply (in_map fst) in Hin. exact Hin.
    + auto.
Qed.
