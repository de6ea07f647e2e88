(** Specification for C04-C06: containment between shared structs. *)
From Verif Require Import Base Syntax_Model.
From Coq Require Import Relations.

Definition struct_rust (s : struct_) : string := p_rust (st_name s).

(** [t] holds a value of the type named [x] inline: directly, or as array element. *)
Inductive holds_inline : ty -> string -> Prop :=
| hi_ident n : holds_inline (TIdent n) (n_rust n)
| hi_array t len x : holds_inline t x -> holds_inline (TArray t len) x.

(** Struct [A] has a field holding [B] inline. *)
Definition contains (A B : struct_) : Prop :=
  exists f, In f (st_fields A) /\ holds_inline (v_ty f) (struct_rust B).

(** The same without arrays. *)
Definition contains_directly (A B : struct_) : Prop :=
  exists f n, In f (st_fields A) /\ v_ty f = TIdent n /\ n_rust n = struct_rust B.

Definition array_free (structs : list struct_) : Prop :=
  forall s f t len, In s structs -> In f (st_fields s) -> v_ty f <> TArray t len.

(** Some struct of the list contains itself through a chain of structs of the list. *)
Definition has_cycle (R : struct_ -> struct_ -> Prop) (structs : list struct_) : Prop :=
  exists A, clos_trans _ (fun X Y => In X structs /\ In Y structs /\ R X Y) A A.
