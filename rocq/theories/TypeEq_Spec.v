(** Specification for C15/C16. *)
From Verif Require Import Base Syntax_Model.

(** Two types denote the same type: structurally equal except for the argument
    names of function pointers. *)
Fixpoint erase (t : ty) : ty :=
  match t with
  | TIdent n => TIdent n
  | TBox t => TBox (erase t)
  | TVec t => TVec (erase t)
  | TUniquePtr t => TUniquePtr (erase t)
  | TSharedPtr t => TSharedPtr (erase t)
  | TWeakPtr t => TWeakPtr (erase t)
  | TRef p m l t => TRef p m l (erase t)
  | TPtr m t => TPtr m (erase t)
  | TStr l => TStr l
  | TCxxVector t => TCxxVector (erase t)
  | TFn u th args ret =>
      TFn u th ((fix go (l : list (string * ty)) := match l with [] => [] | a :: l => ("", erase (snd a)) :: go l end) args)
          (match ret with Some r => Some (erase r) | None => None end)
  | TVoid => TVoid
  | TSlice m l t => TSlice m l (erase t)
  | TArray t n => TArray (erase t) n
  end.
Definition same_type (a b : ty) : Prop := erase a = erase b.

(** No raw pointer and no array occurs in the type. *)
Fixpoint ptr_array_free (t : ty) : Prop :=
  match t with
  | TIdent _ | TStr _ | TVoid => True
  | TBox t | TVec t | TUniquePtr t | TSharedPtr t | TWeakPtr t | TCxxVector t => ptr_array_free t
  | TRef _ _ _ t | TSlice _ _ t => ptr_array_free t
  | TFn _ _ args ret =>
      (fix go (l : list (string * ty)) : Prop := match l with [] => True | a :: l => ptr_array_free (snd a) /\ go l end) args
      /\ (match ret with Some r => ptr_array_free r | None => True end)
  | TPtr _ _ | TArray _ _ => False
  end.

(** The first occurrences of a list, up to an equality. *)
Section First.
  Context {K : Type} (eqb : K -> K -> bool).
  Fixpoint firsts (seen : list K) (l : list K) : list K :=
    match l with
    | [] => []
    | x :: l => if existsb (eqb x) seen then firsts seen l else x :: firsts (x :: seen) l
    end.
End First.

(** The value of the last insertion whose key equals [k]. *)
Section Last.
  Context {K V : Type} (eqb : K -> K -> bool).
  Fixpoint last_value (ops : list (K * V)) (k : K) : option V :=
    match ops with
    | [] => None
    | (x, v) :: ops => match last_value ops k with Some w => Some w | None => if eqb k x then Some v else None end
    end.
End Last.

Record equivalence {K : Type} (eqb : K -> K -> bool) : Prop := Equivalence
  { eq_refl_ : forall x, eqb x x = true;
    eq_sym_ : forall x y, eqb x y = true -> eqb y x = true;
    eq_trans_ : forall x y z, eqb x y = true -> eqb y z = true -> eqb x z = true }.
