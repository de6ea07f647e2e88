(** Specification for C31 and C63: where the names used in generated code come from. *)
From Verif Require Import Base StrLib Header_Text Ifndef_Model Builtin_Model Builtin_Spec Uses_Model.

Fixpoint has_sequence (w l : list string) : bool :=
  match l with
  | [] => false
  | _ :: l' => (if list_eq_dec string_dec (firstn (List.length w) l) w then true else false) || has_sequence w l'
  end.

(** [n] is defined by rust/cxx.h or by the parts [out] of the built-in code; of Fn there
    is only a specialisation. *)
Definition available (cxx_header : bool) (out : list part) (n : string) : Prop :=
  let ok l := defines l n || String.eqb n "Fn" && declares l n in
  (cxx_header = true /\ ok (tokens_of (lines HEADER)) = true) \/ exists q, In q out /\ ok (text_of q) = true.
(** `impl<c>` has the member function `m`. *)
Definition has_member (out : list part) (c m : string) : Prop :=
  exists p q, In p out /\ In q out /\ has_sequence ["class"; "impl"; "<"; c] (text_of p) = true /\ has_sequence [m; "("] (text_of q) = true.

Definition resolved (s : settings) (cxx_header : bool) (u : use) : Prop :=
  match u with
  | UHelper n => available cxx_header (emitted_parts s cxx_header) n
  | UMember c m => has_member (emitted_parts s cxx_header) c m
  | UStd n => exists h, declared_by n h /\ included (propagate s) cxx_header h
  end.
