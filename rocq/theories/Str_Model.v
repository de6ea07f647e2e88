(** Comparison of rust::Str and rust::String in C++: src/cxx.cc 279-301 and 346-389.

    A Str is its bytes.  The iterators are [const char *]; whether [char] is signed is up to
    the platform ([signed_char]). *)
From Verif Require Import Base.
Require Import ZArith.

Section Compare.
Variable signed_char : bool.

(** the value of a byte read as [char] *)
Definition char_value (b : Z) : Z := if signed_char && (128 <=? b)%Z then (b - 256)%Z else b.

(** cxx.cc 346-349: std::equal, after the sizes were compared.  [None]: reading beyond the end. *)
Fixpoint std_equal (a b : list Z) : option bool :=
  match a, b with
  | [], _ => Some true
  | x :: a, y :: b => if Z.eqb (char_value x) (char_value y) then std_equal a b else Some false
  | _ :: _, [] => None
  end.
Definition str_eq (a b : list Z) : option bool :=
  if Nat.eqb (List.length a) (List.length b) then std_equal a b else Some false.
(** 351 *)
Definition str_ne (a b : list Z) : option bool := option_map negb (str_eq a b).
(** 353-356: std::lexicographical_compare as the standard defines it *)
Fixpoint str_lt (a b : list Z) : bool :=
  match a, b with
  | _, [] => false
  | [], _ :: _ => true
  | x :: a, y :: b =>
      if Z.ltb (char_value x) (char_value y) then true
      else if Z.ltb (char_value y) (char_value x) then false
      else str_lt a b
  end.
(** 358-374 *)
Fixpoint str_le (liter riter : list Z) : bool :=
  match liter, riter with
  | x :: l, y :: r => if Z.eqb (char_value x) (char_value y) then str_le l r else Z.leb (char_value x) (char_value y)
  | [], _ => true
  | _ :: _, [] => false
  end.
(** 376, 378 *)
Definition str_gt (a b : list Z) : bool := str_lt b a.
Definition str_ge (a b : list Z) : bool := str_le b a.
(** 277-299: the operators of String go through Str *)
End Compare.
