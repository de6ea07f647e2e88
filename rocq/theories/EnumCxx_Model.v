(** Enums as written in C++: gen/src/write.rs 426-480, syntax/discriminant.rs 206-213. *)
From Verif Require Import Base Discriminant_Model Deps_Model.

(** discriminant.rs 206-213 Display *)
Definition display (d : disc) : list ascii :=
  (match d_sign d with Negative => ["-"%char] | Positive => [] end) ++ decimal (d_mag d).

(** write.rs 426-446 write_enum: the underlying type, and the enumerators with the text after the
    equals sign; [EnumRepr::Native] only *)
Definition write_enum (repr : atom) (variants : list (string * disc)) : atom * list (string * list ascii) :=
  (repr, map (fun v => (fst v, display (snd v))) variants).

(** write.rs 448-480 check_enum: the assertions about an enum that the C++ side defines *)
Inductive assertion : Set :=
| AIsEnum                                             (* std::is_enum<E>::value *)
| ASize (a : atom)                                    (* sizeof(E) == sizeof(a) *)
| AValue (a : atom) (name : string) (s : list ascii). (* static_cast<a>(E::name) == s *)
Definition check_enum (repr : atom) (variants : list (string * disc)) : list assertion :=
  AIsEnum :: ASize repr :: map (fun v => AValue repr (fst v) (display (snd v))) variants.
