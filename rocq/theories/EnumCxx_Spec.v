(** Integer literals, enumerators and object representations in C++ (LP64; no extended integer types). *)
From Verif Require Import Base Discriminant_Spec EnumCxx_Model.

(** the value of a literal: octal if it starts with a zero, else decimal; with no suffix its type is
    the first of int, long, long long that can hold it, and it is ill-formed if there is none *)
Fixpoint digits (base : Z) (acc : Z) (s : list ascii) : option Z :=
  match s with
  | [] => Some acc
  | c :: r => let d := (Z.of_N (N_of_ascii c) - 48)%Z in
              if ((0 <=? d) && (d <? base))%Z then digits base (acc * base + d)%Z r else None
  end.
Definition literal (s : list ascii) : option Z :=
  match match s with [] => None | c :: r => if Ascii.eqb c "0" then digits 8 0 r else digits 10 0 s end with
  | Some v => if (v <? 2 ^ 63)%Z then Some v else None
  | None => None
  end.
Definition constant (s : list ascii) : option Z :=
  match s with
  | c :: r => if Ascii.eqb c "-" then option_map Z.opp (literal r) else literal s
  | [] => None
  end.

(** [enum class E : a { X = s }]: [s] must be a constant that [a] can represent *)
Definition enumerator (a : atom) (s : list ascii) (z : Z) : Prop := constant s = Some z /\ fits a z.

Definition bits (a : atom) : Z :=
  match a with AU8 | AI8 => 8 | AU16 | AI16 => 16 | AU32 | AI32 => 32 | _ => 64 end.
Definition unsigned (a : atom) : bool := match a with AU8 | AU16 | AU32 | AU64 | AUsize => true | _ => false end.
(** conversion of an integer to a type *)
Definition convert (a : atom) (v : Z) : Z :=
  let m := (v mod 2 ^ bits a)%Z in
  if unsigned a then m else if (m <? 2 ^ (bits a - 1))%Z then m else (m - 2 ^ bits a)%Z.
(** [x == s] for [x] of type [a] with value [v]: the usual arithmetic conversions make an unsigned [a]
    of at least the size of the literal's type the common type *)
Definition equals (a : atom) (v : Z) (s : list ascii) : Prop :=
  exists z, constant s = Some z /\
    let lit := if (Z.abs z <? 2 ^ 31)%Z then 32%Z else 64%Z in
    v = if (unsigned a && (lit <=? bits a)%Z)%bool then (z mod 2 ^ bits a)%Z else z.

(** an enum on the C++ side: its size in bytes and the values of its enumerators *)
Record cxx_enum : Type := CxxEnum { ce_size : Z; ce_value : string -> option Z }.
Definition holds (e : cxx_enum) (x : assertion) : Prop :=
  match x with
  | AIsEnum => True
  | ASize a => ce_size e = (bits a / 8)%Z
  | AValue a n s => exists v, ce_value e n = Some v /\ equals a (convert a v) s
  end.

(** the bytes of an integer of [n] bytes *)
Definition byte_list (n : nat) (z : Z) : list Z := map (fun i => ((z / 2 ^ (8 * Z.of_nat i)) mod 256)%Z) (seq 0 n).
Definition all_digits (s : list ascii) : Prop := Forall (fun c => (48 <= N_of_ascii c <= 57)%N) s.
