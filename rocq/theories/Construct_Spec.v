(** What the arguments of the string constructors mean, and what UTF-16 is. *)
From Verif Require Import Base Lossy_Spec.
Require Import NArith.

(** [l] is in memory at [p], which is not null *)
Definition holds (m : list (option N)) (p : nat) (l : list N) : Prop :=
  p <> 0 /\ exists before after, m = before ++ map Some l ++ after /\ List.length before = p.

(** The constructors that take bytes, and which text an argument stands for *)
Inductive arg := Std (data length : nat) | CString (s : nat) | Array (s len : nat).
Definition stands_for (m : list (option N)) (a : arg) (l : list N) : Prop :=
  match a with
  | Std data length => holds m data l /\ length = List.length l
  | CString s => holds m s (l ++ [0%N]) /\ ~ In 0%N l
  (* any pointer will do for no bytes, also a null pointer *)
  | Array s len => len = List.length l /\ (l = [] \/ holds m s l)
  end.

(** UTF-16 *)
Definition unit_bytes (little : bool) (u : N) : list N :=
  if little then [N.modulo u 256; N.div u 256] else [N.div u 256; N.modulo u 256].
Definition holds16 (little : bool) (m : list (option N)) (p : nat) (us : list N) : Prop :=
  holds m p (List.concat (map (unit_bytes little) us)).
Definition aligned (p : nat) : Prop := exists k, p = 2 * k.
Definition stands_for16 (little : bool) (m : list (option N)) (a : arg) (us : list N) : Prop :=
  Forall (fun u => (u < 65536)%N) us /\
  match a with
  | Std _ _ => False (* there is no constructor from std::u16string *)
  | CString s => aligned s /\ holds16 little m s (us ++ [0%N]) /\ ~ In 0%N us
  | Array s len => aligned s /\ len = List.length us /\ (us = [] \/ holds16 little m s us)
  end.

Local Open Scope N_scope.
Definition utf16 (c : N) : list N :=
  if c <? 65536 then [c] else [55296 + (c - 65536) / 1024; 56320 + (c - 65536) mod 1024].
Definition utf16_text (cs : list N) : list N := List.concat (map utf16 cs).

Definition high (u : N) : Prop := 55296 <= u < 56320.
Definition low (u : N) : Prop := 56320 <= u < 57344.
(** characters, and between them the surrogates that are not part of a pair *)
Inductive parts16 : list N -> list part -> Prop :=
| parts16_nil : parts16 [] []
| parts16_char c rest ps : scalar c -> parts16 rest ps -> parts16 (utf16 c ++ rest) (Char c :: ps)
| parts16_low u rest ps : low u -> parts16 rest ps -> parts16 (u :: rest) (Bad [u] :: ps)
| parts16_high u rest ps : high u -> (forall v r, rest = v :: r -> ~ low v) -> parts16 rest ps -> parts16 (u :: rest) (Bad [u] :: ps).
