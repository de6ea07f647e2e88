(** The top of a generated file: gen/src/include.rs.  Texts are lists of characters (code points), in Rust
    strings and in the file, which is UTF-8. *)
From Verif Require Import Base Syntax_Model Builtin_Model.
Open Scope N_scope.

Definition text := list N.
(** A string literal of the program, all ASCII *)
Definition chars (s : string) : text := map N_of_ascii (list_ascii_of_string s).

(** * char::escape_default *)
(** core: char::escape_unicode writes the number in hexadecimal, without leading zeros.  [n]: digits left; a
    character has at most six. *)
Definition hex_digit (d : N) : N := if d <? 10 then 48 + d else 97 + (d - 10).
Fixpoint hex (n : nat) (c : N) : text :=
  match n with
  | O => []
  | S n => if c <? 16 then [hex_digit c] else hex n (c / 16) ++ [hex_digit (c mod 16)]
  end.
Definition escape_unicode (c : N) : text := chars "\u{" ++ hex 6 c ++ chars "}".
(** core: char::escape_default *)
Definition escape_char (c : N) : text :=
  if c =? 9 then chars "\t"
  else if c =? 13 then chars "\r"
  else if c =? 10 then chars "\n"
  else if (c =? 39) || (c =? 34) || (c =? 92) then [92; c]
  else if (32 <=? c) && (c <=? 126) then [c]
  else escape_unicode c.
(** core: str::escape_default *)
Definition escape_default (s : text) : text := flat_map escape_char s.

(** * Includes *)
(** gen/src/include.rs 8-20: struct Include; [d_bracketed] is its kind (syntax/mod.rs: IncludeKind) *)
Record directive := Directive { d_path : text; d_bracketed : bool }.

Definition text_eqb (a b : text) : bool := if list_eq_dec N.eq_dec a b then true else false.
(** include.rs 57-61 has_cxx_header *)
Definition has_cxx_header (custom : list directive) : bool :=
  existsb (fun i => text_eqb (d_path i) (chars "rust/cxx.h") || text_eqb (d_path i) (chars "rust\cxx.h")) custom.

(** write.rs 223-228 (first loop of pick_includes_and_builtins), 23 and include.rs 53-55
    (Includes::insert), with Extend for Includes and From<&syntax::Include>: those of the bridge, then those of the options.
    [decode]: the characters of a string. *)
Definition picked (decode : string -> text) (apis : list api) : list directive :=
  flat_map (fun a => match a with AInclude i => [Directive (decode (in_path i)) (in_bracketed i)] | _ => [] end) apis.
Definition custom_includes (decode : string -> text) (apis : list api) (opt : list directive) : list directive :=
  picked decode apis ++ opt.

(** include.rs 74-83: one directive *)
Definition custom_line (i : directive) : text :=
  if d_bracketed i then chars "#include <" ++ d_path i ++ chars ">"
  else chars "#include """ ++ escape_default (d_path i) ++ chars """".

(** writeln! *)
Definition writeln (l : text) : text := l ++ [10].
(** include.rs 64-190 write; what follows the custom directives is [include_lines] of Builtin_Model *)
Definition write_includes (header : bool) (custom : list directive) (s : settings) : text :=
  (if header then writeln (chars "#pragma once") else [])
  ++ flat_map (fun i => writeln (custom_line i)) custom
  ++ flat_map (fun l => writeln (chars l)) (include_lines s (has_cxx_header custom)).
