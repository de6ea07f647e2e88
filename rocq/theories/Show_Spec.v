(** Specification for the Debug and Default part of C64: what Rust's own derives give. *)
From Verif Require Import Base Syntax_Model.
Local Open Scope string_scope.

Definition text (o : list string) : string := String.concat "" o.
(** r#type is another way to write the name type. *)
Definition raw (x : string) : Prop := exists y, x = "r#" ++ y.
Definition plain_name (x : string) : string :=
  match x with
  | String a (String b y) => if Ascii.eqb a "r" && Ascii.eqb b "#" then y else x
  | _ => x
  end.

(** Four spaces in front of every line *)
Fixpoint indent (start : bool) (s : string) : string :=
  match s with
  | EmptyString => EmptyString
  | String c s => (if start then "    " else "") ++ String c (indent (Ascii.eqb c (ascii_of_nat 10)) s)
  end.
Definition newline_ : string := String (ascii_of_nat 10) EmptyString.
(** `Name { a: 1, b: 2 }`, and the style of {:#?} with a line for each field *)
Definition derived_text (alternate : bool) (name : string) (fields : list (string * string)) : string :=
  match fields with
  | [] => name
  | _ => if alternate then name ++ " {" ++ newline_ ++ String.concat "" (map (fun f => indent true (fst f ++ ": " ++ snd f ++ "," ++ newline_)) fields) ++ "}"
         else name ++ " { " ++ String.concat ", " (map (fun f => fst f ++ ": " ++ snd f) fields) ++ " }"
  end.
