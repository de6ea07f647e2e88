(** Comments in C++ ([lex.phases] 2 and 3, [lex.comment]). *)
From Verif Require Import Base StrLib Doc_Model.

Definition backslash : ascii := ascii_of_nat 92.
Definition slash : ascii := ascii_of_nat 47.
Definition star : ascii := ascii_of_nat 42.
Definition quote : ascii := ascii_of_nat 34.
Definition tick : ascii := ascii_of_nat 39.
(** space, tab, vertical tab, form feed, carriage return *)
Definition space (c : ascii) : bool := existsb (fun n => Nat.eqb (nat_of_ascii c) n) [32; 9; 11; 12; 13]%nat.
Fixpoint spaces (s : string) : bool := match s with EmptyString => true | String c r => space c && spaces r end.
(** also line feeds *)
Fixpoint blank (s : string) : bool := match s with EmptyString => true | String c r => (space c || Ascii.eqb c lf) && blank r end.

(** Phase 2: a backslash at the end of a line joins it with the next one.  Compilers ignore
    spaces between the backslash and the end of the line ([lenient]; C++23 demands it). *)
Fixpoint splice (lenient : bool) (pending : option string) (s : string) : string :=
  let held := match pending with Some w => String backslash w | None => EmptyString end in
  match s with
  | EmptyString => held
  | String c r =>
      match pending with
      | Some w =>
          if Ascii.eqb c lf then splice lenient None r
          else if (lenient && space c)%bool then splice lenient (Some (w ++ String c EmptyString)%string) r
          else (held ++ if Ascii.eqb c backslash then splice lenient (Some EmptyString) r else String c (splice lenient None r))%string
      | None => if Ascii.eqb c backslash then splice lenient (Some EmptyString) r else String c (splice lenient None r)
      end
  end.

(** Phase 3: comments become spaces, except in string and character literals (raw strings are left
    out). *)
Inductive state : Set := SCode | SSlash | SString | SStringEsc | SChar | SCharEsc | SLine | SBlock | SBlockStar.
Fixpoint strip_comments (st : state) (s : string) : string :=
  match s with
  | EmptyString => match st with SSlash => String slash EmptyString | _ => EmptyString end
  | String c r =>
      let code pre :=
        (pre ++ if Ascii.eqb c slash then strip_comments SSlash r
                else String c (strip_comments (if Ascii.eqb c quote then SString else if Ascii.eqb c tick then SChar else SCode) r))%string in
      match st with
      | SCode => code EmptyString
      | SSlash =>
          if Ascii.eqb c slash then String " " (strip_comments SLine r)
          else if Ascii.eqb c star then String " " (strip_comments SBlock r)
          else code (String slash EmptyString)
      | SString => String c (strip_comments (if Ascii.eqb c quote then SCode else if Ascii.eqb c backslash then SStringEsc else SString) r)
      | SStringEsc => String c (strip_comments SString r)
      | SChar => String c (strip_comments (if Ascii.eqb c tick then SCode else if Ascii.eqb c backslash then SCharEsc else SChar) r)
      | SCharEsc => String c (strip_comments SChar r)
      | SLine => if Ascii.eqb c lf then String c (strip_comments SCode r) else strip_comments SLine r
      | SBlock => strip_comments (if Ascii.eqb c star then SBlockStar else SBlock) r
      | SBlockStar => strip_comments (if Ascii.eqb c slash then SCode else if Ascii.eqb c star then SBlockStar else SBlock) r
      end
  end.
(** the code in a text: what is left for the compiler *)
Definition code (lenient : bool) (s : string) : string := strip_comments SCode (splice lenient None s).

(** a line of the text ends with a backslash, perhaps followed by spaces *)
Definition ends_in_backslash (f : string) : Prop :=
  exists a w, spaces w = true /\
    (f = (a ++ String backslash w)%string \/ exists b, f = (a ++ String backslash (w ++ String lf b))%string).
