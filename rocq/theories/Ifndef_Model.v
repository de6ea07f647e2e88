(** gen/src/ifndef.rs: the parts of cxx.h that are copied into generated code. *)
From Verif Require Import Base StrLib Header_Text.

Definition newline : ascii := ascii_of_nat 10.
Definition carriage_return : ascii := ascii_of_nat 13.
(** ifndef.rs 39: `rest.starts_with('\n') || rest.starts_with('\r')` *)
Definition starts_line_end (s : string) : bool :=
  match s with String c _ => Ascii.eqb c newline || Ascii.eqb c carriage_return | EmptyString => false end.

(** ifndef.rs 35-46: find_line, relative to the offset where [s] starts.  [skip] are the
    characters left of a match that was not at the end of a line (line 44). *)
Fixpoint find_line (line s : string) (skip : nat) : option nat :=
  match s with
  | EmptyString => None
  | String _ s' =>
      match skip with
      | S skip => option_map S (find_line line s' skip)
      | O =>
          match strip_prefix line s with
          | Some rest => if starts_line_end rest then Some O else option_map S (find_line line s' (String.length line - 1))
          | None => option_map S (find_line line s' O)
          end
      end
  end.

(** str::trim, trim_start and lines on ASCII text without '\r' *)
Definition is_space (c : ascii) : bool :=
  existsb (Ascii.eqb c) [ascii_of_nat 32; ascii_of_nat 9; newline; ascii_of_nat 11; ascii_of_nat 12; carriage_return].
Fixpoint trim_start (s : string) : string :=
  match s with String c s' => if is_space c then trim_start s' else s | EmptyString => "" end.
Fixpoint trim_end (s : string) : string :=
  match s with
  | EmptyString => ""
  | String c s' => match trim_end s' with EmptyString => if is_space c then "" else String c "" | t => String c t end
  end.
Definition lines (s : string) : list string := if String.eqb s "" then [] else split_on newline s.
Fixpoint drop (n : nat) (s : string) : string :=
  match n, s with S n, String _ s => drop n s | _, _ => s end.

(** ifndef.rs 4-33: write, as the lines written; next_section() is left out.  [rest] is
    HEADER[offset..], [first] is `offset == 0`.  [None]: a panic (the guard is not found,
    or the range `begin + ifndef.len()..end` is inverted). *)
Fixpoint ifndef_loop (fuel : nat) (needed : bool) (guard : string) (first : bool) (rest : string) : option (list string) :=
  match fuel with
  | O => None
  | S fuel =>
      let ifndef := ("#ifndef " ++ guard)%string in
      let define := ("#define " ++ guard)%string in
      let endif := ("#endif // " ++ guard)%string in
      match find_line ifndef rest 0, find_line endif rest 0 with
      | Some b, Some e =>
          if negb needed then Some []
          else
            let from := b + String.length ifndef in
            if Nat.ltb e from then None
            else
              let body := lines (trim_end (trim_start (String.substring from (e - from) rest))) in
              option_map (fun l =>
                  (if first then [ifndef; define] else [])
                  ++ filter (fun line => negb (String.eqb line define) && negb (String.prefix "//" (trim_start line))) body
                  ++ l)
                (ifndef_loop fuel needed guard false (drop (e + String.length endif) rest))
      | _, _ => if first then None else Some [endif]
      end
  end.
(** The offset grows with every iteration. *)
Definition ifndef_write (needed : bool) (guard : string) : option (list string) :=
  ifndef_loop (S (String.length HEADER)) needed guard true HEADER.

(** * Reading C++ text as tokens *)
(** Identifiers and `::` are kept whole, other characters are tokens of their own. *)
Definition is_word (c : ascii) : bool :=
  let n := N_of_ascii c in
  (((48 <=? n) && (n <=? 57)) || ((65 <=? n) && (n <=? 90)) || ((97 <=? n) && (n <=? 122)) || (n =? 95) || (n =? 36))%N.
Fixpoint tokens (s : string) (word : string) : list string :=
  let flush l := if String.eqb word "" then l else word :: l in
  match s with
  | EmptyString => flush []
  | String c s =>
      if is_word c then tokens s (word ++ String c "")%string
      else if is_space c then flush (tokens s "")
      else match s with
           | String d s' => if Ascii.eqb c ":" && Ascii.eqb d ":" then flush ("::" :: tokens s' "") else flush (String c "" :: tokens s "")
           | EmptyString => flush [String c ""]
           end
  end.
Definition tokens_of (l : list string) : list string := flat_map (fun s => tokens s "") l.
