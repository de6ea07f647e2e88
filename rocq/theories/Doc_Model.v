(** Documentation comments in the generated C++: syntax/doc.rs, gen/src/write.rs 254-272. *)
From Verif Require Import Base StrLib.

Definition lf : ascii := ascii_of_nat 10.
Definition cr : ascii := ascii_of_nat 13.
Definition text (l : list string) : string := fold_right append "" l.

(** doc.rs 28-35 Doc::to_string; a fragment is the text of one doc attribute *)
Definition doc_to_string (fragments : list string) : string :=
  text (map (fun f => (f ++ String lf "")%string) fragments).

(** str::split_inclusive('\n'): pieces, and whether they end in a line feed (not kept here) *)
Fixpoint split_inclusive (s : string) : list (string * bool) :=
  match s with
  | EmptyString => []
  | String c r =>
      if Ascii.eqb c lf then (EmptyString, true) :: split_inclusive r
      else match split_inclusive r with
           | [] => [(String c EmptyString, false)]
           | (l, b) :: t => (String c l, b) :: t
           end
  end.
(** str::strip_suffix('\r') *)
Fixpoint strip_cr (s : string) : string :=
  match s with
  | EmptyString => EmptyString
  | String c EmptyString => if Ascii.eqb c cr then EmptyString else s
  | String c r => String c (strip_cr r)
  end.
(** str::lines *)
Definition lines (s : string) : list string :=
  map (fun '(l, b) => if (b : bool) then strip_cr l else l) (split_inclusive s).

(** write.rs 254-272 write_doc, the text written *)
Definition write_doc (doxygen : bool) (indent : string) (fragments : list string) : string :=
  let ls := lines (doc_to_string fragments) in
  let slashes := if doxygen then "///" else "//" in
  (text (map (fun l => indent ++ slashes ++ l ++ String lf "")%string ls) ++
   (if (doxygen && Nat.eqb (List.length ls) 1)%bool then indent ++ "///" ++ String lf "" else ""))%string.
