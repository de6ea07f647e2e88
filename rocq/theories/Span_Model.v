(** Where diagnostics point: gen/src/error.rs 104-144, gen/src/mod.rs 134-142.
    A source text is a list of characters (code points); byte offsets count UTF-8 bytes. *)
From Verif Require Import Base.
From Coq Require Import NArith.
Open Scope N_scope.

Notation char := N (only parsing).
Definition newline : char := 10.
(** char::len_utf8 *)
Definition len_utf8 (c : char) : N :=
  if c <? 128 then 1 else if c <? 2048 then 2 else if c <? 65536 then 3 else 4.
Definition bytes (s : list char) : N := fold_right (fun c n => len_utf8 c + n) 0 s.

(** source[off..]; [None] is the panic at an offset outside the text or inside a character *)
Fixpoint slice_from (s : list char) (off : N) : option (list char) :=
  if off =? 0 then Some s
  else match s with
       | [] => None
       | c :: r => if len_utf8 c <=? off then slice_from r (off - len_utf8 c) else None
       end.
(** str::find('\n') *)
Fixpoint find_newline (s : list char) : option N :=
  match s with
  | [] => None
  | c :: r => if c =? newline then Some 0 else option_map (fun n => len_utf8 c + n) (find_newline r)
  end.
(** offset += source[offset..].find('\n').unwrap() + 1 *)
Definition next_line (source : list char) (off : N) : option N :=
  match slice_from source off with
  | Some s => match find_newline s with Some n => Some (off + n + 1) | None => None end
  | None => None
  end.
Fixpoint repeat_next (n : nat) (source : list char) (off : N) : option N :=
  match n with
  | O => Some off
  | S n' => match next_line source off with Some o => repeat_next n' source o | None => None end
  end.
(** source[offset..].chars().take(column).map(char::len_utf8).sum() *)
Definition column_bytes (source : list char) (off : N) (column : nat) : option N :=
  match slice_from source off with Some s => Some (bytes (firstn column s)) | None => None end.

(** error.rs 113-144 display_syn_error, the range handed to the printer; a position is a line,
    counted from one, and a column, counted in characters from zero *)
Definition display_range (source : list char) (start fin : nat * nat) : option (N * N) :=
  match repeat_next (fst start - 1) source 0 with
  | None => None
  | Some o =>
      match column_bytes source o (snd start) with
      | None => None
      | Some start_column =>
          let start_offset := o + start_column in
          let line :=
            if Nat.eqb (fst start) (fst fin) then Some (start_offset - start_column)
            else if Nat.ltb (fst fin) (fst start) then None (* usize underflow *)
            else repeat_next (fst fin - fst start) source start_offset in
          match line with
          | None => None
          | Some l =>
              match column_bytes source l (snd fin) with
              | None => None
              | Some end_column => Some (start_offset, l + end_column)
              end
          end
      end
  end.

(** error.rs 104-111 sort_syn_errors: a stable sort by line and column *)
Definition key_le (a b : nat * nat) : bool :=
  (Nat.ltb (fst a) (fst b) || (Nat.eqb (fst a) (fst b) && Nat.leb (snd a) (snd b)))%bool.
Section Sort.
  Context {E : Type} (start : E -> nat * nat).
  Fixpoint insert (e : E) (l : list E) : list E :=
    match l with
    | [] => [e]
    | x :: r => if key_le (start e) (start x) then e :: l else x :: insert e r
    end.
  Definition sort_errors (l : list E) : list E := fold_right insert [] l.
End Sort.

(** mod.rs 134-142 generate_from_string: what is parsed; '#' '!' '[' are 35 33 91 *)
Definition starts_with (p s : list char) : bool := if list_eq_dec N.eq_dec (firstn (List.length p) s) p then true else false.
Fixpoint from_newline (s : list char) : list char :=
  match s with
  | [] => []
  | c :: r => if c =? newline then s else from_newline r
  end.
Definition parsed_text (source : list char) : list char :=
  if (starts_with [35; 33] source && negb (starts_with [35; 33; 91] source))%bool then from_newline source else source.
