(** Model of src/lossy.rs: Display and Debug of C++ strings.

    Strings are lists of UTF-8 bytes.  core::str::from_utf8 (not in /repo) is modelled by the
    algorithm of core's run_utf8_validation, restricted to what lossy.rs uses of it:
    valid_up_to and error_len. *)
From Verif Require Import Base.
Require Import NArith.
Local Open Scope N_scope.

Notation byte := N (only parsing).
Definition in_range (a b x : N) : bool := N.leb a x && N.leb x b.

(** core: utf8_char_width for bytes from 128 *)
Definition width (first : byte) : nat :=
  if in_range 194 223 first then 2%nat else if in_range 224 239 first then 3%nat
  else if in_range 240 244 first then 4%nat else 0%nat.
(** core: [byte as i8 >= -64] negated *)
Definition continues (b : byte) : bool := in_range 128 191 b.
(** core: the tables for the second byte *)
Definition second3 (first b : byte) : bool :=
  (N.eqb first 224 && in_range 160 191 b) || (in_range 225 236 first && in_range 128 191 b)
  || (N.eqb first 237 && in_range 128 159 b) || (in_range 238 239 first && in_range 128 191 b).
Definition second4 (first b : byte) : bool :=
  (N.eqb first 240 && in_range 144 191 b) || (in_range 241 243 first && in_range 128 191 b)
  || (N.eqb first 244 && in_range 128 143 b).

(** One round of core's loop, on the bytes from the current index: the length of the character,
    or the error_len. *)
Inductive round := Good (n : nat) | Bad_len (error_len : option nat).
Definition validate1 (first : byte) (rest : list byte) : round :=
  if N.ltb first 128 then Good 1 else
  match width first with
  | 2%nat => match rest with
             | [] => Bad_len None
             | b :: _ => if continues b then Good 2 else Bad_len (Some 1%nat)
             end
  | 3%nat => match rest with
             | [] => Bad_len None
             | b :: rest => if second3 first b
                 then match rest with
                      | [] => Bad_len None
                      | c :: _ => if continues c then Good 3 else Bad_len (Some 2%nat)
                      end
                 else Bad_len (Some 1%nat)
             end
  | 4%nat => match rest with
             | [] => Bad_len None
             | b :: rest => if second4 first b
                 then match rest with
                      | [] => Bad_len None
                      | c :: rest => if continues c
                          then match rest with
                               | [] => Bad_len None
                               | d :: _ => if continues d then Good 4 else Bad_len (Some 3%nat)
                               end
                          else Bad_len (Some 2%nat)
                      end
                 else Bad_len (Some 1%nat)
             end
  | _ => Bad_len (Some 1%nat)
  end.

(** from_utf8: [inl tt] for Ok, [inr (valid_up_to, error_len)]; the fuel is the length *)
Fixpoint validate (fuel : nat) (index : nat) (bytes : list byte) : unit + nat * option nat :=
  match fuel, bytes with
  | _, [] => inl tt
  | O, _ => inl tt
  | S fuel, first :: rest =>
      match validate1 first rest with
      | Good n => validate fuel (index + n) (skipn n bytes)
      | Bad_len e => inr (index, e)
      end
  end.
Definition from_utf8 (bytes : list byte) : unit + nat * option nat := validate (List.length bytes) 0 bytes.

(** char::encode_utf8 *)
Definition encode (c : N) : list byte :=
  if N.ltb c 128 then [c]
  else if N.ltb c 2048 then [192 + c / 64; 128 + c mod 64]
  else if N.ltb c 65536 then [224 + c / 4096; 128 + (c / 64) mod 64; 128 + c mod 64]
  else [240 + c / 262144; 128 + (c / 4096) mod 64; 128 + (c / 64) mod 64; 128 + c mod 64].
(** core: next_code_point, for valid text *)
Definition decode (bytes : list byte) : N * list byte :=
  match bytes with
  | [] => (0, [])
  | x :: rest =>
      if N.ltb x 128 then (x, rest) else
      match rest with
      | [] => (0, [])
      | y :: rest =>
          if N.ltb x 224 then ((x - 192) * 64 + (y - 128), rest) else
          match rest with
          | [] => (0, [])
          | z :: rest =>
              if N.ltb x 240 then ((x - 224) * 4096 + (y - 128) * 64 + (z - 128), rest) else
              match rest with
              | [] => (0, [])
              | w :: rest => ((x - 240) * 262144 + (y - 128) * 4096 + (z - 128) * 64 + (w - 128), rest)
              end
          end
      end
  end.
(** str::char_indices *)
Fixpoint char_indices (fuel : nat) (i : nat) (bytes : list byte) : list (nat * N) :=
  match fuel, bytes with
  | S fuel, _ :: _ =>
      let '(c, rest) := decode bytes in
      (i, c) :: char_indices fuel (i + (List.length bytes - List.length rest)) rest
  | _, _ => []
  end.

(** lower-case hexadecimal digits, as written by the format strings and by escape_unicode *)
Definition hex_digit (d : N) : byte := if N.ltb d 10 then 48 + d else 87 + d.
Fixpoint hex_from (fuel : nat) (n : N) (acc : list byte) : list byte :=
  match fuel with
  | O => acc
  | S fuel => let acc := hex_digit (n mod 16) :: acc in if N.eqb (n / 16) 0 then acc else hex_from fuel (n / 16) acc
  end.
Definition hex (n : N) : list byte := hex_from 8 n [].
(** {:02x} *)
Definition hex2 (b : byte) : list byte := [hex_digit (b / 16); hex_digit (b mod 16)].

Section Lossy.
(** the Formatter: writing may fail *)
Context {S : Type}.
Variable write : S -> list byte -> option S.
Definition bind (o : option S) (f : S -> option S) : option S := match o with Some s => f s | None => None end.
(** [Result] of fmt functions: [None] here is Err; running out of fuel is the outer [None] *)

Definition replacement : list byte := encode 65533.

(** 5-22 *)
Fixpoint display (fuel : nat) (bytes : list byte) (f : S) : option (option S) :=
  match fuel with
  | O => None
  | Datatypes.S fuel =>
      match from_utf8 bytes with
      | inl _ => Some (write f bytes)
      | inr (valid_up_to, error_len) =>
          match write f (firstn valid_up_to bytes) with
          | None => Some None
          | Some f =>
              match write f replacement with
              | None => Some None
              | Some f =>
                  match error_len with
                  | Some error_len => display fuel (skipn (valid_up_to + error_len) bytes) f
                  | None => Some (Some f)
                  end
              end
          end
      end
  end.

(** char::escape_debug of core; which characters it considers printable and not an extension of
    a grapheme is a table of core *)
Variable plain : N -> bool.
Definition escape_debug (c : N) : list N :=
  if N.eqb c 0 then [92; 48] else if N.eqb c 9 then [92; 116] else if N.eqb c 13 then [92; 114]
  else if N.eqb c 10 then [92; 110] else if N.eqb c 92 then [92; 92] else if N.eqb c 34 then [92; 34]
  else if N.eqb c 39 then [92; 39]
  else if plain c then [c] else [92; 117; 123] ++ hex c ++ [125].

(** 35-44: the loop over char_indices, then the rest; [valid] is fixed *)
Fixpoint write_chars (esc : list N) (f : S) : option S :=
  match esc with
  | [] => Some f
  | c :: esc => bind (write f (encode c)) (write_chars esc)
  end.
Fixpoint char_loop (valid : list byte) (ics : list (nat * N)) (written : nat) (f : S) : option S :=
  match ics with
  | [] => write f (skipn written valid)
  | (i, ch) :: ics =>
      let esc := escape_debug ch in
      if negb (Nat.eqb (List.length esc) 1) && negb (N.eqb ch 39)
      then bind (write f (firstn (i - written) (skipn written valid))) (fun f =>
           bind (write_chars esc f) (fun f =>
           char_loop valid ics (i + List.length (encode ch)) f))
      else char_loop valid ics written f
  end.
(** 55-57 *)
Fixpoint broken_loop (l : list byte) (f : S) : option S :=
  match l with
  | [] => Some f
  | b :: l => bind (write f ([92; 120] ++ hex2 b)) (broken_loop l)
  end.

(** 27-63 *)
Fixpoint debug_loop (fuel : nat) (bytes : list byte) (f : S) : option (option S) :=
  match bytes with
  | [] => Some (Some f)
  | _ =>
  match fuel with
  | O => None
  | Datatypes.S fuel =>
      let valid := match from_utf8 bytes with
                   | inl _ => bytes
                   | inr (valid_up_to, _) => firstn valid_up_to bytes
                   end in
      match char_loop valid (char_indices (List.length valid) 0 valid) 0 f with
      | None => Some None
      | Some f =>
          match from_utf8 bytes with
          | inl _ => Some (Some f)
          | inr (_, error_len) =>
              let end_of_broken := match error_len with
                                   | Some error_len => (List.length valid + error_len)%nat
                                   | None => List.length bytes
                                   end in
              match broken_loop (firstn (end_of_broken - List.length valid) (skipn (List.length valid) bytes)) f with
              | None => Some None
              | Some f => debug_loop fuel (skipn end_of_broken bytes) f
              end
          end
      end
  end end.
(** 24-67 *)
Definition debug (bytes : list byte) (f : S) : option (option S) :=
  match write f (encode 34) with
  | None => Some None
  | Some f => match debug_loop (List.length bytes) bytes f with
              | None => None
              | Some None => Some None
              | Some (Some f) => Some (write f (encode 34))
              end
  end.
Definition display_string (bytes : list byte) (f : S) : option (option S) := display (Datatypes.S (List.length bytes)) bytes f.
End Lossy.
