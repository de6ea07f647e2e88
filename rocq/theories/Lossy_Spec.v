(** Specification of UTF-8, of lossy decoding (the Unicode standard's substitution of maximal
    subparts, which is String::from_utf8_lossy), and of the escaped form. *)
From Verif Require Import Base.
Require Import NArith.
Local Open Scope N_scope.

(** Unicode scalar values and their encoding *)
Definition scalar (c : N) : Prop := c < 55296 \/ 57344 <= c < 1114112.
Definition utf8 (c : N) : list N :=
  if c <? 128 then [c]
  else if c <? 2048 then [192 + c / 64; 128 + c mod 64]
  else if c <? 65536 then [224 + c / 64 / 64; 128 + c / 64 mod 64; 128 + c mod 64]
  else [240 + c / 64 / 64 / 64; 128 + c / 64 / 64 mod 64; 128 + c / 64 mod 64; 128 + c mod 64].
Definition utf8_text (cs : list N) : list N := List.concat (map utf8 cs).
Definition valid_utf8 (l : list N) : Prop := exists cs, Forall scalar cs /\ l = utf8_text cs.

(** the beginning of a character, but not all of it *)
Definition partial (p : list N) : Prop := p <> [] /\ exists c q, scalar c /\ q <> [] /\ utf8 c = p ++ q.

(** The parts of a byte string: characters, and between them maximal subparts: the longest
    beginning of a character there, or one byte if there is none *)
Inductive part := Char (c : N) | Bad (l : list N).
Inductive parts : list N -> list part -> Prop :=
| parts_nil : parts [] []
| parts_char c rest ps : scalar c -> parts rest ps -> parts (utf8 c ++ rest) (Char c :: ps)
| parts_bad bad rest ps :
    bad <> [] ->
    (forall c r, scalar c -> bad ++ rest <> utf8 c ++ r) ->
    (partial bad \/ List.length bad = 1%nat) ->
    (forall b r, bad ++ rest = b ++ r -> partial b -> (List.length b <= List.length bad)%nat) ->
    parts rest ps -> parts (bad ++ rest) (Bad bad :: ps).

Definition lossy (ps : list part) : list N := map (fun p => match p with Char c => c | Bad _ => 65533 end) ps.

(** Writing to a Formatter piece by piece *)
Fixpoint writes {S} (write : S -> list N -> option S) (pieces : list (list N)) (f : S) : option S :=
  match pieces with
  | [] => Some f
  | p :: pieces => match write f p with Some f => writes write pieces f | None => None end
  end.

(** Reading an escaped string, characters in, bytes out *)
Definition unhex (d : N) : option N :=
  if (48 <=? d) && (d <=? 57) then Some (d - 48) else if (97 <=? d) && (d <=? 102) then Some (d - 87) else None.
(** the digits up to the closing brace *)
Fixpoint read_hex (acc : N) (cs : list N) : option (N * list N) :=
  match cs with
  | [] => None
  | d :: cs => if d =? 125 then Some (acc, cs) else match unhex d with Some v => read_hex (acc * 16 + v) cs | None => None end
  end.
(** after the opening quote; [None] if it is not a well-formed escaped string *)
Fixpoint unescape (fuel : nat) (cs : list N) : option (list N) :=
  match fuel with
  | O => None
  | S fuel =>
      match cs with
      | [] => None
      | c :: cs =>
          if c =? 34 then match cs with [] => Some [] | _ => None end
          else if c =? 92 then
            match cs with
            | [] => None
            | e :: cs =>
                if e =? 120 then
                  match cs with
                  | a :: b :: cs => match unhex a, unhex b, unescape fuel cs with
                                    | Some a, Some b, Some l => Some (a * 16 + b :: l)
                                    | _, _, _ => None
                                    end
                  | _ => None
                  end
                else if e =? 117 then
                  match cs with
                  | o :: cs => if o =? 123 then match read_hex 0 cs with
                                                | Some (v, cs) => option_map (app (utf8 v)) (unescape fuel cs)
                                                | None => None
                                                end
                               else None
                  | [] => None
                  end
                else
                  match (if e =? 48 then Some 0 else if e =? 116 then Some 9 else if e =? 114 then Some 13
                         else if e =? 110 then Some 10 else if (e =? 92) || (e =? 34) then Some e else None) with
                  | Some b => option_map (cons b) (unescape fuel cs)
                  | None => None
                  end
            end
          else option_map (app (utf8 c)) (unescape fuel cs)
      end
  end.
Definition unquote (cs : list N) : option (list N) :=
  match cs with c :: cs => if c =? 34 then unescape (List.length cs) cs else None | [] => None end.

(** How the parts are shown in the escaped form: characters as themselves, except for those
    with a short escape and those that cannot be printed; bad bytes in hexadecimal. *)
Definition short (c : N) : option N :=
  if c =? 0 then Some 48 else if c =? 9 then Some 116 else if c =? 13 then Some 114
  else if c =? 10 then Some 110 else if c =? 92 then Some 92 else if c =? 34 then Some 34 else None.
Definition number (ds : list N) : option N :=
  fold_left (fun a d => match a, unhex d with Some a, Some v => Some (a * 16 + v) | _, _ => None end) ds (Some 0).
Definition shown (printable : N -> bool) (p : part) (cs : list N) : Prop :=
  match p with
  | Char c =>
      match short c with
      | Some e => cs = [92; e]
      | None => if (c =? 39) || printable c then cs = [c]
                else exists ds, cs = [92; 117; 123] ++ ds ++ [125] /\ number ds = Some c
      end
  | Bad l => exists dss, Forall2 (fun b ds => List.length ds = 2%nat /\ number ds = Some b) l dss /\
                         cs = List.concat (map (app [92; 120]) dss)
  end.
