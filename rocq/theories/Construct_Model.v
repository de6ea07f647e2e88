(** Making a rust::String or a rust::Str out of C++ data: src/cxx.cc 107-194 and 305-327,
    src/symbols/rust_string.rs 24-80, src/symbols/rust_str.rs 24-36.

    Memory is the list of its bytes, [None] where nothing may be read; a pointer is an index
    into it and nullptr is 0.  What the constructors do with the allocation is RString_Model's
    subject; here a String is its bytes and a Str is a pointer with a length.
    Of std, core::str::from_utf8 and char::encode_utf8 are those of Lossy_Model. *)
From Verif Require Import Base.
From Verif Require Lossy_Model.
Require Import NArith.

Notation memory := (list (option N)).

(** [UB]: undefined behaviour; [Abort]: an assert failed; [Throws]: std::invalid_argument *)
Inductive res (T : Type) := UB | Abort | Throws (message : string) | Made (t : T).
Arguments UB {T}. Arguments Abort {T}. Arguments Throws {T}. Arguments Made {T}.
Definition bind {A B} (r : res A) (f : A -> res B) : res B :=
  match r with UB => UB | Abort => Abort | Throws m => Throws m | Made a => f a end.

Section Construct.
Variable m : memory.
(** whether the low byte of a char16_t comes first *)
Variable little : bool.
(** whether NDEBUG is defined *)
Variable ndebug : bool.

Definition byte_at (p : nat) : option N := match nth_error m p with Some b => b | None => None end.
Definition unit_at (p : nat) : option N :=
  match byte_at p, byte_at (S p) with
  | Some a, Some b => Some (if little then a + 256 * b else b + 256 * a)%N
  | _, _ => None
  end.
Fixpoint bytes_from (p len : nat) : option (list N) :=
  match len with
  | 0 => Some []
  | S len => match byte_at p, bytes_from (S p) len with Some b, Some l => Some (b :: l) | _, _ => None end
  end.
Fixpoint units_from (p len : nat) : option (list N) :=
  match len with
  | 0 => Some []
  | S len => match unit_at p, units_from (S (S p)) len with Some b, Some l => Some (b :: l) | _, _ => None end
  end.
(** core::slice::from_raw_parts: also of no elements the pointer must not be null, and aligned *)
Definition slice_u8 (p len : nat) : res (list N) :=
  if Nat.eqb p 0 then UB else match bytes_from p len with Some l => Made l | None => UB end.
Definition slice_u16 (p len : nat) : res (list N) :=
  if Nat.eqb p 0 || Nat.odd p then UB else match units_from p len with Some l => Made l | None => UB end.

(** * std::string::String *)
(** utf8_chunks, as its documentation has it in terms of from_utf8, and from_utf8_lossy on it;
    the fuel is the length *)
Fixpoint from_utf8_lossy (fuel : nat) (bytes : list N) : list N :=
  match Lossy_Model.from_utf8 bytes with
  | inl _ => bytes
  | inr (valid_up_to, error_len) =>
      firstn valid_up_to bytes ++ Lossy_Model.encode 65533 ++
      match fuel, error_len with
      | S fuel, Some n => from_utf8_lossy fuel (skipn n (skipn valid_up_to bytes))
      | _, _ => []
      end
  end.
(** char::decode_utf16: [None] is DecodeUtf16Error *)
Fixpoint decode_utf16 (units : list N) : list (option N) :=
  match units with
  | [] => []
  | u :: rest =>
      if (N.ltb u 55296 || N.ltb 57343 u)%N then Some u :: decode_utf16 rest
      else if N.leb 56320 u then None :: decode_utf16 rest
      else match rest with
           | [] => [None]
           | u2 :: rest2 =>
               if (N.ltb u2 56320 || N.ltb 57343 u2)%N then None :: decode_utf16 rest
               else Some (N.modulo u 1024 * 1024 + N.modulo u2 1024 + 65536)%N :: decode_utf16 rest2
           end
  end.
(** from_utf16: the first error ends it *)
Fixpoint push_chars (chars : list (option N)) (ret : list N) : option (list N) :=
  match chars with
  | [] => Some ret
  | Some c :: chars => push_chars chars (ret ++ Lossy_Model.encode c)
  | None :: _ => None
  end.
Definition from_utf16 (units : list N) : option (list N) := push_chars (decode_utf16 units) [].
(** from_utf16_lossy: r.unwrap_or(REPLACEMENT_CHARACTER) *)
Definition from_utf16_lossy (units : list N) : list N :=
  flat_map (fun r => Lossy_Model.encode (match r with Some c => c | None => 65533%N end)) (decode_utf16 units).

(** * symbols/rust_string.rs, rust_str.rs; [None] is the result false *)
Definition is_utf8 (bytes : list N) : bool := match Lossy_Model.from_utf8 bytes with inl _ => true | inr _ => false end.
(** 24-40 *)
Definition string_from_utf8 (p len : nat) : res (option (list N)) :=
  bind (slice_u8 p len) (fun slice => Made (if is_utf8 slice then Some slice else None)).
(** 42-52 *)
Definition string_from_utf8_lossy (p len : nat) : res (list N) :=
  bind (slice_u8 p len) (fun slice => Made (from_utf8_lossy (List.length slice) slice)).
(** 54-69 *)
Definition string_from_utf16 (p len : nat) : res (option (list N)) :=
  bind (slice_u16 p len) (fun slice => Made (from_utf16 slice)).
(** 71-80 *)
Definition string_from_utf16_lossy (p len : nat) : res (list N) :=
  bind (slice_u16 p len) (fun slice => Made (from_utf16_lossy slice)).
(** rust_str.rs 24-36 *)
Definition str_from (p len : nat) : res (option (nat * nat)) :=
  bind (slice_u8 p len) (fun slice => Made (if is_utf8 slice then Some (p, len) else None)).

(** * cxx.cc *)
Definition assert (b : bool) : res unit := if b || ndebug then Made tt else Abort.
(** 82-86 *)
Definition is_aligned16 (p : nat) : bool := negb (Nat.odd p).
(** std::strlen: up to the first 0; reading what may not be read is undefined *)
Fixpoint strlen_in (mem : memory) : option nat :=
  match mem with
  | Some b :: mem => if N.eqb b 0 then Some 0 else option_map S (strlen_in mem)
  | _ => None
  end.
Definition strlen (p : nat) : res nat :=
  if Nat.eqb p 0 then UB else match strlen_in (skipn p m) with Some n => Made n | None => UB end.
(** std::char_traits<char16_t>::length *)
Fixpoint length16_in (mem : memory) : option nat :=
  match mem with
  | Some a :: Some b :: mem => if N.eqb a 0 && N.eqb b 0 then Some 0 else option_map S (length16_in mem)
  | _ => None
  end.
Definition length16 (p : nat) : res nat :=
  if Nat.eqb p 0 || Nat.odd p then UB else match length16_in (skipn p m) with Some n => Made n | None => UB end.

(** 107-111 *)
Definition initString8 (s len : nat) : res (list N) :=
  bind (string_from_utf8 s len) (fun r =>
    match r with Some text => Made text | None => Throws "data for rust::String is not utf-8" end).
(** 113-117 *)
Definition initString16 (s len : nat) : res (list N) :=
  bind (string_from_utf16 s len) (fun r =>
    match r with Some text => Made text | None => Throws "data for rust::String is not utf-16" end).
(** 119: data() and length() of the std::string *)
Definition String_std (data length : nat) : res (list N) := initString8 data length.
(** 121-124 *)
Definition String_cstr (s : nat) : res (list N) :=
  bind (assert (negb (Nat.eqb s 0))) (fun _ => bind (strlen s) (fun len => initString8 s len)).
(** 126-131 *)
Definition String_len (s len : nat) : res (list N) :=
  bind (assert (negb (Nat.eqb s 0) || Nat.eqb len 0)) (fun _ =>
  initString8 (if Nat.eqb s 0 && Nat.eqb len 0 then 1 else s) len).
(** 133-138: char8_t *)
Definition String_u8cstr (s : nat) : res (list N) := String_cstr s.
Definition String_u8len (s len : nat) : res (list N) := String_len s len.
(** 140-144 *)
Definition String_cstr16 (s : nat) : res (list N) :=
  bind (assert (negb (Nat.eqb s 0))) (fun _ => bind (assert (is_aligned16 s)) (fun _ =>
  bind (length16 s) (fun len => initString16 s len))).
(** 146-153 *)
Definition String_len16 (s len : nat) : res (list N) :=
  bind (assert (negb (Nat.eqb s 0) || Nat.eqb len 0)) (fun _ => bind (assert (is_aligned16 s)) (fun _ =>
  initString16 (if Nat.eqb s 0 && Nat.eqb len 0 then 2 else s) len)).
(** 157-161 *)
Definition String_lossy8 (s len : nat) : res (list N) :=
  string_from_utf8_lossy (if Nat.eqb s 0 && Nat.eqb len 0 then 1 else s) len.
(** 163-168 *)
Definition String_lossy16 (s len : nat) : res (list N) :=
  string_from_utf16_lossy (if Nat.eqb s 0 && Nat.eqb len 0 then 2 else s) len.
(** 179-182 *)
Definition lossy_len (s len : nat) : res (list N) :=
  bind (assert (negb (Nat.eqb s 0) || Nat.eqb len 0)) (fun _ => String_lossy8 s len).
(** 170-172 *)
Definition lossy_std (data length : nat) : res (list N) := lossy_len data length.
(** 174-177 *)
Definition lossy_cstr (s : nat) : res (list N) :=
  bind (assert (negb (Nat.eqb s 0))) (fun _ => bind (strlen s) (fun len => lossy_len s len)).
(** 184-188 *)
Definition lossy_cstr16 (s : nat) : res (list N) :=
  bind (assert (negb (Nat.eqb s 0))) (fun _ => bind (assert (is_aligned16 s)) (fun _ =>
  bind (length16 s) (fun len => String_lossy16 s len))).
(** 190-194 *)
Definition lossy_len16 (s len : nat) : res (list N) :=
  bind (assert (negb (Nat.eqb s 0) || Nat.eqb len 0)) (fun _ => bind (assert (is_aligned16 s)) (fun _ =>
  String_lossy16 s len)).

(** 305-309 *)
Definition initStr (ptr len : nat) : res (nat * nat) :=
  bind (str_from ptr len) (fun r => match r with Some s => Made s | None => Throws "data for rust::Str is not utf-8" end).
(** 311 *)
Definition Str_std (data length : nat) : res (nat * nat) := initStr data length.
(** 313-316 *)
Definition Str_cstr (s : nat) : res (nat * nat) :=
  bind (assert (negb (Nat.eqb s 0))) (fun _ => bind (strlen s) (fun len => initStr s len)).
(** 318-323 *)
Definition Str_len (s len : nat) : res (nat * nat) :=
  bind (assert (negb (Nat.eqb s 0) || Nat.eqb len 0)) (fun _ =>
  initStr (if Nat.eqb s 0 && Nat.eqb len 0 then 1 else s) len).
(** 325-327: the std::string made of a Str *)
Definition Str_to_std (s : nat * nat) : option (list N) := bytes_from (fst s) (snd s).
End Construct.
