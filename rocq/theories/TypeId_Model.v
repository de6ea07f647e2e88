(** Type-level ids of C++ types: macro/src/type_id.rs, syntax/qualified.rs, the uses in
    macro/src/expand.rs and the marker types of src/lib.rs. *)
From Verif Require Import Base.
Require Import NArith.
Local Open Scope N_scope.

(** Characters are Unicode scalar values; identifiers carry whether they are spelled r#… *)
Definition char := N.
Record ident := Ident { raw : bool; text : list char }.

(** * syntax/qualified.rs *)
Inductive token := KIdent (i : ident) | KColons | KOther.

(** qualified.rs 37-64: parse_unquoted.  The loop consumes one identifier and an optional
    [::] per iteration.  The result includes the tokens not consumed. *)
Inductive parse_error := RawNotAllowed | ExpectedPath | ExpectedSegment | Trailing.
Fixpoint parse_loop (allow_raw : bool) (ts : list token) (segments : list (list char)) (trailing_punct : bool)
  : (list (list char) * bool * list token) + parse_error :=
  match ts with
  | KIdent i :: ts' =>
      if trailing_punct then
        if raw i && negb allow_raw then inr RawNotAllowed
        else
          let segments := segments ++ [text i] in
          match ts' with
          | KColons :: ts' => parse_loop allow_raw ts' segments true
          | _ => inl (segments, false, ts')
          end
      else inl (segments, trailing_punct, ts)
  | _ => inl (segments, trailing_punct, ts)
  end.
Definition parse_unquoted (allow_raw : bool) (ts : list token)
  : (list (list char) * list token) + parse_error :=
  let '(leading_colons, ts) := match ts with KColons :: ts => (true, ts) | _ => (false, ts) end in
  match parse_loop allow_raw ts [] true with
  | inr e => inr e
  | inl (segments, trailing_punct, rest) =>
      match segments, leading_colons with
      | [], false => inr ExpectedPath
      | _, _ => if trailing_punct then inr ExpectedSegment else inl (segments, rest)
      end
  end.

(** qualified.rs 11-22: parse_quoted; the argument is the tokenised text of the literal.
    LitStr::parse_with rejects tokens left over. *)
Definition parse_quoted (ts : list token) : list (list char) + parse_error :=
  match ts with
  | [] => inl []
  | _ => match parse_unquoted false ts with
         | inl (segments, []) => inl segments
         | inl (_, _ :: _) => inr Trailing
         | inr e => inr e
         end
  end.
(** lib.rs 78-94: type_id, for the form without quotes; parse_macro_input rejects tokens
    left over. *)
Definition parse_macro_path (ts : list token) : list (list char) + parse_error :=
  match parse_unquoted true ts with
  | inl (segments, []) => inl segments
  | inl (_, _ :: _) => inr Trailing
  | inr e => inr e
  end.

(** * macro/src/type_id.rs *)
(** The component types of the tuple: an enum of the crate, the unit type, or an array of
    units with a given length. *)
Inductive id_type := IEnum (name : list char) | IUnit | IArray (len : N).

Definition is_letter (c : char) : bool := (65 <=? c) && (c <=? 90) || (97 <=? c) && (c <=? 122).
Definition is_digit_or_underscore (c : char) : bool := (48 <=? c) && (c <=? 57) || (c =? 95).

(** type_id.rs 30-40: the type for a character.  [bits] is the width of usize: a cast of a
    char truncates. *)
Definition id_of_char (bits : N) (c : char) : id_type :=
  if is_letter c then IEnum [c]
  else if is_digit_or_underscore c then IEnum [95; c]
  else IArray (c mod 2 ^ bits).

(** type_id.rs 22-44: expand *)
Definition type_id (bits : N) (segments : list (list char)) : list id_type :=
  fold_left (fun ids word =>
    (match ids with [] => ids | _ => ids ++ [IUnit] end) ++ map (id_of_char bits) word) segments [].

(** src/lib.rs 521-535: the marker types *)
Definition marker_types : list (list char) :=
  map (fun d => [95; d]) [48;49;50;51;52;53;54;55;56;57] ++
  map (fun c => [c]) [65;66;67;68;69;70;71;72;73;74;75;76;77;78;79;80;81;82;83;84;85;86;87;88;89;90] ++
  map (fun c => [c]) [97;98;99;100;101;102;103;104;105;106;107;108;109;110;111;112;113;114;115;116;117;118;119;120;121;122] ++
  [[95; 95]].

(** expand.rs 1291-1298: type_id of a named type; used at 162 (structs), 326 (enums), 386
    (C++ types), 849 (Rust types) for the impl of ExternType and at 1269 for an alias.
    Ident::unraw has been applied to the namespace by qualified.rs. *)
Record cxx_name := CxxName { namespace : list (list char); name : list char }.
Definition type_id_of (bits : N) (n : cxx_name) : list id_type := type_id bits (namespace n ++ [name n]).

(** expand.rs 1261-1289 with src/extern_type.rs: verify_extern_type::<T, Id>() compiles iff
    T's associated Id is the same type; tuple types are equal iff their components are. *)
Definition alias_accepted (bits : N) (alias target : cxx_name) : Prop :=
  type_id_of bits alias = type_id_of bits target.
