(** Model of syntax/discriminant.rs and the variant loop of
    syntax/parse.rs: parse_enum (226-248) / parse_variant (304-320). *)
From Verif Require Import Base.

(** u64::MAX *)
Definition u64_max : N := 18446744073709551615.

(** discriminant.rs 22-26: enum Sign *)
Inductive sign : Set := Negative | Positive.

(** discriminant.rs 16-20: struct Discriminant; [magnitude] is a u64. *)
Record disc : Set := Disc { d_sign : sign; d_mag : N }.

Definition sign_eqb (a b : sign) : bool :=
  match a, b with Negative, Negative | Positive, Positive => true | _, _ => false end.

(** discriminant.rs 16: derive(PartialEq) *)
Definition disc_eqb (a b : disc) : bool :=
  sign_eqb (d_sign a) (d_sign b) && N.eqb (d_mag a) (d_mag b).

(** discriminant.rs 244-254: Ord for Discriminant *)
Definition disc_cmp (a b : disc) : comparison :=
  match d_sign a, d_sign b with
  | Negative, Negative => CompOpp (N.compare (d_mag a) (d_mag b))
  | Negative, Positive => Lt
  | Positive, Negative => Gt
  | Positive, Positive => N.compare (d_mag a) (d_mag b)
  end.
Definition disc_leb (a b : disc) : bool := match disc_cmp a b with Gt => false | _ => true end.
Definition disc_ltb (a b : disc) : bool := match disc_cmp a b with Lt => true | _ => false end.

(** discriminant.rs 152-180: zero, pos, neg.  [neg] takes the i64 as a [Z]; its
    magnitude is [wrapping_abs as u64], which is |i| for every i64. *)
Definition disc_zero : disc := Disc Positive 0.
Definition disc_pos (u : N) : disc := Disc Positive u.
Definition disc_neg (i : Z) : disc :=
  Disc (if Z.ltb i 0 then Negative else Positive) (Z.abs_N i).

(** discriminant.rs 276-281, 294-335: Limits, LIMITS *)
Record limits : Set := Limits { l_repr : atom; l_min : disc; l_max : disc }.
Definition LIMITS : list limits :=
  [ Limits AU8  disc_zero (disc_pos 255);
    Limits AI8  (disc_neg (-128)) (disc_pos 127);
    Limits AU16 disc_zero (disc_pos 65535);
    Limits AI16 (disc_neg (-32768)) (disc_pos 32767);
    Limits AU32 disc_zero (disc_pos 4294967295);
    Limits AI32 (disc_neg (-2147483648)) (disc_pos 2147483647);
    Limits AU64 disc_zero (disc_pos u64_max);
    Limits AI64 (disc_neg (-9223372036854775808)) (disc_pos 9223372036854775807) ].

(** discriminant.rs 284-291: Limits::of *)
Definition limits_of (repr : atom) : option limits :=
  find (fun l => atom_eqb (l_repr l) repr) LIMITS.

(** The discriminant expression [syn::Expr], reduced to what
    expr_to_discriminant distinguishes.  [ELit neg n suffix]: an integer literal
    token with base-10 digits of value [n] (possibly with a leading '-' when
    synthesised by another macro), and its suffix text; [ENeg]: unary minus;
    [EOther]: any other expression. *)
Inductive dexpr : Set :=
| ELit (neg : bool) (n : N) (suffix : string)
| ENeg (e : dexpr)
| EOther.

(** discriminant.rs 262-274: parse_int_suffix *)
Definition parse_int_suffix (s : string) : res (option atom) :=
  if String.eqb s "" then Ok None else
  match atom_from_str s with
  | Some ((AU8 | AU16 | AU32 | AU64 | AUsize | AI8 | AI16 | AI32 | AI64 | AIsize) as a) => Ok (Some a)
  | _ => Err "unrecognized integer suffix"
  end.

(** discriminant.rs 227-241: FromStr for Discriminant (on the digits of the literal) *)
Definition disc_from_lit (neg : bool) (n : N) : res disc :=
  if N.leb n u64_max then Ok (Disc (if neg then Negative else Positive) n)
  else Err "discriminant value outside of supported range".

(** discriminant.rs 107-132: expr_to_discriminant *)
Fixpoint expr_to_discriminant (e : dexpr) : res (disc * option atom) :=
  match e with
  | ELit neg n suffix =>
      bind (disc_from_lit neg n) (fun d =>
      bind (parse_int_suffix suffix) (fun r => Ok (d, r)))
  | ENeg e =>
      bind (expr_to_discriminant e) (fun '(d, r) =>
      Ok (Disc (match d_sign d with Positive => Negative | Negative => Positive end) (d_mag d), r))
  | EOther => Err "enums with non-integer literal discriminants are not supported yet"
  end.

(** discriminant.rs 10-14: DiscriminantSet.  [values] is the BTreeSet, as a list
    sorted by [disc_cmp]. *)
Record dset : Set := DSet { s_repr : option atom; s_values : list disc; s_previous : option disc }.

(** discriminant.rs 29-35: new *)
Definition dset_new (repr : option atom) : dset := DSet repr [] None.

(** BTreeSet::insert *)
Fixpoint bt_insert (d : disc) (l : list disc) : list disc :=
  match l with
  | [] => [d]
  | x :: r => match disc_cmp d x with
              | Lt => d :: x :: r
              | Eq => x :: r
              | Gt => x :: bt_insert d r
              end
  end.

(** discriminant.rs 134-149: fn insert.  The state is returned together with the
    outcome because callers keep using the set after an error. *)
Definition insert_disc (s : dset) (d : disc) : dset * res disc :=
  let out_of_limits :=
    match s_repr s with
    | Some expected =>
        match limits_of expected with
        | Some l => disc_ltb d (l_min l) || disc_ltb (l_max l) d
        | None => false
        end
    | None => false
    end in
  if out_of_limits then (s, Err "discriminant value is outside the limits")
  else (DSet (s_repr s) (bt_insert d (s_values s)) (Some d), Ok d).

(** discriminant.rs 37-62: DiscriminantSet::insert *)
Definition dset_insert (s : dset) (e : dexpr) : dset * res disc :=
  match expr_to_discriminant e with
  | Err m => (s, Err m)
  | Panic m => (s, Panic m)
  | Ok (d, repr) =>
      match s_repr s, repr with
      | None, Some new_repr =>
          let past_ok :=
            match limits_of new_repr with
            | Some l => forallb (fun past => disc_leb (l_min l) past && disc_leb past (l_max l)) (s_values s)
            | None => true
            end in
          if past_ok then insert_disc (DSet (Some new_repr) (s_values s) (s_previous s)) d
          else (s, Err "discriminant value is outside the limits")
      | Some prev, Some repr =>
          if atom_eqb prev repr then insert_disc s d
          else (s, Err "expected another suffix")
      | _, None => insert_disc s d
      end
  end.

(** discriminant.rs 64-86: insert_next.  [magnitude -= 1] on u64 panics on
    underflow (overflow checks on). *)
Definition dset_insert_next (s : dset) : dset * res disc :=
  match s_previous s with
  | None => insert_disc s disc_zero
  | Some d =>
      match d_sign d with
      | Negative =>
          if N.eqb (d_mag d) 0 then (s, Panic "attempt to subtract with overflow")
          else
            let m := (d_mag d - 1)%N in
            insert_disc s (Disc (if N.eqb m 0 then Positive else Negative) m)
      | Positive =>
          if N.eqb (d_mag d) u64_max then (s, Err "discriminant overflow")
          else insert_disc s (Disc Positive (d_mag d + 1)%N)
      end
  end.

(** discriminant.rs 88-104: inferred_repr *)
Definition inferred_repr (s : dset) : res atom :=
  match s_repr s with
  | Some r => Ok r
  | None =>
      match s_values s with
      | [] => Ok AU8
      | x :: r =>
          let mn := x in
          let mx := last (x :: r) x in
          match find (fun l => disc_leb (l_min l) mn && disc_leb mx (l_max l)) LIMITS with
          | Some l => Ok (l_repr l)
          | None => Err "these discriminant values do not fit in any supported enum repr type"
          end
      end
  end.

(** A variant of the enum as parsed by syn: whether it is a unit variant, and its
    optional discriminant expression (attributes and names play no role here). *)
Record rvariant : Set := RVariant { v_unit : bool; v_disc : option dexpr }.

(** parse.rs 304-320: the part of parse_variant that concerns discriminants. *)
Definition variant_disc (s : dset) (v : rvariant) : dset * res disc :=
  if v_unit v then
    match v_disc v with
    | Some e => dset_insert s e
    | None => dset_insert_next s
    end
  else (s, Err "enums with data are not supported yet").

(** parse.rs 226-233: the loop over variants; errors are accumulated in [cx],
    a panic ends everything.  Result: final set, discriminants of the variants
    kept, error messages, whether a panic happened. *)
Fixpoint variants_loop (s : dset) (vs : list rvariant) : dset * list disc * list string * bool :=
  match vs with
  | [] => (s, [], [], false)
  | v :: vs =>
      let '(s', r) := variant_disc s v in
      match r with
      | Panic _ => (s', [], [], true)
      | Ok d => let '(s'', ds, es, p) := variants_loop s' vs in (s'', d :: ds, es, p)
      | Err m => let '(s'', ds, es, p) := variants_loop s' vs in (s'', ds, m :: es, p)
      end
  end.

(** parse.rs 226-248: outcome of parse_enum as far as discriminants go.
    [Ok (discriminants, repr)] means no error was reported. *)
Definition parse_enum (repr : option atom) (vs : list rvariant) : res (list disc * atom) :=
  let '(s, ds, es, p) := variants_loop (dset_new repr) vs in
  if p then Panic "attempt to subtract with overflow" else
  match inferred_repr s with
  | Ok r => match es with [] => Ok (ds, r) | m :: _ => Err m end
  | Err m => Err m
  | Panic m => Panic m
  end.

(** attrs.rs 230-245: parse_repr_attribute — the reprs that can be written. *)
Definition repr_attr_ok (a : atom) : bool :=
  match a with
  | AU8 | AU16 | AU32 | AU64 | AUsize | AI8 | AI16 | AI32 | AI64 | AIsize => true
  | _ => false
  end.

(** Integer meaning of a discriminant as printed (Display 206-213, ToTokens
    215-222): optional minus sign and the magnitude. *)
Definition disc_Z (d : disc) : Z :=
  match d_sign d with Negative => - Z.of_N (d_mag d) | Positive => Z.of_N (d_mag d) end.
