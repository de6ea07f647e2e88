(** Specification of shared-enum discriminants over the integers, independent of
    the sign/magnitude bookkeeping of the code. *)
From Verif Require Import Base Discriminant_Model.

(** The integer an expression denotes, if it is an integer literal with
    any number of minus signs whose digits fit u64. *)
Fixpoint expr_value (e : dexpr) : option Z :=
  match e with
  | ELit neg n _ =>
      if (Z.of_N n <? 2 ^ 64)%Z then Some (if neg then - Z.of_N n else Z.of_N n)%Z else None
  | ENeg e => option_map Z.opp (expr_value e)
  | EOther => None
  end.

Fixpoint expr_suffix (e : dexpr) : string :=
  match e with ELit _ _ s => s | ENeg e => expr_suffix e | EOther => "" end.

(** Values of the variants: what is written, else the previous plus one, else 0. *)
Fixpoint written_values (prev : option Z) (vs : list rvariant) : option (list Z) :=
  match vs with
  | [] => Some []
  | v :: r =>
      let here :=
        if v_unit v then
          match v_disc v with
          | Some e => expr_value e
          | None => match prev with None => Some 0%Z | Some z => Some (z + 1)%Z end
          end
        else None in
      match here with
      | None => None
      | Some z => option_map (cons z) (written_values (Some z) r)
      end
  end.

(** The nonempty literal suffixes, in order. *)
Definition suffixes (vs : list rvariant) : list string :=
  flat_map (fun v => match v_disc v with
                     | Some e => if String.eqb (expr_suffix e) "" then [] else [expr_suffix e]
                     | None => [] end) vs.

(** Integer primitive types and their ranges ([usize]/[isize] are not of fixed
    width; the code lets through anything of magnitude below 2^64). *)
Definition int_range (a : atom) : option (Z * Z) :=
  match a with
  | AU8 => Some (0, 2^8 - 1) | AU16 => Some (0, 2^16 - 1)
  | AU32 => Some (0, 2^32 - 1) | AU64 => Some (0, 2^64 - 1)
  | AI8 => Some (-2^7, 2^7 - 1) | AI16 => Some (-2^15, 2^15 - 1)
  | AI32 => Some (-2^31, 2^31 - 1) | AI64 => Some (-2^63, 2^63 - 1)
  | AUsize | AIsize => Some (-(2^64 - 1), 2^64 - 1)
  | _ => None
  end%Z.

Definition fixed_width (a : atom) : bool :=
  match a with AU8|AU16|AU32|AU64|AI8|AI16|AI32|AI64 => true | _ => false end.

Definition fits (a : atom) (z : Z) : Prop :=
  match int_range a with Some (lo, hi) => (lo <= z <= hi)%Z | None => False end.

(** Preference order of inferred representations. *)
Definition preference : list atom := [AU8; AI8; AU16; AI16; AU32; AI32; AU64; AI64].

(** [r] is the first type of [l] that fits every value. *)
Inductive first_fit (zs : list Z) : list atom -> atom -> Prop :=
| ff_here a l : Forall (fits a) zs -> first_fit zs (a :: l) a
| ff_next a l r : ~ Forall (fits a) zs -> first_fit zs l r -> first_fit zs (a :: l) r.

(** The type the user asked for: the repr attribute, else the first suffix. *)
Definition declared (repr : option atom) (vs : list rvariant) : option string :=
  match repr with Some a => Some (atom_name a) | None => hd_error (suffixes vs) end.

(** When an enum should be accepted, with which values and representation. *)
Inductive good_enum (repr : option atom) (vs : list rvariant) : list Z -> atom -> Prop :=
| good_declared zs a :
    written_values None vs = Some zs ->
    declared repr vs = Some (atom_name a) ->
    (forall s, In s (suffixes vs) -> s = atom_name a) ->
    Forall (fits a) zs ->
    good_enum repr vs zs a
| good_inferred zs a :
    written_values None vs = Some zs ->
    declared repr vs = None ->
    first_fit zs preference a ->
    good_enum repr vs zs a.

(** A literal zero under an odd number of minus signs, such as [-0]. *)
Fixpoint negative_zero (e : dexpr) : bool :=
  match e with
  | ELit neg n _ => neg && N.eqb n 0
  | ENeg e => match e with
              | ELit neg n _ => negb neg && N.eqb n 0
              | ENeg e' => negative_zero e'
              | EOther => false
              end
  | EOther => false
  end.

Definition no_negative_zero (vs : list rvariant) : Prop :=
  forall v e, In v vs -> v_disc v = Some e -> negative_zero e = false.
