(** The comparison, hashing and cloning code that the bridge derives for shared structs
    and enums: macro/src/derive.rs, the exported operator shims of macro/src/expand.rs and
    the C++ member operators of gen/src/write.rs. *)
From Verif Require Import Base Syntax_Model Mangle_Model.
Require Import ZArith.

(** * Values *)
(** A struct value assigns a value to each field name.  All field values live in one
    untyped domain [V]; what a field's type knows about comparing, hashing and cloning is
    given per field name, so that every field may use a different implementation. *)
Section Derive.
  Context {V H : Type}.

  Record field_impl := FieldImpl {
    f_eq : V -> V -> bool;                  (* PartialEq::eq of the field type *)
    f_partial_cmp : V -> V -> option comparison;  (* PartialOrd::partial_cmp *)
    f_cmp : V -> V -> comparison;           (* Ord::cmp *)
    f_hash : V -> H -> H;                   (* Hash::hash feeding a hasher *)
    f_clone : V -> V                        (* Clone::clone *)
  }.
  Variable impl : string -> field_impl.

  Definition value := string -> V.

  (** The fields in the order in which derive.rs iterates over them: declaration order *)
  Definition field_names (s : struct_) : list string := map (fun f => p_rust (v_name f)) (st_fields s).

  (** * derive.rs: the Rust side *)
  (** What the Rust code of a comparison method consists of *)
  Inductive stmt : Type :=
  | MatchCmp (f : string)          (* match Ord::cmp(&self.f, &other.f) {Equal => {}, o => return o} *)
  | MatchPartialCmp (f : string).  (* match partial_cmp(..) {Some(Equal) => {}, o => return o} *)
  Inductive body : Type :=
  | Stmts (l : list stmt)          (* the statements, then the final Equal / Some(Equal) *)
  | SomeOrdCmp.                    (* Some(Ord::cmp(self, other)) *)

  (** derive.rs 179-198: struct_ord *)
  Definition struct_ord (s : struct_) : list stmt := map MatchCmp (field_names s).
  (** derive.rs 200-238: struct_partial_ord *)
  Definition struct_partial_ord (s : struct_) : body :=
    if derives DOrd (st_derives s) then SomeOrdCmp else Stmts (map MatchPartialCmp (field_names s)).

  (** Running these bodies *)
  Fixpoint run_cmp (l : list stmt) (a b : value) : comparison :=
    match l with
    | [] => Eq
    | MatchCmp f :: l =>
        match f_cmp (impl f) (a f) (b f) with Eq => run_cmp l a b | o => o end
    | MatchPartialCmp _ :: l => run_cmp l a b   (* does not occur in struct_ord *)
    end.
  Fixpoint run_partial (l : list stmt) (a b : value) : option comparison :=
    match l with
    | [] => Some Eq
    | MatchPartialCmp f :: l =>
        match f_partial_cmp (impl f) (a f) (b f) with Some Eq => run_partial l a b | o => o end
    | MatchCmp f :: l =>
        match f_cmp (impl f) (a f) (b f) with Eq => run_partial l a b | o => Some o end
    end.

  (** The Rust operators of a struct.  PartialEq and Hash are left to rustc's derive
      (derive.rs 20-24), which compares and hashes the fields in order; PartialEq::ne, and
      lt, le, gt, ge of PartialOrd, are the provided methods of core. *)
  Definition rust_cmp (s : struct_) (a b : value) : comparison := run_cmp (struct_ord s) a b.
  Definition rust_partial_cmp (s : struct_) (a b : value) : option comparison :=
    match struct_partial_ord s with
    | SomeOrdCmp => Some (rust_cmp s a b)
    | Stmts l => run_partial l a b
    end.
  Definition rust_eq (s : struct_) (a b : value) : bool :=
    forallb (fun f => f_eq (impl f) (a f) (b f)) (field_names s).
  Definition rust_hash (s : struct_) (a : value) (h : H) : H :=
    fold_left (fun h f => f_hash (impl f) (a f) h) (field_names s) h.

  Inductive op := OEq | ONe | OLt | OLe | OGt | OGe.
  Definition rust_op (s : struct_) (o : op) (a b : value) : bool :=
    match o with
    | OEq => rust_eq s a b
    | ONe => negb (rust_eq s a b)
    | OLt => match rust_partial_cmp s a b with Some Lt => true | _ => false end
    | OLe => match rust_partial_cmp s a b with Some Lt | Some Eq => true | _ => false end
    | OGt => match rust_partial_cmp s a b with Some Gt => true | _ => false end
    | OGe => match rust_partial_cmp s a b with Some Gt | Some Eq => true | _ => false end
    end.

  (** expand.rs 202-307: the exported shims, each with the last segment of its link name and
      the Rust operator applied to (lhs, rhs).  The first segments are the same for all
      operators of a struct, see [mangle_operator]. *)
  Definition exports (s : struct_) : list (string * op) :=
    flat_map (fun d =>
      match d with
      | DPartialEq => ("eq", OEq) :: when (negb (derives DEq (st_derives s))) [("ne", ONe)]
      | DPartialOrd => ("lt", OLt) :: ("le", OLe) ::
                       when (negb (derives DOrd (st_derives s))) [("gt", OGt); ("ge", OGe)]
      | _ => []
      end) (st_derives s).
  (** … and the hash shim (expand.rs 289-301) *)
  Definition exports_hash (s : struct_) : bool := existsb (trait_eqb DHash) (st_derives s).

  (** * write.rs: the C++ side *)
  Inductive cxx_body : Type :=
  | CCall (sym : string)   (* return <sym>( *this, rhs); *)
  | CNegate (o : op).         (* return !( *this <o> rhs); *)

  (** write.rs 273-275 and 318-352: the operators declared in the class *)
  Definition class_operators (s : struct_) : list op :=
    when (derives DPartialEq (st_derives s)) [OEq; ONe] ++
    when (derives DPartialOrd (st_derives s)) [OLt; OLe; OGt; OGe].

  (** write.rs 605-687: the definitions *)
  Definition operator_defs (s : struct_) : list (op * cxx_body) :=
    when (derives DPartialEq (st_derives s))
      [(OEq, CCall "eq");
       (ONe, if derives DEq (st_derives s) then CNegate OEq else CCall "ne")] ++
    when (derives DPartialOrd (st_derives s))
      [(OLt, CCall "lt");
       (OLe, CCall "le");
       (OGt, if derives DOrd (st_derives s) then CNegate OLe else CCall "gt");
       (OGe, if derives DOrd (st_derives s) then CNegate OLt else CCall "ge")].

  (** write.rs 538-603: the declarations of the functions called *)
  Definition operator_decls (s : struct_) : list string :=
    when (derives DPartialEq (st_derives s))
      ("eq" :: when (negb (derives DEq (st_derives s))) ["ne"]) ++
    when (derives DPartialOrd (st_derives s))
      ("lt" :: "le" :: when (negb (derives DOrd (st_derives s))) ["gt"; "ge"]).

  Definition op_eqb (a b : op) : bool :=
    match a, b with
    | OEq, OEq | ONe, ONe | OLt, OLt | OLe, OLe | OGt, OGt | OGe, OGe => true
    | _, _ => false
    end.
  Definition find_def (s : struct_) (o : op) : option cxx_body :=
    option_map snd (find (fun d => op_eqb (fst d) o) (operator_defs s)).
  Definition find_export (s : struct_) (sym : string) : option op :=
    option_map snd (find (fun e => String.eqb (fst e) sym) (exports s)).

  (** Evaluating a C++ operator on two values.  [None]: the operator is not offered by the
      class, or has no definition, or calls a function that is not declared or not exported.
      Operators call each other at most [fuel] deep. *)
  Fixpoint cxx_op (fuel : nat) (s : struct_) (o : op) (a b : value) : option bool :=
    match fuel with
    | O => None
    | S fuel =>
        if existsb (op_eqb o) (class_operators s) then
          match find_def s o with
          | Some (CCall sym) =>
              if existsb (String.eqb sym) (operator_decls s)
              then option_map (fun r => rust_op s r a b) (find_export s sym)
              else None
          | Some (CNegate o) => option_map negb (cxx_op fuel s o a b)
          | None => None
          end
        else None
    end.

  (** write.rs 192-220 with expand.rs 289-301 and src/hash.rs: std::hash of a struct is the
      hash of the value with a hasher of fixed initial state [h0], finished by [fin]. *)
  Definition cxx_hash (s : struct_) (h0 : H) (fin : H -> Z) (a : value) : option Z :=
    if derives DHash (st_derives s)
    then if exports_hash s then Some (fin (rust_hash s a h0)) else None
    else None.

  (** * Clone *)
  (** derive.rs 110-138: struct_clone.  [DerefSelf]: the body is [*self]; otherwise one
      [field: Clone::clone(&self.field)] per field. *)
  Inductive clone_body := DerefSelf | CloneFields (l : list string).
  Definition struct_clone (s : struct_) : clone_body :=
    if derives DCopy (st_derives s) then DerefSelf else CloneFields (field_names s).
  (** The value of a field of the clone; [None]: the struct literal does not set it. *)
  Definition rust_clone (s : struct_) (a : value) (f : string) : option V :=
    match struct_clone s with
    | DerefSelf => if existsb (String.eqb f) (field_names s) then Some (a f) else None
    | CloneFields l => if existsb (String.eqb f) l then Some (f_clone (impl f) (a f)) else None
    end.
End Derive.
Arguments field_impl : clear implicits.

(** * Enums *)
(** A shared enum is a struct with the one field [repr] on the Rust side and an
    [enum class] with the same underlying type on the C++ side: a value is an integer. *)

(** derive.rs 280-291: enum_ord, 293-304: enum_partial_ord; PartialEq is rustc's *)
Definition enum_cmp (a b : Z) : comparison := Z.compare a b.
Definition enum_partial_cmp (a b : Z) : option comparison := Some (Z.compare a b).
Definition enum_eq (a b : Z) : bool := Z.eqb a b.
Definition enum_rust_op (o : op) (a b : Z) : bool :=
  match o with
  | OEq => enum_eq a b
  | ONe => negb (enum_eq a b)
  | OLt => match enum_partial_cmp a b with Some Lt => true | _ => false end
  | OLe => match enum_partial_cmp a b with Some Lt | Some Eq => true | _ => false end
  | OGt => match enum_partial_cmp a b with Some Gt => true | _ => false end
  | OGe => match enum_partial_cmp a b with Some Gt | Some Eq => true | _ => false end
  end.

(** derive.rs 256-278: enum_debug.  One match arm per variant, tried in order, then the
    fallback writing the name of the enum and the number; [show] is the Display of the
    integer type. *)
Definition enum_debug (show : Z -> string) (e : enum_) (x : Z) : string :=
  match find (fun v => Z.eqb (vr_disc v) x) (en_variants e) with
  | Some v => p_rust (vr_name v)
  | None => (p_rust (en_name e) ++ "(" ++ show x ++ ")")%string
  end.

(** derive.rs 41-97: expand_enum, the traits a shared enum implements: those derived by the
    user, and Copy, Clone, Eq, PartialEq in any case *)
Definition enum_traits (ds : list trait) : list trait :=
  ds ++ when (negb (derives DCopy ds)) [DCopy]
     ++ when (negb (derives DClone ds)) [DClone]
     ++ when (negb (derives DEq ds)) [DEq]
     ++ when (negb (derives DPartialEq ds)) [DPartialEq].
