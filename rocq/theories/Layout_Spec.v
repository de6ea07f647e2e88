(** Specification for C103: where the languages put values in memory.  Rust: the
    Rust Reference, "Type layout"; C++: the rules that the common ABIs have for classes
    without bases, virtual functions, bit fields and overlapping members. *)
From Verif Require Import Base Syntax_Model Types_Model Types_Spec Mangle_Spec Abi_Model Unit_Spec Layout_Model.

(** * Rust *)
(** "The Rust Reference", #[repr(C)] structs: the padding in front of a field *)
Definition padding (offset a : nat) : nat := if Nat.eqb (offset mod a) 0 then 0 else a - offset mod a.
Fixpoint rust_offsets (at_ : nat) (fields : list lay) : list nat * nat :=
  match fields with
  | [] => ([], at_)
  | f :: fields => let o := at_ + padding at_ (align f) in
                   let '(os, e) := rust_offsets (o + size f) fields in (o :: os, e)
  end.
Definition strictest (l : list lay) : nat := fold_right (fun f a => Nat.max (align f) a) 1 l.
Definition rust_struct (fields : list lay) : list nat * lay :=
  let '(os, e) := rust_offsets 0 fields in
  let a := strictest fields in (os, Lay (e + padding e a) a).
Definition rust_union (fields : list lay) : lay :=
  let a := strictest fields in
  let e := fold_right (fun f m => Nat.max (size f) m) 0 fields in Lay (e + padding e a) a.

(** * C++ *)
Definition lowest_multiple (a from x : nat) : Prop :=
  Nat.divide a x /\ from <= x /\ forall y, Nat.divide a y -> from <= y -> x <= y.
(** Each member is at the lowest suitably aligned place behind the one before. *)
Inductive cxx_offsets : nat -> list lay -> list nat -> nat -> Prop :=
| co_nil at_ : cxx_offsets at_ [] [] at_
| co_cons at_ f fields o os e : lowest_multiple (align f) at_ o -> cxx_offsets (o + size f) fields os e ->
    cxx_offsets at_ (f :: fields) (o :: os) e.
(** The size of an object is positive and a multiple of its alignment. *)
Definition cxx_struct (members : list lay) (os : list nat) (l : lay) : Prop :=
  exists e, cxx_offsets 0 members os e /\
    (forall m, In m members -> align m <= align l) /\ (align l = 1 \/ exists m, In m members /\ align m = align l) /\
    lowest_multiple (align l) (Nat.max 1 e) (size l).

(** * Types *)
Section Layout.
  Variables (P : platform) (T : types) (apis : list api).

  (** The layout of a value of a Rust type.  No rule for opaque types and for what is
      not Sized.  A type alias of the bridge hides a primitive of the same name. *)
  Inductive rust_lay : rty -> lay -> Prop :=
  | rl_prim a : a <> ARustString -> a <> ACxxString -> ~ is_alias apis (atom_name a) -> rust_lay (RIdent (atom_name a)) (prim P a)
  | rl_string : ~ is_alias apis "String" -> rust_lay (RIdent "String") (rust_string P)
  | rl_struct x fs ls : In (x, RustDef ReprC fs) (rust_definitions apis) -> rust_lays (map snd fs) ls ->
      rust_lay (RIdent x) (snd (rust_struct ls))
  | rl_transparent x f l : In (x, RustDef ReprTransparent [f]) (rust_definitions apis) -> rust_lay (snd f) l -> rust_lay (RIdent x) l
  | rl_user x : is_alias apis x -> rust_lay (RIdent x) (rust_user P x)
  | rl_address m t u : t = RBox u \/ t = RRef m u \/ t = RPtr m u -> rust_lay t (address P)
  | rl_vec t : rust_lay (RVec t) (rust_vec P)
  | rl_str : rust_lay RStrRef (rust_str P)
  | rl_slice m t : rust_lay (RSliceRef m t) (rust_slice P)
  | rl_array t n l : rust_lay t l -> rust_lay (RArray t n) (arr (N.to_nat n) l)
  | rl_library t ls : rust_library P t = Some ls -> rust_lay t (snd (rust_struct ls))
  | rl_result : rust_lay RResult (rust_union [snd (rust_struct (result_err P)); result_ok P])
  with rust_lays : list rty -> list lay -> Prop :=
  | rls_nil : rust_lays [] []
  | rls_cons t l ts ls : rust_lay t l -> rust_lays ts ls -> rust_lays (t :: ts) (l :: ls).

  (** The name of a C++ type that the user's headers define. *)
  Definition users_type (q : list string) : Prop :=
    exists a p, In a apis /\ decl_name a = Some p /\ qualified p = q /\ is_cxx_type apis (p_rust p).

  (** The layout of an object of a C++ type.  No rule for std::array<T, 0>, whose layout
      is up to the implementation. *)
  Inductive cxx_lay : cty -> lay -> Prop :=
  | cl_prim a : a <> ARustString -> a <> ACxxString -> cxx_lay (CAtom a) (prim P a)
  | cl_class p fs ls os l : In (qualified p, CxxClass fs) (cxx_definitions T apis) -> cxx_lays (map snd fs) ls -> cxx_struct ls os l ->
      cxx_lay (CNamed p) l
  | cl_enum p a : In (qualified p, CxxEnum a) (cxx_definitions T apis) -> cxx_lay (CNamed p) (prim P a)
  | cl_user p : users_type (qualified p) -> cxx_lay (CNamed p) (cxx_user P (qualified p))
  | cl_pointer k t u : t = CRef k u \/ t = CPtr k u -> cxx_lay t (address P)
  | cl_unique t : cxx_lay (CUnique t) (std_unique P)
  | cl_shared t : cxx_lay (CShared t) (std_shared P)
  | cl_weak t : cxx_lay (CWeak t) (std_weak P)
  | cl_array t n l : n <> 0%N -> cxx_lay t l -> cxx_lay (CArray t n) (arr (N.to_nat n) l)
  | cl_library t ls os l : cxx_library P t = Some ls -> cxx_struct ls os l -> cxx_lay t l
  | cl_fat : cxx_lay CFat (fat P)
  with cxx_lays : list cty -> list lay -> Prop :=
  | cls_nil : cxx_lays [] []
  | cls_cons t l ts ls : cxx_lay t l -> cxx_lays ts ls -> cxx_lays (t :: ts) (l :: ls).

  (** The layout of a shared struct as the Rust compiler and as the C++ compiler lay it
      out: the layouts of its fields, their offsets, and its own layout. *)
  Definition rust_struct_layout (s : struct_) (ls : list lay) (os : list nat) (l : lay) : Prop :=
    exists fs, In (p_rust (st_name s), RustDef ReprC fs) (rust_definitions apis) /\
      map fst fs = map (fun f => p_rust (v_name f)) (st_fields s) /\ rust_lays (map snd fs) ls /\ rust_struct ls = (os, l).
  Definition cxx_struct_layout (s : struct_) (ls : list lay) (os : list nat) (l : lay) : Prop :=
    exists cs, In (qualified (st_name s), CxxClass cs) (cxx_definitions T apis) /\
      map fst cs = map (fun f => p_cxx (v_name f)) (st_fields s) /\ cxx_lays (map snd cs) ls /\ cxx_struct ls os l.

  (** What the user promises: the C++ types that their headers define have the layout
      of the Rust type of the bridge. *)
  Definition users_agree : Prop :=
    forall a p l, In a apis -> decl_name a = Some p -> is_cxx_type apis (p_rust p) -> rust_lay (RIdent (p_rust p)) l ->
      cxx_user P (qualified p) = l.
End Layout.

(** A layout that a C++ type can have. *)
Definition proper (l : lay) : Prop := 0 < align l /\ 0 < size l /\ Nat.divide (align l) (size l).

(** What holds on every platform: the layouts are proper; usize is the integer of the
    size of a pointer; references to str and slices are two words; and all that the
    crate checks when it is compiled. *)
Definition usual (P : platform) : Prop :=
  (forall a, a <> ARustString -> a <> ACxxString -> proper (prim P a)) /\ (forall x, proper (rust_user P x)) /\
  address P = usize P /\ size (rust_str P) = 2 * size (usize P) /\ size (rust_slice P) = 2 * size (usize P) /\
  runtime_asserts P /\ pointer_asserts P.

(** Arrays in the bridge have elements (parse.rs 1346-1350: "array with zero size is not
    supported"). *)
Definition no_empty_arrays (apis : list api) : Prop := forall t n, mentioned apis (TArray t n) -> n <> 0%N.
(** A value that is, and holds inline, no array without elements. *)
Fixpoint full (r : rty) : Prop := match r with RArray t n => n <> 0%N /\ full t | _ => True end.

(** The representation of an enum is an integer type (C02, C71). *)
Definition integer_reprs (apis : list api) : Prop := forall e, In (AEnum e) apis -> en_repr e <> ARustString /\ en_repr e <> ACxxString.

(** The fields [ls] are at the offsets [os] in this order, aligned, without overlap, and
    inside the [total] bytes. *)
Fixpoint apart (from : nat) (ls : list lay) (os : list nat) (total : nat) : Prop :=
  match ls, os with
  | [], [] => from <= total
  | l :: ls, o :: os => from <= o /\ Nat.divide (align l) o /\ apart (o + size l) ls os total
  | _, _ => False
  end.
