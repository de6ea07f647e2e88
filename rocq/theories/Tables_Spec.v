(** Specification for C50: what it means for a container of a primitive type to be
    available at run time. *)
From Verif Require Import Base Syntax_Model Tables_Model.

(** How a value is represented, on either side. *)
Inductive repr := RInt (signed : bool) (bits : N) | RFloat (bits : N) | RBool | RStdString | RRustString | RRustStr | RNone.

(** The standard integer types and whether they are signed. *)
Definition signedness (p : platform) (f : cfund) : option bool :=
  match f with
  | f_char => Some (p_char_signed p)
  | f_schar | f_short | f_int | f_long | f_llong => Some true
  | f_uchar | f_ushort | f_uint | f_ulong | f_ullong => Some false
  | _ => None
  end.
Definition c_repr (p : platform) (f : cfund) : repr :=
  match signedness p f with
  | Some s => RInt s (p_bits p f)
  | None => match f with
            | f_float => RFloat 32 | f_double => RFloat 64 | f_bool => RBool
            | f_std_string => RStdString | f_rust_String => RRustString | f_rust_Str => RRustStr
            | _ => RNone
            end
  end.
Definition r_repr (p : platform) (r : rtype) : repr :=
  match r with
  | RRefStr => RRustStr
  | RAtom a =>
      match a with
      | ABool => RBool
      | AChar => RInt (p_char_signed p) 8
      | AU8 => RInt false 8 | AU16 => RInt false 16 | AU32 => RInt false 32 | AU64 => RInt false 64
      | AI8 => RInt true 8 | AI16 => RInt true 16 | AI32 => RInt true 32 | AI64 => RInt true 64
      | AUsize => RInt false (p_ptr_bits p) | AIsize => RInt true (p_ptr_bits p)
      | AF32 => RFloat 32 | AF64 => RFloat 64
      | ACxxString => RStdString | ARustString => RRustString
      end
  end.

(** A platform as C++, <cstdint> and the static_asserts of cxx.cc 414-421 require it. *)
Record conforming (p : platform) : Prop :=
  { cf_char : p_bits p f_char = 8%N;
    cf_u8 : c_repr p (p_uint8 p) = RInt false 8; cf_u16 : c_repr p (p_uint16 p) = RInt false 16;
    cf_u32 : c_repr p (p_uint32 p) = RInt false 32; cf_u64 : c_repr p (p_uint64 p) = RInt false 64;
    cf_i8 : c_repr p (p_int8 p) = RInt true 8; cf_i16 : c_repr p (p_int16 p) = RInt true 16;
    cf_i32 : c_repr p (p_int32 p) = RInt true 32; cf_i64 : c_repr p (p_int64 p) = RInt true 64;
    cf_size : c_repr p (p_size_t p) = RInt false (p_ptr_bits p);
    cf_isize : c_repr p (p_isize p) = RInt true (p_ptr_bits p) }.

(** The primitive types and &str, and the type [t] as an instance of a container. *)
Inductive container := CVec_ | CCxxVector_ | CUniqueVector_ | CUnique_ | CShared_ | CWeak_.
Inductive instance : ty -> container -> rtype -> Prop :=
| in_vec n a : n_rust n = atom_name a -> instance (TVec (TIdent n)) CVec_ (RAtom a)
| in_vec_str l : instance (TVec (TStr l)) CVec_ RRefStr
| in_vector n a : n_rust n = atom_name a -> instance (TCxxVector (TIdent n)) CCxxVector_ (RAtom a)
| in_unique_vector n a : n_rust n = atom_name a -> instance (TUniquePtr (TCxxVector (TIdent n))) CUniqueVector_ (RAtom a)
| in_unique n a : n_rust n = atom_name a -> instance (TUniquePtr (TIdent n)) CUnique_ (RAtom a)
| in_shared n a : n_rust n = atom_name a -> instance (TSharedPtr (TIdent n)) CShared_ (RAtom a)
| in_weak n a : n_rust n = atom_name a -> instance (TWeakPtr (TIdent n)) CWeak_ (RAtom a).

(** How Rust code names the type in link names. *)
Definition segment (r : rtype) : string :=
  match r with
  | RRefStr => "str"
  | RAtom (ACxxString | ARustString) => "string"
  | RAtom AChar => "char"
  | RAtom a => atom_name a
  end.
Local Open Scope string_scope.
(** Operations of a container implemented in C++ which Rust code uses. *)
Definition needed (c : container) (r : rtype) : list string :=
  let s := segment r in
  match c with
  | CVec_ => []
  | CCxxVector_ =>
      map (fun op => "cxxbridge1$std$vector$" ++ s ++ "$" ++ op)
          (app ["new"; "size"; "get_unchecked"] (match r with RAtom ACxxString => [] | _ => ["push_back"; "pop_back"] end))
  | CUniqueVector_ => map (fun op => "cxxbridge1$unique_ptr$std$vector$" ++ s ++ "$" ++ op) ["null"; "raw"; "get"; "release"; "drop"]
  | CUnique_ => map (fun op => "cxxbridge1$unique_ptr$std$" ++ s ++ "$" ++ op) ["null"; "raw"; "get"; "release"; "drop"]
  | CShared_ =>
      map (fun op => "cxxbridge1$std$shared_ptr$" ++ s ++ "$" ++ op) ["null"; "uninit"; "clone"; "get"; "drop"]
  | CWeak_ => map (fun op => "cxxbridge1$std$weak_ptr$" ++ s ++ "$" ++ op) ["null"; "clone"; "downgrade"; "upgrade"; "drop"]
  end.
(** Members of rust::Vec that cxx.h (340-401) declares and leaves to be specialised, and the
    operation of the Rust Vec each stands for. *)
Definition members : list (string * string) :=
  [("Vec()", "new"); ("drop", "drop"); ("size", "len"); ("capacity", "capacity"); ("data", "data");
   ("reserve_total", "reserve_total"); ("set_len", "set_len"); ("truncate", "truncate")].

(** The trait impls of the container's element types. *)
Definition impls (c : container) : list (rtype * list fn_) :=
  match c with
  | CVec_ => [] | CCxxVector_ | CUniqueVector_ => vector_impls | CUnique_ => unique_impls
  | CShared_ => shared_impls | CWeak_ => weak_impls
  end.

(** The C++ type the generator writes for the element. *)
Definition written (p : platform) (r : rtype) : cfund :=
  ctype p (match r with RAtom a => write_atom a | RRefStr => c_rust_Str end).

(** A container implemented in C++ is usable from Rust: the element type has the impl; the
    impl imports every operation needed; and everything it imports is defined by the runtime
    exactly once, with the same signature, for the type the generated C++ code uses, which
    is represented like the Rust type. *)
Definition usable_from_rust (p : platform) (c : container) (r : rtype) : Prop :=
  exists fns, In (r, fns) (impls c) /\ (forall fns', In (r, fns') (impls c) -> fns' = fns) /\
    (forall l, In l (needed c r) -> In l (map link fns)) /\
    (forall f, In f fns -> exists ct, In (f, ct) cxx_defs /\
       (forall d, In d cxx_defs -> link (fst d) = link f -> d = (f, ct)) /\
       ctype p ct = written p r) /\
    c_repr p (written p r) = r_repr p r.

(** rust::Vec of the element is usable from C++: every member left open by cxx.h has one
    specialisation for the C++ type; it calls the right operation, which is declared and
    which Rust defines exactly once, with the same signature and for a Rust type
    represented like the element. *)
Definition usable_from_cxx (p : platform) (r : rtype) : Prop :=
  forall m op, In (m, op) members ->
  exists ct seg f r', In (ct, (m, link f)) cxx_members /\ ctype p ct = written p r /\
    (forall ct' l, In (ct', (m, l)) cxx_members -> ctype p ct' = written p r -> ct' = ct /\ l = link f) /\
    link f = "cxxbridge1$rust_vec$" ++ seg ++ "$" ++ op /\
    In (f, ct) cxx_decls /\ In (f, r') rust_defs /\
    (forall d, In d rust_defs -> link (fst d) = link f -> d = (f, r')) /\
    c_repr p (written p r) = r_repr p r /\ r_repr p r' = r_repr p r.

(** src/cxx.cc is free of redefinitions: no member of rust::Vec is specialised twice for
    the same type, and no function with C linkage is defined or declared twice. *)
Definition no_redefinition (p : platform) : Prop :=
  NoDup (map (fun x => (ctype p (fst x), fst (snd x))) cxx_members) /\
  NoDup (map (fun d => link (fst d)) cxx_defs ++ map (fun d => link (fst d)) cxx_decls)%list /\
  NoDup (map (fun d => link (fst d)) rust_defs).
