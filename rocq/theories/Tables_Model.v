(** The ready-made instantiations of the runtime for the primitive types: the tables of
    src/cxx.cc on the C++ side, and of src/cxx_vector.rs, src/shared_ptr.rs,
    src/weak_ptr.rs, src/unique_ptr.rs and src/symbols/rust_vec.rs on the Rust side.
    A function is a link name with the shape of its signature; the bodies are the
    subject of C35-C38 and C44. *)
From Verif Require Import Base.

(** Shape of a parameter or result: a pointer or reference, or a word. *)
Inductive shape := Ptr | Word.
Record fn_ := Fn_ { link : string; params : list shape; result : option shape }.

(** ** C++ *)
(** The names of types in the tables of cxx.cc 747-790 (and of detail::..._if_unique, 538-550). *)
Inductive cname :=
| c_uint8_t | c_uint16_t | c_uint32_t | c_uint64_t | c_int8_t | c_int16_t | c_int32_t | c_int64_t
| c_float | c_double | c_bool | c_char | c_size_t | c_isize | c_std_string | c_rust_String | c_rust_Str
| c_char_if_unique | c_usize_if_unique | c_isize_if_unique.

(** cxx.cc 748-758: FOR_EACH_NUMERIC *)
Definition for_each_numeric : list (string * cname) :=
  [("u8", c_uint8_t); ("u16", c_uint16_t); ("u32", c_uint32_t); ("u64", c_uint64_t);
   ("i8", c_int8_t); ("i16", c_int16_t); ("i32", c_int32_t); ("i64", c_int64_t);
   ("f32", c_float); ("f64", c_double)].
(** cxx.cc 760-763: FOR_EACH_TRIVIAL_STD_VECTOR *)
Definition for_each_trivial_std_vector := for_each_numeric ++ [("usize", c_size_t); ("isize", c_isize)].
(** cxx.cc 765-767: FOR_EACH_STD_VECTOR *)
Definition for_each_std_vector := for_each_trivial_std_vector ++ [("string", c_std_string)].
(** cxx.cc 769-776: FOR_EACH_RUST_VEC *)
Definition for_each_rust_vec :=
  for_each_numeric ++ [("bool", c_bool); ("char", c_char_if_unique); ("usize", c_usize_if_unique);
    ("isize", c_isize_if_unique); ("string", c_rust_String); ("str", c_rust_Str)].
(** cxx.cc 778-783: FOR_EACH_SHARED_PTR *)
Definition for_each_shared_ptr :=
  for_each_numeric ++ [("bool", c_bool); ("usize", c_size_t); ("isize", c_isize); ("string", c_std_string)].

(** cxx.cc 611-649: STD_VECTOR_OPS *)
Definition std_vector_ops (r : string) : list fn_ :=
  let v := "cxxbridge1$std$vector$" in let u := "cxxbridge1$unique_ptr$std$vector$" in
  [ Fn_ (v ++ r ++ "$new") [] (Some Ptr);
    Fn_ (v ++ r ++ "$size") [Ptr] (Some Word);
    Fn_ (v ++ r ++ "$get_unchecked") [Ptr; Word] (Some Ptr);
    Fn_ (u ++ r ++ "$null") [Ptr] None;
    Fn_ (u ++ r ++ "$raw") [Ptr; Ptr] None;
    Fn_ (u ++ r ++ "$get") [Ptr] (Some Ptr);
    Fn_ (u ++ r ++ "$release") [Ptr] (Some Ptr);
    Fn_ (u ++ r ++ "$drop") [Ptr] None ].
(** cxx.cc 651-661: STD_VECTOR_TRIVIAL_OPS *)
Definition std_vector_trivial_ops (r : string) : list fn_ :=
  let v := "cxxbridge1$std$vector$" in
  [ Fn_ (v ++ r ++ "$push_back") [Ptr; Ptr] None;
    Fn_ (v ++ r ++ "$pop_back") [Ptr; Ptr] None ].
(** cxx.cc 663-679: RUST_VEC_EXTERNS, declarations *)
Definition rust_vec_externs (r : string) : list fn_ :=
  let v := "cxxbridge1$rust_vec$" in
  [ Fn_ (v ++ r ++ "$new") [Ptr] None;
    Fn_ (v ++ r ++ "$drop") [Ptr] None;
    Fn_ (v ++ r ++ "$len") [Ptr] (Some Word);
    Fn_ (v ++ r ++ "$capacity") [Ptr] (Some Word);
    Fn_ (v ++ r ++ "$data") [Ptr] (Some Ptr);
    Fn_ (v ++ r ++ "$reserve_total") [Ptr; Word] None;
    Fn_ (v ++ r ++ "$set_len") [Ptr; Word] None;
    Fn_ (v ++ r ++ "$truncate") [Ptr; Word] None ].
(** cxx.cc 681-711: RUST_VEC_OPS, the members of rust::Vec<CXX_TYPE> it specialises and
    the link name each calls.  The const data() only: the other one calls it (cxx.h 912-915). *)
Definition rust_vec_ops (r : string) : list (string * string) :=
  let v := "cxxbridge1$rust_vec$" in
  [ ("Vec()", (v ++ r ++ "$new")%string); ("drop", (v ++ r ++ "$drop")%string); ("size", (v ++ r ++ "$len")%string);
    ("capacity", (v ++ r ++ "$capacity")%string); ("data", (v ++ r ++ "$data")%string);
    ("reserve_total", (v ++ r ++ "$reserve_total")%string); ("set_len", (v ++ r ++ "$set_len")%string);
    ("truncate", (v ++ r ++ "$truncate")%string) ].
(** cxx.cc 713-745: SHARED_PTR_OPS *)
Definition shared_ptr_ops (r : string) : list fn_ :=
  let s := "cxxbridge1$std$shared_ptr$" in let w := "cxxbridge1$std$weak_ptr$" in
  [ Fn_ (s ++ r ++ "$null") [Ptr] None;
    Fn_ (s ++ r ++ "$uninit") [Ptr] (Some Ptr);
    Fn_ (s ++ r ++ "$clone") [Ptr; Ptr] None;
    Fn_ (s ++ r ++ "$get") [Ptr] (Some Ptr);
    Fn_ (s ++ r ++ "$drop") [Ptr] None;
    Fn_ (w ++ r ++ "$null") [Ptr] None;
    Fn_ (w ++ r ++ "$clone") [Ptr; Ptr] None;
    Fn_ (w ++ r ++ "$downgrade") [Ptr; Ptr] None;
    Fn_ (w ++ r ++ "$upgrade") [Ptr; Ptr] None;
    Fn_ (w ++ r ++ "$drop") [Ptr] None ].
(** cxx.cc 582-605: std::unique_ptr<std::string> *)
Definition unique_ptr_string_ops : list fn_ :=
  let u := "cxxbridge1$unique_ptr$std$string$" in
  [ Fn_ (u ++ "null") [Ptr] None; Fn_ (u ++ "raw") [Ptr; Ptr] None; Fn_ (u ++ "get") [Ptr] (Some Ptr);
    Fn_ (u ++ "release") [Ptr] (Some Ptr); Fn_ (u ++ "drop") [Ptr] None ].

(** cxx.cc 582-605 and 785-790: what src/cxx.cc defines with C linkage, each function with the
    element type it is compiled for. *)
Definition cxx_defs : list (fn_ * cname) :=
  map (fun f => (f, c_std_string)) unique_ptr_string_ops
  ++ flat_map (fun rc => map (fun f => (f, snd rc)) (std_vector_ops (fst rc))) for_each_std_vector
  ++ flat_map (fun rc => map (fun f => (f, snd rc)) (std_vector_trivial_ops (fst rc))) for_each_trivial_std_vector
  ++ flat_map (fun rc => map (fun f => (f, snd rc)) (shared_ptr_ops (fst rc))) for_each_shared_ptr.
(** cxx.cc 788 *)
Definition cxx_decls : list (fn_ * cname) :=
  flat_map (fun rc => map (fun f => (f, snd rc)) (rust_vec_externs (fst rc))) for_each_rust_vec.
(** cxx.cc 792-796: the members specialised, by element type *)
Definition cxx_members : list (cname * (string * string)) :=
  flat_map (fun rc => map (fun m => (snd rc, m)) (rust_vec_ops (fst rc))) for_each_rust_vec.

(** Fundamental and class types of C++; the three structs of cxx.cc 540-550 are declared and
    never defined. *)
Inductive cfund :=
| f_char | f_schar | f_uchar | f_short | f_ushort | f_int | f_uint | f_long | f_ulong | f_llong | f_ullong
| f_float | f_double | f_bool | f_std_string | f_rust_String | f_rust_Str
| f_char_ignore | f_usize_ignore | f_isize_ignore.
Definition cfund_eqb (a b : cfund) : bool :=
  match a, b with
  | f_char, f_char | f_schar, f_schar | f_uchar, f_uchar | f_short, f_short | f_ushort, f_ushort
  | f_int, f_int | f_uint, f_uint | f_long, f_long | f_ulong, f_ulong | f_llong, f_llong | f_ullong, f_ullong
  | f_float, f_float | f_double, f_double | f_bool, f_bool | f_std_string, f_std_string
  | f_rust_String, f_rust_String | f_rust_Str, f_rust_Str
  | f_char_ignore, f_char_ignore | f_usize_ignore, f_usize_ignore | f_isize_ignore, f_isize_ignore => true
  | _, _ => false
  end.

(** A platform: the widths of the integer types and the choice of typedefs. *)
Record platform := Platform
  { p_bits : cfund -> N;        (* width in bits of the integer types *)
    p_char_signed : bool;
    p_ptr_bits : N;
    p_uint8 : cfund; p_uint16 : cfund; p_uint32 : cfund; p_uint64 : cfund;
    p_int8 : cfund; p_int16 : cfund; p_int32 : cfund; p_int64 : cfund;
    p_size_t : cfund; p_isize : cfund }.

(** cxx.cc 538-550: std::conditional<std::is_same<...>> *)
Definition if_unique (t a b ignore : cfund) : cfund := if cfund_eqb t a || cfund_eqb t b then ignore else t.
Definition ctype (p : platform) (c : cname) : cfund :=
  match c with
  | c_uint8_t => p_uint8 p | c_uint16_t => p_uint16 p | c_uint32_t => p_uint32 p | c_uint64_t => p_uint64 p
  | c_int8_t => p_int8 p | c_int16_t => p_int16 p | c_int32_t => p_int32 p | c_int64_t => p_int64 p
  | c_float => f_float | c_double => f_double | c_bool => f_bool | c_char => f_char
  | c_size_t => p_size_t p | c_isize => p_isize p
  | c_std_string => f_std_string | c_rust_String => f_rust_String | c_rust_Str => f_rust_Str
  | c_char_if_unique => if_unique f_char (p_uint8 p) (p_int8 p) f_char_ignore
  | c_usize_if_unique => if_unique (p_size_t p) (p_uint64 p) (p_uint32 p) f_usize_ignore
  | c_isize_if_unique => if_unique (p_isize p) (p_int64 p) (p_int32 p) f_isize_ignore
  end.

(** write.rs 1341-1360: write_atom, the C++ type the generator writes for an atom. *)
Definition write_atom (a : atom) : cname :=
  match a with
  | ABool => c_bool | AChar => c_char
  | AU8 => c_uint8_t | AU16 => c_uint16_t | AU32 => c_uint32_t | AU64 => c_uint64_t | AUsize => c_size_t
  | AI8 => c_int8_t | AI16 => c_int16_t | AI32 => c_int32_t | AI64 => c_int64_t | AIsize => c_isize
  | AF32 => c_float | AF64 => c_double | ACxxString => c_std_string | ARustString => c_rust_String
  end.

(** ** Rust *)
(** The Rust types in the tables; [&str] is not an atom. *)
Inductive rtype := RAtom (a : atom) | RRefStr.

(** cxx_vector.rs 393-410: vector_element_by_value_methods, and 412-489: impl_vector_element *)
Definition vector_element (trivial : bool) (seg : string) : list fn_ :=
  let v := "cxxbridge1$std$vector$" in let u := "cxxbridge1$unique_ptr$std$vector$" in
  [ Fn_ (v ++ seg ++ "$new") [] (Some Ptr);
    Fn_ (v ++ seg ++ "$size") [Ptr] (Some Word);
    Fn_ (v ++ seg ++ "$get_unchecked") [Ptr; Word] (Some Ptr) ]
  ++ (if trivial then [ Fn_ (v ++ seg ++ "$push_back") [Ptr; Ptr] None; Fn_ (v ++ seg ++ "$pop_back") [Ptr; Ptr] None ] else [])
  ++ [ Fn_ (u ++ seg ++ "$null") [Ptr] None;
       Fn_ (u ++ seg ++ "$raw") [Ptr; Ptr] None;
       Fn_ (u ++ seg ++ "$get") [Ptr] (Some Ptr);
       Fn_ (u ++ seg ++ "$release") [Ptr] (Some Ptr);
       Fn_ (u ++ seg ++ "$drop") [Ptr] None ].
(** cxx_vector.rs 397-510: the impls of VectorElement; the segment of a primitive is
    stringify!(its name). *)
Definition vector_impls : list (rtype * list fn_) :=
  map (fun a => (RAtom a, vector_element true (atom_name a)))
      [AU8; AU16; AU32; AU64; AUsize; AI8; AI16; AI32; AI64; AIsize; AF32; AF64]
  ++ [(RAtom ACxxString, vector_element false "string")].
(** shared_ptr.rs 252-295: impl_shared_ptr_target *)
Definition shared_ptr_target (seg : string) : list fn_ :=
  let s := "cxxbridge1$std$shared_ptr$" in
  [ Fn_ (s ++ seg ++ "$null") [Ptr] None; Fn_ (s ++ seg ++ "$uninit") [Ptr] (Some Ptr);
    Fn_ (s ++ seg ++ "$clone") [Ptr; Ptr] None; Fn_ (s ++ seg ++ "$get") [Ptr] (Some Ptr);
    Fn_ (s ++ seg ++ "$drop") [Ptr] None ].
(** shared_ptr.rs 297-316: the impls of SharedPtrTarget *)
Definition shared_impls : list (rtype * list fn_) :=
  map (fun a => (RAtom a, shared_ptr_target (atom_name a)))
      [ABool; AU8; AU16; AU32; AU64; AUsize; AI8; AI16; AI32; AI64; AIsize; AF32; AF64]
  ++ [(RAtom ACxxString, shared_ptr_target "string")].
(** weak_ptr.rs 115-157: impl_weak_ptr_target *)
Definition weak_ptr_target (seg : string) : list fn_ :=
  let w := "cxxbridge1$std$weak_ptr$" in
  [ Fn_ (w ++ seg ++ "$null") [Ptr] None; Fn_ (w ++ seg ++ "$clone") [Ptr; Ptr] None;
    Fn_ (w ++ seg ++ "$downgrade") [Ptr; Ptr] None; Fn_ (w ++ seg ++ "$upgrade") [Ptr; Ptr] None;
    Fn_ (w ++ seg ++ "$drop") [Ptr] None ].
(** weak_ptr.rs 159-179: the impls of WeakPtrTarget *)
Definition weak_impls : list (rtype * list fn_) :=
  map (fun a => (RAtom a, weak_ptr_target (atom_name a)))
      [ABool; AU8; AU16; AU32; AU64; AUsize; AI8; AI16; AI32; AI64; AIsize; AF32; AF64]
  ++ [(RAtom ACxxString, weak_ptr_target "string")].
(** unique_ptr.rs 407-447: UniquePtrTarget for CxxString.  UniquePtr of a CxxVector
    goes through VectorElement (449-473). *)
Definition unique_impls : list (rtype * list fn_) :=
  let u := "cxxbridge1$unique_ptr$std$string$" in
  [(RAtom ACxxString,
    [ Fn_ (u ++ "null") [Ptr] None; Fn_ (u ++ "raw") [Ptr; Ptr] None; Fn_ (u ++ "get") [Ptr] (Some Ptr);
      Fn_ (u ++ "release") [Ptr] (Some Ptr); Fn_ (u ++ "drop") [Ptr] None ])].
(** symbols/rust_vec.rs 10-53: rust_vec_shims *)
Definition rust_vec_shims (seg : string) : list fn_ :=
  let v := "cxxbridge1$rust_vec$" in
  [ Fn_ (v ++ seg ++ "$new") [Ptr] None;
    Fn_ (v ++ seg ++ "$drop") [Ptr] None;
    Fn_ (v ++ seg ++ "$len") [Ptr] (Some Word);
    Fn_ (v ++ seg ++ "$capacity") [Ptr] (Some Word);
    Fn_ (v ++ seg ++ "$data") [Ptr] (Some Ptr);
    Fn_ (v ++ seg ++ "$reserve_total") [Ptr; Word] None;
    Fn_ (v ++ seg ++ "$set_len") [Ptr; Word] None;
    Fn_ (v ++ seg ++ "$truncate") [Ptr; Word] None ].
(** symbols/rust_vec.rs 55-80 *)
Definition rust_defs : list (fn_ * rtype) :=
  flat_map (fun a => map (fun f => (f, RAtom a)) (rust_vec_shims (atom_name a)))
      [ABool; AU8; AU16; AU32; AU64; AUsize; AI8; AI16; AI32; AI64; AIsize; AF32; AF64]
  ++ map (fun f => (f, RAtom AChar)) (rust_vec_shims "char")
  ++ map (fun f => (f, RAtom ARustString)) (rust_vec_shims "string")
  ++ map (fun f => (f, RRefStr)) (rust_vec_shims "str").
