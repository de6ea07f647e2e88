(** The definitions of shared types in both languages and of the library types that hold
    values of the other language, as far as they decide the layout: expand.rs, write.rs,
    include/cxx.h and src/*.rs. *)
From Verif Require Import Base Syntax_Model Types_Model Mangle_Model Abi_Model.

(** Size and alignment of a type, in bytes. *)
Record lay : Type := Lay { size : nat; align : nat }.
Definition arr (n : nat) (l : lay) : lay := Lay (n * size l) (align l).

(** A platform: what the two compilers and standard libraries decide.  [prim]: the
    primitives, for which both languages follow the platform's C ABI (std::int32_t and
    i32, bool, float and f32, char and c_char, std::size_t and usize …); [address]: data
    and code pointers; [uintptr]: std::uintptr_t; the other fields: std::unique_ptr<T> …,
    String, Vec<T>, &str, &[T], and the types that the user defines, by their name in the
    language. *)
Record platform : Type := Platform
  { prim : atom -> lay; address : lay; uintptr : lay;
    std_unique : lay; std_shared : lay; std_weak : lay; cxx_user : list string -> lay;
    rust_string : lay; rust_vec : lay; rust_str : lay; rust_slice : lay; rust_user : string -> lay }.
Definition usize (P : platform) : lay := prim P AUsize.

(** * The Rust side *)
Inductive rust_repr : Type := ReprC | ReprTransparent.
Record rust_def : Type := RustDef { rd_repr : rust_repr; rd_fields : list (string * rty) }.
(** expand.rs 157-202 (expand_struct) and 321-382 (expand_enum), called at 39-62 for
    each item, also for those that are declared in extern "C++" *)
Definition rust_definition (a : api) : list (string * rust_def) :=
  match a with
  | AStruct s => [(p_rust (st_name s), RustDef ReprC (rust_fields s))]
  | AEnum e => [(p_rust (en_name e), RustDef ReprTransparent [("repr", RIdent (atom_name (en_repr e)))])]
  | _ => []
  end.
Definition rust_definitions (apis : list api) : list (string * rust_def) := flat_map rust_definition apis.

(** The fields of the library types, all #[repr(C)]: rust_string.rs 9-12, rust_vec.rs
    13-17, rust_str.rs 8-11, rust_slice.rs 8-11, unique_ptr.rs 22-29, shared_ptr.rs
    15-22, weak_ptr.rs 14-21, function.rs 5-9.  MaybeUninit<T> has the layout of T and
    PhantomData none. *)
Definition rust_library (P : platform) (t : rty) : option (list lay) :=
  match t with
  | RRustString => Some [arr (size (rust_string P) / size (usize P)) (usize P)]
  | RRustVec _ => Some [arr (size (rust_vec P) / size (usize P)) (usize P)]
  | RRustStr => Some [arr (size (rust_str P) / size (usize P)) (usize P)]
  | RRustSlice => Some [arr (size (rust_slice P) / size (usize P)) (usize P)]
  | RUnique _ => Some [address P]
  | RShared _ | RWeak _ => Some [arr 2 (address P)]
  | RFatFunction => Some [address P; address P]
  | _ => None
  end.
(** result.rs 13-24: the two fields of the union Result, the first of them a
    #[repr(C)] struct of a pointer and a usize *)
Definition result_err (P : platform) : list lay := [address P; usize P].
Definition result_ok (P : platform) : lay := address P.

(** * The C++ side *)
Inductive cxx_def : Type := CxxClass (fields : list (string * cty)) | CxxEnum (underlying : atom).
(** write.rs 101-143 with 277-298 (write_struct) and 425-445 (write_enum); a type that
    is also declared in extern "C++" is defined by the user's header *)
Definition cxx_definition (T : types) (a : api) : list (list string * cxx_def) :=
  match a with
  | AStruct s =>
      if smem (p_rust (st_name s)) (t_cxx T) then []
      else match cxx_fields T s with
           | Some cs => [(p_ns (st_name s) ++ [p_cxx (st_name s)], CxxClass cs)]
           | None => []
           end
  | AEnum e => if smem (p_rust (en_name e)) (t_cxx T) then [] else [(p_ns (en_name e) ++ [p_cxx (en_name e)], CxxEnum (en_repr e))]
  | _ => []
  end.
Definition cxx_definitions (T : types) (apis : list api) : list (list string * cxx_def) := flat_map (cxx_definition T) apis.

(** The data members of the library types: cxx.h 113 (String), 166 (Str), 228 (Slice;
    its base class is empty), 333 (Box), 400 (Vec), 416-417 (Fn), builtin.rs 225-228
    (PtrLen, as in cxx.cc 525-528) *)
Definition cxx_library (P : platform) (t : cty) : option (list lay) :=
  match t with
  | CAtom ARustString => Some [arr 3 (uintptr P)]
  | CStr => Some [arr 2 (uintptr P)]
  | CSlice _ _ => Some [arr 2 (uintptr P)]
  | CBox _ => Some [address P]
  | CVec _ => Some [arr 3 (uintptr P)]
  | CFn _ _ => Some [address P; address P]
  | CPtrLen => Some [address P; usize P]
  | _ => None
  end.
(** builtin.rs 219: using Fat = std::array<std::uintptr_t, 2> *)
Definition fat (P : platform) : lay := arr 2 (uintptr P).

(** * What is checked at compile time *)
(** The layout of a #[repr(C)] struct with one field is that of the field, so that the
    assertions compare these. *)
Definition words_of (P : platform) (l : lay) : lay := arr (size l / size (usize P)) (usize P).
(** cxx.cc 414-417; rust_string.rs 46-48; symbols/rust_vec.rs 12-14 (there for the
    primitive element types); rust_str.rs 27-28; rust_slice.rs 62-66 *)
Definition runtime_asserts (P : platform) : Prop :=
  size (usize P) = size (uintptr P) /\ align (usize P) = align (uintptr P) /\
  size (arr 3 (usize P)) = size (words_of P (rust_string P)) /\ size (rust_string P) = size (words_of P (rust_string P)) /\
  align (rust_string P) = align (words_of P (rust_string P)) /\
  size (arr 3 (usize P)) = size (words_of P (rust_vec P)) /\ size (rust_vec P) = size (words_of P (rust_vec P)) /\
  align (rust_vec P) = align (words_of P (rust_vec P)) /\
  size (rust_str P) = size (words_of P (rust_str P)) /\ align (rust_str P) = align (words_of P (rust_str P)) /\
  size (rust_slice P) = size (words_of P (rust_slice P)) /\ align (rust_slice P) = align (words_of P (rust_slice P)).
(** write.rs 1698-1708, 1797-1807, 1871-1881 (for each instantiation of the bridge) and
    cxx.cc 714-715, 740-741 *)
Definition pointer_asserts (P : platform) : Prop :=
  size (std_unique P) = size (address P) /\ align (std_unique P) = align (address P) /\
  size (std_shared P) = 2 * size (address P) /\ align (std_shared P) = align (address P) /\
  size (std_weak P) = 2 * size (address P) /\ align (std_weak P) = align (address P).
