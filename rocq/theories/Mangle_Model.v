(** Link names: syntax/symbol.rs, syntax/mangle.rs and the parts of gen/src/write.rs
    and macro/src/expand.rs that decide which link names each side declares, defines
    and calls. *)
From Verif Require Import Base Syntax_Model Types_Model.

(** * symbol.rs *)
(** symbol.rs 24-31: Symbol::push; [None]: the assertion fails. *)
Definition sym_push (sym seg : string) : option string :=
  let s := ((if String.eqb sym "" then sym else sym ++ "$") ++ seg)%string in
  if Nat.ltb (String.length sym) (String.length s) then Some s else None.

Fixpoint sym_pushes (sym : string) (segs : list string) : option string :=
  match segs with
  | [] => Some sym
  | s :: segs => match sym_push sym s with Some sym => sym_pushes sym segs | None => None end
  end.

(** symbol.rs 103-110: join, and 33-40: from_idents.  A Namespace segment pushes its
    idents one by one (67-73), so the argument is the flattened list of segments. *)
Definition sym_join (segs : list string) : option string :=
  match sym_pushes "" segs with
  | Some s => if String.eqb s "" then None else Some s
  | None => None
  end.

(** * mangle.rs *)
(** mangle.rs 79 *)
Definition CXXBRIDGE : string := "cxxbridge1".

(** resolve.rs 12-18: resolve; [None]: the panic *)
Definition resolve_name (T : types) (x : string) : option pair_name := option_map fst (try_resolve T x).

(** mangle.rs 87-100 *)
Definition mangle_extern_fn (T : types) (f : extern_fn) : option string :=
  match fn_receiver f with
  | Some r =>
      match resolve_name T (n_rust (rc_ty r)) with
      | Some p => sym_join (p_ns (fn_name f) ++ [CXXBRIDGE; p_cxx p; p_rust (fn_name f)])
      | None => None
      end
  | None => sym_join (p_ns (fn_name f) ++ [CXXBRIDGE; p_rust (fn_name f)])
  end.

(** mangle.rs 102-110 *)
Definition mangle_operator (p : pair_name) (op : string) : option string :=
  sym_join (p_ns p ++ [CXXBRIDGE; p_cxx p; "operator"; op]).

(** mangle.rs 112-120: the extern_fn symbol is one segment (symbol.rs 61-65) *)
Definition mangle_c_trampoline (T : types) (f : extern_fn) (x : string) : option string :=
  match mangle_extern_fn T f with Some s => sym_join [s; x; "0"] | None => None end.
Definition mangle_r_trampoline (T : types) (f : extern_fn) (x : string) : option string :=
  match mangle_extern_fn T f with Some s => sym_join [s; x; "1"] | None => None end.

(** names.rs 15-23: to_symbol *)
Definition to_symbol (p : pair_name) : option string := sym_join (p_ns p ++ [p_cxx p]).

(** * Generic instantiations *)
(** "cxxbridge1$<kind>$<instance>$<op>", built with format strings on both sides *)
Definition generic_symbol (kind : string) (instance : option string) (op : string) : option string :=
  option_map (fun i => "cxxbridge1$" ++ kind ++ "$" ++ i ++ "$" ++ op)%string instance.

(** write.rs 1422-1431: to_mangled of UniquePtr::CxxVector *)
Definition vector_instance (instance : option string) : option string :=
  match instance with Some i => sym_join ["std"; "vector"; i] | None => None end.

Definition when {A} (b : bool) (l : list A) : list A := if b then l else [].

(** derive.rs 79-81: contains *)
Definition derives (d : trait) (l : list trait) : bool := existsb (trait_eqb d) l.

(** The arguments of function pointer type: write.rs 898-903, expand.rs 513-524 *)
Definition fn_ptr_args (f : extern_fn) : list string :=
  flat_map (fun a => match snd a with TFn _ _ _ _ => [fst a] | _ => [] end) (fn_args f).

(** * The C++ side: write.rs *)
(** write.rs 538-604: operators declared for a struct *)
Definition cxx_operator_decls (s : struct_) : list (option string) :=
  let op := mangle_operator (st_name s) in
  when (derives DPartialEq (st_derives s))
       (op "eq" :: when (negb (derives DEq (st_derives s))) [op "ne"]) ++
  when (derives DPartialOrd (st_derives s))
       (op "lt" :: op "le" :: when (negb (derives DOrd (st_derives s))) [op "gt"; op "ge"]) ++
  when (derives DHash (st_derives s)) [op "hash"].

(** write.rs 606-687 and 192-219: operators called by the C++ member operators and
    the std::hash specialisation *)
Definition cxx_operator_calls (s : struct_) : list (option string) :=
  let op := mangle_operator (st_name s) in
  let ds := st_derives s in
  when (derives DPartialEq ds) [op "eq"] ++
  when (derives DPartialEq ds) (if derives DEq ds then [] else [op "ne"]) ++
  when (derives DPartialOrd ds) [op "lt"; op "le"] ++
  when (derives DPartialOrd ds) (if derives DOrd ds then [] else [op "gt"]) ++
  when (derives DPartialOrd ds) (if derives DOrd ds then [] else [op "ge"]) ++
  when (derives DHash ds) [op "hash"].

(** write.rs 689-703, 705-733: sizeof and alignof of an opaque Rust type *)
Definition cxx_layout_decls (t : extern_type) : list (option string) :=
  [mangle_operator (et_name t) "sizeof"; mangle_operator (et_name t) "alignof"].

(** write.rs 163-176 with 735-916 (CxxFunction) and 918-924 (RustFunction): the
    external functions declared but not defined in the generated C++ *)
Definition cxx_api_decls (T : types) (a : api) : list (option string) :=
  match a with
  | AStruct s => cxx_operator_decls s
  | ARustType t => cxx_layout_decls t
  | ACxxFunction f => map (mangle_r_trampoline T f) (fn_ptr_args f)
  | ARustFunction f => [mangle_extern_fn T f]
  | _ => []
  end.
(** … and the functions defined with C linkage *)
Definition cxx_api_defs (T : types) (a : api) : list (option string) :=
  match a with
  | ACxxFunction f => mangle_extern_fn T f :: map (mangle_c_trampoline T f) (fn_ptr_args f)
  | _ => []
  end.
(** … and those called: write.rs 178-190, 907-916, 987-1180 *)
Definition cxx_api_calls (T : types) (a : api) : list (option string) :=
  match a with
  | AStruct s => cxx_operator_calls s
  | ARustType t => cxx_layout_decls t
  | ACxxFunction f => map (mangle_r_trampoline T f) (fn_ptr_args f)
  | ARustFunction f => [mangle_extern_fn T f]
  | _ => []
  end.

Definition instance_of (T : types) (x : string) : option string :=
  match resolve_name T x with Some p => to_symbol p | None => None end.

(** write.rs 1433-1465 with 1467-1530 (box, rust_vec): declared *)
Definition cxx_impl_decls (T : types) (k : impl_key) : list (option string) :=
  let i := instance_of T (snd k) in
  match fst k with
  | KBox => map (generic_symbol "box" i) ["alloc"; "dealloc"; "drop"]
  | KVec => map (generic_symbol "rust_vec" i)
                ["new"; "drop"; "len"; "capacity"; "data"; "reserve_total"; "set_len"; "truncate"]
  | _ => []
  end.
(** write.rs 1532-1670: called by the Box and Vec specialisations *)
Definition cxx_impl_calls (T : types) (k : impl_key) : list (option string) :=
  let i := instance_of T (snd k) in
  match fst k with
  | KBox => map (generic_symbol "box" i) ["alloc"; "dealloc"; "drop"]
  | KVec => map (generic_symbol "rust_vec" i)
                ["new"; "drop"; "len"; "capacity"; "data"; "reserve_total"; "set_len"; "truncate"]
  | _ => []
  end.
(** write.rs 1672-1770: write_unique_ptr_common; uninit (1718-1732) only for an Ident
    that may be trivial *)
Definition cxx_unique_ptr (i : option string) (uninit : bool) : list (option string) :=
  map (generic_symbol "unique_ptr" i) (["null"] ++ when uninit ["uninit"] ++ ["raw"; "get"; "release"; "drop"]).
(** write.rs 1772-2109: defined *)
Definition cxx_impl_defs (T : types) (k : impl_key) : list (option string) :=
  let i := instance_of T (snd k) in
  let trivial := is_maybe_trivial T (snd k) in
  match fst k with
  | KUnique => cxx_unique_ptr i trivial
  | KShared => map (generic_symbol "shared_ptr" i) (["null"] ++ when trivial ["uninit"] ++ ["clone"; "get"; "drop"])
  | KWeak => map (generic_symbol "weak_ptr" i) ["null"; "clone"; "downgrade"; "upgrade"; "drop"]
  | KVector => map (generic_symbol "std$vector" i)
                   (["new"; "size"; "get_unchecked"] ++ when trivial ["push_back"; "pop_back"]) ++
               cxx_unique_ptr (vector_instance i) false
  | _ => []
  end.

(** All symbols of a generated implementation file; [None] stands for a panic of the
    generator. *)
Definition cxx_decls (T : types) (apis : list api) : list (option string) :=
  flat_map (cxx_api_decls T) apis ++ flat_map (fun e => cxx_impl_decls T (fst e)) (t_impls T).
Definition cxx_calls (T : types) (apis : list api) : list (option string) :=
  flat_map (cxx_api_calls T) apis ++ flat_map (fun e => cxx_impl_calls T (fst e)) (t_impls T).
Definition cxx_defs (T : types) (apis : list api) : list (option string) :=
  flat_map (cxx_api_defs T) apis ++ flat_map (fun e => cxx_impl_defs T (fst e)) (t_impls T).

(** * The Rust side: expand.rs *)
(** expand.rs 202-307: one iteration of the loop over the derives *)
Definition rust_operator_exports (s : struct_) : list (option string) :=
  let op := mangle_operator (st_name s) in
  flat_map (fun d =>
    match d with
    | DPartialEq => op "eq" :: when (negb (derives DEq (st_derives s))) [op "ne"]
    | DPartialOrd => op "lt" :: op "le" :: when (negb (derives DOrd (st_derives s))) [op "gt"; op "ge"]
    | DHash => [op "hash"]
    | _ => []
    end) (st_derives s).

(** expand.rs 897-924 *)
Definition rust_layout_exports (t : extern_type) : list (option string) :=
  [mangle_operator (et_name t) "sizeof"; mangle_operator (et_name t) "alignof"].

(** expand.rs 51-92 with 460-499, 513-524 and 787-824 (CxxFunction), 926-964
    (RustFunction): functions exported by an api … *)
Definition rust_api_exports (T : types) (a : api) : list (option string) :=
  match a with
  | AStruct s => rust_operator_exports s
  | ARustType t => rust_layout_exports t
  | ACxxFunction f => map (mangle_r_trampoline T f) (fn_ptr_args f)
  | ARustFunction f => [mangle_extern_fn T f]
  | _ => []
  end.
(** … and imported *)
Definition rust_api_imports (T : types) (a : api) : list (option string) :=
  match a with
  | ACxxFunction f => mangle_extern_fn T f :: map (mangle_c_trampoline T f) (fn_ptr_args f)
  | _ => []
  end.

(** format!("cxxbridge1$box${}$", instance) followed by the operation: the link names
    of expand.rs 1303-1306, 1352-1360, 1454-1462, 1551-1558, 1630-1637, 1706-1724 *)
Definition rust_link (prefix : string) (instance : option string) (op : string) : option string :=
  option_map (fun i => (prefix ++ i ++ "$") ++ op)%string instance.

(** expand.rs 1300-1345 (box), 1347-1443 (rust_vec) *)
Definition rust_impl_exports (T : types) (k : impl_key) : list (option string) :=
  let i := instance_of T (snd k) in
  match fst k with
  | KBox => map (rust_link "cxxbridge1$box$" i) ["alloc"; "dealloc"; "drop"]
  | KVec => map (rust_link "cxxbridge1$rust_vec$" i)
                ["new"; "drop"; "len"; "capacity"; "data"; "reserve_total"; "set_len"; "truncate"]
  | _ => []
  end.
(** expand.rs 1445-1541 (unique_ptr), 1543-1622 (shared_ptr), 1624-1694 (weak_ptr),
    1696-1851 (std::vector) *)
Definition rust_impl_imports (T : types) (k : impl_key) : list (option string) :=
  let i := instance_of T (snd k) in
  let trivial := is_maybe_trivial T (snd k) in
  match fst k with
  | KUnique => map (rust_link "cxxbridge1$unique_ptr$" i)
                   (when trivial ["uninit"] ++ ["null"; "raw"; "get"; "release"; "drop"])
  | KShared => map (rust_link "cxxbridge1$shared_ptr$" i) (when trivial ["uninit"] ++ ["null"; "clone"; "get"; "drop"])
  | KWeak => map (rust_link "cxxbridge1$weak_ptr$" i) ["null"; "clone"; "downgrade"; "upgrade"; "drop"]
  | KVector => map (rust_link "cxxbridge1$std$vector$" i)
                   (when trivial ["push_back"; "pop_back"] ++ ["new"; "size"; "get_unchecked"]) ++
               map (rust_link "cxxbridge1$unique_ptr$std$vector$" i) ["null"; "raw"; "get"; "release"; "drop"]
  | _ => []
  end.

(** expand.rs 51-115 *)
Definition rust_exports (T : types) (apis : list api) : list (option string) :=
  flat_map (rust_api_exports T) apis ++ flat_map (fun e => rust_impl_exports T (fst e)) (t_impls T).
Definition rust_imports (T : types) (apis : list api) : list (option string) :=
  flat_map (rust_api_imports T) apis ++ flat_map (fun e => rust_impl_imports T (fst e)) (t_impls T).

(** * Symbols of the runtime library *)
(** symbols/rust_vec.rs 22-58 and cxx.cc 773-815 (RUST_VEC) *)
Definition rt_rust_vec_elems : list string :=
  ["bool"; "u8"; "u16"; "u32"; "u64"; "usize"; "i8"; "i16"; "i32"; "i64"; "isize"; "f32"; "f64"; "char"; "string"; "str"].
(** cxx_vector.rs 495-509 and cxx.cc (TRIVIAL_STD_VECTOR) *)
Definition rt_vector_elems : list string :=
  ["u8"; "u16"; "u32"; "u64"; "usize"; "i8"; "i16"; "i32"; "i64"; "isize"; "f32"; "f64"].
(** shared_ptr.rs 297-313 and cxx.cc (SHARED_PTR) *)
Definition rt_shared_elems : list string :=
  ["bool"; "u8"; "u16"; "u32"; "u64"; "usize"; "i8"; "i16"; "i32"; "i64"; "isize"; "f32"; "f64"; "string"].

Definition rt_family (prefix : string) (elems ops : list string) : list string :=
  flat_map (fun e => map (fun op => prefix ++ e ++ "$" ++ op)%string ops) elems.

(** The symbols defined by the runtime: src/symbols/*.rs (exported from Rust) and
    src/cxx.cc 7-36, 472, 582-603, 613-815 (defined in C++). *)
Definition runtime_symbols : list string :=
  ["cxxbridge1$exception"; "cxxbridge1$error"] ++
  map (fun op => "cxxbridge1$slice$" ++ op)%string ["new"; "ptr"; "len"] ++
  map (fun op => "cxxbridge1$str$" ++ op)%string ["new"; "ref"; "from"; "ptr"; "len"] ++
  map (fun op => "cxxbridge1$string$" ++ op)%string
      ["new"; "clone"; "from_utf8"; "from_utf8_lossy"; "from_utf16"; "from_utf16_lossy"; "drop"; "ptr"; "len";
       "capacity"; "reserve_additional"; "reserve_total"] ++
  map (fun op => "cxxbridge1$cxx_string$" ++ op)%string
      ["init"; "destroy"; "data"; "length"; "clear"; "reserve_total"; "push"] ++
  map (fun op => "cxxbridge1$unique_ptr$std$string$" ++ op)%string ["null"; "raw"; "get"; "release"; "drop"] ++
  rt_family "cxxbridge1$rust_vec$" rt_rust_vec_elems
            ["new"; "drop"; "len"; "capacity"; "data"; "reserve_total"; "set_len"; "truncate"] ++
  rt_family "cxxbridge1$std$vector$" rt_vector_elems ["push_back"; "pop_back"] ++
  rt_family "cxxbridge1$std$vector$" (rt_vector_elems ++ ["string"]) ["new"; "size"; "get_unchecked"] ++
  rt_family "cxxbridge1$unique_ptr$std$vector$" (rt_vector_elems ++ ["string"]) ["null"; "raw"; "get"; "release"; "drop"] ++
  rt_family "cxxbridge1$std$shared_ptr$" rt_shared_elems ["null"; "uninit"; "clone"; "get"; "drop"] ++
  rt_family "cxxbridge1$std$weak_ptr$" rt_shared_elems ["null"; "clone"; "downgrade"; "upgrade"; "drop"].
