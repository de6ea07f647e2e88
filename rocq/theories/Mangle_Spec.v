(** What a link name stands for (the arrangements listed in syntax/mangle.rs 1-60),
    independently of how the generators build it. *)
From Verif Require Import Base Syntax_Model StrLib Types_Spec Check_Spec.

Definition dollar : ascii := "$"%char.

(** A segment of a link name: Rust identifiers are non-empty, do not contain '$' and
    do not begin with a digit. *)
Definition digit (c : ascii) : bool :=
  let n := nat_of_ascii c in Nat.leb 48 n && Nat.leb n 57.
Definition identifier (s : string) : Prop :=
  has_char dollar s = false /\ exists c r, s = String c r /\ digit c = false.
(** … that the bridge may use: names beginning with "cxxbridge" are reserved (C23). *)
Definition user_ident (s : string) : Prop :=
  identifier s /\ forall r, s <> ("cxxbridge" ++ r)%string.

(** A C++ type name: namespace and name. *)
Definition cxx_type : Type := list string * string.

(** Generic types instantiated by a bridge, and (the last two) by the runtime. *)
Inductive instance : Type :=
| IBox (t : cxx_type) | IVec (t : cxx_type) | IUnique (t : cxx_type) | IShared (t : cxx_type)
| IWeak (t : cxx_type) | IVector (t : cxx_type) | IUniqueVector (t : cxx_type)
| IStdShared (t : cxx_type) | IStdWeak (t : cxx_type).

(** What a symbol denotes. *)
Inductive entity : Type :=
| EOneOff (name : string)                                         (* (a) of the runtime *)
| EBuiltin (ty name : string)                                     (* (b) of the runtime *)
| EGeneric (i : instance) (op : string)                           (* (c) *)
| EFn (ns : list string) (name : string)                          (* (d) *)
| EMethod (ns : list string) (ty name : string)                   (* (e) *)
| EOperator (ns : list string) (ty op : string)                   (* (f) *)
| ETrampoline (ns : list string) (ty : option string) (name arg : string) (rust_half : bool). (* (g) *)

Definition path (t : cxx_type) : list string := fst t ++ [snd t].
Definition instance_path (i : instance) : list string :=
  match i with
  | IBox t => "box" :: path t
  | IVec t => "rust_vec" :: path t
  | IUnique t => "unique_ptr" :: path t
  | IShared t => "shared_ptr" :: path t
  | IWeak t => "weak_ptr" :: path t
  | IVector t => "std" :: "vector" :: path t
  | IUniqueVector t => "unique_ptr" :: "std" :: "vector" :: path t
  | IStdShared t => "std" :: "shared_ptr" :: path t
  | IStdWeak t => "std" :: "weak_ptr" :: path t
  end.
Definition segments (e : entity) : list string :=
  match e with
  | EOneOff n => ["cxxbridge1"; n]
  | EBuiltin t n => ["cxxbridge1"; t; n]
  | EGeneric i op => "cxxbridge1" :: instance_path i ++ [op]
  | EFn ns n => ns ++ ["cxxbridge1"; n]
  | EMethod ns t n => ns ++ ["cxxbridge1"; t; n]
  | EOperator ns t op => ns ++ ["cxxbridge1"; t; "operator"; op]
  | ETrampoline ns t n a h =>
      ns ++ ["cxxbridge1"] ++ match t with Some t => [t] | None => [] end ++ [n; a; if h then "1" else "0"]
  end.
Definition link_name (e : entity) : string := join_with dollar (segments e).

Definition operator_names : list string := ["eq"; "ne"; "lt"; "le"; "gt"; "ge"; "hash"; "sizeof"; "alignof"].
Definition instance_ops (i : instance) : list string :=
  match i with
  | IBox _ => ["alloc"; "dealloc"; "drop"]
  | IVec _ => ["new"; "drop"; "len"; "capacity"; "data"; "reserve_total"; "set_len"; "truncate"]
  | IUnique _ => ["null"; "uninit"; "raw"; "get"; "release"; "drop"]
  | IShared _ | IStdShared _ => ["null"; "uninit"; "clone"; "get"; "drop"]
  | IWeak _ | IStdWeak _ => ["null"; "clone"; "downgrade"; "upgrade"; "drop"]
  | IVector _ => ["new"; "size"; "get_unchecked"; "push_back"; "pop_back"]
  | IUniqueVector _ => ["null"; "raw"; "get"; "release"; "drop"]
  end.
Definition instance_type (i : instance) : cxx_type :=
  match i with IBox t | IVec t | IUnique t | IShared t | IWeak t | IVector t | IUniqueVector t | IStdShared t | IStdWeak t => t end.

(** Entities built from user identifiers. *)
Definition wf_entity (e : entity) : Prop :=
  match e with
  | EOneOff n => user_ident n
  | EBuiltin t n => user_ident t /\ user_ident n
  | EGeneric i op => Forall user_ident (path (instance_type i)) /\ In op (instance_ops i)
  | EFn ns n => Forall user_ident ns /\ user_ident n
  | EMethod ns t n => Forall user_ident ns /\ user_ident t /\ user_ident n
  | EOperator ns t op => Forall user_ident ns /\ user_ident t /\ In op operator_names
  | ETrampoline ns t n a h =>
      Forall user_ident ns /\ match t with Some t => user_ident t | None => True end /\ user_ident n /\ user_ident a
  end.

(** The pairs of different entities that share a link name. *)
Inductive ambiguous : entity -> entity -> Prop :=
| am_one_off n : ambiguous (EFn [] n) (EOneOff n)
| am_builtin t n : ambiguous (EMethod [] t n) (EBuiltin t n)
| am_vector ns n op : ambiguous (EGeneric (IUniqueVector (ns, n)) op) (EGeneric (IUnique ("std" :: "vector" :: ns, n)) op).

(** * What a bridge declares (C10, C12) *)
(** The identifiers in the bridge. *)
Definition wf_pair (p : pair_name) : Prop := Forall identifier (p_ns p) /\ identifier (p_cxx p) /\ identifier (p_rust p).
Definition wf_bridge (apis : list api) : Prop := forall p, item_name apis p -> wf_pair p.

Definition decl_name (a : api) : option pair_name :=
  match a with
  | AStruct s => Some (st_name s)
  | AEnum e => Some (en_name e)
  | ACxxType t | ARustType t => Some (et_name t)
  | ATypeAlias t => Some (ta_name t)
  | _ => None
  end.
(** The name [x] stands for the type [p] in the bridge: its last declaration. *)
Definition stands_for (apis : list api) (x : string) (p : pair_name) : Prop :=
  exists pre a post, apis = pre ++ a :: post /\ decl_name a = Some p /\ p_rust p = x /\
    forall b q, In b post -> decl_name b = Some q -> p_rust q <> x.
Definition cxx_name (p : pair_name) : cxx_type := (p_ns p, p_cxx p).

(** The entity of a function: its namespace is that of the function, not of the
    receiver. *)
Inductive fn_entity (apis : list api) (f : extern_fn) : entity -> Prop :=
| fe_free : fn_receiver f = None -> fn_entity apis f (EFn (p_ns (fn_name f)) (p_rust (fn_name f)))
| fe_method r p : fn_receiver f = Some r -> stands_for apis (n_rust (rc_ty r)) p ->
    fn_entity apis f (EMethod (p_ns (fn_name f)) (p_cxx p) (p_rust (fn_name f))).
(** … and of the two halves of the trampoline of a function pointer argument. *)
Inductive trampoline_entity (apis : list api) (f : extern_fn) (half : bool) : entity -> Prop :=
| te_free x un th args ret : fn_receiver f = None -> In (x, TFn un th args ret) (fn_args f) ->
    trampoline_entity apis f half (ETrampoline (p_ns (fn_name f)) None (p_rust (fn_name f)) x half)
| te_method r p x un th args ret : fn_receiver f = Some r -> stands_for apis (n_rust (rc_ty r)) p ->
    In (x, TFn un th args ret) (fn_args f) ->
    trampoline_entity apis f half (ETrampoline (p_ns (fn_name f)) (Some (p_cxx p)) (p_rust (fn_name f)) x half).

(** The bridge instantiates the generic [g] over the type named [x] (C17). *)
Definition instantiates (apis : list api) (g x : string) : Prop :=
  (exists i, In (AImpl i) apis /\ generic_over g x (im_ty i)) \/
  (~ is_primitive x /\ ~ is_alias apis x /\ exists u, mentioned apis u /\ generic_over g x u).
(** The layout of the type is known, so that Rust may hold it by value. *)
Definition maybe_trivial (apis : list api) (x : string) : Prop := is_struct apis x \/ is_enum apis x \/ is_alias apis x.

(** What C++ implements for Rust. *)
Inductive cxx_provides (apis : list api) : entity -> Prop :=
| cp_fn f e : In (ACxxFunction f) apis -> fn_entity apis f e -> cxx_provides apis e
| cp_trampoline f e : In (ACxxFunction f) apis -> trampoline_entity apis f false e -> cxx_provides apis e
| cp_unique x p op : instantiates apis "UniquePtr" x -> stands_for apis x p -> In op ["null"; "raw"; "get"; "release"; "drop"] ->
    cxx_provides apis (EGeneric (IUnique (cxx_name p)) op)
| cp_unique_uninit x p : instantiates apis "UniquePtr" x -> stands_for apis x p -> maybe_trivial apis x ->
    cxx_provides apis (EGeneric (IUnique (cxx_name p)) "uninit")
| cp_shared x p op : instantiates apis "SharedPtr" x -> stands_for apis x p -> In op ["null"; "clone"; "get"; "drop"] ->
    cxx_provides apis (EGeneric (IShared (cxx_name p)) op)
| cp_shared_uninit x p : instantiates apis "SharedPtr" x -> stands_for apis x p -> maybe_trivial apis x ->
    cxx_provides apis (EGeneric (IShared (cxx_name p)) "uninit")
| cp_weak x p op : instantiates apis "WeakPtr" x -> stands_for apis x p ->
    In op ["null"; "clone"; "downgrade"; "upgrade"; "drop"] -> cxx_provides apis (EGeneric (IWeak (cxx_name p)) op)
| cp_vector x p op : instantiates apis "CxxVector" x -> stands_for apis x p -> In op ["new"; "size"; "get_unchecked"] ->
    cxx_provides apis (EGeneric (IVector (cxx_name p)) op)
| cp_vector_value x p op : instantiates apis "CxxVector" x -> stands_for apis x p -> maybe_trivial apis x ->
    In op ["push_back"; "pop_back"] -> cxx_provides apis (EGeneric (IVector (cxx_name p)) op)
| cp_vector_owner x p op : instantiates apis "CxxVector" x -> stands_for apis x p ->
    In op ["null"; "raw"; "get"; "release"; "drop"] -> cxx_provides apis (EGeneric (IUniqueVector (cxx_name p)) op).

(** What Rust implements for C++. *)
Inductive rust_provides (apis : list api) : entity -> Prop :=
| rp_fn f e : In (ARustFunction f) apis -> fn_entity apis f e -> rust_provides apis e
| rp_trampoline f e : In (ACxxFunction f) apis -> trampoline_entity apis f true e -> rust_provides apis e
| rp_eq s : In (AStruct s) apis -> In DPartialEq (st_derives s) -> rust_provides apis (EOperator (p_ns (st_name s)) (p_cxx (st_name s)) "eq")
| rp_ne s : In (AStruct s) apis -> In DPartialEq (st_derives s) -> ~ In DEq (st_derives s) ->
    rust_provides apis (EOperator (p_ns (st_name s)) (p_cxx (st_name s)) "ne")
| rp_lt s op : In (AStruct s) apis -> In DPartialOrd (st_derives s) -> In op ["lt"; "le"] ->
    rust_provides apis (EOperator (p_ns (st_name s)) (p_cxx (st_name s)) op)
| rp_gt s op : In (AStruct s) apis -> In DPartialOrd (st_derives s) -> ~ In DOrd (st_derives s) -> In op ["gt"; "ge"] ->
    rust_provides apis (EOperator (p_ns (st_name s)) (p_cxx (st_name s)) op)
| rp_hash s : In (AStruct s) apis -> In DHash (st_derives s) -> rust_provides apis (EOperator (p_ns (st_name s)) (p_cxx (st_name s)) "hash")
| rp_layout t op : In (ARustType t) apis -> In op ["sizeof"; "alignof"] ->
    rust_provides apis (EOperator (p_ns (et_name t)) (p_cxx (et_name t)) op)
| rp_box x p op : instantiates apis "Box" x -> stands_for apis x p -> In op ["alloc"; "dealloc"; "drop"] ->
    rust_provides apis (EGeneric (IBox (cxx_name p)) op)
| rp_vec x p op : instantiates apis "Vec" x -> stands_for apis x p ->
    In op ["new"; "drop"; "len"; "capacity"; "data"; "reserve_total"; "set_len"; "truncate"] ->
    rust_provides apis (EGeneric (IVec (cxx_name p)) op).

(** * The symbols of the runtime library (C11) *)
Definition numbers : list string := ["u8"; "u16"; "u32"; "u64"; "usize"; "i8"; "i16"; "i32"; "i64"; "isize"; "f32"; "f64"].
Definition family (I : cxx_type -> instance) (elems ops : list string) : list entity :=
  flat_map (fun e => map (EGeneric (I ([], e))) ops) elems.
Definition runtime_entities : list entity :=
  [EOneOff "exception"; EOneOff "error"] ++
  map (EBuiltin "slice") ["new"; "ptr"; "len"] ++
  map (EBuiltin "str") ["new"; "ref"; "from"; "ptr"; "len"] ++
  map (EBuiltin "string") ["new"; "clone"; "from_utf8"; "from_utf8_lossy"; "from_utf16"; "from_utf16_lossy"; "drop"; "ptr"; "len";
                           "capacity"; "reserve_additional"; "reserve_total"] ++
  map (EBuiltin "cxx_string") ["init"; "destroy"; "data"; "length"; "clear"; "reserve_total"; "push"] ++
  map (EGeneric (IUnique (["std"], "string"))) ["null"; "raw"; "get"; "release"; "drop"] ++
  family IVec ("bool" :: numbers ++ ["char"; "string"; "str"]) (instance_ops (IVec ([], ""))) ++
  family IVector numbers ["push_back"; "pop_back"] ++
  family IVector (numbers ++ ["string"]) ["new"; "size"; "get_unchecked"] ++
  family IUniqueVector (numbers ++ ["string"]) ["null"; "raw"; "get"; "release"; "drop"] ++
  family IStdShared ("bool" :: numbers ++ ["string"]) ["null"; "uninit"; "clone"; "get"; "drop"] ++
  family IStdWeak ("bool" :: numbers ++ ["string"]) ["null"; "clone"; "downgrade"; "upgrade"; "drop"].

(** The entities of a bridge that get a name of the runtime. *)
Inductive clashes : entity -> Prop :=
| cl_fn n : In (EOneOff n) runtime_entities -> clashes (EFn [] n)
| cl_method t n : In (EBuiltin t n) runtime_entities -> clashes (EMethod [] t n)
| cl_same i op : In (EGeneric i op) runtime_entities -> clashes (EGeneric i op)
| cl_vector n op : In (EGeneric (IUniqueVector ([], n)) op) runtime_entities -> clashes (EGeneric (IUnique (["std"; "vector"], n)) op).
(** The namespace an entity of a bridge is named after. *)
Definition entity_namespace (e : entity) : list string :=
  match e with
  | EFn ns _ | EMethod ns _ _ | EOperator ns _ _ | ETrampoline ns _ _ _ _ => ns
  | EGeneric i _ => fst (instance_type i)
  | EOneOff _ | EBuiltin _ _ => []
  end.
