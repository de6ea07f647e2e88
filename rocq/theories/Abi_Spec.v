(** Specification for C13, C14, C54: when a C++ type and a Rust type denote values that
    are represented and passed in the same way.  The types are the syntax of
    Abi_Model; no function of it is used. *)
From Verif Require Import Base Syntax_Model Toposort_Spec Types_Spec Mangle_Spec Abi_Model.

(** A C++ type holding a single address, of a constant or mutable [t]. *)
Inductive cxx_address (const : bool) : cty -> cty -> Prop :=
| ca_ptr t : cxx_address const (CPtr const t) t
| ca_ref t : cxx_address const (CRef const t) t
| ca_box t : const = false -> cxx_address const (CBox t) t
| ca_unique t : const = false -> cxx_address const (CUnique t) t.
(** … and a Rust type. *)
Inductive rust_address (mutable : bool) : rty -> rty -> Prop :=
| ra_ptr t : rust_address mutable (RPtr mutable t) t
| ra_ref t : rust_address mutable (RRef mutable t) t
| ra_box t : mutable = true -> rust_address mutable (RBox t) t
| ra_unique t : mutable = true -> rust_address mutable (RUnique t) t.

(** Same representation.  The first group are the documented correspondences; in the
    second group the Rust side names the representation type of its private module.
    An address may point to c_void on the Rust side.  There is no rule for a bare Rust
    function pointer: rust::Fn is two pointers.  A primitive name means the primitive on
    the Rust side unless the bridge has an alias of that name. *)
Inductive alike (apis : list api) : cty -> rty -> Prop :=
| al_atom a : ~ is_alias apis (atom_name a) -> alike apis (CAtom a) (RIdent (atom_name a))
| al_named x p : ~ is_primitive x -> stands_for apis x p -> alike apis (CNamed p) (RIdent x)
| al_vec c r : alike apis c r -> alike apis (CVec c) (RVec r)
| al_shared c r : alike apis c r -> alike apis (CShared c) (RShared r)
| al_weak c r : alike apis c r -> alike apis (CWeak c) (RWeak r)
| al_vector c r : alike apis c r -> alike apis (CVector c) (RVector r)
| al_str : alike apis CStr RStrRef
| al_slice m c r : alike apis c r -> alike apis (CSlice (negb m) c) (RSliceRef m r)
| al_array c r n : alike apis c r -> alike apis (CArray c n) (RArray r n)
| al_address m c c' r r' : cxx_address (negb m) c c' -> rust_address m r r' -> alike apis c' r' \/ r' = RCVoid -> alike apis c r

| al_repr_string : alike apis (CAtom ARustString) RRustString
| al_repr_vec c r : alike apis c r -> alike apis (CVec c) (RRustVec r)
| al_repr_str : alike apis CStr RRustStr
| al_repr_slice k c : alike apis (CSlice k c) RRustSlice
| al_fat_str : alike apis CFat RRustStr
| al_fat_slice : alike apis CFat RRustSlice
| al_fn args ret : alike apis (CFn args ret) RFatFunction
| al_result : alike apis CPtrLen RResult
| al_context : alike apis (CPtr false CVoid) (RPtr false RUnit).

(** Values that C++ copies like plain data, so that passing them by value does not
    differ from passing a C struct. *)
Inductive plain_data (apis : list api) : ty -> Prop :=
| pl_atom n a : atom_from_str (n_rust n) = Some a -> a <> ACxxString -> a <> ARustString -> plain_data apis (TIdent n)
| pl_enum n : is_enum apis (n_rust n) -> plain_data apis (TIdent n)
| pl_struct n s : In (AStruct s) apis -> p_rust (st_name s) = n_rust n ->
    (forall f, In f (st_fields s) -> plain_data apis (v_ty f)) -> plain_data apis (TIdent n)
| pl_view t : (exists p m l u, t = TRef p m l u) \/ (exists m u, t = TPtr m u) \/ (exists l, t = TStr l) \/
    (exists m l u, t = TSlice m l u) \/ (exists un th args ret, t = TFn un th args ret) -> plain_data apis t
| pl_array t len : plain_data apis t -> plain_data apis (TArray t len).

(** Passed in the way of a C value. *)
Inductive passed_directly (apis : list api) : cty -> Prop :=
| pd_atom a : a <> ACxxString -> a <> ARustString -> passed_directly apis (CAtom a)
| pd_named n p : stands_for apis (n_rust n) p -> plain_data apis (TIdent n) -> passed_directly apis (CNamed p)
| pd_ptr k t : passed_directly apis (CPtr k t)
| pd_ref k t : passed_directly apis (CRef k t)
| pd_words c : c = CStr \/ c = CFat \/ c = CPtrLen \/ (exists k t, c = CSlice k t) \/ (exists args ret, c = CFn args ret) ->
    passed_directly apis c.

Definition passes (apis : list api) (c : cty) (r : rty) : Prop := alike apis c r /\ passed_directly apis c.
Definition returns (apis : list api) (c : cty) (r : option rty) : Prop :=
  match r with Some r => passes apis c r | None => c = CVoid end.

(** Two declarations of one function: same parameters in the same order, each passed
    in the same way, and the same way of returning. *)
Definition same_abi (apis : list api) (c : cty * list cty) (r : option rty * list rty) : Prop :=
  returns apis (fst c) (fst r) /\ Forall2 (passes apis) (snd c) (snd r).

(** No alias is named like a primitive. *)
Definition primitives_unaliased (apis : list api) : Prop := forall x, is_alias apis x -> ~ is_primitive x.

(** An item of an extern "Rust" block is marked as such (parse.rs 330-420). *)
Definition blocks_marked (apis : list api) : Prop := forall f, In (ARustFunction f) apis -> fn_lang f = LRust.

(** The signature of every function pointer mentioned in the bridge: no parameter is a
    function pointer, a unit or a C++ vector by value, and the result is neither a
    function pointer nor a unit. *)
Definition is_callback (t : ty) : Prop := exists un th args ret, t = TFn un th args ret.
Definition simple_callbacks (apis : list api) : Prop :=
  forall un th args ret, mentioned apis (TFn un th args ret) ->
    (forall x t, In (x, t) args -> ~ is_callback t /\ t <> TVoid /\ forall u, t <> TCxxVector u) /\
    (forall t, ret = Some t -> ~ is_callback t /\ t <> TVoid).

(** [sub] are some of the items of [big], with all declarations of the names they
    declare. *)
Definition closed_in (sub big : list api) : Prop :=
  (forall a, In a sub -> In a big) /\
  (forall a p b q, In b sub -> decl_name b = Some q -> In a big -> decl_name a = Some p -> p_rust p = p_rust q -> In a sub).
