(** Declarative specification for C07-C09, C17, C18: what a bridge declares and
    mentions.  No function of Types_Model is used. *)
From Verif Require Import Base Syntax_Model Toposort_Spec.

(** The items of the bridge declaring the type name [n]. *)
Definition is_struct (apis : list api) (n : string) : Prop := exists s, In (AStruct s) apis /\ p_rust (st_name s) = n.
Definition is_enum (apis : list api) (n : string) : Prop := exists e, In (AEnum e) apis /\ p_rust (en_name e) = n.
Definition is_rust_type (apis : list api) (n : string) : Prop := exists t, In (ARustType t) apis /\ p_rust (et_name t) = n.
Definition is_alias (apis : list api) (n : string) : Prop := exists a, In (ATypeAlias a) apis /\ p_rust (ta_name a) = n.
Definition is_cxx_type (apis : list api) (n : string) : Prop :=
  (exists t, In (ACxxType t) apis /\ p_rust (et_name t) = n) \/ is_alias apis n \/
  (exists e, In (AEnum e) apis /\ p_rust (en_name e) = n /\ en_from_header e = true).
Definition is_primitive (n : string) : Prop := exists a, atom_from_str n = Some a.

(** Number types, bool, c_char and raw pointers: as a struct field they are not
    passed like a class type. *)
Inductive scalar : ty -> Prop :=
| sc_atom n a : atom_from_str (n_rust n) = Some a -> a <> ACxxString -> a <> ARustString -> scalar (TIdent n)
| sc_ptr m t : scalar (TPtr m t).

(** C07: a value of the type has an inline component that prevents it from being
    passed directly. *)
Inductive blocked (apis : list api) : ty -> Prop :=
| bl_string n a : atom_from_str (n_rust n) = Some a -> a = ACxxString \/ a = ARustString -> blocked apis (TIdent n)
| bl_opaque n : ~ is_primitive (n_rust n) -> ~ is_struct apis (n_rust n) -> ~ is_enum apis (n_rust n) -> blocked apis (TIdent n)
| bl_owner t : (exists u, t = TBox u \/ t = TVec u \/ t = TUniquePtr u \/ t = TSharedPtr u \/ t = TWeakPtr u \/ t = TCxxVector u) ->
    blocked apis t
| bl_void : blocked apis TVoid
| bl_array t len : blocked apis t -> blocked apis (TArray t len)
| bl_struct s f n : ~ is_primitive (n_rust n) -> In (AStruct s) apis -> p_rust (st_name s) = n_rust n ->
    In f (st_fields s) -> scalar (v_ty f) \/ blocked apis (v_ty f) -> blocked apis (TIdent n).

(** C08: a type whose C representation rustc does not accept: following references,
    pointers, arrays and struct fields leads to a Rust-only type. *)
Inductive improper (apis : list api) : ty -> Prop :=
| im_string n : n_rust n = "String" -> improper apis (TIdent n)
| im_foreign n : ~ is_primitive (n_rust n) -> ~ is_struct apis (n_rust n) ->
    is_rust_type apis (n_rust n) \/ is_alias apis (n_rust n) -> improper apis (TIdent n)
| im_rust t : (exists u, t = TBox u \/ t = TVec u) \/ (exists l, t = TStr l) \/
    (exists a b c d, t = TFn a b c d) \/ t = TVoid \/ (exists m l u, t = TSlice m l u) -> improper apis t
| im_ref p m l t : improper apis t -> improper apis (TRef p m l t)
| im_ptr m t : improper apis t -> improper apis (TPtr m t)
| im_array t len : improper apis t -> improper apis (TArray t len)
| im_struct s f n : ~ is_primitive (n_rust n) -> In (AStruct s) apis -> p_rust (st_name s) = n_rust n ->
    In f (st_fields s) -> improper apis (v_ty f) -> improper apis (TIdent n).

(** C09: the kinds of the declarations of a name, in order. *)
Inductive decl_kind : Set := DkShared | DkFromHeader | DkCxx | DkRust | DkAlias.
Definition decl_of (n : string) (a : api) : list decl_kind :=
  match a with
  | AStruct s => if String.eqb (p_rust (st_name s)) n then [DkShared] else []
  | AEnum e => if String.eqb (p_rust (en_name e)) n then [if en_from_header e then DkFromHeader else DkShared] else []
  | ACxxType t => if String.eqb (p_rust (et_name t)) n then [DkCxx] else []
  | ARustType t => if String.eqb (p_rust (et_name t)) n then [DkRust] else []
  | ATypeAlias t => if String.eqb (p_rust (ta_name t)) n then [DkAlias] else []
  | _ => []
  end.
Definition decls (n : string) (apis : list api) : list decl_kind := flat_map (decl_of n) apis.
(** The documented rule: once, or one shared type and one extern C++ type. *)
Definition unambiguous (l : list decl_kind) : Prop :=
  (List.length l <= 1)%nat \/ l = [DkShared; DkCxx] \/ l = [DkCxx; DkShared].

(** C17/C18: [occurs u t]: the type [u] is written somewhere inside [t]. *)
Inductive occurs : ty -> ty -> Prop :=
| oc_here t : occurs t t
| oc_box u t : occurs u t -> occurs u (TBox t)
| oc_vec u t : occurs u t -> occurs u (TVec t)
| oc_unique u t : occurs u t -> occurs u (TUniquePtr t)
| oc_shared u t : occurs u t -> occurs u (TSharedPtr t)
| oc_weak u t : occurs u t -> occurs u (TWeakPtr t)
| oc_vector u t : occurs u t -> occurs u (TCxxVector t)
| oc_ref u p m l t : occurs u t -> occurs u (TRef p m l t)
| oc_ptr u m t : occurs u t -> occurs u (TPtr m t)
| oc_array u t n : occurs u t -> occurs u (TArray t n)
| oc_slice u m l t : occurs u t -> occurs u (TSlice m l t)
| oc_arg u un th args ret x t : In (x, t) args -> occurs u t -> occurs u (TFn un th args ret)
| oc_ret u un th args t : occurs u t -> occurs u (TFn un th args (Some t)).

(** [u] is written somewhere in the bridge: in a field, a signature or an impl. *)
Inductive mentioned (apis : list api) (u : ty) : Prop :=
| me_field s f : In (AStruct s) apis -> In f (st_fields s) -> occurs u (v_ty f) -> mentioned apis u
| me_arg f x t : In (ACxxFunction f) apis \/ In (ARustFunction f) apis -> In (x, t) (fn_args f) -> occurs u t -> mentioned apis u
| me_ret f t : In (ACxxFunction f) apis \/ In (ARustFunction f) apis -> fn_ret f = Some t -> occurs u t -> mentioned apis u
| me_impl i : In (AImpl i) apis -> occurs u (im_ty i) -> mentioned apis u.

(** The type [u] is the generic of kind [k] over the name [x] (Box<x>, Vec<x>, ...). *)
Inductive generic_over : string -> string -> ty -> Prop :=
| go_box n : generic_over "Box" (n_rust n) (TBox (TIdent n))
| go_vec n : generic_over "Vec" (n_rust n) (TVec (TIdent n))
| go_unique n : generic_over "UniquePtr" (n_rust n) (TUniquePtr (TIdent n))
| go_shared n : generic_over "SharedPtr" (n_rust n) (TSharedPtr (TIdent n))
| go_weak n : generic_over "WeakPtr" (n_rust n) (TWeakPtr (TIdent n))
| go_vector n : generic_over "CxxVector" (n_rust n) (TCxxVector (TIdent n)).

(** C18: how Rust gets to hold a value of the named type: the kind of position, and
    the struct or function it belongs to. *)
Inductive position : Set :=
| PosField (s : string) | PosArg (f : string) | PosRet (f : string) | PosBox | PosVec
| PosSlice (mutable : bool) | PosUnpinnedMut (f : string).
Definition function_of (apis : list api) (f : extern_fn) : Prop := In (ACxxFunction f) apis \/ In (ARustFunction f) apis.
Inductive used_at (apis : list api) : string -> position -> Prop :=
| ua_field s f n : In (AStruct s) apis -> In f (st_fields s) -> v_ty f = TIdent n ->
    used_at apis (n_rust n) (PosField (p_rust (st_name s)))
| ua_arg f x n : function_of apis f -> In (x, TIdent n) (fn_args f) -> used_at apis (n_rust n) (PosArg (p_rust (fn_name f)))
| ua_ret f n : function_of apis f -> fn_ret f = Some (TIdent n) -> used_at apis (n_rust n) (PosRet (p_rust (fn_name f)))
| ua_box n : mentioned apis (TBox (TIdent n)) -> used_at apis (n_rust n) PosBox
| ua_vec n : mentioned apis (TVec (TIdent n)) -> used_at apis (n_rust n) PosVec
| ua_slice m l n : mentioned apis (TSlice m l (TIdent n)) -> used_at apis (n_rust n) (PosSlice m)
| ua_receiver f r : function_of apis f -> fn_receiver f = Some r -> rc_mutable r = true -> rc_pinned r = false ->
    used_at apis (n_rust (rc_ty r)) (PosUnpinnedMut (p_rust (fn_name f)))
| ua_mut_arg f x l n : function_of apis f -> In (x, TRef false true l (TIdent n)) (fn_args f) ->
    used_at apis (n_rust n) (PosUnpinnedMut (p_rust (fn_name f)))
| ua_mut_ret f l n : function_of apis f -> fn_ret f = Some (TRef false true l (TIdent n)) ->
    used_at apis (n_rust n) (PosUnpinnedMut (p_rust (fn_name f))).
