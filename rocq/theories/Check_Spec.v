(** Declarative specification for C19-C23 and C51-C53. *)
From Verif Require Import Base Syntax_Model Types_Spec.

(** An extern C++ type without a shared definition and without an ExternType impl. *)
Definition opaque_cxx (apis : list api) (n : string) : Prop :=
  is_cxx_type apis n /\ ~ is_struct apis n /\ ~ is_enum apis n /\ ~ is_alias apis n.

(** [u] is stored inline in a value of type [t] (itself, or as array element). *)
Inductive inline_in : ty -> ty -> Prop :=
| ii_self t : inline_in t t
| ii_array u t len : inline_in u t -> inline_in u (TArray t len).

(** Types that have no size known to both languages. *)
Inductive unsized (apis : list api) : ty -> Prop :=
| un_string n : n_rust n = "CxxString" -> unsized apis (TIdent n)
| un_cxx n : opaque_cxx apis (n_rust n) -> unsized apis (TIdent n)
| un_rust n : is_rust_type apis (n_rust n) -> unsized apis (TIdent n)
| un_vector t : unsized apis (TCxxVector t)
| un_fn u th args ret : unsized apis (TFn u th args ret)
| un_void : unsized apis TVoid.

Definition is_fn_ptr (t : ty) : Prop := exists u th args ret, t = TFn u th args ret.
Definition all_functions (apis : list api) (f : extern_fn) : Prop := In (ACxxFunction f) apis \/ In (ARustFunction f) apis.

(** The types of the values a bridge passes or stores. *)
Inductive by_value (apis : list api) : ty -> Prop :=
| bv_field s f : In (AStruct s) apis -> In f (st_fields s) -> by_value apis (v_ty f)
| bv_arg f x t : all_functions apis f -> In (x, t) (fn_args f) -> by_value apis t
| bv_ret f t : all_functions apis f -> fn_ret f = Some t -> by_value apis t.

(** [declares apis p lts]: an item declares a type with the name [p] and the
    lifetime parameters [lts]. *)
Inductive declares (apis : list api) : pair_name -> list string -> Prop :=
| de_struct s : In (AStruct s) apis -> declares apis (st_name s) (st_lts s)
| de_enum e : In (AEnum e) apis -> declares apis (en_name e) (en_lts e)
| de_cxx t : In (ACxxType t) apis -> declares apis (et_name t) (et_lts t)
| de_rust t : In (ARustType t) apis -> declares apis (et_name t) (et_lts t)
| de_alias a : In (ATypeAlias a) apis -> declares apis (ta_name a) (ta_lts a).
(** The named type has a lifetime parameter. *)
Definition has_lifetime (apis : list api) (n : string) : Prop :=
  exists p lts, declares apis p lts /\ p_rust p = n /\ lts <> [].

(** C21: something reachable through a value of type [t] is a mutable reference, or a
    type with lifetimes (which may hold one). *)
Inductive gives_mut (apis : list api) : ty -> Prop :=
| gm_ref p l t : gives_mut apis (TRef p true l t)
| gm_slice l t : gives_mut apis (TSlice true l t)
| gm_named n : ~ is_primitive (n_rust n) -> has_lifetime apis (n_rust n) -> gives_mut apis (TIdent n).
Definition returns_mut (f : extern_fn) : Prop :=
  (exists p l t, fn_ret f = Some (TRef p true l t)) \/ (exists l t, fn_ret f = Some (TSlice true l t)).

(** C20: [u] occurs in [t], not inside a function pointer. *)
Inductive part_of : ty -> ty -> Prop :=
| po_here t : part_of t t
| po_box u t : part_of u t -> part_of u (TBox t)
| po_vec u t : part_of u t -> part_of u (TVec t)
| po_unique u t : part_of u t -> part_of u (TUniquePtr t)
| po_shared u t : part_of u t -> part_of u (TSharedPtr t)
| po_weak u t : part_of u t -> part_of u (TWeakPtr t)
| po_vector u t : part_of u t -> part_of u (TCxxVector t)
| po_ref u p m l t : part_of u t -> part_of u (TRef p m l t)
| po_ptr u m t : part_of u t -> part_of u (TPtr m t)
| po_array u t n : part_of u t -> part_of u (TArray t n)
| po_slice u m l t : part_of u t -> part_of u (TSlice m l t).

(** C22: the types declared in a block, and what resolving a bare self does to an
    item. *)
Definition declared_in_block (a : api) : option string :=
  match a with
  | ACxxType t | ARustType t => Some (p_rust (et_name t))
  | ATypeAlias t => Some (p_rust (ta_name t))
  | _ => None
  end.
Definition fn_of (a : api) : option extern_fn := match a with ACxxFunction f | ARustFunction f => Some f | _ => None end.
Definition receiver_name (f : extern_fn) : option string := option_map (fun r => n_rust (rc_ty r)) (fn_receiver f).
(** [f'] is [f] with the receiver type renamed to [x], all else equal. *)
Definition renamed_receiver (x : string) (f f' : extern_fn) : Prop :=
  exists r, fn_receiver f = Some r /\
    f' = ExternFn (fn_cfg f) (fn_lang f) (fn_name f) (fn_async f) (fn_unsafe f) (fn_generics f)
           (Some (Receiver (rc_pinned r) (rc_lt r) (rc_mutable r) (Named x (n_lts (rc_ty r))) (rc_shorthand r)))
           (fn_args f) (fn_ret f) (fn_throws f) (fn_trusted f).

(** C23: identifiers that appear in the generated C++ / Rust code. *)
Inductive item_name (apis : list api) : pair_name -> Prop :=
| in_type p lts : declares apis p lts -> item_name apis p
| in_field s f : In (AStruct s) apis -> In f (st_fields s) -> item_name apis (v_name f)
| in_variant e v : In (AEnum e) apis -> In v (en_variants e) -> item_name apis (vr_name v)
| in_fn f : all_functions apis f -> item_name apis (fn_name f)
| in_arg f x t : all_functions apis f -> In (x, t) (fn_args f) -> item_name apis (Pair [] x x).
Definition has_prefix (p s : string) : Prop := exists r, s = (p ++ r)%string.
Definition has_infix (p s : string) : Prop := exists a b, s = (a ++ p ++ b)%string.
