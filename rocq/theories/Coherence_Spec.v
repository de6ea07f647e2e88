(** Specification for C89: when the items of a Rust module define each name once, do not
    implement a trait twice, and mean the types that they name.  The rules are those of Rust;
    the items are the syntax of Coherence_Model. *)
From Verif Require Import Base Syntax_Model Types_Spec Check_Spec Coherence_Model.

(** What the expansion depends on: which type each name of the bridge stands for (an alias or
    an imported type may be another name of a type), and which of the user's types are also
    values, as tuple structs are. *)
Record env : Type := Env { e_type : string -> string; e_value : string -> bool }.

(** The names that an item defines, as types and as values *)
Definition type_name (i : item) : list string :=
  match i with IStruct x _ | IAlias x | IImport x | IMod x | ITrait x => [x] | _ => [] end.
Definition value_name (v : env) (i : item) : list string :=
  match i with IFn x => [x] | IImport x => if e_value v x then [x] else [] | _ => [] end.
Definition scope_eqb (a b : scope) : bool :=
  match a, b with SModule, SModule | SHidden, SHidden | SForbid, SForbid => true | _, _ => false end.
Definition names_in {A} (f : item -> list A) (p : scope) (l : list (scope * item)) : list A :=
  flat_map (fun i => if scope_eqb (fst i) p then f (snd i) else []) l.

(** Associated items and trait implementations, with the type they are for *)
Definition assoc_item (v : env) (i : item) : list (string * string) := match i with IAssoc x m => [(e_type v x, m)] | _ => [] end.
Definition impl_item (v : env) (i : item) : list (rtrait * string) := match i with IImpl t x => [(t, e_type v x)] | _ => [] end.

Record coherent (v : env) (l : list (scope * item)) : Prop := Coherent
  { co_types : forall p, NoDup (names_in type_name p l);
    co_values : forall p, NoDup (names_in (value_name v) p l);
    co_fields : forall p x fs, In (p, IStruct x fs) l -> NoDup fs;
    co_assoc : NoDup (flat_map (fun i => assoc_item v (snd i)) l);
    co_impls : NoDup (flat_map (fun i => impl_item v (snd i)) l);
    co_scope : forall t x, In (SHidden, IMention x) l \/ In (SHidden, IImpl t x) l -> ~ In (SHidden, IMod x) l }.

(** * The bridges that have such an expansion *)
(** Different names stand for different types. *)
Definition declared (apis : list api) (x : string) : Prop := is_struct apis x \/ is_enum apis x \/ is_cxx_type apis x \/ is_rust_type apis x.
Definition separate (v : env) (apis : list api) : Prop :=
  forall x y, declared apis x -> declared apis y -> e_type v x = e_type v y -> x = y.

(** The names are unlike those that the macro makes up: type names are without double,
    leading and trailing underscores, Rust functions without double underscores and not
    called operator_…; no type is called forbid. *)
Definition double (x : string) : Prop := exists a b, x = (a ++ "__" ++ b)%string.
Definition plain (x : string) : Prop := x <> ""%string /\ ~ double x /\ (forall a, x <> "_" ++ a)%string /\ (forall a, x <> a ++ "_")%string.
Record ordinary (apis : list api) : Prop := Ordinary
  { or_types : forall x, declared apis x -> plain x /\ x <> "forbid"%string;
    or_functions : forall f, In (ARustFunction f) apis -> fn_receiver f = None ->
      ~ double (p_rust (fn_name f)) /\ forall a, p_rust (fn_name f) <> ("operator_" ++ a)%string }.

(** Methods on one type have different names, as far as they are in the same language. *)
Definition receiver_type (f : extern_fn) : option string := option_map (fun r => n_rust (rc_ty r)) (fn_receiver f).
Definition cxx_fns (apis : list api) : list extern_fn := flat_map (fun a => match a with ACxxFunction f => [f] | _ => [] end) apis.
Definition rust_fns (apis : list api) : list extern_fn := flat_map (fun a => match a with ARustFunction f => [f] | _ => [] end) apis.
Definition distinct_methods (l : list extern_fn) : Prop :=
  ForallOrdPairs (fun f g => fn_receiver f <> None -> receiver_type f = receiver_type g -> p_rust (fn_name f) <> p_rust (fn_name g)) l.

Record apart (v : env) (apis : list api) : Prop := Apart
  { ap_alias : forall x, is_alias apis x -> ~ is_struct apis x /\ ~ is_enum apis x;
    ap_value : forall f, In (ACxxFunction f) apis -> fn_receiver f = None -> is_rust_type apis (p_rust (fn_name f)) -> e_value v (p_rust (fn_name f)) = false;
    ap_methods : distinct_methods (cxx_fns apis) /\ distinct_methods (rust_fns apis);
    ap_fields : forall s, In (AStruct s) apis -> NoDup (map (fun f => p_rust (v_name f)) (st_fields s));
    ap_lifetimes : forall t, In (ACxxType t) apis -> ~ is_struct apis (p_rust (et_name t)) -> ~ is_enum apis (p_rust (et_name t)) -> NoDup (et_lts t);
    ap_variants : forall e, In (AEnum e) apis -> NoDup (map (fun w => p_rust (vr_name w)) (en_variants e));
    ap_structs : forall s, In (AStruct s) apis -> NoDup (st_derives s);
    ap_enums : forall e, In (AEnum e) apis -> NoDup (en_derives e);
    ap_types : forall t, In (ARustType t) apis -> NoDup (et_derives t) }.
