(** Specification for C88: when the members of a C++ class, and the declarations of a C++
    header, have names that can be told apart.  The rules are those of C++; class bodies and
    declarations are the syntax of Member_Model and Unit_Model. *)
From Verif Require Import Base Syntax_Model Types_Spec Check_Spec Mangle_Spec Abi_Model Derive_Model CxxExpr_Spec Unit_Model Unit_Spec Member_Model.

(** * Classes *)
Inductive mname : Type := Named (x : string) | Operator (o : op) | Destructor.
Definition member_name (m : cmember) : mname :=
  match m with
  | MField x _ | MMethod x _ | MAlias x | MStruct x _ => Named x
  | MOperator o _ => Operator o
  | MDestructor _ => Destructor
  end.
(** Two members can stand in one class: their names differ, or they are functions that
    differ in their parameters or in const, or one is a class, which a function or a field
    may hide. *)
Definition coexist (m m' : cmember) : Prop :=
  member_name m <> member_name m' \/
  match m, m' with
  | MMethod _ s, MMethod _ s' => ~ (ms_params s = ms_params s' /\ ms_const s = ms_const s')
  | MStruct _ _, (MMethod _ _ | MField _ _) | (MMethod _ _ | MField _ _), MStruct _ _ => True
  | _, _ => False
  end.
(** In the class [cls]: no member but a field has the name of the class, a destructor has it,
    and where the class is named as the type of a parameter that is what it means; a nested class
    declares its functions (without parameters) once each. *)
Definition fits (cls : string) (l : list cmember) (m : cmember) : Prop :=
  match m with
  | MField _ _ => True
  | MMethod x _ | MAlias x => x <> cls
  | MStruct x statics => x <> cls /\ NoDup statics
  | MDestructor x => x = cls
  | MOperator _ x => x = cls /\ forall t, ~ In (MField cls t) l
  end.
Definition valid_class (cls : string) (l : list cmember) : Prop := ForallOrdPairs coexist l /\ Forall (fits cls l) l.

(** * The header *)
Inductive meaning : Type :=
| IsClass (definition : bool)
| IsEnum (definition : bool)
| IsName (p : pair_name)               (* another name of the type p *)
| IsFunction (params : list cty).
Definition means (d : tdecl) : option (string * meaning) :=
  match d with
  | TForward x => Some (x, IsClass false)
  | TClass _ x _ _ => Some (x, IsClass true)
  | TForwardEnum x => Some (x, IsEnum false)
  | TEnum _ x => Some (x, IsEnum true)
  | TUsing x p => Some (x, IsName p)
  | TDeclare x _ ps => Some (x, IsFunction ps)
  | TDefine x f => Some (x, IsFunction (map snd (CxxExpr_Model.cf_params f)))
  | _ => None
  end.
(** Two declarations of the name [q]: a type may be declared several times but defined once,
    and a typedef may repeat it; functions have different parameters. *)
Definition agree (q : list string) (m m' : meaning) : Prop :=
  match m, m' with
  | IsClass d, IsClass d' | IsEnum d, IsEnum d' => d = false \/ d' = false
  | IsName p, (IsClass _ | IsEnum _) | (IsClass _ | IsEnum _), IsName p => q = qualified p
  | IsName p, IsName p' => qualified p = qualified p'
  | IsFunction ps, IsFunction ps' => ps <> ps'
  | _, _ => False
  end.
Definition apart (d d' : placed_decl) : Prop :=
  forall x m x' m', means (snd d) = Some (x, m) -> means (snd d') = Some (x', m') -> fst d ++ [x] = fst d' ++ [x'] -> agree (fst d ++ [x]) m m'.
(** A type or function is not called like a namespace. *)
Definition no_namespace (l : list placed_decl) : Prop :=
  forall ns d x m ns' d' rest, In (ns, d) l -> means d = Some (x, m) -> In (ns', d') l -> ns' <> ns ++ [x] ++ rest.
Definition one_meaning (l : list placed_decl) : Prop := ForallOrdPairs apart l /\ no_namespace l.

(** * The bridges that have such headers *)
(** The functions of the bridge, those on the type [x], and the Rust functions that are not
    methods. *)
Definition functions (apis : list api) : list extern_fn := flat_map (fun a => match a with ACxxFunction f | ARustFunction f => [f] | _ => [] end) apis.
Definition on_type (x : string) (f : extern_fn) : bool := match fn_receiver f with Some r => String.eqb (n_rust (rc_ty r)) x | None => false end.
Definition methods_on (apis : list api) (x : string) : list extern_fn := filter (on_type x) (functions apis).
Definition rust_functions (apis : list api) : list extern_fn :=
  filter (fun f => match fn_receiver f with None => true | Some _ => false end) (flat_map (fun a => match a with ARustFunction f => [f] | _ => [] end) apis).

Definition receiver_mutable (f : extern_fn) : bool := match fn_receiver f with Some r => rc_mutable r | None => false end.
(** The parameters of a function in C++ *)
Definition cxx_params (apis : list api) (f : extern_fn) (cs : list cty) : Prop := Forall2 (fun a c => denotes apis (snd a) c) (fn_args f) cs.
Definition same_params (apis : list api) (f g : extern_fn) : Prop := exists cs, cxx_params apis f cs /\ cxx_params apis g cs.

Record struct_apart (apis : list api) (s : struct_) : Prop := SApart
  { sa_fields : NoDup (map (fun f => p_cxx (v_name f)) (st_fields s));
    sa_methods : forall f v, In f (methods_on apis (p_rust (st_name s))) -> In v (st_fields s) -> p_cxx (fn_name f) <> p_cxx (v_name v);
    sa_overloads : ForallOrdPairs (fun f g => p_cxx (fn_name f) = p_cxx (fn_name g) -> receiver_mutable f = receiver_mutable g -> ~ same_params apis f g)
                     (methods_on apis (p_rust (st_name s)));
    sa_class : forall f, In f (methods_on apis (p_rust (st_name s))) -> p_cxx (fn_name f) <> p_cxx (st_name s);
    sa_relocatable : p_cxx (st_name s) <> "IsRelocatable"%string /\ (forall v, In v (st_fields s) -> p_cxx (v_name v) <> "IsRelocatable"%string) /\
                     (forall f, In f (methods_on apis (p_rust (st_name s))) -> p_cxx (fn_name f) <> "IsRelocatable"%string);
    sa_operators : In DPartialEq (st_derives s) \/ In DPartialOrd (st_derives s) -> forall v, In v (st_fields s) -> p_cxx (v_name v) <> p_cxx (st_name s) }.
Record opaque_apart (apis : list api) (t : extern_type) : Prop := OApart
  { oa_overloads : ForallOrdPairs (fun f g => p_cxx (fn_name f) = p_cxx (fn_name g) -> receiver_mutable f = receiver_mutable g -> ~ same_params apis f g)
                     (methods_on apis (p_rust (et_name t)));
    oa_class : forall f, In f (methods_on apis (p_rust (et_name t))) -> p_cxx (fn_name f) <> p_cxx (et_name t);
    oa_layout : p_cxx (et_name t) <> "layout"%string }.

(** The types that the header declares … *)
Inductive header_type (apis : list api) : pair_name -> Prop :=
| ht_struct s : In (AStruct s) apis -> header_type apis (st_name s)
| ht_enum e : In (AEnum e) apis -> ~ is_cxx_type apis (p_rust (en_name e)) -> header_type apis (en_name e)
| ht_cxx t : In (ACxxType t) apis -> header_type apis (et_name t)
| ht_rust t : In (ARustType t) apis -> header_type apis (et_name t).
(** … its functions, and all that it mentions. *)
Inductive header_name (apis : list api) : pair_name -> Prop :=
| hn_type p : header_type apis p -> header_name apis p
| hn_fn f : In f (rust_functions apis) -> header_name apis (fn_name f).
Inductive header_place (apis : list api) : pair_name -> Prop :=
| hp_name p : header_name apis p -> header_place apis p
| hp_checked e : In (AEnum e) apis -> en_from_header e = false -> header_place apis (en_name e).

Record names_apart (apis : list api) : Prop := NApart
  { na_overloads : ForallOrdPairs (fun f g => qualified (fn_name f) = qualified (fn_name g) -> ~ same_params apis f g) (rust_functions apis);
    na_types : forall f p, In f (rust_functions apis) -> header_type apis p -> qualified (fn_name f) <> qualified p;
    na_namespaces : forall p q rest, header_name apis p -> header_place apis q -> p_ns q <> qualified p ++ rest }.
