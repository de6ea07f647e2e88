(** Specification for C107: several generated files read in one translation unit, and the
    translation units of one program. *)
From Verif Require Import Base StrLib Syntax_Model Types_Model Check_Proofs Mangle_Spec CxxExpr_Model Unit_Model Unit_Spec
  Header_Text Ifndef_Model Builtin_Spec.
From Verif Require Builtin_Model.

(** [l] are the declarations of the header or of the source file of an accepted bridge. *)
Definition generated (header : bool) (apis : list api) (l : list placed_decl) : Prop :=
  exists gen ord T n, accepted_bridge gen ord apis T /\ wf_bridge apis /\ unit_decls n T apis header = Some l.

(** The macros that a text defines. *)
Fixpoint macros (l : list string) : list string :=
  match l with
  | "#" :: (("define" :: m :: _) as l) => m :: macros l
  | _ :: l => macros l
  | [] => []
  end%string.
(** Those of rust/cxx.h and of the supporting code; and the one of write.rs 51-55. *)
Definition support_macros : list string :=
  "CXX_DEFAULT_VALUE"%string :: macros (tokens_of (lines HEADER)) ++ flat_map (fun p => macros (text_of p)) Builtin_Model.parts.

(** What is left of the files [ls], read one after the other after other headers. *)
Definition unit_of (before : list string) (ls : list (list placed_decl)) : list placed_decl := preprocess before (List.concat ls).

(** The class or the enumeration that a declaration defines: its kind and its name. *)
Inductive sort : Set := Class | Enumeration.
Definition type_defined (x : placed_decl) : option (sort * list string) :=
  match snd x with
  | TClass _ n _ _ => Some (Class, fst x ++ [n])
  | TEnum _ n => Some (Enumeration, fst x ++ [n])
  | _ => None
  end.
Definition types_defined (l : list placed_decl) : list (sort * list string) :=
  flat_map (fun x => match type_defined x with Some t => [t] | None => [] end) l.

(** The one-definition rule for a program: what may be defined in only one of its
    translation units.  (Not: a class, an enumeration, an alias, an assertion, or a
    specialisation of a class template such as std::hash.) *)
Definition external_definition (d : tdecl) : Prop :=
  match d with
  | TDefine _ _ | TDefineMember _ _ _ | TOperator _ _ _ _ _ | TInstance _ _ _ | TSpecialize _ _ _ => True
  | TForward _ | TForwardEnum _ | TUsing _ _ | TClass _ _ _ _ | TEnum _ _ | TCheckEnum _ | TCheckTrivial _ | TDeclare _ _ _ | THash _ _ => False
  end.
(** What may stand in one translation unit only once. *)
Definition single (d : tdecl) : Prop :=
  external_definition d \/ match d with TClass _ _ _ _ | TEnum _ _ | THash _ _ => True | _ => False end.

(** * Link names *)
(** The namespaces that the link names of a bridge are made of: those of its functions, its
    shared structs and its opaque Rust types, and of the types over which it instantiates
    generic types.  A type that is only used through an alias does not count. *)
Inductive names_in (apis : list api) : list string -> Prop :=
| ni_fn f : In (ACxxFunction f) apis \/ In (ARustFunction f) apis -> names_in apis (p_ns (fn_name f))
| ni_struct s : In (AStruct s) apis -> names_in apis (p_ns (st_name s))
| ni_rust t : In (ARustType t) apis -> names_in apis (p_ns (et_name t))
| ni_instance g x p : instantiates apis g x -> stands_for apis x p -> names_in apis (p_ns p).
(** No namespace is one of both bridges; nor is that of one, put into std::vector, one of the
    other. *)
Definition separate (apis apis' : list api) : Prop :=
  forall ns ns', names_in apis ns -> names_in apis' ns' -> ns <> ns' /\ ns <> "std"%string :: "vector"%string :: ns' /\ ns' <> "std"%string :: "vector"%string :: ns.

(** The namespace of what is defined: for a specialisation, that of the type it is for. *)
Definition definition_namespace (x : placed_decl) : list string :=
  match snd x with TInstance _ p _ | TSpecialize _ p _ => p_ns p | _ => fst x end.
