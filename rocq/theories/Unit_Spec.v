(** Specification for C87: when every declaration of a C++ file finds what it refers to.
    The rules are those of C++: a type is declared before it is named, complete before an
    object of it is defined; a member function is declared in its class before it is
    defined, in the namespace of the class; a function is declared before it is called.
    The declarations and function bodies are the syntax of Unit_Model and CxxExpr_Model. *)
From Verif Require Import Base Syntax_Model Types_Spec Check_Spec Mangle_Spec Types_Model Abi_Model CxxExpr_Model CxxExpr_Spec Unit_Model.

(** The qualified name of a type or function. *)
Definition qualified (p : pair_name) : list string := p_ns p ++ [p_cxx p].

(** What a file can know about its names. *)
Inductive fact : Type :=
| Declared (q : list string)
| Complete (q : list string)
| Member (q : list string) (x : string) (const : bool) (ret : cty) (params : list cty)
| Prototype (q : list string) (x : string) (sig : msig)       (* the same with noexcept *)
| Function (q : list string).

Definition provides (ns : list string) (d : tdecl) : list fact :=
  match d with
  | TForward x | TUsing x _ => [Declared (ns ++ [x])]
  | TForwardEnum x | TEnum _ x => [Declared (ns ++ [x]); Complete (ns ++ [x])]
  | TClass _ x _ ms =>
      [Declared (ns ++ [x]); Complete (ns ++ [x])] ++
      flat_map (fun m => [Member (ns ++ [x]) (fst m) (ms_const (snd m)) (ms_ret (snd m)) (ms_params (snd m));
                          Prototype (ns ++ [x]) (fst m) (snd m)]) ms
  | TDeclare x _ _ | TDefine x _ => [Function (ns ++ [x])]
  | _ => []
  end.

(** The types named in a type. *)
Fixpoint names_in (t : cty) : list pair_name :=
  match t with
  | CNamed p => [p]
  | CBox t | CVec t | CUnique t | CShared t | CWeak t | CVector t | CRef _ t | CPtr _ t | CSlice _ t | CArray t _ => names_in t
  | CFn args ret => (fix go l := match l with [] => [] | a :: l => names_in a ++ go l end) args ++ match ret with Some r => names_in r | None => [] end
  | CAtom _ | CStr | CFat | CPtrLen | CVoid => []
  end.
(** The types that are complete where a member of the type [t] is declared … *)
Fixpoint inline (t : cty) : list pair_name :=
  match t with CNamed p => [p] | CArray t _ | CVector t => inline t | _ => [] end.
(** … and where an object of the type [t] is created, destroyed or passed. *)
Fixpoint entire (t : cty) : list pair_name :=
  match t with CNamed p => [p] | CArray t _ | CVector t | CUnique t => entire t | _ => [] end.

(** What a declaration refers to. *)
Inductive need : Type :=
| Fact (f : fact)
| Callable (ns : list string) (x : string)                      (* the function [x], seen from the namespace [ns] *)
| Target (x : string) (m : member) (ret : cty) (params : list cty)    (* the address of the user's function written [x] *)
| Template (own : bool) (k : impl_kind).                        (* [k] is a template of cxx.h (with members to be specialised) or of the C++ library *)

Definition named (t : cty) : list need := map (fun p => Fact (Declared (qualified p))) (names_in t).
Definition field_needs (t : cty) : list need := named t ++ map (fun p => Fact (Complete (qualified p))) (inline t).
Definition value_needs (t : cty) : list need := named t ++ map (fun p => Fact (Complete (qualified p))) (entire t).

(** The types and the functions in an expression. *)
Fixpoint exp_types (e : cexp) : list cty :=
  match e with
  | CxVar _ | CxThis | CxValue _ => []
  | CxDeref e | CxAddr e | CxMove e | CxIntoRaw e | CxRelease e | CxStrRepr e | CxStrNew e => exp_types e
  | CxFromRaw t e | CxConstruct t e | CxBitcopy t e | CxSliceRepr t e | CxSliceNew t e => t :: exp_types e
  | CxCall _ args => (fix go l := match l with [] => [] | a :: l => exp_types a ++ go l end) args
  | CxMember e _ args => exp_types e ++ (fix go l := match l with [] => [] | a :: l => exp_types a ++ go l end) args
  | CxNew s t e => t :: exp_types s ++ exp_types e
  end.
Fixpoint exp_calls (e : cexp) : list string :=
  match e with
  | CxVar _ | CxThis | CxValue _ => []
  | CxDeref e | CxAddr e | CxMove e | CxIntoRaw e | CxRelease e | CxStrRepr e | CxStrNew e
  | CxFromRaw _ e | CxConstruct _ e | CxBitcopy _ e | CxSliceRepr _ e | CxSliceNew _ e => exp_calls e
  | CxCall f args => f :: (fix go l := match l with [] => [] | a :: l => exp_calls a ++ go l end) args
  | CxMember e _ args => exp_calls e ++ (fix go l := match l with [] => [] | a :: l => exp_calls a ++ go l end) args
  | CxNew s _ e => exp_calls s ++ exp_calls e
  end.
Definition stmt_exp (s : cstmt) : list cexp :=
  match s with CsLet _ _ e | CsDo e | CsReturn e | CsTry e _ => [e] | _ => [] end.
Definition stmt_types (s : cstmt) : list cty :=
  match s with
  | CsFnPtr _ _ ret ps _ => ret :: ps
  | CsManual t _ _ | CsUninit t _ | CsLet t _ _ | CsDeclare t _ => [t]
  | _ => []
  end.
Definition fn_types (f : cxx_fn) : list cty :=
  cf_ret f :: map snd (cf_params f) ++ flat_map stmt_types (cf_body f) ++ flat_map exp_types (flat_map stmt_exp (cf_body f)).
(** The function pointers of a function body are local names. *)
Definition fn_locals (f : cxx_fn) : list string := flat_map (fun s => match s with CsFnPtr x _ _ _ _ => [x] | _ => [] end) (cf_body f).
Definition fn_needs (ns : list string) (f : cxx_fn) : list need :=
  flat_map value_needs (fn_types f) ++
  flat_map (fun s => match s with CsFnPtr _ m ret ps x => [Target x m ret ps] | _ => [] end) (cf_body f) ++
  map (Callable ns) (filter (fun x => if in_dec string_dec x (fn_locals f) then false else true) (flat_map exp_calls (flat_map stmt_exp (cf_body f)))).

Definition needs (ns : list string) (d : tdecl) : list need :=
  match d with
  | TForward _ | TForwardEnum _ | TEnum _ _ => []
  | TUsing _ p => [Fact (Declared (qualified p))]
  | TClass _ _ fields ms =>
      flat_map (fun f => field_needs (snd f)) fields ++ flat_map (fun m => flat_map named (ms_ret (snd m) :: ms_params (snd m))) ms
  | TCheckEnum x => [Fact (Complete (ns ++ [x]))]
  | TCheckTrivial p => [Fact (Complete (qualified p))]
  | TDeclare _ ret params => flat_map named (ret :: params)
  | TDefine _ f => fn_needs ns f
  | TDefineMember cls x f =>
      [Fact (Complete (ns ++ [cls]));
       Fact (Prototype (ns ++ [cls]) x (MSig (match cf_this f with Some (c, _) => c | None => false end)
                                             (cf_ret f) (map snd (cf_params f)) (cf_noexcept f)))] ++
      fn_needs ns f
  | TOperator cls x sig calls uses =>
      [Fact (Complete (ns ++ [cls])); Fact (Prototype (ns ++ [cls]) x sig)] ++ flat_map value_needs (ms_ret sig :: ms_params sig) ++
      map (Callable ns) calls ++ map (fun u => Fact (Member (ns ++ [cls]) u (ms_const sig) (ms_ret sig) (ms_params sig))) uses
  | THash p link => [Fact (Declared (qualified p)); Fact (Function (p_ns p ++ [link]))]
  | TInstance k p uninit =>
      Template false k :: Fact (Declared (qualified p)) ::
      match k with
      | KUnique | KVector => [Fact (Complete (qualified p))]
      | KShared => if uninit then [Fact (Complete (qualified p))] else []
      | _ => []
      end
  | TSpecialize k p calls => Template true k :: Fact (Declared (qualified p)) :: map (Callable ns) calls
  end.

(** A need is met by the facts [known]: a function is found in the namespace of the caller
    or in one around it. *)
Definition meets (known : fact -> Prop) (n : need) : Prop :=
  match n with
  | Fact f => known f
  | Callable ns x => exists outer inner, ns = outer ++ inner /\ known (Function (outer ++ [x]))
  | Target x None ret ps => exists q, x = String.concat "::" (EmptyString :: q) /\ known (Function q)
  | Target x (Some (c, CNamed p)) ret ps => exists y, x = (full_name p ++ "::" ++ y)%string /\ known (Member (qualified p) y c ret ps)
  | Target _ (Some _) _ _ => False
  | Template own k => match k with KBox | KVec => own = true | KUnique | KShared | KWeak | KVector => own = false end
  end.

(** A definition written between #ifndef g / #define g and #endif is dropped if g has been
    defined before. *)
Definition guard (d : tdecl) : option string := match d with TClass g _ _ _ | TEnum g _ => Some g | _ => None end.
Fixpoint preprocess (defined : list string) (l : list placed_decl) : list placed_decl :=
  match l with
  | [] => []
  | (ns, d) :: l =>
      match guard d with
      | None => (ns, d) :: preprocess defined l
      | Some g => if in_dec string_dec g defined then preprocess defined l else (ns, d) :: preprocess (g :: defined) l
      end
  end.

(** What the bridge says is defined in C++: the types and functions of its extern "C++"
    blocks. *)
Inductive cxx_defined (apis : list api) : list string -> Prop :=
| ic_type t : In (ACxxType t) apis -> cxx_defined apis (qualified (et_name t))
| ic_alias a : In (ATypeAlias a) apis -> cxx_defined apis (qualified (ta_name a))
| ic_enum e : In (AEnum e) apis -> en_from_header e = true -> cxx_defined apis (qualified (en_name e)).
Inductive users (apis : list api) : fact -> Prop :=
| us_declared q : cxx_defined apis q -> users apis (Declared q)
| us_complete q : cxx_defined apis q -> users apis (Complete q)
| us_member q x c ret ps : cxx_defined apis q -> users apis (Member q x c ret ps)
| us_prototype q x sig : cxx_defined apis q -> users apis (Prototype q x sig)
| us_function f : In (ACxxFunction f) apis -> fn_receiver f = None -> users apis (Function (qualified (fn_name f))).

(** Every declaration finds what it refers to in what comes before it, or it is for the
    user's headers to provide. *)
Definition provided (l : list placed_decl) (f : fact) : Prop := exists ns d, In (ns, d) l /\ In f (provides ns d).
Definition well_founded_file (apis : list api) (l : list placed_decl) : Prop :=
  forall before ns d after, l = before ++ (ns, d) :: after -> forall n, In n (needs ns d) -> meets (fun f => provided before f \/ users apis f) n.

(** * The bridges covered *)
(** The items for the same type, a shared type and an extern C++ type, agree on the C++
    name; different types have different C++ names. *)
Definition names_agree (apis : list api) : Prop :=
  forall a b p q, In a apis -> In b apis -> decl_name a = Some p -> decl_name b = Some q -> (p_rust p = p_rust q <-> qualified p = qualified q).
(** The Rust methods are declared in the namespace of their type. *)
Definition methods_at_home (apis : list api) : Prop :=
  forall f r p, In (ARustFunction f) apis -> fn_receiver f = Some r -> stands_for apis (n_rust (rc_ty r)) p -> p_ns (fn_name f) = p_ns p.
