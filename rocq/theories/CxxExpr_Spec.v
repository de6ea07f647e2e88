(** Specification for C85: when a C++ function is well typed.  The rules are those of
    C++ for the operations used, with the signatures of the members of ::rust::Box,
    ::std::unique_ptr, ::rust::ManuallyDrop, ::rust::MaybeUninit and ::rust::impl.
    Stricter than C++ in that there are no implicit conversions but adding const.
    Expressions and types are the syntax of CxxExpr_Model and Abi_Model. *)
From Verif Require Import Base Syntax_Model Types_Spec Mangle_Spec Abi_Model Abi_Spec CxxExpr_Model.

(** What a local name is: a variable of a type, a ManuallyDrop or MaybeUninit of a type,
    or a pointer to a function or to a member function. *)
Inductive local_kind : Type :=
| LVar (t : cty)
| LManual (t : cty)
| LUninit (t : cty)
| LFnPtr (m : member) (ret : cty) (params : list cty).

Fixpoint find_name {A} (x : string) (l : list (string * A)) : option A :=
  match l with [] => None | (y, a) :: l => if String.eqb x y then Some a else find_name x l end.

Section Typing.
  (** The types whose variables can be copied. *)
  Variable copyable : cty -> Prop.
  (** [F]: the functions declared in the file; [this]: the class of a member function *)
  Variables (F : list (string * (cty * list cty))) (this : member).
  Definition is_ref (t : cty) : Prop := exists c u, t = CRef c u.

  (** A call of a function with the result type [ret] *)
  Inductive returned : cty -> cty -> option bool -> Prop :=
  | re_ref c t : returned (CRef c t) t (Some c)
  | re_value t : ~ is_ref t -> returned t t None.

  (** [ctyped G e t v]: [e] has the type [t]; [v]: [Some c] for an lvalue, const if [c],
      [None] for a value that may be moved from. *)
  Inductive ctyped (G : list (string * local_kind)) : cexp -> cty -> option bool -> Prop :=
  | ct_var x t : find_name x G = Some (LVar t) -> ~ is_ref t -> ctyped G (CxVar x) t (Some false)
  | ct_ref x c t : find_name x G = Some (LVar (CRef c t)) -> ctyped G (CxVar x) t (Some c)
  | ct_this c t : this = Some (c, t) -> ctyped G CxThis t (Some c)
  | ct_manual x t : find_name x G = Some (LManual t) -> ctyped G (CxValue x) t (Some false)
  | ct_uninit x t : find_name x G = Some (LUninit t) -> ctyped G (CxValue x) t (Some false)
  | ct_deref e c t v : ctyped G e (CPtr c t) v -> ctyped G (CxDeref e) t (Some c)
  | ct_addr e t c : ctyped G e t (Some c) -> ctyped G (CxAddr e) (CPtr c t) None
  | ct_move e t : ctyped G e t (Some false) -> ctyped G (CxMove e) t None
  | ct_from_raw e t v : ctyped G e (CPtr false t) v -> ctyped G (CxFromRaw (CBox t) e) (CBox t) None
  | ct_unique e t v : ctyped G e (CPtr false t) v -> ctyped G (CxConstruct (CUnique t) e) (CUnique t) None
  | ct_bitcopy e t c : t = CAtom ARustString \/ (exists u, t = CVec u) -> ctyped G e t (Some c) -> ctyped G (CxBitcopy t e) t None
  | ct_into_raw e t v : ctyped G e (CBox t) v -> v <> Some true -> ctyped G (CxIntoRaw e) (CPtr false t) None
  | ct_release e t v : ctyped G e (CUnique t) v -> v <> Some true -> ctyped G (CxRelease e) (CPtr false t) None
  | ct_str_repr e v : ctyped G e CStr v -> ctyped G (CxStrRepr e) CFat None
  | ct_str_new e v : ctyped G e CFat v -> ctyped G (CxStrNew e) CStr None
  | ct_slice_repr e k t v : ctyped G e (CSlice k t) v -> ctyped G (CxSliceRepr (CSlice k t) e) CFat None
  | ct_slice_new e k t v : ctyped G e CFat v -> ctyped G (CxSliceNew (CSlice k t) e) (CSlice k t) None
  | ct_call f args ret ps t v : find_name f G = None -> find_name f F = Some (ret, ps) -> cinits G args ps -> returned ret t v -> ctyped G (CxCall f args) t v
  | ct_call_ptr f args ret ps t v : find_name f G = Some (LFnPtr None ret ps) -> cinits G args ps -> returned ret t v -> ctyped G (CxCall f args) t v
  | ct_member e f args c c' cls ret ps t v : find_name f G = Some (LFnPtr (Some (c, cls)) ret ps) -> ctyped G e cls (Some c') -> (c' = true -> c = true) ->
      cinits G args ps -> returned ret t v -> ctyped G (CxMember e f args) t v
  | ct_new slot t e v : ctyped G slot (CPtr false t) v -> cinit G e t -> ctyped G (CxNew slot t e) (CPtr false t) None
  (** An expression initialises a parameter, a variable or a result. *)
  with cinit (G : list (string * local_kind)) : cexp -> cty -> Prop :=
  | ci_ref e c t c' : ctyped G e t (Some c') -> (c' = true -> c = true) -> cinit G e (CRef c t)
  | ci_move e t : ~ is_ref t -> ctyped G e t None -> cinit G e t
  | ci_copy e t c : ~ is_ref t -> ctyped G e t (Some c) -> copyable t -> cinit G e t
  with cinits (G : list (string * local_kind)) : list cexp -> list cty -> Prop :=
  | cs_nil : cinits G [] []
  | cs_cons e l t ts : cinit G e t -> cinits G l ts -> cinits G (e :: l) (t :: ts).

  (** [U]: the functions of the user. *)
  Variables (U : list (string * (member * cty * list cty))) (ret : cty).
  Inductive cstmts (G : list (string * local_kind)) : list cstmt -> Prop :=
  | cb_end : ret = CVoid -> cstmts G []
  | cb_return e : ret <> CVoid -> cinit G e ret -> cstmts G [CsReturn e]
  | cb_fn_ptr f m r ps target l : find_name f G = None -> find_name target U = Some (m, r, ps) -> cstmts ((f, LFnPtr m r ps) :: G) l ->
      cstmts G (CsFnPtr f m r ps target :: l)
  | cb_manual t x y l : find_name y G = None -> ctyped G (CxMove (CxVar x)) t None -> cstmts ((y, LManual t) :: G) l -> cstmts G (CsManual t y x :: l)
  | cb_uninit t x l : find_name x G = None -> cstmts ((x, LUninit t) :: G) l -> cstmts G (CsUninit t x :: l)
  | cb_let t x e l : find_name x G = None -> cinit G e t -> cstmts ((x, LVar t) :: G) l -> cstmts G (CsLet t x e :: l)
  | cb_declare t x l : find_name x G = None -> cstmts ((x, LVar t) :: G) l -> cstmts G (CsDeclare t x :: l)
  | cb_do e t v l : ctyped G e t v -> cstmts G l -> cstmts G (CsDo e :: l)
  | cb_try e t v x l : ctyped G e t v -> find_name x G = Some (LVar CPtrLen) -> cstmts G l -> cstmts G (CsTry e x :: l)
  | cb_throw_if x l : find_name x G = Some (LVar CPtrLen) -> cstmts G l -> cstmts G (CsThrowIf x :: l).
End Typing.

Definition params_env (l : list (string * cty)) : list (string * local_kind) := map (fun p => (fst p, LVar (snd p))) l.

(** [F]: the functions declared in the file, [U]: those of the user *)
Definition cxx_fn_typed (copyable : cty -> Prop) (F : list (string * (cty * list cty))) (U : list (string * (member * cty * list cty))) (f : cxx_fn) : Prop :=
  NoDup (map fst (cf_params f)) /\ cstmts copyable F (cf_this f) U (cf_ret f) (params_env (cf_params f)) (cf_body f).

(** * The documented C++ signature of a function *)
Inductive denotes (apis : list api) : ty -> cty -> Prop :=
| dn_atom n a : n_rust n = atom_name a -> denotes apis (TIdent n) (CAtom a)
| dn_named n p : ~ is_primitive (n_rust n) -> stands_for apis (n_rust n) p -> denotes apis (TIdent n) (CNamed p)
| dn_box t c : denotes apis t c -> denotes apis (TBox t) (CBox c)
| dn_vec t c : denotes apis t c -> denotes apis (TVec t) (CVec c)
| dn_unique t c : denotes apis t c -> denotes apis (TUniquePtr t) (CUnique c)
| dn_shared t c : denotes apis t c -> denotes apis (TSharedPtr t) (CShared c)
| dn_weak t c : denotes apis t c -> denotes apis (TWeakPtr t) (CWeak c)
| dn_vector t c : denotes apis t c -> denotes apis (TCxxVector t) (CVector c)
| dn_ref p l t c : denotes apis t c -> denotes apis (TRef p false l t) (CRef true c)
| dn_ref_mut p l t c : denotes apis t c -> denotes apis (TRef p true l t) (CRef false c)
| dn_ptr t c : denotes apis t c -> denotes apis (TPtr false t) (CPtr true c)
| dn_ptr_mut t c : denotes apis t c -> denotes apis (TPtr true t) (CPtr false c)
| dn_str l : denotes apis (TStr l) CStr
| dn_slice l t c : denotes apis t c -> denotes apis (TSlice false l t) (CSlice true c)
| dn_slice_mut l t c : denotes apis t c -> denotes apis (TSlice true l t) (CSlice false c)
| dn_fn un th args cs : Forall2 (fun a c => denotes apis (snd a) c) args cs -> denotes apis (TFn un th args None) (CFn cs None)
| dn_fn_ret un th args r cs c : Forall2 (fun a c => denotes apis (snd a) c) args cs -> denotes apis r c -> denotes apis (TFn un th args (Some r)) (CFn cs (Some c))
| dn_array t c len : denotes apis t c -> denotes apis (TArray t len) (CArray c len).

(** ::a::b::name *)
Definition full_name (p : pair_name) : string := String.concat "::" (EmptyString :: p_ns p ++ [p_cxx p]).

(** A function with the parameters [args] and the result [ret]; a method is a member
    function of the type of its receiver, const if that is not mutable. *)
Definition documented (apis : list api) (recv : option receiver) (args : list (string * ty)) (ret : option ty) (m : member) (cr : cty) (cs : list cty) : Prop :=
  match recv with
  | None => m = None
  | Some r => exists p, stands_for apis (n_rust (rc_ty r)) p /\ m = Some (negb (rc_mutable r), CNamed p)
  end /\
  match ret with None => cr = CVoid | Some r => denotes apis r cr end /\
  Forall2 (fun a c => denotes apis (snd a) c) args cs.
(** The name of the function of the user: Rust name of the class, C++ name of the function *)
Definition user_name (apis : list api) (f : extern_fn) (x : string) : Prop :=
  match fn_receiver f with
  | None => x = full_name (fn_name f)
  | Some r => exists p, stands_for apis (n_rust (rc_ty r)) p /\ x = (full_name p ++ "::" ++ p_cxx (fn_name f))%string
  end.

(** A name that Rust accepts for a variable: $ is not part of an identifier, and return,
    extern and self are keywords. *)
Definition plain_name (x : string) : Prop := (forall a b, x <> (a ++ "$" ++ b)%string) /\ ~ In x ["return"; "extern"; "self"; ""]%string.
