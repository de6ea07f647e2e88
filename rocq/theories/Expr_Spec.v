(** Specification for C84: when a Rust function type checks.  The rules are those of
    Rust for the operations used, with the signatures of the functions of the standard
    library, of src/rust_string.rs, rust_vec.rs, rust_str.rs, rust_slice.rs, result.rs
    and unwind.rs.  A cast between pointers is stricter than in Rust: the pointees must
    have the same representation, or one of them is c_void.  Types, expressions and
    functions are the syntax of Expr_Model. *)
From Verif Require Import Base Syntax_Model Types_Model Abi_Model Expr_Model.

(** Same representation (static assertions and comments of src/rust_string.rs,
    rust_vec.rs and rust_str.rs). *)
Inductive same_repr : xty -> xty -> Prop :=
| sr_same t : same_repr t t
| sr_string : same_repr (XIdent "String") XRustString
| sr_str : same_repr XStr XRustStr
| sr_vec a b : same_repr a b -> same_repr (XVec a) (XRustVec b).

Inductive converts : conv -> xty -> xty -> Prop :=
| cv_new a : converts KNew a (XUninit a)
| cv_mut_ptr a : converts KMutPtr (XUninit a) (XPtr true a)
| cv_init a : converts KInit (XUninit a) a
| cv_as_string m a : same_repr a XRustString -> converts KAsString (XPtr m a) (XPtr false XRustString)
| cv_as_vec m a b : same_repr a (XRustVec b) -> converts KAsVec (XPtr m a) (XPtr false (XRustVec b))
| cv_as_ptr m t : converts (KAsPtr m t) (XRef m t) (XPtr m t)
| cv_as_void m t : converts (KAsVoid m) (XPtr m t) (XPtr m XVoid)
| cv_cast m a b : same_repr a b \/ a = XVoid \/ b = XVoid -> converts KCast (XPtr m a) (XPtr m b)
| cv_box_raw t : converts KBoxRaw (XBox t) (XPtr true t)
| cv_box_from t : converts KBoxFrom (XPtr true t) (XBox t)
| cv_unique_raw t : converts KUniqueRaw (XUnique t) (XPtr true t)
| cv_unique_from t : converts KUniqueFrom (XPtr true t) (XUnique t)
| cv_pin_inner t : converts KPinInner (XPin t) t
| cv_pin_new m t : converts KPinNew (XRef m t) (XPin (XRef m t))
| cv_reborrow m t : converts (KReborrow m) (XPtr m t) (XRef m t)
| cv_deref m t : converts KDeref (XPtr m t) (XRef m t)
| cv_take t : converts KTake (XRef true t) t
| cv_read m t : converts KRead (XPtr m t) t
| cv_string_from : converts KStringFrom (XIdent "String") XRustString
| cv_string_ref m : converts (KStringRef m) (XRef m (XIdent "String")) (XRef m XRustString)
| cv_into_string : converts KIntoString XRustString (XIdent "String")
| cv_as_str_ing m : converts (KAsStr_ing m) (XRef m XRustString) (XRef m (XIdent "String"))
| cv_vec_from t : converts KVecFrom (XVec t) (XRustVec t)
| cv_vec_ref m t : converts (KVecRef m) (XRef m (XVec t)) (XRef m (XRustVec t))
| cv_into_vec t : converts KIntoVec (XRustVec t) (XVec t)
| cv_as_vec_ m t : converts (KAsVec_ m) (XRef m (XRustVec t)) (XRef m (XVec t))
| cv_vec_string_from : converts KVecStringFrom (XVec (XIdent "String")) (XRustVec XRustString)
| cv_vec_string_ref m : converts (KVecStringRef m) (XRef m (XVec (XIdent "String"))) (XRef m (XRustVec XRustString))
| cv_into_vec_string : converts KIntoVecString (XRustVec XRustString) (XVec (XIdent "String"))
| cv_as_vec_string m : converts (KAsVecString m) (XRef m (XRustVec XRustString)) (XRef m (XVec (XIdent "String")))
| cv_str_from : converts KStrFrom XStr XRustStr
| cv_as_str : converts KAsStr XRustStr XStr
| cv_slice_from m t : converts (KSliceFrom m) (XSlice m t) XRustSlice
| cv_as_slice m t : converts (KAsSlice m t) XRustSlice (XSlice m t)
| cv_fat un args r : converts KFat (XFn un args r) XFat
| cv_transmute un args r : converts (KTransmute (XFn un args r)) (XPtr false XUnit) (XFn un args r)
| cv_exception : converts KException XReply (XResult XUnit)
| cv_ok t : converts KOk t (XResult t).

(** The last binding of a name is the one that counts; an underscore binds nothing. *)
Fixpoint lookup {A} (x : string) (l : list (string * A)) : option A :=
  match l with [] => None | (y, a) :: l => if String.eqb x y && negb (String.eqb y "_") then Some a else lookup x l end.

(** [F]: the functions that can be called by name, [G]: the variables.  A variable hides
    a function of the same name. *)
Inductive typed (F : list (string * fsig)) (G : list (string * xty)) : rexp -> xty -> Prop :=
| ty_var x t : lookup x G = Some t -> typed F G (EVar x) t
| ty_conv k e a b : typed F G e a -> converts k a b -> typed F G (EConv k e) b
| ty_uninit t : typed F G (EUninit t) (XUninit t)
| ty_unit_slot : typed F G EUnitSlot (XPtr true XUnit)
| ty_call f s args : lookup f G = None -> lookup f F = Some s -> Forall2 (typed F G) args (fs_params s) -> typed F G (ECall f args) (fs_ret s)
| ty_call_ptr f un ts r args : typed F G f (XFn un ts r) -> Forall2 (typed F G) args ts -> typed F G (ECallPtr f args) r
| ty_map e k a b : typed F G e (XResult a) -> converts k a b -> typed F G (EMap e k) (XResult b)
| ty_try out e a : typed F G out (XPtr true a) -> typed F G e (XResult a) -> typed F G (ETry out e) XReply
| ty_write out e a : typed F G out (XPtr true a) -> typed F G e a -> typed F G (EWrite out e) XUnit
| ty_guard e t : typed F G e t -> lookup "__fn" G = Some XStr -> typed F G (EGuard e) t
| ty_guard_fn f r : lookup "__fn" G = Some XStr -> lookup f G = None -> lookup f F = Some (FSig false [] r) ->
    typed F G (EGuardFn f) r.

Inductive stmts_typed (F : list (string * fsig)) (ret : xty) : list (string * xty) -> list rstmt -> list (string * xty) -> Prop :=
| st_nil G : stmts_typed F ret G [] G
| st_let G x e t l G' : typed F G e t -> stmts_typed F ret ((x, t) :: G) l G' -> stmts_typed F ret G (SLet x e :: l) G'
| st_label G l G' : stmts_typed F ret (("__fn", XStr) :: G) l G' -> stmts_typed F ret G (SLabel :: l) G'
| st_do G e t l G' : typed F G e t -> stmts_typed F ret G l G' -> stmts_typed F ret G (SDo e :: l) G'
| st_question G e a r l G' : typed F G e (XResult a) -> ret = XResult r -> stmts_typed F ret G l G' -> stmts_typed F ret G (SQuestion e :: l) G'.

Definition fn_typed (f : rust_fn) : Prop :=
  NoDup (map fst (rf_params f)) /\
  exists G, stmts_typed (rf_callees f) (rf_ret f) (rf_params f) (rf_stmts f) G /\ typed (rf_callees f) G (rf_value f) (rf_ret f).

(** The references for which there is no conversion: pinned references to a String or a
    Vec, and references to a Vec<&str>. *)
Definition no_conversion (t : ty) : Prop :=
  (exists m l n, t = TRef true m l (TIdent n) /\ n_rust n = "String") \/
  (exists m l u, t = TRef true m l (TVec u)) \/
  (exists p m l k, t = TRef p m l (TVec (TStr k))).
(** A Vec<&str> by value. *)
Definition vec_of_str (t : ty) : Prop := exists k, t = TVec (TStr k).

(** Parameters of a function: distinct, none is the receiver, none is an underscore. *)
Definition well_named (names : list string) : Prop := NoDup names /\ ~ In "self" names /\ ~ In "_" names.

(** Every argument, and the result, can be converted. *)
Definition args_convert (s : signature) : Prop := forall x t, In (x, t) (sg_args s) -> ~ no_conversion t /\ ~ vec_of_str t.
Definition ret_converts (s : signature) : Prop := forall t, sg_ret s = Some t -> ~ no_conversion t /\ ~ vec_of_str t.
(** No receiver, no argument, no error, and a result that has the same type on both
    sides and is returned directly. *)
Definition bare (n : nat) (T : types) (s : signature) : Prop :=
  sg_receiver s = None /\ sg_args s = [] /\ sg_throws s = false /\
  forall r, sg_ret s = Some r -> x_type r = x_extern T false r /\ needs_indirect_abi n T r = Some false.
