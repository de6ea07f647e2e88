(** Specification for C86: what the generated functions do.  An operational semantics of
    the Rust and C++ used in them (the syntax of Expr_Model and CxxExpr_Model), with one
    memory for both languages, and what a call through the bridge should amount to.
    Conversions that only change the type of a value (between a String and a RustString,
    a &str and a rust::Str, a pointer and a reference, …) keep the value; that they are
    applied to the right types is C84 and C85.  Destructors are C62.  Arguments are
    evaluated from left to right; each argument uses only its own variable. *)
From Verif Require Import Base Syntax_Model Abi_Model Mangle_Model Mangle_Spec Expr_Model Expr_Spec CxxExpr_Model CxxExpr_Spec.

Section Semantics.
  (** [D]: values of types that are not pointers; [A]: addresses outside of the generated
      functions, null included; [F]: function pointers; [X]: errors. *)
  Context {D A F X : Type}.

  Inductive addr : Type := Local (n : nat) | Outer (a : A).
  Inductive val : Type :=
  | Data (d : D)
  | Addr (a : addr)                     (* a pointer or a reference *)
  | BoxOf (a : addr)                    (* Box, rust::Box *)
  | UniqueOf (a : addr)                 (* UniquePtr, std::unique_ptr *)
  | Fun (f : F)                         (* a function pointer of Rust *)
  | FatOf (f : F)                       (* FatFunction, rust::Fn *)
  | Uninit (n : nat)                    (* MaybeUninit, a local of Rust *)
  | Unit
  | Reply (o : option X)                (* cxx::private::Result, rust::repr::PtrLen *)
  | Res (r : val + X).                  (* core::result::Result *)

  (** A call of a function that the user wrote: a C++ function or member function, a Rust
      function, a function pointer of Rust. *)
  Inductive event : Type :=
  | CallCxx (f : string) (this : option addr) (args : list val)
  | CallRust (f : string) (args : list val)
  | CallFn (f : F) (args : list val).
  (** [Throws None]: an exception that is not derived from std::exception. *)
  Inductive reply : Type := Returns (v : val) | Throws (e : option X) | Panics.
  (** What these functions do may depend on all calls before. *)
  Variable world : list event -> event -> reply.

  Record state : Type := State { mem : nat -> option val; next : nat; trace : list event }.
  Inductive result (B : Type) : Type := Done (b : B) | Thrown (e : option X) | Panicked | Aborted | Stuck.
  Arguments Done {B}. Arguments Thrown {B}. Arguments Panicked {B}. Arguments Aborted {B}. Arguments Stuck {B}.
  Definition M (B : Type) : Type := state -> result B * state.
  Definition ret {B} (b : B) : M B := fun s => (Done b, s).
  Definition stuck {B} : M B := fun s => (Stuck, s).
  Definition bind {B C} (m : M B) (k : B -> M C) : M C := fun s =>
    match m s with
    | (Done b, s) => k b s
    | (Thrown e, s) => (Thrown e, s)
    | (Panicked, s) => (Panicked, s)
    | (Aborted, s) => (Aborted, s)
    | (Stuck, s) => (Stuck, s)
    end.

  (** ** Memory *)
  Definition set_mem (n : nat) (o : option val) (s : state) : state :=
    State (fun k => if Nat.eqb k n then o else mem s k) (next s) (trace s).
  Definition alloc (o : option val) : M nat := fun s =>
    (Done (next s), State (mem (set_mem (next s) o s)) (S (next s)) (trace s)).
  Definition read (a : addr) : M val := fun s =>
    match a with Local n => match mem s n with Some v => (Done v, s) | None => (Stuck, s) end | Outer _ => (Stuck, s) end.
  Definition write (a : addr) (v : val) : M unit := fun s =>
    match a with Local n => (Done tt, set_mem n (Some v) s) | Outer _ => (Stuck, s) end.
  (** Reads a value that is not there afterwards. *)
  Definition take (a : addr) : M val := fun s =>
    match a with
    | Local n => match mem s n with Some v => (Done v, set_mem n None s) | None => (Stuck, s) end
    | Outer _ => (Stuck, s)
    end.
  Definition perform (e : event) : M val := fun s =>
    let s' := State (mem s) (next s) (trace s ++ [e]) in
    match world (trace s) e with Returns v => (Done v, s') | Throws e => (Thrown e, s') | Panics => (Panicked, s') end.

  (** ** Rust *)
  Definition convert (k : conv) (v : val) : M val :=
    match k, v with
    | KNew, _ => bind (alloc (Some v)) (fun n => ret (Uninit n))
    | KMutPtr, Uninit n => ret (Addr (Local n))
    | KInit, Uninit n => read (Local n)
    | (KAsString | KAsVec | KAsPtr _ _ | KAsVoid _ | KCast | KPinInner | KPinNew | KReborrow _ | KDeref), Addr _ => ret v
    | (KStringRef _ | KAsStr_ing _ | KVecRef _ | KAsVec_ _ | KVecStringRef _ | KAsVecString _), Addr _ => ret v
    | (KStringFrom | KIntoString | KVecFrom | KIntoVec | KVecStringFrom | KIntoVecString), Data _ => ret v
    | (KStrFrom | KAsStr | KSliceFrom _ | KAsSlice _ _), Data _ => ret v
    | KBoxRaw, BoxOf a => ret (Addr a)
    | KBoxFrom, Addr a => ret (BoxOf a)
    | KUniqueRaw, UniqueOf a => ret (Addr a)
    | KUniqueFrom, Addr a => ret (UniqueOf a)
    | KTake, Addr a => take a
    | KRead, Addr a => read a
    | KFat, Fun f => ret (FatOf f)
    | KTransmute _, Fun f => ret (Fun f)
    | KException, Reply None => ret (Res (inl Unit))
    | KException, Reply (Some e) => ret (Res (inr e))
    | KOk, _ => ret (Res (inl v))
    | _, _ => stuck
    end.
  Definition write_to (p v : val) : M unit := match p with Addr a => write a v | _ => stuck end.
  (** cxx::private::prevent_unwind *)
  Definition guard {B} (m : M B) : M B := fun s => match m s with (Panicked, s) => (Aborted, s) | r => r end.

  Section Rust.
    (** [calls]: the functions that are called by name *)
    Variable calls : string -> list val -> M val.
    Fixpoint reval (env : list (string * val)) (e : rexp) : M val :=
      let revals := fix go (l : list rexp) : M (list val) :=
        match l with
        | [] => ret []
        | e :: l => bind (reval env e) (fun v => bind (go l) (fun vs => ret (v :: vs)))
        end in
      match e with
      | EVar x => match lookup x env with Some v => ret v | None => stuck end
      | EConv k e => bind (reval env e) (convert k)
      | EUninit _ => bind (alloc None) (fun n => ret (Uninit n))
      | EUnitSlot => bind (alloc (Some Unit)) (fun n => ret (Addr (Local n)))
      | ECall f l => match lookup f env with Some _ => stuck | None => bind (revals l) (calls f) end
      | ECallPtr f l => bind (reval env f) (fun p => bind (revals l) (fun vs => match p with Fun f => perform (CallFn f vs) | _ => stuck end))
      | EMap e k => bind (reval env e) (fun r =>
          match r with
          | Res (inl v) => bind (convert k v) (fun v => ret (Res (inl v)))
          | Res (inr x) => ret r
          | _ => stuck
          end)
      | ETry out e => bind (reval env out) (fun p => bind (reval env e) (fun r =>
          match r with
          | Res (inl v) => bind (write_to p v) (fun _ => ret (Reply None))
          | Res (inr x) => ret (Reply (Some x))
          | _ => stuck
          end))
      | EWrite out e => bind (reval env out) (fun p => bind (reval env e) (fun v => bind (write_to p v) (fun _ => ret Unit)))
      | EGuard e => guard (reval env e)
      | EGuardFn f => match lookup f env with Some _ => stuck | None => guard (calls f []) end
      end.
    Definition revals (env : list (string * val)) : list rexp -> M (list val) :=
      fix go (l : list rexp) :=
        match l with
        | [] => ret []
        | e :: l => bind (reval env e) (fun v => bind (go l) (fun vs => ret (v :: vs)))
        end.
    Fixpoint rrun (env : list (string * val)) (l : list rstmt) (value : rexp) : M val :=
      match l with
      | [] => reval env value
      | SLet x e :: l => bind (reval env e) (fun v => rrun ((x, v) :: env) l value)
      | SLabel :: l => rrun (("__fn"%string, Unit) :: env) l value
      | SDo e :: l => bind (reval env e) (fun _ => rrun env l value)
      | SQuestion e :: l => bind (reval env e) (fun r =>
          match r with Res (inl _) => rrun env l value | Res (inr x) => ret r | _ => stuck end)
      end.
    Definition run_rust (f : rust_fn) (args : list val) : M val :=
      if Nat.eqb (List.length args) (List.length (rf_params f)) then rrun (combine (map fst (rf_params f)) args) (rf_stmts f) (rf_value f)
      else stuck.
  End Rust.

  (** ** C++ *)
  (** A name: a variable or reference, a ManuallyDrop or MaybeUninit, a function pointer. *)
  Inductive binding : Type := BVar (a : addr) | BWrap (t : cty) (a : addr) | BFn (m : member) (ret : cty) (params : list cty) (target : string).
  Inductive cval : Type := LV (a : addr) | PV (v : val).
  Definition rvalue (c : cval) : M val := match c with LV a => read a | PV v => ret v end.
  (** A parameter, variable or result of the type [t]. *)
  Definition init (t : cty) (c : cval) : M val :=
    match t with CRef _ _ => match c with LV a => ret (Addr a) | PV _ => stuck end | _ => rvalue c end.
  Definition returned_as (t : cty) (v : val) : M cval :=
    match t with CRef _ _ => match v with Addr a => ret (LV a) | _ => stuck end | _ => ret (PV v) end.
  Definition as_box (v : val) : M addr := match v with BoxOf a => ret a | _ => stuck end.
  Definition as_unique (v : val) : M addr := match v with UniqueOf a => ret a | _ => stuck end.
  (** The object of the type [t] at an address: a Box and a unique_ptr are represented by
      their pointer. *)
  Definition view (t : cty) (a : addr) : M cval := fun s =>
    match a with
    | Local n =>
        match t, mem s n with
        | CBox _, Some (Addr p) => (Done (LV a), set_mem n (Some (BoxOf p)) s)
        | CUnique _, Some (Addr p) => (Done (LV a), set_mem n (Some (UniqueOf p)) s)
        | _, _ => (Done (LV a), s)
        end
    | Outer _ => (Stuck, s)
    end.
  Definition taken (c : cval) : M val := match c with LV a => take a | PV v => ret v end.

  Section Cxx.
    (** [decls]: functions declared in the file, [externs]: what they do; [this]: of a
        member function *)
    Variables (decls : list (string * (cty * list cty))) (externs : string -> list val -> M val) (this : option addr).
    Fixpoint ceval (env : list (string * binding)) (e : cexp) : M cval :=
      let cevals := fix go (l : list cexp) (ts : list cty) : M (list val) :=
        match l, ts with
        | [], [] => ret []
        | e :: l, t :: ts => bind (bind (ceval env e) (init t)) (fun v => bind (go l ts) (fun vs => ret (v :: vs)))
        | _, _ => stuck
        end in
      match e with
      | CxVar x => match find_name x env with Some (BVar a) => ret (LV a) | _ => stuck end
      | CxThis => match this with Some a => ret (LV a) | None => stuck end
      | CxValue x => match find_name x env with Some (BWrap t a) => view t a | _ => stuck end
      | CxDeref e => bind (bind (ceval env e) rvalue) (fun v => match v with Addr a => ret (LV a) | _ => stuck end)
      | CxAddr e => bind (ceval env e) (fun c => match c with LV a => ret (PV (Addr a)) | PV _ => stuck end)
      | CxMove e => bind (ceval env e) (fun c => match c with LV a => bind (take a) (fun v => ret (PV v)) | PV _ => stuck end)
      | CxFromRaw (CBox _) e => bind (bind (ceval env e) rvalue) (fun v => match v with Addr a => ret (PV (BoxOf a)) | _ => stuck end)
      | CxFromRaw _ _ => stuck
      | CxConstruct (CUnique _) e => bind (bind (ceval env e) rvalue) (fun v => match v with Addr a => ret (PV (UniqueOf a)) | _ => stuck end)
      | CxConstruct _ _ => stuck
      | CxBitcopy _ e => bind (bind (ceval env e) rvalue) (fun v => ret (PV v))
      | CxIntoRaw e => bind (bind (bind (ceval env e) taken) as_box) (fun a => ret (PV (Addr a)))
      | CxRelease e => bind (bind (bind (ceval env e) taken) as_unique) (fun a => ret (PV (Addr a)))
      | CxStrRepr e | CxStrNew e | CxSliceRepr _ e | CxSliceNew _ e =>
          bind (bind (ceval env e) rvalue) (fun v => match v with Data _ => ret (PV v) | _ => stuck end)
      | CxCall f l =>
          match find_name f env with
          | Some (BFn None r ts target) => bind (cevals l ts) (fun vs => bind (perform (CallCxx target None vs)) (returned_as r))
          | Some _ => stuck
          | None =>
              match find_name f decls with
              | Some (r, ts) => bind (cevals l ts) (fun vs => bind (externs f vs) (returned_as r))
              | None => stuck
              end
          end
      | CxMember e f l =>
          match find_name f env with
          | Some (BFn (Some _) r ts target) =>
              bind (ceval env e) (fun c =>
                match c with
                | LV a => bind (cevals l ts) (fun vs => bind (perform (CallCxx target (Some a) vs)) (returned_as r))
                | PV _ => stuck
                end)
          | _ => stuck
          end
      | CxNew slot t e =>
          bind (bind (ceval env slot) rvalue) (fun p =>
          bind (bind (ceval env e) (init t)) (fun v =>
          bind (write_to p v) (fun _ => ret (PV p))))
      end.
    Definition cevals (env : list (string * binding)) : list cexp -> list cty -> M (list val) :=
      fix go (l : list cexp) (ts : list cty) : M (list val) :=
        match l, ts with
        | [], [] => ret []
        | e :: l, t :: ts => bind (bind (ceval env e) (init t)) (fun v => bind (go l ts) (fun vs => ret (v :: vs)))
        | _, _ => stuck
        end.
    (** ::rust::behavior::trycatch as cxx provides it: only exceptions derived from
        std::exception are caught *)
    Definition trycatch {B} (m : M B) : M (option X) := fun s =>
      match m s with
      | (Done _, s) => (Done None, s)
      | (Thrown (Some e), s) => (Done (Some e), s)
      | (Thrown None, s) => (Thrown None, s)
      | (Panicked, s) => (Panicked, s)
      | (Aborted, s) => (Aborted, s)
      | (Stuck, s) => (Stuck, s)
      end.
    Fixpoint crun (rty : cty) (env : list (string * binding)) (l : list cstmt) : M val :=
      match l with
      | [] => ret Unit
      | CsFnPtr f m r ts target :: l => crun rty ((f, BFn m r ts target) :: env) l
      | CsManual t y x :: l =>
          match find_name x env with
          | Some (BVar a) => bind (take a) (fun v => bind (alloc (Some v)) (fun n => crun rty ((y, BWrap t (Local n)) :: env) l))
          | _ => stuck
          end
      | CsUninit t x :: l => bind (alloc None) (fun n => crun rty ((x, BWrap t (Local n)) :: env) l)
      | CsLet t x e :: l => bind (bind (ceval env e) (init t)) (fun v => bind (alloc (Some v)) (fun n => crun rty ((x, BVar (Local n)) :: env) l))
      | CsDeclare _ x :: l => bind (alloc None) (fun n => crun rty ((x, BVar (Local n)) :: env) l)
      | CsDo e :: l => bind (ceval env e) (fun _ => crun rty env l)
      | CsReturn e :: _ => bind (ceval env e) (init rty)
      | CsTry e x :: l =>
          match find_name x env with
          | Some (BVar a) => bind (trycatch (ceval env e)) (fun o => bind (write a (Reply o)) (fun _ => crun rty env l))
          | _ => stuck
          end
      | CsThrowIf x :: l =>
          match find_name x env with
          | Some (BVar a) => bind (read a) (fun v =>
              match v with
              | Reply (Some e) => fun s => (Thrown (Some e), s)
              | Reply None => crun rty env l
              | _ => stuck
              end)
          | _ => stuck
          end
      end.
    Fixpoint params (l : list (string * cty)) (args : list val) : M (list (string * binding)) :=
      match l, args with
      | [], [] => ret []
      | (x, CRef _ _) :: l, Addr a :: args => bind (params l args) (fun env => ret ((x, BVar a) :: env))
      | (_, CRef _ _) :: _, _ => stuck
      | (x, _) :: l, v :: args => bind (alloc (Some v)) (fun n => bind (params l args) (fun env => ret ((x, BVar (Local n)) :: env)))
      | _, _ => stuck
      end.
    (** An exception that leaves a noexcept function ends the program. *)
    Definition run_cxx (f : cxx_fn) (args : list val) : M val := fun s =>
      match bind (params (cf_params f) args) (fun env => crun (cf_ret f) env (cf_body f)) s with
      | (Thrown e, s) => (if cf_noexcept f then Aborted else Thrown e, s)
      | r => r
      end.
  End Cxx.

  (** ** From one language to the other *)
  (** Exceptions must not enter Rust, nor panics C++. *)
  Definition no_exception {B} (m : M B) : M B := fun s => match m s with (Thrown _, s) => (Stuck, s) | r => r end.
  Definition no_panic {B} (m : M B) : M B := fun s => match m s with (Panicked, s) => (Stuck, s) | r => r end.
  Definition only {B} (x : string) (f : list val -> M B) : string -> list val -> M B := fun y => if String.eqb x y then f else fun _ => stuck.

  (** A C++ function is called from Rust through the wrapper [w] and the C++ function [c],
      which [w] calls by the name [x]. *)
  Definition rust_calls_cxx (x : string) (w : rust_fn) (c : cxx_fn) (args : list val) : M val :=
    run_rust (only x (fun vs => no_exception (run_cxx [] (fun _ _ => stuck) None c vs))) w args.
  (** A Rust function is called from C++ through the C++ function [c], which calls the
      symbol [x] with the declaration [d], the exported function [r], and the function
      [s] that [r] calls by the name [y] and that calls the function [z] of the user. *)
  Definition cxx_calls_rust (c : cxx_fn) (x : string) (d : cty * list cty) (r : rust_fn) (y : string) (s : rust_fn) (z : string)
      (this : option addr) (args : list val) : M val :=
    run_cxx [(x, d)]
      (only x (fun vs => no_panic (run_rust (only y (fun vs => run_rust (only z (fun vs => perform (CallRust z vs))) s vs)) r vs)))
      this c args.
  (** A function pointer of Rust is called from C++: include/cxx.h, rust::Fn calls the
      C++ function [c] and adds the pointer to the arguments *)
  Definition cxx_calls_pointer (c : cxx_fn) (x : string) (d : cty * list cty) (r : rust_fn) (f : F) (args : list val) : M val :=
    run_cxx [(x, d)] (only x (fun vs => no_panic (run_rust (fun _ _ => stuck) r vs))) None c (args ++ [Fun f]).

  (** * What a call amounts to *)
  (** A value that the user has of a type: references, pointers and boxes are addresses
      of objects of the user. *)
  Inductive fits : ty -> val -> Prop :=
  | fi_box t a : fits (TBox t) (BoxOf (Outer a))
  | fi_unique t a : fits (TUniquePtr t) (UniqueOf (Outer a))
  | fi_ref p m l t a : fits (TRef p m l t) (Addr (Outer a))
  | fi_ptr m t a : fits (TPtr m t) (Addr (Outer a))
  | fi_fn un th args r f : fits (TFn un th args r) (Fun f)
  | fi_data t d : match t with TBox _ | TUniquePtr _ | TRef _ _ _ _ | TPtr _ _ | TFn _ _ _ _ | TVoid => False | _ => True end -> fits t (Data d).
  Definition fits_ret (r : option ty) (v : val) : Prop := match r with Some t => fits t v | None => v = Unit end.
  (** In C++ a function pointer is a rust::Fn. *)
  Definition in_cxx (v : val) : val := match v with Fun f => FatOf f | _ => v end.
  (** What a Rust function returned: a value or, if it is fallible, an error. *)
  Definition answer (throws : bool) (v : val) : option (val + X) :=
    if throws then match v with Res r => Some r | _ => None end else Some (inl v).
  Definition receiver_fits (r : option receiver) (o : option A) : Prop := match r, o with Some _, Some _ | None, None => True | _, _ => False end.
End Semantics.
(** The Rust function of the user: beside the bridge module, or a method. *)
Definition rust_function (f : extern_fn) : string :=
  match fn_receiver f with
  | None => ("super::" ++ p_rust (fn_name f))%string
  | Some r => (n_rust (rc_ty r) ++ "::" ++ p_rust (fn_name f))%string
  end.
Arguments val : clear implicits. Arguments event : clear implicits. Arguments reply : clear implicits. Arguments state : clear implicits. Arguments result : clear implicits. Arguments addr : clear implicits. Arguments M : clear implicits.
Arguments Done {X B}. Arguments Thrown {X B}. Arguments Panicked {X B}. Arguments Aborted {X B}. Arguments Stuck {X B}.
