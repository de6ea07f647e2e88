(** The Rust functions written by macro/src/expand.rs, as expressions: the wrapper of a
    C++ function (501-785), the exported function for a Rust function or a function
    pointer (966-1179) and the function between the two (1183-1246).
    Not represented: attributes, visibility, generics and lifetimes, spans, and the
    `unsafe` blocks (all of the code runs in an unsafe context: 731 and the `unsafe
    extern "C" fn` of 1169). *)
From Verif Require Import Base Syntax_Model Types_Model Mangle_Model Abi_Model Names_Model.

(** * Rust types, with Pin *)
Inductive xty : Type :=
| XIdent (x : string)                   (* a primitive or a type of the bridge *)
| XBox (t : xty) | XVec (t : xty) | XUnique (t : xty) | XShared (t : xty) | XWeak (t : xty) | XVector (t : xty)
| XRef (mutable : bool) (t : xty)
| XPin (t : xty)
| XPtr (mutable : bool) (t : xty)
| XStr                                  (* &str *)
| XSlice (mutable : bool) (t : xty)     (* &[t], &mut [t] *)
| XFn (unsafety : bool) (args : list xty) (ret : xty)
| XUnit
| XArray (t : xty) (len : N)
| XRustString | XRustVec (t : xty) | XRustStr | XRustSlice | XFat
| XVoid                                 (* c_void *)
| XUninit (t : xty)                     (* MaybeUninit<t> *)
| XReply                                (* ::cxx::private::Result *)
| XResult (t : xty).                    (* core::result::Result<t, _>, with an error that is Display *)

(** syntax/tokens.rs 10-157, 227-264 *)
Definition x_ref (pinned mutable : bool) (t : xty) : xty := if pinned then XPin (XRef mutable t) else XRef mutable t.
Fixpoint x_type (t : ty) : xty :=
  match t with
  | TIdent n => XIdent (n_rust n)
  | TBox t => XBox (x_type t)
  | TVec t => XVec (x_type t)
  | TUniquePtr t => XUnique (x_type t)
  | TSharedPtr t => XShared (x_type t)
  | TWeakPtr t => XWeak (x_type t)
  | TCxxVector t => XVector (x_type t)
  | TRef p m _ t => x_ref p m (x_type t)
  | TPtr m t => XPtr m (x_type t)
  | TStr _ => XStr
  | TSlice m _ t => XSlice m (x_type t)
  | TFn un th args ret =>
      let r := match ret with Some r => x_type r | None => XUnit end in
      XFn un (map (fun a => x_type (snd a)) args) (if th then XResult r else r)
  | TArray t len => XArray (x_type t) len
  | TVoid => XUnit
  end.
(** expand.rs 1865-1944: expand_extern_type, the same as in Abi_Model with Pin *)
Fixpoint x_extern (T : types) (proper : bool) (t : ty) : xty :=
  match t with
  | TIdent n => if String.eqb (n_rust n) "String" then XRustString else x_type t
  | TBox u | TUniquePtr u =>
      if proper && is_considered_improper T u then XPtr true XVoid
      else XPtr true (x_extern T proper u)
  | TVec u => XRustVec (x_extern T proper u)
  | TRef _ m _ u =>
      match u with
      | TVec v => XRef m (XRustVec (x_extern T proper v))
      | _ => if is_rust_string u then XRef m XRustString
             else if proper && is_considered_improper T u then XPtr m XVoid
             else x_type t
      end
  | TPtr m u => if proper && is_considered_improper T u then XPtr m XVoid else x_type t
  | TStr _ => XRustStr
  | TSlice _ _ _ => XRustSlice
  | _ => x_type t
  end.

(** * Expressions *)
(** Operations on one value.  [m]: the variant for a mutable reference. *)
Inductive conv : Type :=
| KNew                                  (* MaybeUninit::new(e) *)
| KMutPtr                               (* e.as_mut_ptr() *)
| KInit                                 (* e.assume_init() *)
| KAsString                             (* e as *const RustString *)
| KAsVec                                (* e as *const RustVec<_> *)
| KAsPtr (m : bool) (t : xty)           (* e as *const t, e as *mut t *)
| KAsVoid (m : bool)                    (* e as *const c_void, e as *mut c_void *)
| KCast                                 (* e.cast() *)
| KBoxRaw | KBoxFrom                    (* Box::into_raw(e), Box::from_raw(e) *)
| KUniqueRaw | KUniqueFrom              (* UniquePtr::into_raw(e), UniquePtr::from_raw(e) *)
| KPinInner | KPinNew                   (* Pin::into_inner_unchecked(e), Pin::new_unchecked(e) *)
| KReborrow (m : bool)                  (* &*e, &mut *e *)
| KDeref                                (* ( *e), followed by a method call *)
| KTake                                 (* mem::take(e) *)
| KRead                                 (* ptr::read(e) *)
| KStringFrom | KStringRef (m : bool)   (* RustString::from, from_ref, from_mut *)
| KIntoString | KAsStr_ing (m : bool)   (* e.into_string(), as_string(), as_mut_string() *)
| KVecFrom | KVecRef (m : bool)         (* RustVec::from, from_ref, from_mut *)
| KIntoVec | KAsVec_ (m : bool)         (* e.into_vec(), as_vec(), as_mut_vec() *)
| KVecStringFrom | KVecStringRef (m : bool)     (* RustVec::from_vec_string, … *)
| KIntoVecString | KAsVecString (m : bool)      (* e.into_vec_string(), … *)
| KStrFrom | KAsStr                     (* RustStr::from(e), e.as_str() *)
| KSliceFrom (m : bool)                 (* RustSlice::from_ref(e), from_mut(e) *)
| KAsSlice (m : bool) (t : xty)         (* e.as_slice::<t>(), e.as_mut_slice::<t>() *)
| KFat                                  (* FatFunction { trampoline, ptr: e as usize as *const c_void } *)
| KTransmute (t : xty)                  (* mem::transmute::<*const (), t>(e) *)
| KException                            (* e.exception() *)
| KOk.                                  (* Result::Ok(e) *)

Inductive rexp : Type :=
| EVar (x : string)
| EConv (k : conv) (e : rexp)
| EUninit (t : xty)                     (* MaybeUninit::<t>::uninit() *)
| EUnitSlot                             (* &mut () *)
| ECall (f : string) (args : list rexp)
| ECallPtr (f : rexp) (args : list rexp)
| EMap (e : rexp) (k : conv)            (* Result::map(e, k) *)
| ETry (out e : rexp)                   (* ::cxx::private::r#try(out, e) *)
| EWrite (out e : rexp)                 (* ptr::write(out, e) *)
| EGuard (e : rexp)                     (* prevent_unwind(__fn, move || e) *)
| EGuardFn (f : string).                (* prevent_unwind(__fn, f) *)

Inductive rstmt : Type :=
| SLet (x : string) (e : rexp)
| SLabel                                (* let __fn = concat!(module_path!(), …); *)
| SDo (e : rexp)
| SQuestion (e : rexp).                 (* e?; *)

(** A function: its parameters and result, the functions it can call by name (whether
    unsafe, their parameters and result), its statements and its value. *)
Record fsig : Type := FSig { fs_unsafe : bool; fs_params : list xty; fs_ret : xty }.
Record rust_fn : Type := RustFn
  { rf_params : list (string * xty); rf_ret : xty; rf_callees : list (string * fsig);
    rf_stmts : list rstmt; rf_value : rexp }.

Section Code.
  Context (fuel : nat) (T : types).
  Notation indirect := (needs_indirect_abi fuel T).
  Notation improper := (is_considered_improper T).

  Definition x_ret (ret : option ty) : xty := match ret with Some t => x_type t | None => XUnit end.
  (** macro/src/tokens.rs 11-60: Receiver::ty, Receiver::ty_self *)
  Definition x_receiver (r : receiver) : xty := x_ref (rc_pinned r) (rc_mutable r) (XIdent (n_rust (rc_ty r))).
  Definition x_receivers (x : string) (s : signature) : list (string * xty) :=
    match sg_receiver s with Some r => [(x, x_receiver r)] | None => [] end.
  Definition x_args (s : signature) : list (string * xty) := map (fun a => (fst a, x_type (snd a))) (sg_args s).
  (** expand.rs 1946-1953 *)
  Definition x_extern_return (proper : bool) (s : signature) : option xty :=
    if sg_throws s then Some XReply
    else match sg_ret s with
         | Some t => option_map (fun b : bool => if b then XUnit else x_extern T proper t) (indirect t)
         | None => Some XUnit
         end.
  Definition x_outparam (proper : bool) (s : signature) : option (list xty) :=
    obind (indirect_return fuel T s) (fun b =>
      if b then match sg_ret s with
                | Some r => Some [XPtr true (x_extern T proper r)]
                | None => None
                end
      else Some []).

  (** ** The wrapper of a C++ function *)
  (** expand.rs 460-499: the declaration of the C++ function *)
  Definition decl_arg (t : ty) : option xty :=
    let e := x_extern T true t in
    if is_rust_string t then Some (XPtr false e)
    else match t with
         | TVec _ => Some (XPtr false e)
         | TFn _ _ _ _ => Some XFat
         | _ => option_map (fun b : bool => if b then XPtr true e else e) (indirect t)
         end.
  Definition cxx_decl (s : signature) : option fsig :=
    obind (x_extern_return true s) (fun ret =>
    obind (otraverse (fun a => decl_arg (snd a)) (sg_args s)) (fun args =>
    obind (x_outparam true s) (fun out =>
      Some (FSig true (map snd (x_receivers "" s) ++ args ++ out) ret)))).

  (** expand.rs 534-599: arg_vars *)
  Definition wrapper_arg (x : string) (t : ty) : option rexp :=
    let v := EVar x in
    if is_rust_string t then Some (EConv KAsString (EConv KMutPtr v)) else
    match t with
    | TBox u => Some (if improper u then EConv KCast (EConv KBoxRaw v) else EConv KBoxRaw v)
    | TUniquePtr u => Some (if improper u then EConv KCast (EConv KUniqueRaw v) else EConv KUniqueRaw v)
    | TVec _ => Some (EConv KAsVec (EConv KMutPtr v))
    | TRef p m _ u =>
        Some (if is_rust_string u then EConv (KStringRef m) v else
              match u with
              | TVec w => if is_rust_string w then EConv (KVecStringRef m) v else EConv (KVecRef m) v
              | _ => if improper u
                     then EConv (KAsVoid m) (EConv (KAsPtr m (x_type u)) (if p then EConv KPinInner v else v))
                     else v
              end)
    | TPtr _ u => Some (if improper u then EConv KCast v else v)
    | TStr _ => Some (EConv KStrFrom v)
    | TSlice m _ _ => Some (EConv (KSliceFrom m) v)
    | _ => option_map (fun b : bool => if b then EConv KMutPtr v else v) (indirect t)
    end.
  (** expand.rs 601-611 with 804-822: the trampolines *)
  Definition trampolines (args : list (string * ty)) : list rstmt :=
    flat_map (fun a => match snd a with
                       | TFn _ _ _ _ => [SLet (fst a) (EConv KFat (EVar (fst a)))]
                       | _ => []
                       end) args.
  (** expand.rs 612-626: setup *)
  Fixpoint setup (args : list (string * ty)) : option (list rstmt) :=
    match args with
    | [] => Some []
    | (x, t) :: args =>
        obind (indirect t) (fun b =>
          option_map (app (when b [SLet x (EConv KNew (EVar x))])) (setup args))
    end.
  (** expand.rs 656-724: the result *)
  Definition wrapper_ret (t : ty) (call : rexp) : rexp :=
    if is_rust_string t then EConv KIntoString call else
    match t with
    | TBox u => if improper u then EConv KBoxFrom (EConv KCast call) else EConv KBoxFrom call
    | TVec u => if is_rust_string u then EConv KIntoVecString call else EConv KIntoVec call
    | TUniquePtr u => if improper u then EConv KUniqueFrom (EConv KCast call) else EConv KUniqueFrom call
    | TRef p m _ u =>
        if is_rust_string u then EConv (KAsStr_ing m) call else
        match u with
        | TVec w => if is_rust_string w then EConv (KAsVecString m) call else EConv (KAsVec_ m) call
        | _ => if improper u
               then let r := EConv (KReborrow m) (EConv KCast call) in if p then EConv KPinNew r else r
               else call
        end
    | TPtr _ u => if improper u then EConv KCast call else call
    | TStr _ => EConv KAsStr call
    | TSlice m _ u => EConv (KAsSlice m (x_type u)) call
    | _ => call
    end.

  (** expand.rs 501-785: expand_cxx_function_shim *)
  Definition cxx_wrapper (f : extern_fn) : option rust_fn :=
    let s := fn_sig f in
    let local := ("__" ++ p_rust (fn_name f))%string in
    obind (cxx_decl s) (fun decl =>
    obind (otraverse (fun a => wrapper_arg (fst a) (snd a)) (fn_args f)) (fun args =>
    obind (setup (fn_args f)) (fun setup =>
    obind (indirect_return fuel T s) (fun out =>
      let vars := when (is_some (fn_receiver f)) [EVar "self"] ++ args in
      let '(more, call) :=
        match fn_ret f, out with
        | Some r, true =>
            let call := ECall local (vars ++ [EConv KMutPtr (EVar "__return")]) in
            ([SLet "__return" (EUninit (x_extern T true r));
              if fn_throws f then SQuestion (EConv KException call) else SDo call],
             EConv KInit (EVar "__return"))
        | _, _ =>
            let call := ECall local vars in
            ([], if fn_throws f then EConv KException call else call)
        end in
      let value :=
        match fn_ret f with
        | None => call
        | Some r => let e := wrapper_ret r call in if fn_throws f then EConv KOk e else e
        end in
      Some (RustFn (x_receivers "self" s ++ x_args s)
                   (if fn_throws f then XResult (x_ret (fn_ret f)) else x_ret (fn_ret f))
                   [(local, decl)]
                   (trampolines (fn_args f) ++ setup ++ more) value))))).

  (** ** The exported function *)
  (** expand.rs 987-996 *)
  Definition shim_arg (t : ty) : option xty :=
    option_map (fun b : bool => let e := x_extern T false t in if b then XPtr true e else e) (indirect t).
  (** expand.rs 1000-1056: arg_vars *)
  Definition shim_var (x : string) (t : ty) : option rexp :=
    let v := EVar x in
    if is_rust_string t then Some (EConv KTake (EConv (KAsStr_ing true) (EConv KDeref v))) else
    match t with
    | TBox _ => Some (EConv KBoxFrom v)
    | TVec u => Some (if is_rust_string u then EConv KTake (EConv (KAsVecString true) (EConv KDeref v))
                      else EConv KTake (EConv (KAsVec_ true) (EConv KDeref v)))
    | TUniquePtr _ => Some (EConv KUniqueFrom v)
    | TRef _ m _ u =>
        Some (if is_rust_string u then EConv (KAsStr_ing m) v else
              match u with
              | TVec w => if is_rust_string w then EConv (KAsVecString m) v else EConv (KAsVec_ m) v
              | _ => v
              end)
    | TStr _ => Some (EConv KAsStr v)
    | TSlice m _ u => Some (EConv (KAsSlice m (x_type u)) v)
    | _ => option_map (fun b : bool => if b then EConv KRead v else v) (indirect t)
    end.
  (** expand.rs 1078-1113: conversion *)
  Definition shim_conv (t : ty) : option conv :=
    if is_rust_string t then Some KStringFrom else
    match t with
    | TBox _ => Some KBoxRaw
    | TVec u => Some (if is_rust_string u then KVecStringFrom else KVecFrom)
    | TUniquePtr _ => Some KUniqueRaw
    | TRef _ m _ u =>
        if is_rust_string u then Some (KStringRef m) else
        match u with
        | TVec w => Some (if is_rust_string w then KVecStringRef m else KVecRef m)
        | _ => None
        end
    | TStr _ => Some KStrFrom
    | TSlice m _ _ => Some (KSliceFrom m)
    | _ => None
    end.

  (** expand.rs 966-1179: expand_rust_function_shim_impl.  [invoke]: local_name and
      whether the function is unsafe, or the type of the function pointer. *)
  Definition rust_shim (s : signature) (invoke : (string * bool) + xty) : option rust_fn :=
    obind (x_extern_return false s) (fun ret =>
    obind (otraverse (fun a => option_map (pair (fst a)) (shim_arg (snd a))) (sg_args s)) (fun params =>
    obind (otraverse (fun a => shim_var (fst a) (snd a)) (sg_args s)) (fun vars =>
    obind (x_outparam false s) (fun out =>
      let vars := when (is_some (sg_receiver s)) [EVar "__self"] ++ vars in
      let user := if sg_throws s then XResult (x_ret (sg_ret s)) else x_ret (sg_ret s) in
      let call := match invoke with
                  | inl (local, _) => ECall local vars
                  | inr t => ECallPtr (EConv (KTransmute t) (EVar "__extern")) vars
                  end in
      let conversion := obind (sg_ret s) shim_conv in
      let expr := match conversion with
                  | None => call
                  | Some k => if sg_throws s then EMap call k else EConv k call
                  end in
      let expr := if sg_throws s
                  then ETry (match sg_ret s with Some _ => EVar "__return" | None => EUnitSlot end) expr
                  else match out with [] => expr | _ => EWrite (EVar "__return") expr end in
      let closure :=
        match invoke with
        | inl (local, _) =>
            negb (match vars with [] => true | _ => false end) || is_some conversion || sg_throws s
              || match out with [] => false | _ => true end
        | inr _ => true
        end in
      Some (RustFn (x_receivers "__self" s ++ params ++ map (pair "__return"%string) out
                      ++ match invoke with inl _ => [] | inr _ => [("__extern"%string, XPtr false XUnit)] end)
                   ret
                   (match invoke with
                    | inl (local, un) => [(local, FSig un (map snd (x_receivers "" s ++ x_args s)) user)]
                    | inr _ => []
                    end)
                   [SLabel]
                   (if closure then EGuard expr
                    else match invoke with inl (local, _) => EGuardFn local | inr _ => EGuard expr end)))))).
  (** expand.rs 941-964 *)
  Definition rust_fn_shim (f : extern_fn) : option rust_fn :=
    rust_shim (fn_sig f) (inl (rust_local_name f, fn_unsafe f)).
  (** expand.rs 787-803 *)
  Definition trampoline_shim (un th : bool) (args : list (string * ty)) (ret : option ty) : option rust_fn :=
    rust_shim (ptr_sig th args ret) (inr (x_type (TFn un th args ret))).

  (** expand.rs 1183-1246: expand_rust_function_shim_super; [invoke]: the function of
      the user, with the declared signature *)
  Definition rust_super (f : extern_fn) : rust_fn :=
    let s := fn_sig f in
    let user := if fn_throws f then XResult (x_ret (fn_ret f)) else x_ret (fn_ret f) in
    let params := x_receivers "__self" s ++ x_args s in
    let invoke := match fn_receiver f with
                  | None => ("super::" ++ p_rust (fn_name f))%string
                  | Some r => (n_rust (rc_ty r) ++ "::" ++ p_rust (fn_name f))%string
                  end in
    RustFn params user [(invoke, FSig (fn_unsafe f) (map snd params) user)] []
      (ECall invoke (when (is_some (fn_receiver f)) [EVar "__self"] ++ map (fun a => EVar (fst a)) (fn_args f))).
End Code.
