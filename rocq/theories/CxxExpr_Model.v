(** The C++ functions that gen/src/write.rs writes for the functions and callbacks of a
    bridge: 735-900 (write_cxx_function_shim) and 1004-1173
    (write_rust_function_shim_decl, write_rust_function_shim_impl).  The functions are
    modelled as abstract syntax; how types are written is C81, the names of the symbols
    are C12, documentation comments are C78. *)
From Verif Require Import Base Syntax_Model Types_Model Mangle_Model Abi_Model.

(** * C++ *)
Inductive cexp : Type :=
| CxVar (x : string)
| CxThis                                        (* *this *)
| CxValue (x : string)                          (* x.value *)
| CxDeref (e : cexp)                            (* *e *)
| CxAddr (e : cexp)                             (* &e *)
| CxMove (e : cexp)                             (* ::std::move(e) *)
| CxFromRaw (t : cty) (e : cexp)                (* T::from_raw(e) *)
| CxConstruct (t : cty) (e : cexp)              (* T(e) *)
| CxBitcopy (t : cty) (e : cexp)                (* T(::rust::unsafe_bitcopy, e) *)
| CxIntoRaw (e : cexp)                          (* e.into_raw() *)
| CxRelease (e : cexp)                          (* e.release() *)
| CxStrRepr (e : cexp)                          (* ::rust::impl<::rust::Str>::repr(e) *)
| CxStrNew (e : cexp)                           (* ::rust::impl<::rust::Str>::new_unchecked(e) *)
| CxSliceRepr (t : cty) (e : cexp)              (* ::rust::impl<T>::repr(e) *)
| CxSliceNew (t : cty) (e : cexp)               (* ::rust::impl<T>::slice(e) *)
| CxCall (f : string) (args : list cexp)        (* f(args) *)
| CxMember (e : cexp) (f : string) (args : list cexp)   (* (e.*f)(args) *)
| CxNew (slot : cexp) (t : cty) (e : cexp).     (* new (slot) T(e) *)

(** A member function: whether it is const, and its class. *)
Definition member : Type := option (bool * cty).

Inductive cstmt : Type :=
| CsFnPtr (f : string) (m : member) (ret : cty) (params : list cty) (target : string)
    (* R ( *f)(P) = target; or R (C::*f)(P) const = &target; *)
| CsManual (t : cty) (y x : string)             (* ::rust::ManuallyDrop<T> y(::std::move(x)); *)
| CsUninit (t : cty) (x : string)               (* ::rust::MaybeUninit<T> x; *)
| CsLet (t : cty) (x : string) (e : cexp)       (* T x = e; *)
| CsDeclare (t : cty) (x : string)              (* T x; *)
| CsDo (e : cexp)
| CsReturn (e : cexp)
| CsTry (e : cexp) (x : string)
    (* ::rust::behavior::trycatch([&] { e; x.ptr = nullptr; }, ::rust::detail::Fail(x)); *)
| CsThrowIf (x : string).
    (* if (x.ptr) { throw ::rust::impl<::rust::Error>::error(x); } *)

(** [cf_this]: a member function. *)
Record cxx_fn : Type := CxxFn
  { cf_this : member; cf_ret : cty; cf_params : list (string * cty); cf_noexcept : bool; cf_body : list cstmt }.

Section Code.
  Context (fuel : nat) (T : types).
  Notation indirect := (needs_indirect_abi fuel T).

  (** write.rs 1177-1182: write_return_type *)
  Definition return_type (ret : option ty) : option cty :=
    match ret with None => Some CVoid | Some t => cxx_type T t end.
  (** The class of a receiver, 750-756, 798-808. *)
  Definition receiver_class (s : signature) : option member :=
    match sg_receiver s with
    | None => Some None
    | Some r => option_map (fun p => Some (negb (rc_mutable r), CNamed p)) (resolve_name T (n_rust (rc_ty r)))
    end.
  (** names.rs 7-13: to_fully_qualified *)
  Definition qualified_name (p : pair_name) : string :=
    (fold_right (fun s acc => "::" ++ s ++ acc) "" (p_ns p) ++ "::" ++ p_cxx p)%string.

  (** ** A C++ function *)
  (** write.rs 852-879: an argument of the call *)
  Definition pass_arg (x : string) (t : ty) : option cexp :=
    match t with
    | TBox _ => option_map (fun c => CxFromRaw c (CxVar x)) (cxx_type T t)
    | TUniquePtr _ => option_map (fun c => CxConstruct c (CxVar x)) (cxx_type T t)
    | _ =>
        if is_rust_string t then Some (CxBitcopy (CAtom ARustString) (CxDeref (CxVar x))) else
        match t with
        | TVec _ => option_map (fun c => CxBitcopy c (CxDeref (CxVar x))) (cxx_type T t)
        | _ => option_map (fun b : bool => if b then CxMove (CxDeref (CxVar x)) else CxVar x) (indirect t)
        end
    end.
  (** write.rs 834-846, 881-886: around the call; [slot]: indirect_return *)
  Definition pass_result (slot : bool) (ret : option ty) (call : cexp) : option cexp :=
    match ret with
    | Some (TRef _ _ _ _) => Some (CxAddr call)
    | Some (TStr _) => Some (if slot then call else CxStrRepr call)
    | Some (TSlice m l u) => if slot then Some call else option_map (fun c => CxSliceRepr c call) (cxx_type T (TSlice m l u))
    | Some (TBox _) => Some (CxIntoRaw call)
    | Some (TUniquePtr _) => Some (CxRelease call)
    | _ => Some call
    end.
  (** write.rs 735-890.  The callbacks are separate functions (891-896). *)
  Definition cxx_shim (f : extern_fn) : option cxx_fn :=
    let s := fn_sig f in
    let ptr := (p_rust (fn_name f) ++ "$")%string in
    obind (cxx_return fuel T s) (fun ret =>
    obind (cxx_receivers T s) (fun self =>
    obind (otraverse (fun a => option_map (pair (fst a)) (cxx_shim_arg fuel T (snd a))) (fn_args f)) (fun params =>
    obind (cxx_outparam fuel T (cxx_indirect_return_type T) s) (fun out =>
    obind (receiver_class s) (fun m =>
    obind (return_type (fn_ret f)) (fun uret =>
    obind (otraverse (fun a => cxx_type T (snd a)) (fn_args f)) (fun uargs =>
    obind (otraverse (fun a => pass_arg (fst a) (snd a)) (fn_args f)) (fun args =>
    obind (indirect_return fuel T s) (fun slot =>
      let target := match m with
                    | None => qualified_name (fn_name f)
                    | Some (_, CNamed p) => (qualified_name p ++ "::" ++ p_cxx (fn_name f))%string
                    | Some _ => ""%string
                    end in
      let call := match m with
                  | None => CxCall ptr args
                  | Some _ => CxMember (CxVar "self") ptr args
                  end in
    obind (pass_result slot (fn_ret f) call) (fun e =>
    obind (if slot then match fn_ret f with
                        | Some r => option_map (fun c => CxNew (CxVar "return$") c e) (cxx_indirect_return_type T r)
                        | None => None
                        end
           else Some e) (fun e =>
      let body :=
        if fn_throws f then [CsDeclare CPtrLen "throw$"; CsTry e "throw$"; CsReturn (CxVar "throw$")]
        else match fn_ret f with
             | Some _ => if slot then [CsDo e] else [CsReturn e]
             | None => [CsDo e]
             end in
      Some (CxxFn None ret
              (map (pair "self"%string) self ++ params ++ map (pair "return$"%string) out) true
              (CsFnPtr ptr m uret uargs target :: body))))))))))))).

  (** ** A Rust function *)
  (** write.rs 1058-1066 *)
  Fixpoint manual (args : list (string * ty)) : option (list cstmt) :=
    match args with
    | [] => Some []
    | (x, t) :: args =>
        obind (if is_rust_string t then Some false else indirect t) (fun b : bool =>
        obind (if b then option_map (fun c => [CsManual c (x ++ "$") x]) (cxx_type T t) else Some []) (fun l =>
          option_map (app l) (manual args)))
    end.
  (** write.rs 1119-1134 *)
  Definition hand_arg (x : string) (t : ty) : option cexp :=
    obind (indirect t) (fun b : bool =>
      let e := match t with
               | TBox _ => CxIntoRaw (CxVar x)
               | TUniquePtr _ => CxRelease (CxVar x)
               | _ => if negb (is_rust_string t) && b then CxValue (x ++ "$") else CxVar x
               end in
      Some (if b then CxAddr e else e)).
  (** write.rs 1084-1108, 1149-1155: around the call, when the result is returned directly *)
  Definition take_result (ret : option ty) (call : cexp) : option cexp :=
    match ret with
    | Some (TBox u) => option_map (fun c => CxFromRaw (CBox c) call) (cxx_type T u)
    | Some (TUniquePtr u) => option_map (fun c => CxConstruct (CUnique c) call) (cxx_type T u)
    | Some (TRef _ _ _ _) => Some (CxDeref call)
    | Some (TStr _) => Some (CxStrNew call)
    | Some (TSlice m l u) => option_map (fun c => CxSliceNew c call) (cxx_type T (TSlice m l u))
    | _ => Some call
    end.
  (** write.rs 1004-1173.  [invoke]: the symbol; [callback]: indirect_call. *)
  Definition cxx_rust_shim (s : signature) (invoke : string) (callback : bool) : option cxx_fn :=
    obind (receiver_class s) (fun m =>
    obind (return_type (sg_ret s)) (fun ret =>
    obind (otraverse (fun a => option_map (pair (fst a)) (cxx_type T (snd a))) (sg_args s)) (fun params =>
    obind (manual (sg_args s)) (fun drops =>
    obind (indirect_return fuel T s) (fun slot =>
    obind (if slot then match sg_ret s with
                        | Some r => option_map (fun c => [CsUninit c "return$"]) (cxx_decl_return_type T r)
                        | None => None
                        end
           else Some []) (fun uninit =>
    obind (otraverse (fun a => hand_arg (fst a) (snd a)) (sg_args s)) (fun args =>
      let call := CxCall invoke (when (is_some m) [CxThis] ++ args ++ when slot [CxAddr (CxValue "return$")]
                                   ++ when callback [CxVar "extern$"]) in
    obind (if slot then Some call else take_result (sg_ret s) call) (fun e =>
      let run :=
        if sg_throws s then [CsLet CPtrLen "error$" e; CsThrowIf "error$"]
        else if slot then [CsDo e]
        else match sg_ret s with Some _ => [CsReturn e] | None => [CsDo e] end in
      let result :=
        if slot then match sg_ret s with
                     | Some (TRef _ _ _ _) => [CsReturn (CxDeref (CxValue "return$"))]
                     | _ => [CsReturn (CxMove (CxValue "return$"))]
                     end
        else [] in
      Some (CxxFn m ret (params ++ when callback [("extern$", CPtr false CVoid)]) (negb (sg_throws s))
              (drops ++ uninit ++ run ++ result)))))))))).
End Code.
