(** The lifetimes in the functions and implementations that the macro generates:
    syntax/tokens.rs 10-162, 244-280; macro/src/tokens.rs; macro/src/generics.rs;
    macro/src/expand.rs 460-499, 501-526, 735-786, 941-996, 1168-1246, 1865-1953.  Only the
    headers of functions and impl blocks; bodies are in Expr_Model. *)
From Verif Require Import Base Syntax_Model TypeEq_Model Types_Model Abi_Model.

(** Rust types as tokens, with all lifetimes (without the apostrophe; '_ is "_").  [LPath]
    also stands for raw pointers, arrays, slices, str and (), with the names "*mut", "[;]",
    "[]", "str", "()". *)
Inductive lty : Type :=
| LPath (x : string) (lts : list string) (args : list lty)
| LRef (lt : option string) (mutable : bool) (t : lty)
| LFnPtr (args : list lty) (ret : option lty).
Definition raw (m : bool) (t : lty) : lty := LPath (if m then "*mut" else "*const")%string [] [t].
Definition lib (x : string) (args : list lty) : lty := LPath ("::cxx::" ++ x)%string [] args.
Definition pin (pinned : bool) (t : lty) : lty := if pinned then lib "core::pin::Pin" [t] else t.
Definition c_void : lty := lib "core::ffi::c_void" [].

(** tokens.rs 10-40, 59-162, 249-280: ToTokens for Type, Ty1, Ref, Ptr, SliceRef, Array,
    Signature, NamedType *)
Fixpoint print_type (t : ty) : lty :=
  match t with
  | TIdent n =>
      LPath (if String.eqb (n_rust n) "c_char" then "::cxx::core::ffi::c_char"
             else if String.eqb (n_rust n) "CxxString" then "::cxx::CxxString"
             else if String.eqb (n_rust n) "String" then "::cxx::alloc::string::String"
             else n_rust n)%string (n_lts n) []
  | TBox t => lib "alloc::boxed::Box" [print_type t]
  | TVec t => lib "alloc::vec::Vec" [print_type t]
  | TUniquePtr t => lib "UniquePtr" [print_type t]
  | TSharedPtr t => lib "SharedPtr" [print_type t]
  | TWeakPtr t => lib "WeakPtr" [print_type t]
  | TCxxVector t => lib "CxxVector" [print_type t]
  | TRef p m l t => pin p (LRef l m (print_type t))
  | TPtr m t => raw m (print_type t)
  | TStr l => LRef l false (LPath "str" [] [])
  | TSlice m l t => LRef l m (LPath "[]" [] [print_type t])
  | TFn _ th args ret =>
      LFnPtr (map (fun a => print_type (snd a)) args)
        (if th then Some (LPath "Result" [] [match ret with Some r => print_type r | None => LPath "()" [] [] end]) else option_map print_type ret)
  | TVoid => LPath "()" [] []
  | TArray t _ => LPath "[;]" [] [print_type t]
  end%string.
(** expand.rs 1865-1935: expand_extern_type.  Ref drops the Pin of a pinned String or Vec. *)
Fixpoint extern_lty (T : types) (proper : bool) (t : ty) : lty :=
  match t with
  | TIdent n => if String.eqb (n_rust n) "String" then lib "private::RustString" [] else print_type t
  | TBox u | TUniquePtr u => raw true (if proper && is_considered_improper T u then c_void else extern_lty T proper u)
  | TVec u => lib "private::RustVec" [extern_lty T proper u]
  | TRef p m l u =>
      match u with
      | TVec v => LRef l m (lib "private::RustVec" [extern_lty T proper v])
      | _ => if is_rust_string u then LRef l m (lib "private::RustString" [])
             else if proper && is_considered_improper T u then raw m c_void
             else print_type t
      end
  | TPtr m u => if proper && is_considered_improper T u then raw m c_void else print_type t
  | TStr _ => lib "private::RustStr" []
  | TSlice _ _ _ => lib "private::RustSlice" []
  | _ => print_type t
  end.

(** A function: the enclosing impl block, if any (its lifetime parameters and its type), its
    own lifetime parameters, the type of self if it has one, the other parameters, the
    result *)
Record lfn : Type := LFn
  { l_impl : option (list string * lty); l_generics : list string; l_self : option lty; l_params : list lty; l_ret : option lty }.

(** macro/src/tokens.rs 21-47: ReceiverType *)
Definition receiver_ty (r : receiver) : lty := pin (rc_pinned r) (LRef (rc_lt r) (rc_mutable r) (LPath (n_rust (rc_ty r)) (n_lts (rc_ty r)) [])).
(** macro/src/tokens.rs 49-75, expand.rs 505-516: ReceiverTypeSelf, or &self *)
Definition receiver_self (r : receiver) : lty := pin (rc_pinned r) (LRef (rc_lt r) (rc_mutable r) (LPath "Self" [] [])).

(** expand.rs 501-526, 735-786: the function that Rust code calls.  The lifetime parameters of
    a method are those of the impl block. *)
Definition wrapper_fn (T : types) (f : extern_fn) : option lfn :=
  let params := map (fun a => print_type (snd a)) (fn_args f) in
  let ok := match fn_ret f with Some r => print_type r | None => LPath "()" [] [] end in
  let ret := if fn_throws f then Some (lib "core::result::Result" [ok; lib "Exception" []]) else option_map print_type (fn_ret f) in
  match fn_receiver f with
  | None => Some (LFn None (fn_generics f) None params ret)
  | Some r =>
      option_map (fun res : pair_name * list string =>
        let lts := match n_lts (rc_ty r) with [] => map (fun _ => "_"%string) (snd res) | l => l end in
        LFn (Some (fn_generics f, LPath (n_rust (rc_ty r)) lts [])) [] (Some (receiver_self r)) params ret)
      (try_resolve T (n_rust (rc_ty r)))
  end.

Section Functions.
  Context (fuel : nat) (T : types).
  Notation indirect := (needs_indirect_abi fuel T).
  Definition receivers (s : signature) : list lty := match sg_receiver s with Some r => [receiver_ty r] | None => [] end.
  (** expand.rs 1937-1953: expand_extern_return_type; 486-494, 1115-1120: outparam *)
  Definition extern_ret (proper : bool) (s : signature) : option (option lty) :=
    if sg_throws s then Some (Some (lib "private::Result" []))
    else match sg_ret s with
         | Some t => obind (indirect t) (fun b => Some (if b then None else Some (extern_lty T proper t)))
         | None => Some None
         end.
  Definition extern_outparam (proper : bool) (s : signature) : option (list lty) :=
    obind (indirect_return fuel T s) (fun b =>
      if b then option_map (fun r => [raw true (extern_lty T proper r)]) (sg_ret s) else Some []).
  (** expand.rs 466-480 *)
  Definition decl_param (t : ty) : option lty :=
    let e := extern_lty T true t in
    if is_rust_string t then Some (raw false e)
    else match t with
         | TVec _ => Some (raw false e)
         | TFn _ _ _ _ => Some (lib "private::FatFunction" [])
         | _ => obind (indirect t) (fun b => Some (if b then raw true e else e))
         end.
  (** expand.rs 987-996 *)
  Definition shim_param (t : ty) : option lty :=
    let e := extern_lty T false t in
    obind (indirect t) (fun b => Some (if b then raw true e else e)).
  Definition extern_fn_header (proper : bool) (param : ty -> option lty) (extra : list lty) (generics : list string) (s : signature) : option lfn :=
    obind (extern_ret proper s) (fun ret =>
    obind (otraverse (fun a => param (snd a)) (sg_args s)) (fun params =>
    obind (extern_outparam proper s) (fun out => Some (LFn None generics None (receivers s ++ params ++ out ++ extra) ret)))).
  (** expand.rs 460-499: expand_cxx_function_decl *)
  Definition decl_fn (f : extern_fn) : option lfn := extern_fn_header true decl_param [] (fn_generics f) (fn_sig f).
  (** expand.rs 941-996, 1168-1179: the exported function; in a trampoline for a function
      pointer with the lifetime parameters of the function that has it as parameter (788-824) *)
  Definition shim_fn (f : extern_fn) : option lfn := extern_fn_header false shim_param [] (fn_generics f) (fn_sig f).
  Definition trampoline_fn (f : extern_fn) (throws : bool) (args : list (string * ty)) (ret : option ty) : option lfn :=
    extern_fn_header false shim_param [raw false (LPath "()" [] [])] (fn_generics f) (ptr_sig throws args ret).
End Functions.

(** expand.rs 1183-1246: expand_rust_function_shim_super *)
Definition super_fn (f : extern_fn) : lfn :=
  let ok := match fn_ret f with Some r => print_type r | None => LPath "()" [] [] end in
  LFn None (fn_generics f) None (receivers (fn_sig f) ++ map (fun a => print_type (snd a)) (fn_args f))
    (if fn_throws f then Some (lib "core::result::Result" [ok; LPath "impl ::cxx::core::fmt::Display" [] []]) else option_map print_type (fn_ret f)).

(** macro/src/generics.rs 19-63 with parse.rs 1060-1078: the lifetime parameters and the type
    of the implementation for an instantiation *)
Definition impl_header (T : types) (i : impl_key * option impl_) : option (list string * lty) :=
  match snd i with
  | Some imp =>
      let args := match im_ty imp with
                  | TBox (TIdent n) | TVec (TIdent n) | TUniquePtr (TIdent n) | TSharedPtr (TIdent n) | TWeakPtr (TIdent n) | TCxxVector (TIdent n) => n_lts n
                  | _ => []
                  end in
      Some (im_lts imp, LPath (snd (fst i)) args [])
  | None => option_map (fun res : pair_name * list string => (snd res, LPath (snd (fst i)) (snd res) [])) (try_resolve T (snd (fst i)))
  end.
