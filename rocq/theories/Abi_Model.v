(** Types and signatures as written by the two generators: gen/src/write.rs and
    macro/src/expand.rs. *)
From Verif Require Import Base Syntax_Model Types_Model Mangle_Model.

Definition obind {A B} (o : option A) (f : A -> option B) : option B := match o with Some a => f a | None => None end.
Definition otraverse {A B} (f : A -> option B) : list A -> option (list B) :=
  fix go l := match l with
              | [] => Some []
              | a :: l => obind (f a) (fun b => option_map (cons b) (go l))
              end.

(** * C++ types, as text of the generated code *)
(** [CNamed p]: the fully qualified name of [p] (names.rs 7-13). *)
Inductive cty : Type :=
| CNamed (p : pair_name)
| CAtom (a : atom)
| CBox (t : cty) | CVec (t : cty) | CUnique (t : cty) | CShared (t : cty) | CWeak (t : cty) | CVector (t : cty)
| CRef (const : bool) (t : cty)
| CPtr (const : bool) (t : cty)
| CStr
| CSlice (const : bool) (t : cty)
| CFn (args : list cty) (ret : option cty)
| CArray (t : cty) (len : N)
| CFat                                  (* ::rust::repr::Fat *)
| CPtrLen                               (* ::rust::repr::PtrLen *)
| CVoid.

(** write.rs 1261-1345: write_type; [None]: a panic (a name that does not resolve, or
    the unreachable!() for the unit type).  The C++ name of an atom (write_atom,
    1347-1366) is left symbolic. *)
Fixpoint cxx_type (T : types) (t : ty) : option cty :=
  match t with
  | TIdent n =>
      match atom_from_str (n_rust n) with
      | Some a => Some (CAtom a)
      | None => option_map CNamed (resolve_name T (n_rust n))
      end
  | TBox t => option_map CBox (cxx_type T t)
  | TVec t => option_map CVec (cxx_type T t)
  | TUniquePtr t => option_map CUnique (cxx_type T t)
  | TSharedPtr t => option_map CShared (cxx_type T t)
  | TWeakPtr t => option_map CWeak (cxx_type T t)
  | TCxxVector t => option_map CVector (cxx_type T t)
  | TRef _ m _ t => option_map (CRef (negb m)) (cxx_type T t)
  | TPtr m t => option_map (CPtr (negb m)) (cxx_type T t)
  | TStr _ => Some CStr
  | TSlice m _ t => option_map (CSlice (negb m)) (cxx_type T t)
  | TFn _ _ args ret =>
      obind (otraverse (fun a => cxx_type T (snd a)) args)
        (fun cs => option_map (CFn cs) (match ret with
                                        | Some r => option_map Some (cxx_type T r)
                                        | None => Some None
                                        end))
  | TArray t len => option_map (fun c => CArray c len) (cxx_type T t)
  | TVoid => None
  end.

(** * Rust types, as tokens of the expansion *)
Inductive rty : Type :=
| RIdent (x : string)                   (* a primitive or a type of the bridge *)
| RBox (t : rty) | RVec (t : rty) | RUnique (t : rty) | RShared (t : rty) | RWeak (t : rty) | RVector (t : rty)
| RRef (mutable : bool) (t : rty)       (* also Pin<&mut t> *)
| RPtr (mutable : bool) (t : rty)
| RStrRef
| RSliceRef (mutable : bool) (t : rty)
| RFn (args : list rty) (ret : option rty)
| RUnit
| RArray (t : rty) (len : N)
| RRustString                           (* ::cxx::private::RustString *)
| RRustVec (t : rty)                    (* ::cxx::private::RustVec *)
| RRustStr                              (* ::cxx::private::RustStr *)
| RRustSlice                            (* ::cxx::private::RustSlice *)
| RFatFunction                          (* ::cxx::private::FatFunction *)
| RResult                               (* ::cxx::private::Result *)
| RCVoid.                               (* ::cxx::core::ffi::c_void *)

(** syntax/tokens.rs 10-157, 227-264: ToTokens for Type.  The paths prefixed to the
    names of library types, the lifetimes and Pin<…> are not represented. *)
Fixpoint quote_type (t : ty) : rty :=
  match t with
  | TIdent n => RIdent (n_rust n)
  | TBox t => RBox (quote_type t)
  | TVec t => RVec (quote_type t)
  | TUniquePtr t => RUnique (quote_type t)
  | TSharedPtr t => RShared (quote_type t)
  | TWeakPtr t => RWeak (quote_type t)
  | TCxxVector t => RVector (quote_type t)
  | TRef _ m _ t => RRef m (quote_type t)
  | TPtr m t => RPtr m (quote_type t)
  | TStr _ => RStrRef
  | TSlice m _ t => RSliceRef m (quote_type t)
  | TFn _ _ args ret => RFn (map (fun a => quote_type (snd a)) args) (option_map quote_type ret)
  | TArray t len => RArray (quote_type t) len
  | TVoid => RUnit
  end.

(** impls.rs / atom.rs 101-113: `ty == RustString` *)
Definition is_rust_string (t : ty) : bool :=
  match t with TIdent n => String.eqb (n_rust n) "String" | _ => false end.

(** expand.rs 1865-1944: expand_extern_type *)
Fixpoint expand_extern_type (T : types) (proper : bool) (t : ty) : rty :=
  match t with
  | TIdent n => if String.eqb (n_rust n) "String" then RRustString else quote_type t
  | TBox u | TUniquePtr u =>
      if proper && is_considered_improper T u then RPtr true RCVoid
      else RPtr true (expand_extern_type T proper u)
  | TVec u => RRustVec (expand_extern_type T proper u)
  | TRef _ m _ u =>
      match u with
      | TVec v => RRef m (RRustVec (expand_extern_type T proper v))
      | _ => if is_rust_string u then RRef m RRustString
             else if proper && is_considered_improper T u then RPtr m RCVoid
             else quote_type t
      end
  | TPtr m u => if proper && is_considered_improper T u then RPtr m RCVoid else quote_type t
  | TStr _ => RRustStr
  | TSlice _ _ _ => RRustSlice
  | _ => quote_type t
  end.

(** * Signatures *)
(** syntax/mod.rs 206-218: struct Signature, as far as it matters here *)
Record signature : Type := Sig
  { sg_receiver : option receiver; sg_args : list (string * ty); sg_ret : option ty; sg_throws : bool }.
Definition fn_sig (f : extern_fn) : signature := Sig (fn_receiver f) (fn_args f) (fn_ret f) (fn_throws f).
(** parse.rs 1226-1290: a function pointer has no receiver *)
Definition ptr_sig (throws : bool) (args : list (string * ty)) (ret : option ty) : signature := Sig None args ret throws.

Section Abi.
  Context (fuel : nat) (T : types).
  Notation indirect := (needs_indirect_abi fuel T).

  (** write.rs 1184-1188 and expand.rs 1859-1863: indirect_return *)
  Definition indirect_return (s : signature) : option bool :=
    match sg_ret s with
    | None => Some false
    | Some r => if sg_throws s then Some true else indirect r
    end.

  (** ** C++: a return type and the types of the parameters *)
  (** write.rs 1220-1239: write_extern_return_type_space *)
  Definition cxx_extern_return (ret : option ty) : option cty :=
    match ret with
    | Some (TBox t | TUniquePtr t) => option_map (CPtr false) (cxx_type T t)
    | Some (TRef _ m _ t) => option_map (CPtr (negb m)) (cxx_type T t)
    | Some (TStr _ | TSlice _ _ _) => Some CFat
    | Some t => obind (indirect t) (fun b => if b then Some CVoid else cxx_type T t)
    | None => Some CVoid
    end.
  Definition cxx_return (s : signature) : option cty :=
    if sg_throws s then Some CPtrLen else cxx_extern_return (sg_ret s).

  (** write.rs 1241-1253: write_extern_arg *)
  Definition cxx_extern_arg (t : ty) : option cty :=
    obind (match t with
           | TBox u | TUniquePtr u | TCxxVector u => option_map (CPtr false) (cxx_type T u)
           | _ => cxx_type T t
           end)
      (fun c => obind (indirect t) (fun b => Some (if b then CPtr false c else c))).

  (** write.rs 749-759 and 940-951: the receiver *)
  Definition cxx_receiver (r : receiver) : option cty :=
    option_map (fun p => CRef (negb (rc_mutable r)) (CNamed p)) (resolve_name T (n_rust (rc_ty r))).
  Definition cxx_receivers (s : signature) : option (list cty) :=
    match sg_receiver s with
    | Some r => option_map (fun c => [c]) (cxx_receiver r)
    | None => Some []
    end.

  (** write.rs 764-772 *)
  Definition cxx_shim_arg (t : ty) : option cty :=
    if is_rust_string t then option_map (CPtr true) (cxx_type T t)
    else match t with
         | TVec _ => option_map (CPtr true) (cxx_type T t)
         | _ => cxx_extern_arg t
         end.

  (** write.rs 1190-1206: write_indirect_return_type *)
  Definition cxx_indirect_return_type (t : ty) : option cty :=
    match t with
    | TBox u | TUniquePtr u => option_map (CPtr false) (cxx_type T u)
    | TRef _ m _ u => option_map (CPtr (negb m)) (cxx_type T u)
    | _ => cxx_type T t
    end.
  (** write.rs 962-970 *)
  Definition cxx_decl_return_type (t : ty) : option cty :=
    match t with
    | TRef _ m _ u => option_map (CPtr (negb m)) (cxx_type T u)
    | _ => cxx_type T t
    end.
  Definition cxx_outparam (pointee : ty -> option cty) (s : signature) : option (list cty) :=
    obind (indirect_return s) (fun b =>
      if b then match sg_ret s with
                | Some r => option_map (fun c => [CPtr false c]) (pointee r)
                | None => None
                end
      else Some []).

  Definition cxx_signature (arg : ty -> option cty) (pointee : ty -> option cty) (extra : list cty) (s : signature)
    : option (cty * list cty) :=
    obind (cxx_return s) (fun ret =>
    obind (cxx_receivers s) (fun self =>
    obind (otraverse (fun a => arg (snd a)) (sg_args s)) (fun args =>
    obind (cxx_outparam pointee s) (fun out => Some (ret, self ++ args ++ out ++ extra))))).

  (** write.rs 735-782: the C function defined for a C++ function *)
  Definition cxx_function_shim (f : extern_fn) : option (cty * list cty) :=
    cxx_signature cxx_shim_arg cxx_indirect_return_type [] (fn_sig f).
  (** write.rs 927-986: the declaration of a function implemented in Rust *)
  Definition cxx_function_decl (s : signature) (indirect_call : bool) : option (cty * list cty) :=
    cxx_signature cxx_extern_arg cxx_decl_return_type (when indirect_call [CPtr false CVoid]) s.
  (** write.rs 1004-1035: the C++ function that calls it; the receiver is [this] *)
  Definition cxx_function_shim_decl (s : signature) (indirect_call : bool) : option (option cty * list cty) :=
    obind (match sg_ret s with Some r => option_map Some (cxx_type T r) | None => Some None end) (fun ret =>
    obind (otraverse (fun a => cxx_type T (snd a)) (sg_args s)) (fun args =>
    Some (ret, args ++ when indirect_call [CPtr false CVoid]))).

  (** ** Rust: a return type and the types of the parameters *)
  (** expand.rs 1946-1953: expand_extern_return_type *)
  Definition rust_extern_return (proper : bool) (ret : option ty) : option (option rty) :=
    match ret with
    | Some t => obind (indirect t) (fun b => Some (if b then None else Some (expand_extern_type T proper t)))
    | None => Some None
    end.
  Definition rust_return (proper : bool) (s : signature) : option (option rty) :=
    if sg_throws s then Some (Some RResult) else rust_extern_return proper (sg_ret s).
  (** macro/src/tokens.rs 11-60: Receiver::ty *)
  Definition rust_receivers (s : signature) : list rty :=
    match sg_receiver s with
    | Some r => [RRef (rc_mutable r) (RIdent (n_rust (rc_ty r)))]
    | None => []
    end.
  (** expand.rs 466-480 *)
  Definition rust_decl_arg (t : ty) : option rty :=
    let e := expand_extern_type T true t in
    if is_rust_string t then Some (RPtr false e)
    else match t with
         | TVec _ => Some (RPtr false e)
         | TFn _ _ _ _ => Some RFatFunction
         | _ => obind (indirect t) (fun b => Some (if b then RPtr true e else e))
         end.
  (** expand.rs 987-996 *)
  Definition rust_shim_arg (t : ty) : option rty :=
    let e := expand_extern_type T false t in
    obind (indirect t) (fun b => Some (if b then RPtr true e else e)).
  Definition rust_outparam (proper : bool) (s : signature) : option (list rty) :=
    obind (indirect_return s) (fun b =>
      if b then match sg_ret s with
                | Some r => Some [RPtr true (expand_extern_type T proper r)]
                | None => None
                end
      else Some []).
  Definition rust_signature (proper : bool) (arg : ty -> option rty) (extra : list rty) (s : signature)
    : option (option rty * list rty) :=
    obind (rust_return proper s) (fun ret =>
    obind (otraverse (fun a => arg (snd a)) (sg_args s)) (fun args =>
    obind (rust_outparam proper s) (fun out => Some (ret, rust_receivers s ++ args ++ out ++ extra)))).

  (** expand.rs 460-499: the declaration of a C++ function *)
  Definition rust_function_decl (f : extern_fn) : option (option rty * list rty) :=
    rust_signature true rust_decl_arg [] (fn_sig f).
  (** expand.rs 966-1179: the exported definition of a Rust function; [pointer]: the
      parameter __extern of a function pointer trampoline *)
  Definition rust_function_shim (s : signature) (pointer : bool) : option (option rty * list rty) :=
    rust_signature false rust_shim_arg (when pointer [RPtr false RUnit]) s.
End Abi.

(** * Shared types *)
(** write.rs 283-298 and tokens.rs 42-56 with expand.rs 125-147: the fields of a shared
    struct, as written in C++ and in Rust *)
Definition cxx_fields (T : types) (s : struct_) : option (list (string * cty)) :=
  otraverse (fun f => option_map (pair (p_cxx (v_name f))) (cxx_type T (v_ty f))) (st_fields s).
Definition rust_fields (s : struct_) : list (string * rty) :=
  map (fun f => (p_rust (v_name f), quote_type (v_ty f))) (st_fields s).
