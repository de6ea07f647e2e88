(** Model of syntax/check.rs (typecheck), syntax/ident.rs and of the block level rules of
    syntax/parse.rs: parse_foreign_mod.  A check returns the list of its error
    messages; messages are shortened, spans are not represented. *)
From Verif Require Import Base Syntax_Model TypeEq_Model Toposort_Model Types_Model.

(** check.rs 20-31: enum Generator *)
Inductive generator : Set := GBuild | GMacro.

(** str::starts_with, str::contains *)
Fixpoint starts_with (p s : string) : bool :=
  match p, s with
  | EmptyString, _ => true
  | String a p, String b s => Ascii.eqb a b && starts_with p s
  | _, _ => false
  end.
Fixpoint contains_str (p s : string) : bool :=
  starts_with p s || match s with EmptyString => false | String _ s => contains_str p s end.

Definition err_if (b : bool) (msg : string) : list string := if b then [msg] else [].

(** ident.rs 11-24 *)
Definition check_cxx_ident (s : string) : list string :=
  err_if (starts_with "cxxbridge" s) "identifiers starting with cxxbridge are reserved"
  ++ err_if (contains_str "__" s) "identifiers containing double underscore are reserved in C++".
Definition check_rust_ident (s : string) : list string :=
  err_if (starts_with "cxxbridge" s) "identifiers starting with cxxbridge are reserved".
(** ident.rs 4-9 *)
Definition check_pair (n : pair_name) : list string :=
  flat_map check_cxx_ident (p_ns n) ++ check_cxx_ident (p_cxx n) ++ check_rust_ident (p_rust n).
(** An argument name: root namespace, C++ and Rust name equal (parse.rs 631, 1476-1488). *)
Definition arg_pair (x : string) : pair_name := Pair [] x x.

(** ident.rs 27-57 *)
Definition check_idents (a : api) : list string :=
  match a with
  | AInclude _ | AImpl _ => []
  | AStruct s => check_pair (st_name s) ++ flat_map (fun f => check_pair (v_name f)) (st_fields s)
  | AEnum e => check_pair (en_name e) ++ flat_map (fun v => check_pair (vr_name v)) (en_variants e)
  | ACxxType t | ARustType t => check_pair (et_name t)
  | ACxxFunction f | ARustFunction f => check_pair (fn_name f) ++ flat_map (fun a => check_pair (arg_pair (fst a))) (fn_args f)
  | ATypeAlias a => check_pair (ta_name a)
  end.

Section Check.
  Context (gen : generator) (T : types).

  Definition in_structs x := has x (t_structs T).
  Definition in_enums x := has x (t_enums T).
  Definition in_cxx x := smem x (t_cxx T).
  Definition in_rust x := smem x (t_rust T).
  Definition in_aliases x := has x (t_aliases T).
  Definition is_atom x := is_some (atom_from_str x).

  (** check.rs 667-672 *)
  Definition is_opaque_cxx (x : string) : bool :=
    in_cxx x && negb (in_structs x) && negb (in_enums x) && negb (in_aliases x && has x (t_required_trivial T)).

  (** check.rs 645-665 *)
  Fixpoint is_unsized (t : ty) : bool :=
    match t with
    | TIdent n => String.eqb (n_rust n) "CxxString" || is_opaque_cxx (n_rust n) || in_rust (n_rust n)
    | TArray t _ => is_unsized t
    | TCxxVector _ | TFn _ _ _ _ | TVoid => true
    | _ => false
    end.

  (** check.rs 82-93 *)
  Definition check_type_ident (n : named) : list string :=
    err_if (negb (is_atom (n_rust n)) && negb (in_structs (n_rust n)) && negb (in_enums (n_rust n))
            && negb (in_cxx (n_rust n)) && negb (in_rust (n_rust n))) "unsupported type".

  Definition only_cxx (x : string) : bool :=
    in_cxx x && negb (in_aliases x) && negb (in_structs x) && negb (in_enums x).

  (** check.rs 95-111 *)
  Definition check_type_box (inner : ty) : list string :=
    match inner with
    | TIdent n =>
        err_if (only_cxx (n_rust n)) "Box of a C++ type is not supported yet"
        ++ err_if (is_atom (n_rust n)) "unsupported target type of Box"
    | _ => ["unsupported target type of Box"]
    end.

  (** check.rs 113-141 *)
  Definition check_type_rust_vec (inner : ty) : list string :=
    match inner with
    | TIdent n =>
        if only_cxx (n_rust n) then ["Rust Vec containing C++ type is not supported yet"]
        else match atom_from_str (n_rust n) with
             | Some ACxxString => ["unsupported element type of Vec"]
             | _ => []
             end
    | TStr _ => []
    | _ => ["unsupported element type of Vec"]
    end.

  (** check.rs 143-160 *)
  Definition check_type_unique_ptr (inner : ty) : list string :=
    match inner with
    | TIdent n =>
        if in_rust (n_rust n) then ["unique_ptr of a Rust type is not supported yet"]
        else match atom_from_str (n_rust n) with
             | None | Some ACxxString => []
             | _ => ["unsupported unique_ptr target type"]
             end
    | TCxxVector _ => []
    | _ => ["unsupported unique_ptr target type"]
    end.

  (** check.rs 162-184 and 186-208: shared_ptr and weak_ptr *)
  Definition check_type_shared_ptr (inner : ty) : list string :=
    match inner with
    | TIdent n =>
        if in_rust (n_rust n) then ["shared_ptr of a Rust type is not supported yet"]
        else match atom_from_str (n_rust n) with
             | Some (AChar | ARustString) => ["unsupported shared_ptr target type"]
             | _ => []
             end
    | TCxxVector _ => ["std::shared_ptr<std::vector> is not supported yet"]
    | _ => ["unsupported shared_ptr target type"]
    end.
  Definition check_type_weak_ptr (inner : ty) : list string := check_type_shared_ptr inner.

  (** check.rs 210-232 *)
  Definition check_type_cxx_vector (inner : ty) : list string :=
    match inner with
    | TIdent n =>
        if in_rust (n_rust n) then ["C++ vector containing a Rust type is not supported yet"]
        else match atom_from_str (n_rust n) with
             | Some (AChar | ABool | ARustString) => ["unsupported vector element type"]
             | _ => []
             end
    | _ => ["unsupported vector element type"]
    end.

  (** check.rs 234-263 *)
  Definition check_type_ref (pinned mutable : bool) (inner : ty) : list string :=
    (if mutable && negb pinned then
       match inner with
       | TIdent n => err_if (String.eqb (n_rust n) "CxxString" || is_opaque_cxx (n_rust n))
                            "mutable reference to C++ type requires a pin"
       | TCxxVector _ => ["mutable reference to C++ type requires a pin"]
       | _ => []
       end
     else [])
    ++ match inner with
       | TFn _ _ _ _ | TVoid => ["unsupported reference type"]
       | TRef _ _ _ _ => ["C++ does not allow references to references"]
       | _ => []
       end.

  (** check.rs 265-276 *)
  Definition check_type_ptr (inner : ty) : list string :=
    match inner with
    | TFn _ _ _ _ | TVoid => ["unsupported pointer type"]
    | TRef _ _ _ _ => ["C++ does not allow pointer to reference as a type"]
    | _ => []
    end.

  (** check.rs 278-297 *)
  Definition check_type_slice (inner : ty) : list string :=
    err_if (negb (negb (is_unsized inner)
                  || match inner with TIdent n => in_rust (n_rust n) || in_aliases (n_rust n) | _ => false end))
           "unsupported &[T] element type".

  (** check.rs 299-305 *)
  Definition check_type_array (inner : ty) : list string := err_if (is_unsized inner) "unsupported array element type".

  (** check.rs 307-322 *)
  Definition check_type_fn (unsafety throws : bool) (args : list (string * ty)) : list string :=
    err_if throws "function pointer returning Result is not supported yet"
    ++ flat_map (fun a => match snd a with
                          | TPtr _ _ => err_if (negb unsafety) "pointer argument requires that the function pointer be marked unsafe"
                          | _ => []
                          end) args.

  (** check.rs 45-61 *)
  Definition check_type (t : ty) : list string :=
    match t with
    | TIdent n => check_type_ident n
    | TBox t => check_type_box t
    | TVec t => check_type_rust_vec t
    | TUniquePtr t => check_type_unique_ptr t
    | TSharedPtr t => check_type_shared_ptr t
    | TWeakPtr t => check_type_weak_ptr t
    | TCxxVector t => check_type_cxx_vector t
    | TRef p m _ t => check_type_ref p m t
    | TPtr _ t => check_type_ptr t
    | TArray t _ => check_type_array t
    | TFn u th args _ => check_type_fn u th args
    | TSlice _ _ t => check_type_slice t
    | TStr _ | TVoid => []
    end.

  (** check.rs 604-616 *)
  Definition check_reserved_name (x : string) : list string :=
    err_if (smem x ["Box"; "UniquePtr"; "SharedPtr"; "WeakPtr"; "Vec"; "CxxVector"; "str"] || is_atom x) "reserved name".
  (** check.rs 618-643: check_reserved_lifetime, check_lifetimes, check_generics *)
  Definition check_lifetimes (l : list string) : list string :=
    match gen with
    | GMacro => []
    | GBuild => flat_map (fun x => err_if (String.eqb x "static") "invalid lifetime parameter name: `'static`") l
    end.

  (** check.rs 324-353 *)
  Definition check_api_struct (s : struct_) : list string :=
    check_reserved_name (p_rust (st_name s)) ++ check_lifetimes (st_lts s)
    ++ err_if (match st_fields s with [] => true | _ => false end) "structs without any fields are not supported"
    ++ err_if (in_cxx (p_rust (st_name s)) && has (p_rust (st_name s)) (t_untrusted T))
              "extern shared struct must be declared in an `unsafe extern` block"
    ++ flat_map (fun d => err_if (trait_eqb d DExternType) "derive on shared struct is not supported") (st_derives s)
    ++ flat_map (fun f => match v_ty f with
                          | TFn _ _ _ _ => ["function pointers in a struct field are not implemented yet"]
                          | t => err_if (is_unsized t) "using by value is not supported"
                          end) (st_fields s).

  (** check.rs 355-373 *)
  Definition check_api_enum (e : enum_) : list string :=
    check_reserved_name (p_rust (en_name e)) ++ check_lifetimes (en_lts e)
    ++ err_if (match en_variants e with [] => negb (en_explicit_repr e) && negb (en_from_header e) | _ => false end)
              "explicit #[repr(...)] is required for enum without any variants"
    ++ flat_map (fun d => err_if (trait_eqb d DDefault || trait_eqb d DExternType) "derive on shared enum is not supported") (en_derives e).

  (** check.rs 375-407 *)
  Definition check_api_type (t : extern_type) : list string :=
    check_reserved_name (p_rust (et_name t)) ++ check_lifetimes (et_lts t)
    ++ flat_map (fun d => err_if (negb (trait_eqb d DExternType && lang_eqb (et_lang t) LRust)) "derive on opaque type is not supported yet") (et_derives t)
    ++ err_if (match et_bounds t with [] => false | _ => true end) "extern type bounds are not implemented yet"
    ++ err_if (has (p_rust (et_name t)) (t_required_trivial T)) "needs a cxx::ExternType impl".

  (** check.rs 542-602: check_mut_return_restriction, with the visitor FindLifetimeMut *)
  Definition lifetime_mut (t : ty) : bool :=
    match t with
    | TRef _ m _ _ => m
    | TSlice m _ _ => m
    | TIdent n => if is_atom (n_rust n) then false
                  else match try_resolve T (n_rust n) with
                       | Some (_, lts) => negb (match lts with [] => true | _ => false end)
                       | None => true
                       end
    | _ => false
    end.
  Definition find_lifetime_mut (t : ty) : bool := existsb lifetime_mut (subtypes t).
  Definition check_mut_return_restriction (f : extern_fn) : list string :=
    if fn_unsafe f then []
    else if match fn_ret f with
            | Some (TRef _ m _ _) => negb m
            | Some (TSlice m _ _) => negb m
            | _ => true
            end then []
    else if match fn_receiver f with
            | Some r => rc_mutable r
                        || match try_resolve T (n_rust (rc_ty r)) with
                           | None => true
                           | Some (_, lts) => negb (match lts with [] => true | _ => false end)
                           end
            | None => false
            end then []
    else err_if (negb (existsb (fun a => find_lifetime_mut (snd a)) (fn_args f)))
                "&mut return type is not allowed unless there is a &mut argument".

  (** check.rs 409-500 *)
  Definition check_receiver (r : receiver) : list string :=
    let x := n_rust (rc_ty r) in
    if String.eqb x "Self" then ["unnamed receiver type is only allowed if the surrounding extern block contains exactly one extern type"]
    else if in_enums x then ["unsupported receiver type; C++ does not allow member functions on enums"]
    else if negb (in_structs x) && negb (in_cxx x) && negb (in_rust x) then ["unrecognized receiver type"]
    else err_if (rc_mutable r && negb (rc_pinned r) && is_opaque_cxx x) "mutable reference to opaque C++ type requires a pin".

  Definition check_api_fn (f : extern_fn) : list string :=
    (let generic := match fn_generics f with [] => false | _ => true end in
     match fn_lang f with
     | LCxx => err_if (generic && negb (fn_trusted f)) "extern C++ function with lifetimes must be declared in `unsafe extern` block"
     | LRust => err_if (generic && negb (fn_unsafe f)) "must be `unsafe fn` in order to expose explicit lifetimes to C++"
     end)
    ++ check_lifetimes (fn_generics f)
    ++ (match fn_receiver f with Some r => check_receiver r | None => [] end)
    ++ flat_map (fun a => match snd a with
                          | TFn _ _ _ _ => err_if (lang_eqb (fn_lang f) LRust) "passing a function pointer from C++ to Rust is not implemented yet"
                          | TPtr _ _ => err_if (negb (fn_unsafe f)) "pointer argument requires that the function be marked unsafe"
                          | t => err_if (is_unsized t) "passing by value is not supported"
                          end) (fn_args f)
    ++ (match fn_ret f with
        | Some (TFn _ _ _ _) => ["returning a function pointer is not implemented yet"]
        | Some t => err_if (is_unsized t) "returning by value is not supported"
        | None => []
        end)
    ++ (match fn_lang f with LCxx => check_mut_return_restriction f | LRust => [] end).

  (** check.rs 502-509 *)
  Definition check_api_type_alias (a : type_alias) : list string :=
    check_lifetimes (ta_lts a) ++ flat_map (fun _ => ["derive on extern type alias is not supported"]) (ta_derives a).

  (** check.rs 511-540 *)
  Definition check_api_impl (i : impl_) : list string :=
    check_lifetimes (im_lts i)
    ++ if im_negative i then ["negative impl is not supported yet"]
       else match im_ty i with
            | TBox (TIdent n) | TVec (TIdent n) | TUniquePtr (TIdent n)
            | TSharedPtr (TIdent n) | TWeakPtr (TIdent n) | TCxxVector (TIdent n) =>
                err_if (is_atom (n_rust n)) "unsupported Self type of explicit impl"
            | _ => ["unsupported Self type of explicit impl"]
            end.

  (** check.rs 63-74 *)
  Definition check_api (a : api) : list string :=
    match a with
    | AInclude _ => []
    | AStruct s => check_api_struct s
    | AEnum e => check_api_enum e
    | ACxxType t | ARustType t => check_api_type t
    | ACxxFunction f | ARustFunction f => check_api_fn f
    | ATypeAlias a => check_api_type_alias a
    | AImpl i => check_api_impl i
    end.

  (** check.rs 33-75: typecheck *)
  Definition typecheck (apis : list api) : list string :=
    flat_map check_idents apis ++ flat_map check_type (t_all T) ++ flat_map check_api apis.
End Check.

(** parse.rs 335-436: parse_foreign_mod, from the items already parsed one by one.
    [unsafe_block]: the block is written `unsafe extern`; [trusted]: the bridge module
    is unsafe.  The items are parsed with [trusted || unsafe_block] (parse.rs 360).
    Result: the items added to the bridge, and the errors. *)
Definition block_types (items : list api) : list pair_name :=
  flat_map (fun a => match a with
                     | ACxxType t | ARustType t => [et_name t]
                     | ATypeAlias a => [ta_name a]
                     | _ => []
                     end) items.
Definition set_self (single : string) (f : extern_fn) : extern_fn :=
  match fn_receiver f with
  | Some r =>
      if String.eqb (n_rust (rc_ty r)) "Self" then
        ExternFn (fn_cfg f) (fn_lang f) (fn_name f) (fn_async f) (fn_unsafe f) (fn_generics f)
                 (Some (Receiver (rc_pinned r) (rc_lt r) (rc_mutable r) (Named single (n_lts (rc_ty r))) (rc_shorthand r)))
                 (fn_args f) (fn_ret f) (fn_throws f) (fn_trusted f)
      else f
  | None => f
  end.
Definition set_self_api (single : string) (a : api) : api :=
  match a with
  | ACxxFunction f => ACxxFunction (set_self single f)
  | ARustFunction f => ARustFunction (set_self single f)
  | _ => a
  end.
Definition parse_foreign_mod (block_lang : lang) (unsafe_block trusted : bool) (items : list api) : list api * list string :=
  let errs :=
    (match block_lang with LRust => err_if unsafe_block "extern ""Rust"" block does not need to be unsafe" | LCxx => [] end)
    ++ err_if (negb (trusted || unsafe_block)
               && existsb (fun a => match a with ACxxFunction f => negb (fn_unsafe f) | _ => false end) items)
              "block must be declared `unsafe extern ""C++""` if it contains any safe-to-call C++ functions" in
  (match block_types items with
   | [single] => map (set_self_api (p_rust single)) items
   | _ => items
   end, errs).
