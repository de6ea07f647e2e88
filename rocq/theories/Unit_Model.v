(** The generated C++ file as a sequence of declarations: gen/src/write.rs 18-35 (gen),
    59-221, 273-480, 482-733, 735-776 and 898-1057 (which declarations are written for an
    item, and in which namespace), 1433-1465 (the generic instantiations).  The order of
    the parts is also that of Out_Model; the bodies of functions are those of
    CxxExpr_Model; link names are those of Mangle_Model.  Includes, macros, the built-in
    declarations (builtin.rs), comments, default member initialisers, IsRelocatable and
    the deleted destructor of an opaque type are left out. *)
From Verif Require Import Base Syntax_Model Toposort_Model Types_Model Mangle_Model Abi_Model Nested_Model Derive_Model CxxExpr_Model.

(** The signature of a member function: const, result, parameters, noexcept. *)
Record msig : Type := MSig { ms_const : bool; ms_ret : cty; ms_params : list cty; ms_noexcept : bool }.

Inductive tdecl : Type :=
| TForward (x : string)                                   (* struct x; *)
| TForwardEnum (x : string)                               (* enum class x : repr; *)
| TUsing (x : string) (p : pair_name)                     (* using x = ::p; *)
| TClass (guard x : string) (fields : list (string * cty)) (members : list (string * msig))
| TEnum (guard x : string)
| TCheckEnum (x : string)                                 (* static_assert(::std::is_enum<x>::value, ...) *)
| TCheckTrivial (p : pair_name)                           (* static_assert(::rust::IsRelocatable<::p>::value, ...) *)
| TDeclare (x : string) (ret : cty) (params : list cty)
| TDefine (x : string) (f : cxx_fn)
| TDefineMember (cls x : string) (f : cxx_fn)             (* ret cls::x(params) { ... } *)
| TOperator (cls x : string) (sig : msig) (calls uses : list string)
    (* ret cls::x(params) { ... }; the functions called and the operators of the class used *)
| THash (p : pair_name) (link : string)                   (* template <> struct hash<::p>, calling ::ns(p)::link *)
| TInstance (k : impl_kind) (p : pair_name) (uninit : bool)
    (* the functions of ::std::unique_ptr<::p>, shared_ptr, weak_ptr or vector *)
| TSpecialize (k : impl_kind) (p : pair_name) (calls : list string).   (* the members of Box<::p> or Vec<::p> *)

(** A declaration and the namespace it is written in. *)
Definition placed_decl : Type := list string * tdecl.

(** write.rs 75-84 with 360-379 *)
Definition forward_decl (a : api) : list tdecl :=
  match a with
  | AStruct s => [TForward (p_cxx (st_name s))]
  | AEnum e => [TForwardEnum (p_cxx (en_name e))]
  | ACxxType t => [TUsing (p_cxx (et_name t)) (et_name t)]
  | ARustType t => [TForward (p_cxx (et_name t))]
  | _ => []
  end.
(** write.rs 72-91: [st] are the namespaces opened, innermost first *)
Fixpoint place_tokens (st : list string) (l : list ftok) : list placed_decl :=
  match l with
  | [] => []
  | FDecl a :: l => map (pair (rev st)) (forward_decl a) ++ place_tokens st l
  | FOpen x :: l => place_tokens (x :: st) l
  | FClose :: l => place_tokens (tl st) l
  end.

Definition op_text (o : op) : string :=
  match o with
  | OEq => "operator==" | ONe => "operator!=" | OLt => "operator<" | OLe => "operator<=" | OGt => "operator>" | OGe => "operator>="
  end.
(** write.rs 318-352: bool operator==(S const &) const noexcept; the name of the class
    is written unqualified, inside the class *)
Definition op_sig (p : pair_name) : msig := MSig true (CAtom ABool) [CRef true (CNamed p)] true.
(** write.rs 419-420, 711, 722; static *)
Definition layout_sig : msig := MSig false (CAtom AUsize) [] true.

(** write.rs 279, 383, 434 *)
Definition guard_of (kind : string) (p : pair_name) : option string :=
  option_map (fun s => "CXXBRIDGE1_" ++ kind ++ "_" ++ s)%string (to_symbol p).

(** write.rs 95-105: methods_for_type *)
Definition methods_for (apis : list api) (x : string) : list extern_fn :=
  flat_map (fun a => match a with
                     | ACxxFunction f | ARustFunction f =>
                         match fn_receiver f with
                         | Some r => when (String.eqb (n_rust (rc_ty r)) x) [f]
                         | None => []
                         end
                     | _ => []
                     end) apis.

(** The impl keys of Box and Vec. *)
Definition specializes (k : impl_kind) : bool := match k with KBox | KVec => true | _ => false end.

Section Unit.
  Context (fuel : nat) (T : types) (apis : list api).

  (** write.rs 301-316, 397-409 with 1004-1035: the declaration of a method in its class *)
  Definition method_decl (f : extern_fn) : option (string * msig) :=
    option_map (fun s => (p_cxx (fn_name f),
                          MSig (match fn_receiver f with Some r => negb (rc_mutable r) | None => false end)
                               (match fst s with Some c => c | None => CVoid end) (snd s) (negb (fn_throws f))))
      (cxx_function_shim_decl T (fn_sig f) false).

  (** write.rs 273-358: write_struct *)
  Definition struct_decl (s : struct_) : option (list placed_decl) :=
    obind (guard_of "STRUCT" (st_name s)) (fun g =>
    obind (cxx_fields T s) (fun fields =>
    obind (otraverse method_decl (methods_for apis (p_rust (st_name s)))) (fun ms =>
      Some [(p_ns (st_name s),
             TClass g (p_cxx (st_name s)) fields (ms ++ map (fun o => (op_text o, op_sig (st_name s))) (class_operators s)))]))).
  (** write.rs 381-425: write_opaque_type *)
  Definition opaque_decl (t : extern_type) : option (list placed_decl) :=
    obind (guard_of "STRUCT" (et_name t)) (fun g =>
    obind (otraverse method_decl (methods_for apis (p_rust (et_name t)))) (fun ms =>
      Some [(p_ns (et_name t),
             TClass g (p_cxx (et_name t)) [] (ms ++ [("layout::size"%string, layout_sig); ("layout::align"%string, layout_sig)]))])).
  (** write.rs 427-449: write_enum; 451-480: check_enum *)
  Definition data_decl (d : emitted) : option (list placed_decl) :=
    match d with
    | EmStruct s => struct_decl s
    | EmEnum e => option_map (fun g => [(p_ns (en_name e), TEnum g (p_cxx (en_name e)))]) (guard_of "ENUM" (en_name e))
    | EmCheckEnum e => Some [(p_ns (en_name e), TCheckEnum (p_cxx (en_name e)))]
    | EmOpaque t => opaque_decl t
    end.
  (** write.rs 107-147; [T]'s cxx and toposorted structs *)
  Definition data_structures : option (list placed_decl) :=
    option_map (@List.concat _) (otraverse data_decl (write_loop (fun x => smem x (t_cxx T)) apis [] (t_toposorted T))).
  (** write.rs 149-160 *)
  Definition trivial_checks : list placed_decl :=
    flat_map (fun a => match a with
                       | ATypeAlias a => when (has (p_rust (ta_name a)) (t_required_trivial T)) [([], TCheckTrivial (ta_name a))]
                       | _ => []
                       end) apis.

  (** write.rs 538-603: write_struct_operator_decls *)
  Definition operator_decl (s : struct_) : option (list placed_decl) :=
    let ref := CRef true (CNamed (st_name s)) in
    let declare ret params sym := option_map (fun l => (p_ns (st_name s), TDeclare l ret params)) (mangle_operator (st_name s) sym) in
    obind (otraverse (declare (CAtom ABool) [ref; ref]) (operator_decls s)) (fun l =>
    obind (otraverse (declare (CAtom AUsize) [ref]) (when (derives DHash (st_derives s)) ["hash"%string])) (fun h =>
      Some (l ++ h))).
  (** write.rs 689-699: write_opaque_type_layout_decls *)
  Definition layout_decl (t : extern_type) : option (list placed_decl) :=
    otraverse (fun sym => option_map (fun l => (p_ns (et_name t), TDeclare l (CAtom AUsize) [])) (mangle_operator (et_name t) sym))
      ["sizeof"; "alignof"]%string.
  (** write.rs 907-916: write_function_pointer_trampoline *)
  Definition trampoline (f : extern_fn) (a : string * ty) : option (list placed_decl) :=
    match snd a with
    | TFn _ throws args ret =>
        let s := ptr_sig throws args ret in
        obind (mangle_r_trampoline T f (fst a)) (fun r =>
        obind (mangle_c_trampoline T f (fst a)) (fun c =>
        obind (cxx_function_decl fuel T s true) (fun d =>
        obind (cxx_rust_shim fuel T s r true) (fun g =>
          Some [(p_ns (fn_name f), TDeclare r (fst d) (snd d)); (p_ns (fn_name f), TDefine c g)]))))
    | _ => Some []
    end.
  (** write.rs 735-905: write_cxx_function_shim *)
  Definition shim_decl (f : extern_fn) : option (list placed_decl) :=
    obind (mangle_extern_fn T f) (fun l =>
    obind (cxx_shim fuel T f) (fun g =>
    obind (otraverse (trampoline f) (fn_args f)) (fun ts =>
      Some ((p_ns (fn_name f), TDefine l g) :: List.concat ts)))).
  (** write.rs 918-925: write_rust_function_decl *)
  Definition rust_decl (f : extern_fn) : option (list placed_decl) :=
    obind (mangle_extern_fn T f) (fun l =>
    obind (cxx_function_decl fuel T (fn_sig f) false) (fun d =>
      Some [(p_ns (fn_name f), TDeclare l (fst d) (snd d))])).
  (** write.rs 164-174 *)
  Definition function_decl (a : api) : option (list placed_decl) :=
    match a with
    | AStruct s => operator_decl s
    | ARustType t => layout_decl t
    | ACxxFunction f => shim_decl f
    | ARustFunction f => rust_decl f
    | _ => Some []
    end.
  (** write.rs 192-221: write_std_specializations *)
  Definition hash_decl (a : api) : option (list placed_decl) :=
    match a with
    | AStruct s =>
        if derives DHash (st_derives s)
        then option_map (fun l => [(["std"]%string, THash (st_name s) l)]) (mangle_operator (st_name s) "hash")
        else Some []
    | _ => Some []
    end.

  (** write.rs 605-687: write_struct_operators *)
  Definition operator_def (s : struct_) (d : op * cxx_body) : option placed_decl :=
    let at_ := fun calls uses => (p_ns (st_name s), TOperator (p_cxx (st_name s)) (op_text (fst d)) (op_sig (st_name s)) calls uses) in
    match snd d with
    | CCall sym => option_map (fun l => at_ [l] []) (mangle_operator (st_name s) sym)
    | CNegate o => Some (at_ [] [op_text o])
    end.
  (** write.rs 701-733: write_opaque_type_layout *)
  Definition layout_def (t : extern_type) : option (list placed_decl) :=
    otraverse (fun d => option_map (fun l => (p_ns (et_name t), TOperator (p_cxx (et_name t)) (fst d) layout_sig [l] []))
                          (mangle_operator (et_name t) (snd d)))
      [("layout::size", "sizeof"); ("layout::align", "alignof")]%string.
  (** write.rs 987-1002 with 1037-1057: write_rust_function_shim; a method is defined in
      the namespace of the function, naming its class without qualification *)
  Definition rust_def (header : bool) (f : extern_fn) : option (list placed_decl) :=
    if header then
      match fn_receiver f with
      | Some _ => Some []
      | None => option_map (fun s => [(p_ns (fn_name f), TDeclare (p_cxx (fn_name f)) (match fst s with Some c => c | None => CVoid end) (snd s))])
                  (cxx_function_shim_decl T (fn_sig f) false)
      end
    else
      obind (mangle_extern_fn T f) (fun l =>
      obind (cxx_rust_shim fuel T (fn_sig f) l false) (fun g =>
        match fn_receiver f with
        | None => Some [(p_ns (fn_name f), TDefine (p_cxx (fn_name f)) g)]
        | Some r => option_map (fun p => [(p_ns (fn_name f), TDefineMember (p_cxx p) (p_cxx (fn_name f)) g)]) (resolve_name T (n_rust (rc_ty r)))
        end)).
  (** write.rs 178-189 *)
  Definition function_def (header : bool) (a : api) : option (list placed_decl) :=
    match a with
    | AStruct s => if header then Some [] else otraverse (operator_def s) (operator_defs s)
    | ARustType t => if header then Some [] else layout_def t
    | ARustFunction f => rust_def header f
    | _ => Some []
    end.

  (** write.rs 1441-1452: the functions with C linkage; the parameters of the functions of
      Box and Vec are pointers to ::p, Box<::p> or Vec<::p> *)
  Definition impl_extern (k : impl_key) : option (list placed_decl) :=
    obind (resolve_name T (snd k)) (fun p =>
      let pointee := match fst k with KBox => CBox (CNamed p) | _ => CVec (CNamed p) end in
      if specializes (fst k)
      then otraverse (fun o => option_map (fun l => ([], TDeclare l (CPtr true (CNamed p)) [CPtr false pointee])) o) (cxx_impl_decls T k)
      else Some [([], TInstance (fst k) p (is_maybe_trivial T (snd k)))]).
  (** write.rs 1455-1464: the members of ::rust::Box and ::rust::Vec *)
  Definition impl_member (k : impl_key) : option (list placed_decl) :=
    if specializes (fst k)
    then obind (resolve_name T (snd k)) (fun p =>
         option_map (fun ls => [(["rust"; "cxxbridge1"]%string, TSpecialize (fst k) p ls)]) (otraverse (fun o => o) (cxx_impl_calls T k)))
    else Some [].

  (** write.rs 18-35: gen *)
  Definition unit_decls (header : bool) : option (list placed_decl) :=
    obind (forward_declarations fuel T apis) (fun toks =>
    obind data_structures (fun data =>
    obind (if header then Some [] else
             obind (otraverse function_decl apis) (fun ds =>
             obind (otraverse hash_decl apis) (fun hs => Some (trivial_checks ++ List.concat ds ++ List.concat hs)))) (fun decls =>
    obind (otraverse (function_def header) apis) (fun defs =>
    obind (if header then Some [] else
             obind (otraverse (fun k => impl_extern (fst k)) (t_impls T)) (fun es =>
             obind (otraverse (fun k => impl_member (fst k)) (t_impls T)) (fun ms => Some (List.concat es ++ List.concat ms)))) (fun impls =>
      Some (place_tokens [] toks ++ data ++ decls ++ List.concat defs ++ impls)))))).
End Unit.
