(** The items that the macro generates, with the scope each stands in, the names it defines
    and the traits it implements: macro/src/expand.rs 51-149 and the functions it calls,
    macro/src/derive.rs 7-98.  Left out: attributes (so that every item is present; for
    conditional items see Expand_Model), generics, and everything inside function bodies and
    inside the nested blocks of the assertions, which have scopes of their own. *)
From Verif Require Import Base Syntax_Model TypeEq_Model Types_Model Mangle_Model Derive_Model Expand_Model Abi_Model.

(** The generated module; the block of its [const _: () = {...}] (expand.rs 121-129); the
    module forbid in that block (929-939). *)
Inductive scope : Set := SModule | SHidden | SForbid.

Inductive rtrait : Set :=
| RDerived (d : trait)        (* ::cxx::core::clone::Clone, … *)
| RExternType | RRustType     (* ::cxx::ExternType, ::cxx::private::RustType *)
| RTarget (k : impl_kind)     (* ImplBox, ImplVec, UniquePtrTarget, SharedPtrTarget, WeakPtrTarget, VectorElement *)
| RDrop.                      (* forbid::Drop *)

Inductive item : Type :=
| IStruct (x : string) (fields : list string)   (* struct x { fields } *)
| IAlias (x : string)                           (* type x = …; *)
| IImport (x : string)                          (* use super::x; *)
| IMod (x : string)
| ITrait (x : string)
| IFn (x : string)
| IAssoc (x m : string)                         (* impl x { fn m … } or impl x { const m … } *)
| IImpl (t : rtrait) (x : string)               (* impl t for x *)
| IMention (x : string).                        (* names the type x: in a signature, an assertion *)

Definition mention (xs : list string) : list (scope * item) := map (fun x => (SHidden, IMention x)) xs.

(** derive.rs 7-39: the traits of expand_struct; None: unreachable!() *)
Definition struct_traits (s : struct_) : option (list trait) :=
  if existsb (trait_eqb DExternType) (st_derives s) then None else Some (st_derives s).
(** derive.rs 41-98: expand_enum *)
Definition enum_traits (e : enum_) : option (list trait) :=
  if existsb (fun d => trait_eqb d DDefault || trait_eqb d DExternType) (en_derives e) then None
  else Some (en_derives e
             ++ when (negb (derives DCopy (en_derives e))) [DCopy] ++ when (negb (derives DClone (en_derives e))) [DClone]
             ++ when (negb (derives DEq (en_derives e))) [DEq] ++ when (negb (derives DPartialEq (en_derives e))) [DPartialEq]).

(** expand.rs 202-307: expand_struct_operators *)
Definition operator_names (s : struct_) : list string :=
  flat_map (fun d =>
    match d with
    | DPartialEq => "eq" :: when (negb (derives DEq (st_derives s))) ["ne"]
    | DPartialOrd => "lt" :: "le" :: when (negb (derives DOrd (st_derives s))) ["gt"; "ge"]
    | DHash => ["hash"]
    | _ => []
    end)%string (st_derives s).
Definition operator_items (s : struct_) : list (scope * item) :=
  flat_map (fun o => (SHidden, IFn ("__operator_" ++ o ++ "_" ++ p_rust (st_name s))%string) :: mention [p_rust (st_name s)]) (operator_names s).

(** expand.rs 157-200: expand_struct, with 309-319: expand_struct_forbid_drop *)
Definition struct_items (s : struct_) : option (list (scope * item)) :=
  let x := p_rust (st_name s) in
  option_map (fun ds =>
    (SModule, IStruct x (map (fun f => p_rust (v_name f)) (st_fields s))) :: (SModule, IImpl RExternType x)
    :: map (fun d => (SModule, IImpl (RDerived d) x)) ds ++ operator_items s ++ [(SForbid, IImpl RDrop x)]) (struct_traits s).
(** expand.rs 321-379: expand_enum *)
Definition enum_items (e : enum_) : option (list (scope * item)) :=
  let x := p_rust (en_name e) in
  option_map (fun ds =>
    (SModule, IStruct x ["repr"%string]) :: map (fun v => (SModule, IAssoc x (p_rust (vr_name v)))) (en_variants e)
    ++ (SModule, IImpl RExternType x) :: map (fun d => (SModule, IImpl (RDerived d) x)) ds) (enum_traits e).
(** expand.rs 381-458: expand_cxx_type, expand_cxx_type_assert_pinned *)
Definition cxx_type_items (t : extern_type) : list (scope * item) :=
  let x := p_rust (et_name t) in
  [(SModule, IStruct x ("_private" :: map (fun l => "_lifetime_" ++ l) (et_lts t))%string); (SModule, IImpl RExternType x)] ++ mention [x].
(** expand.rs 501-785: expand_cxx_function_shim *)
Definition cxx_fn_items (f : extern_fn) : list (scope * item) :=
  match fn_receiver f with
  | None => [(SModule, IFn (p_rust (fn_name f)))]
  | Some r => [(SModule, IAssoc (n_rust (rc_ty r)) (p_rust (fn_name f)))]
  end.
(** expand.rs 826-882: expand_rust_type_import, expand_rust_type_assert_unpin *)
Definition import_items (t : extern_type) : list (scope * item) := (SModule, IImport (p_rust (et_name t))) :: mention [p_rust (et_name t)].
(** expand.rs 835-864, 884-927: expand_rust_type_impl, expand_rust_type_layout (whose
    functions are in a block of their own) *)
Definition rust_type_items (t : extern_type) : list (scope * item) :=
  let x := p_rust (et_name t) in
  (SModule, IImpl RRustType x)
  :: flat_map (fun d => if trait_eqb d DExternType then [(SModule, IImpl RExternType x)] else []) (et_derives t) ++ mention [x].
(** expand.rs 941-964: expand_rust_function_shim *)
Definition rust_fn_items (f : extern_fn) : list (scope * item) :=
  (SHidden, IFn (match fn_receiver f with
                 | None => "__" ++ p_rust (fn_name f)
                 | Some r => "__" ++ n_rust (rc_ty r) ++ "__" ++ p_rust (fn_name f)
                 end)%string)
  :: mention (match fn_receiver f with Some r => [n_rust (rc_ty r)] | None => [] end
              ++ flat_map (fun a => type_names (snd a)) (fn_args f) ++ match fn_ret f with Some r => type_names r | None => [] end).
(** expand.rs 1248-1289: expand_type_alias, expand_type_alias_verify *)
Definition alias_items (a : type_alias) : list (scope * item) := (SModule, IAlias (p_rust (ta_name a))) :: mention [p_rust (ta_name a)].

(** expand.rs 64-93 *)
Definition api_items (T : types) (a : api) : option (list (scope * item)) :=
  match a with
  | AInclude _ | AImpl _ => Some []
  | AStruct s => struct_items s
  | AEnum e => enum_items e
  | ACxxType t =>
      let x := p_rust (et_name t) in
      Some (if negb (has x (t_structs T)) && negb (has x (t_enums T)) then cxx_type_items t else [])
  | ACxxFunction f => Some (cxx_fn_items f)
  | ARustType t => Some (rust_type_items t)
  | ARustFunction f => Some (rust_fn_items f)
  | ATypeAlias a => Some (alias_items a)
  end.
(** expand.rs 1300-1444: expand_rust_box, expand_rust_vec; 1446-1850: expand_unique_ptr,
    expand_shared_ptr, expand_weak_ptr, expand_cxx_vector *)
Definition impl_items (k : impl_key) : list (scope * item) :=
  match fst k with
  | KBox => (SHidden, IImpl (RTarget KBox) (snd k))
            :: flat_map (fun o => (SHidden, IFn (snd k ++ "__box_" ++ o)%string) :: mention [snd k]) ["alloc"; "dealloc"; "drop"]%string
  | KVec => (SHidden, IImpl (RTarget KVec) (snd k))
            :: flat_map (fun o => (SHidden, IFn (snd k ++ "__vec_" ++ o)%string) :: mention [snd k])
                 ["new"; "drop"; "len"; "capacity"; "data"; "reserve_total"; "set_len"; "truncate"]%string
  | k' => [(SModule, IImpl (RTarget k') (snd k))]
  end.

(** expand.rs 51-149: expand.  The module forbid (112-114) is written if there are structs. *)
Definition expansion (T : types) (apis : list api) : option (list (scope * item)) :=
  option_map (fun items =>
    flat_map (fun a => match a with ARustType t => import_items t | _ => [] end) apis
    ++ List.concat items ++ flat_map (fun i => impl_items (fst i)) (t_impls T)
    ++ when (existsb (fun a => match a with AStruct _ => true | _ => false end) apis) [(SHidden, IMod "forbid"%string); (SForbid, ITrait "Drop"%string)])
  (otraverse (api_items T) apis).
