(** Which items the Rust expansion consists of, under which cfg attributes, what each
    defines and which names it refers to: macro/src/expand.rs 51-149 and the functions
    it calls, macro/src/derive.rs. *)
From Verif Require Import Base Syntax_Model Types_Model Mangle_Model.

(** Names that one part of the expansion defines and another refers to. *)
Inductive rname : Type :=
| NType (x : string)                    (* a type in the generated module *)
| NOuter (x : string)                   (* super::x, written by the user *)
| NField (s x : string)                 (* field x of struct s *)
| NVariant (e x : string).              (* the constant e::x *)

(** An item with its cfg; definitions and uses inside it may carry a cfg of their own
    (fields, constants). *)
Record ritem : Type := RItem { ri_cfg : cfg_expr; ri_defs : list (cfg_expr * rname); ri_uses : list (cfg_expr * rname) }.
Definition always (l : list rname) : list (cfg_expr * rname) := map (pair CUnconditional) l.
Definition plain_item (uses : list rname) : ritem := RItem CUnconditional [] (always uses).

(** tokens.rs: the names written for a type.  Primitives are left out. *)
Fixpoint type_names (t : ty) : list string :=
  match t with
  | TIdent n => if is_some (atom_from_str (n_rust n)) then [] else [n_rust n]
  | TBox t | TVec t | TUniquePtr t | TSharedPtr t | TWeakPtr t | TCxxVector t
  | TRef _ _ _ t | TPtr _ t | TSlice _ _ t | TArray t _ => type_names t
  | TStr _ | TVoid => []
  | TFn _ _ args ret => flat_map (fun a => type_names (snd a)) args ++ match ret with Some r => type_names r | None => [] end
  end.

(** expand.rs 826-833, 866-882: expand_rust_type_import, expand_rust_type_assert_unpin *)
Definition rust_type_import (t : extern_type) : list ritem :=
  let x := p_rust (et_name t) in
  [RItem CUnconditional (always [NType x]) (always [NOuter x]); plain_item [NType x]].

(** derive.rs 7-39 and the struct_* functions 100-231; the traits passed on to
    #[derive(...)] expand after cfg-stripping, as part of the struct *)
Definition struct_derive (s : struct_) (d : trait) : list ritem :=
  let x := p_rust (st_name s) in
  let fields := map (fun f => NField x (p_rust (v_name f))) (st_fields s) in
  match d with
  | DCopy => [plain_item [NType x]]
  | DClone => [plain_item (NType x :: when (negb (derives DCopy (st_derives s))) fields)]
  | DDebug | DDefault | DOrd => [plain_item (NType x :: fields)]
  | DPartialOrd => [plain_item (NType x :: when (negb (derives DOrd (st_derives s))) fields)]
  | _ => []
  end.
(** expand.rs 202-307: expand_struct_operators *)
Definition struct_operators (s : struct_) (d : trait) : list ritem :=
  match d with
  | DPartialEq | DPartialOrd | DHash => [plain_item [NType (p_rust (st_name s))]]
  | _ => []
  end.
(** expand.rs 157-200, 309-319: expand_struct, expand_struct_forbid_drop *)
Definition expand_struct (s : struct_) : list ritem :=
  let x := p_rust (st_name s) in
  RItem (st_cfg s)
    ((CUnconditional, NType x) :: map (fun f => (v_cfg f, NField x (p_rust (v_name f)))) (st_fields s))
    (flat_map (fun f => map (fun y => (v_cfg f, NType y)) (type_names (v_ty f))) (st_fields s))
  :: plain_item [NType x]
  :: flat_map (struct_derive s) (st_derives s)
  ++ flat_map (struct_operators s) (st_derives s)
  ++ [plain_item [NType x]].

(** derive.rs 41-98, 233-310 *)
Definition enum_derive (e : enum_) (d : trait) : list ritem :=
  let x := p_rust (en_name e) in
  match d with
  | DDebug => [plain_item (NType x :: map (fun v => NVariant x (p_rust (vr_name v))) (en_variants e))]
  | DCopy | DClone | DOrd | DPartialOrd => [plain_item [NType x]]
  | _ => []
  end.
(** expand.rs 321-379: expand_enum *)
Definition expand_enum (e : enum_) : list ritem :=
  let x := p_rust (en_name e) in
  [RItem (en_cfg e) (always [NType x]) [];
   RItem CUnconditional (map (fun v => (vr_cfg v, NVariant x (p_rust (vr_name v)))) (en_variants e)) (always [NType x]);
   plain_item [NType x]]
  ++ flat_map (enum_derive e) (en_derives e)
  ++ when (negb (derives DCopy (en_derives e))) [plain_item [NType x]]
  ++ when (negb (derives DClone (en_derives e))) [plain_item [NType x]].

(** expand.rs 381-458: expand_cxx_type, expand_cxx_type_assert_pinned *)
Definition expand_cxx_type (t : extern_type) : list ritem :=
  let x := p_rust (et_name t) in
  [RItem (et_cfg t) (always [NType x]) []; plain_item [NType x]; plain_item [NType x]].

(** expand.rs 501-785, 941-1246: the shims of a function carry its attributes *)
Definition signature_names (f : extern_fn) : list rname :=
  map NType (match fn_receiver f with Some r => [n_rust (rc_ty r)] | None => [] end
               ++ flat_map (fun a => type_names (snd a)) (fn_args f)
               ++ match fn_ret f with Some r => type_names r | None => [] end).
Definition expand_cxx_function (f : extern_fn) : list ritem := [RItem (fn_cfg f) [] (always (signature_names f))].
Definition expand_rust_function (f : extern_fn) : list ritem :=
  [RItem (fn_cfg f) [] (always (signature_names f ++ when (is_none (fn_receiver f)) [NOuter (p_rust (fn_name f))]))].

(** expand.rs 835-864, 884-927: expand_rust_type_impl, expand_rust_type_layout *)
Definition expand_rust_type (t : extern_type) : list ritem :=
  let x := p_rust (et_name t) in
  plain_item [NType x] :: when (derives DExternType (et_derives t)) [plain_item [NType x]] ++ [plain_item [NType x]].

(** expand.rs 1248-1289: expand_type_alias, expand_type_alias_verify *)
Definition expand_type_alias (a : type_alias) : list ritem :=
  let x := p_rust (ta_name a) in
  [RItem (ta_cfg a) (always [NType x]) []; RItem (ta_cfg a) [] (always [NType x])].

(** expand.rs 64-93 *)
Definition expand_api (T : types) (a : api) : list ritem :=
  match a with
  | AInclude _ | AImpl _ => []
  | AStruct s => expand_struct s
  | AEnum e => expand_enum e
  | ACxxType t =>
      let x := p_rust (et_name t) in
      if negb (has x (t_structs T)) && negb (has x (t_enums T)) then expand_cxx_type t else []
  | ACxxFunction f => expand_cxx_function f
  | ARustType t => expand_rust_type t
  | ARustFunction f => expand_rust_function f
  | ATypeAlias a => expand_type_alias a
  end.
(** expand.rs 1300-1850: expand_rust_box … expand_cxx_vector; no attributes *)
Definition expand_impl (k : impl_key) : list ritem :=
  [plain_item (if is_some (atom_from_str (snd k)) then [] else [NType (snd k)])].

(** expand.rs 51-149: expand *)
Definition expand (T : types) (apis : list api) : list ritem :=
  flat_map (fun a => match a with ARustType t => rust_type_import t | _ => [] end) apis
  ++ flat_map (expand_api T) apis
  ++ flat_map (fun i => expand_impl (fst i)) (t_impls T).
