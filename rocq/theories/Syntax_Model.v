(** The abstract syntax of a bridge: syntax/mod.rs.
    Spans, tokens, doc comments, visibility and other pass-through attributes are
    not represented. *)
From Verif Require Import Base.

(** syntax/cfg.rs 7-16: enum CfgExpr *)
Inductive cfg_expr : Type :=
| CUnconditional
| CEq (key : string) (value : option string)
| CAll (l : list cfg_expr)
| CAny (l : list cfg_expr)
| CNot (e : cfg_expr).

(** syntax/derive.rs 14-28: enum Trait *)
Inductive trait : Set :=
| DClone | DCopy | DDebug | DDefault | DEq | DExternType | DHash | DOrd
| DPartialEq | DPartialOrd | DSerialize | DDeserialize.
Scheme Equality for trait.
Definition trait_eqb := trait_beq.

(** syntax/mod.rs 336-344: struct NamedType; [n_lts] are the lifetime arguments. *)
Record named : Type := Named { n_rust : string; n_lts : list string }.

(** syntax/mod.rs 247-262: enum Type.  [Ty1] (264-269) is its inner type: its [name]
    is fixed by the constructor (parse.rs 1213-1310).  [TStr] keeps only the
    lifetime: parse.rs 1174-1180 only builds it unpinned, shared, over [str].
    [TFn]: a function pointer Signature has no receiver, generics or async
    (parse.rs 1415-1420). *)
Inductive ty : Type :=
| TIdent (n : named)
| TBox (t : ty)
| TVec (t : ty)
| TUniquePtr (t : ty)
| TSharedPtr (t : ty)
| TWeakPtr (t : ty)
| TRef (pinned mutable : bool) (lt : option string) (t : ty)
| TPtr (mutable : bool) (t : ty)
| TStr (lt : option string)
| TCxxVector (t : ty)
| TFn (unsafety throws : bool) (args : list (string * ty)) (ret : option ty)
| TVoid
| TSlice (mutable : bool) (lt : option string) (t : ty)
| TArray (t : ty) (len : N).

(** syntax/mod.rs 311-315: enum Lang *)
Inductive lang : Set := LCxx | LRust.
Definition lang_eqb (a b : lang) : bool := match a, b with LCxx, LCxx | LRust, LRust => true | _, _ => false end.

(** syntax/mod.rs 319-324: struct Pair *)
Record pair_name : Type := Pair { p_ns : list string; p_cxx : string; p_rust : string }.

(** syntax/mod.rs 207-218: struct Var *)
Record var : Type := Var { v_cfg : cfg_expr; v_name : pair_name; v_ty : ty }.

(** syntax/mod.rs 220-232: struct Receiver *)
Record receiver : Type := Receiver
  { rc_pinned : bool; rc_lt : option string; rc_mutable : bool; rc_ty : named; rc_shorthand : bool }.

(** syntax/mod.rs 102-115: struct Struct *)
Record struct_ : Type := Struct_
  { st_cfg : cfg_expr; st_derives : list trait; st_name : pair_name; st_lts : list string; st_fields : list var }.

(** syntax/mod.rs 234-245: struct Variant (its discriminant as an integer, see
    Discriminant_Model) *)
Record variant : Type := Variant { vr_cfg : cfg_expr; vr_name : pair_name; vr_disc : Z }.

(** syntax/mod.rs 117-136: struct Enum *)
Record enum_ : Type := Enum_
  { en_cfg : cfg_expr; en_derives : list trait; en_name : pair_name; en_lts : list string;
    en_variants : list variant; en_from_header : bool; en_repr : atom; en_explicit_repr : bool }.

(** syntax/mod.rs 84-100: struct ExternType *)
Record extern_type : Type := ExternType
  { et_cfg : cfg_expr; et_lang : lang; et_derives : list trait; et_name : pair_name; et_lts : list string;
    et_bounds : list trait; et_trusted : bool }.

(** syntax/mod.rs 149-161 and 194-205: struct ExternFn with its Signature; the
    generics are the declared lifetime parameters. *)
Record extern_fn : Type := ExternFn
  { fn_cfg : cfg_expr; fn_lang : lang; fn_name : pair_name;
    fn_async : bool; fn_unsafe : bool; fn_generics : list string;
    fn_receiver : option receiver; fn_args : list (string * ty); fn_ret : option ty; fn_throws : bool;
    fn_trusted : bool }.

(** syntax/mod.rs 163-180: struct TypeAlias *)
Record type_alias : Type := TypeAlias
  { ta_cfg : cfg_expr; ta_derives : list trait; ta_name : pair_name; ta_lts : list string }.

(** syntax/mod.rs 182-192: struct Impl *)
Record impl_ : Type := Impl_ { im_cfg : cfg_expr; im_lts : list string; im_negative : bool; im_ty : ty }.

(** syntax/mod.rs 65-82: struct Include, enum IncludeKind *)
Record include_ : Type := Include_ { in_cfg : cfg_expr; in_path : string; in_bracketed : bool }.

(** syntax/mod.rs 52-63: enum Api *)
Inductive api : Type :=
| AInclude (i : include_)
| AStruct (s : struct_)
| AEnum (e : enum_)
| ACxxType (t : extern_type)
| ACxxFunction (f : extern_fn)
| ARustType (t : extern_type)
| ARustFunction (f : extern_fn)
| ATypeAlias (a : type_alias)
| AImpl (i : impl_).

(** Induction on types through function pointer arguments. *)
Section ty_ind.
  Variable P : ty -> Prop.
  Hypothesis HIdent : forall n, P (TIdent n).
  Hypothesis HBox : forall t, P t -> P (TBox t).
  Hypothesis HVec : forall t, P t -> P (TVec t).
  Hypothesis HUnique : forall t, P t -> P (TUniquePtr t).
  Hypothesis HShared : forall t, P t -> P (TSharedPtr t).
  Hypothesis HWeak : forall t, P t -> P (TWeakPtr t).
  Hypothesis HRef : forall p m l t, P t -> P (TRef p m l t).
  Hypothesis HPtr : forall m t, P t -> P (TPtr m t).
  Hypothesis HStr : forall l, P (TStr l).
  Hypothesis HVector : forall t, P t -> P (TCxxVector t).
  Hypothesis HFn : forall u th args ret,
      Forall (fun a => P (snd a)) args -> (forall r, ret = Some r -> P r) -> P (TFn u th args ret).
  Hypothesis HVoid : P TVoid.
  Hypothesis HSlice : forall m l t, P t -> P (TSlice m l t).
  Hypothesis HArray : forall t n, P t -> P (TArray t n).

  Fixpoint ty_ind' (t : ty) : P t :=
    match t return P t with
    | TIdent n => HIdent n
    | TBox t => HBox t (ty_ind' t)
    | TVec t => HVec t (ty_ind' t)
    | TUniquePtr t => HUnique t (ty_ind' t)
    | TSharedPtr t => HShared t (ty_ind' t)
    | TWeakPtr t => HWeak t (ty_ind' t)
    | TRef p m l t => HRef p m l t (ty_ind' t)
    | TPtr m t => HPtr m t (ty_ind' t)
    | TStr l => HStr l
    | TCxxVector t => HVector t (ty_ind' t)
    | TFn u th args ret =>
        HFn u th args ret
          ((fix go (l : list (string * ty)) : Forall (fun a => P (snd a)) l :=
              match l with
              | [] => Forall_nil _
              | a :: r => Forall_cons a (ty_ind' (snd a)) (go r)
              end) args)
          (match ret return forall r, ret = Some r -> P r with
           | Some t0 => fun r e => match e in _ = o return (match o with Some r => P r | None => True end) with
                                   | eq_refl => ty_ind' t0 end
           | None => fun r e => match e in _ = o return (match o with Some r => P r | None => True end) with
                                   | eq_refl => I end
           end)
    | TVoid => HVoid
    | TSlice m l t => HSlice m l t (ty_ind' t)
    | TArray t n => HArray t n (ty_ind' t)
    end.
End ty_ind.
