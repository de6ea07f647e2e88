(** What the cfg theorems are stated against: the meaning of a cfg predicate, of
    a list of attributes, of a source file and of cargo's environment. *)
From Verif Require Import Base StrLib Syntax_Model Cfg_Model.

(** A configuration: which (name, optional value) pairs are set. *)
Definition config := string -> option string -> bool.

(** The meaning of a cfg predicate (The Rust Reference, conditional compilation). *)
Fixpoint holds (c : config) (e : cfg_expr) : bool :=
  match e with
  | CUnconditional => true
  | CEq k v => c k v
  | CAll l => forallb (holds c) l
  | CAny l => existsb (holds c) l
  | CNot e => negb (holds c e)
  end.

(** Grammar of cfg predicates (The Rust Reference): [pred] is ConfigurationPredicate,
    [preds] is ConfigurationPredicateList with its optional trailing comma. *)
Inductive pred : list tok -> cfg_expr -> Prop :=
| P_name n : pred [KIdent n] (CEq n None)
| P_value n s : pred [KIdent n; KEq; KStr s] (CEq n (Some s))
| P_all l es : preds l es -> pred [KIdent "all"; KGroup l] (CAll es)
| P_any l es : preds l es -> pred [KIdent "any"; KGroup l] (CAny es)
| P_not l e : pred l e -> pred [KIdent "not"; KGroup l] (CNot e)
| P_not_comma l e : pred l e -> pred [KIdent "not"; KGroup (l ++ [KComma])] (CNot e)
with preds : list tok -> list cfg_expr -> Prop :=
| PL_nil : preds [] []
| PL_last l e : pred l e -> preds l [e]
| PL_cons l e r es : pred l e -> preds r es -> preds (l ++ KComma :: r) (e :: es).

(** The contents of a #[cfg(...)] attribute: one predicate, optional comma. *)
Definition cfg_attribute (l : list tok) (e : cfg_expr) : Prop :=
  pred l e \/ exists l', l = l' ++ [KComma] /\ pred l' e.

(** An attribute allows the item it is on: every cfg does what its text says,
    other attributes do not matter. *)
Definition attr_allows (c : config) (a : attr) : Prop :=
  match a with
  | AtCfg l => exists e, cfg_attribute l e /\ holds c e = true
  | _ => True
  end.
Definition attrs_allow (c : config) (l : list attr) : Prop := Forall (attr_allows c) l.

(** Strong Kleene truth value of a predicate when a flag may be unknown. *)
Definition k_and (a b : option bool) : option bool :=
  match a, b with
  | Some false, _ | _, Some false => Some false
  | Some true, Some true => Some true
  | _, _ => None
  end.
Definition k_not (a : option bool) : option bool := option_map negb a.
Definition k_or (a b : option bool) : option bool := k_not (k_and (k_not a) (k_not b)).

Fixpoint kleene (c : string -> option string -> option bool) (e : cfg_expr) : option bool :=
  match e with
  | CUnconditional => Some true
  | CEq k v => c k v
  | CAll l => fold_right k_and (Some true) (map (kleene c) l)
  | CAny l => fold_right k_or (Some false) (map (kleene c) l)
  | CNot e => k_not (kleene c e)
  end.

(** What an evaluator knows about a flag. *)
Definition known (cev : evaluator) (k : string) (v : option string) : option bool :=
  match cev k v with CRTrue => Some true | CRFalse => Some false | CRUndetermined _ => None end.

(** A configuration that agrees with everything the evaluator claims to know. *)
Definition completion (cev : evaluator) (c : config) : Prop :=
  forall k v b, known cev k v = Some b -> c k v = b.

(** The flags mentioned by a predicate. *)
Inductive mentions : cfg_expr -> string -> option string -> Prop :=
| M_eq k v : mentions (CEq k v) k v
| M_all l e k v : In e l -> mentions e k v -> mentions (CAll l) k v
| M_any l e k v : In e l -> mentions e k v -> mentions (CAny l) k v
| M_not e k v : mentions e k v -> mentions (CNot e) k v.

(** The items a configuration enables: whole items first, then fields and
    variants of what is left, nothing else touched. *)
Definition keep_fields (c : config) (s : struct_) : struct_ :=
  Struct_ (st_cfg s) (st_derives s) (st_name s) (st_lts s)
          (filter (fun f => holds c (v_cfg f)) (st_fields s)).
Definition keep_variants (c : config) (e : enum_) : enum_ :=
  Enum_ (en_cfg e) (en_derives e) (en_name e) (en_lts e)
        (filter (fun v => holds c (vr_cfg v)) (en_variants e))
        (en_from_header e) (en_repr e) (en_explicit_repr e).
Definition keep_inner (c : config) (a : api) : api :=
  match a with
  | AStruct s => AStruct (keep_fields c s)
  | AEnum e => AEnum (keep_variants c e)
  | _ => a
  end.
Definition enabled (c : config) (apis : list api) : list api :=
  map (keep_inner c) (filter (fun a => holds c (api_cfg a)) apis).

(** The cfg predicates that occur on items, fields and variants. *)
Definition inner_cfgs (a : api) : list cfg_expr :=
  match a with
  | AStruct s => map v_cfg (st_fields s)
  | AEnum e => map vr_cfg (en_variants e)
  | _ => []
  end.

(** The bridges of a file that rustc compiles under a configuration: those
    whose own attributes and whose enclosing modules' attributes all allow it. *)
Inductive compiled {A} (c : config) : src_item A -> list attr -> A -> Prop :=
| CB_bridge at_ x : attrs_allow c at_ -> compiled c (SBridge at_ x) at_ x
| CB_mod at_ l i b x : attrs_allow c at_ -> In i l -> compiled c i b x -> compiled c (SMod at_ l) b x.

(** Cargo's build script environment (The Cargo Book, "Environment variables").
    A feature or cfg name is upper-cased and `-` becomes `_`. *)
Definition envify_char (a : ascii) : ascii := if Ascii.eqb a "-" then "_"%char else upper a.
Definition envify (s : string) : string := smap envify_char s.

(** The values a cfg key has. *)
Fixpoint values_of (k : string) (cfgs : list (string * option string)) : list string :=
  match cfgs with
  | [] => []
  | (k', v) :: r =>
      (if String.eqb k k' then match v with Some x => [x] | None => [] end else []) ++ values_of k r
  end.

(** [vars] is what cargo passes for these enabled features and these rustc cfgs:
    exactly one variable per feature and per cfg key, values joined by commas;
    other variables are unrestricted; the order is unspecified. *)
Definition cargo_vars (features : list string) (cfgs : list (string * option string))
           (vars : list (string * string)) : Prop :=
  (forall n, (exists v, In (("CARGO_FEATURE_" ++ n)%string, v) vars) <->
             exists f, In f features /\ n = envify f) /\
  (forall n v, In (("CARGO_CFG_" ++ n)%string, v) vars <->
               exists k, In k (map fst cfgs) /\ n = envify k /\ v = join_with "," (values_of k cfgs)).

(** What rustc says for the same features and cfgs. *)
Definition opt_eqb (a b : option string) : bool :=
  match a, b with Some x, Some y => String.eqb x y | None, None => true | _, _ => false end.
Definition rustc_config (features : list string) (cfgs : list (string * option string)) : config :=
  fun k v =>
    match v with
    | Some f => if String.eqb k "feature" then smem f features
                else existsb (fun kv => String.eqb k (fst kv) && opt_eqb v (snd kv)) cfgs
    | None => existsb (fun kv => String.eqb k (fst kv) && opt_eqb v (snd kv)) cfgs
    end.

(** * C28: what a --cfg flag says *)
(** `name` and `name = true` set the name, `name = false` unsets it, `name = "text"`
    gives it that value. *)
Inductive flag_means : list tok -> string * cfg_value -> Prop :=
| fm_bare n : flag_means [KIdent n] (n, VBool true)
| fm_bool n b : flag_means [KIdent n; KEq; KLitBool b] (n, VBool b)
| fm_value n s : flag_means [KIdent n; KEq; KStr s] (n, VStr s).
