(** Conditional compilation: syntax/cfg.rs, the cfg part of syntax/attrs.rs,
    gen/src/cfg.rs, gen/build/src/cargo.rs, gen/cmd/src/cfg.rs. *)
From Verif Require Import Base StrLib Syntax_Model.

(** Tokens inside a cfg attribute or a --cfg flag.  [KIdent] is a non-keyword
    identifier, [KLitBool] one of the keywords true/false, [KGroup] a
    parenthesised group, [KPunct] any other token. *)
Inductive tok : Type :=
| KIdent (s : string)
| KEq
| KComma
| KStr (s : string)
| KLitBool (b : bool)
| KGroup (l : list tok)
| KPunct (s : string).

Fixpoint tok_size (t : tok) : nat :=
  match t with
  | KGroup l => S (list_sum (map tok_size l))
  | _ => 1
  end.
Definition toks_size (l : list tok) : nat := list_sum (map tok_size l).

(** syntax/cfg.rs 39-67 parse_single and 69-80 parse_multiple.  The result of
    [parse_single] carries the unconsumed input.  A group that is not consumed
    completely is an error (syn reports it when the group's ParseStream is
    dropped; here it is reported at once).  Running out of fuel is [Panic],
    which Cfg_Proofs.parse_total excludes for the fuel used below. *)
Fixpoint parse_single (fuel : nat) (input : list tok) : res (cfg_expr * list tok) :=
  match fuel with
  | O => Panic "fuel"
  | S f =>
      match input with
      | KIdent n :: KGroup g :: rest =>
          if String.eqb n "all" then bind (parse_multiple f g) (fun l => Ok (CAll l, rest))
          else if String.eqb n "any" then bind (parse_multiple f g) (fun l => Ok (CAny l, rest))
          else if String.eqb n "not" then
            bind (parse_single f g) (fun er =>
              match snd er with
              | [] | [KComma] => Ok (CNot (fst er), rest)
              | _ => Err "unexpected token"
              end)
          else Err "unrecognized cfg expression"
      | KIdent n :: KEq :: KStr s :: rest => Ok (CEq n (Some s), rest)
      | KIdent n :: KComma :: rest => Ok (CEq n None, KComma :: rest)
      | KIdent n :: [] => Ok (CEq n None, [])
      | _ => Err "expected `=`, `,` or parentheses"
      end
  end
with parse_multiple (fuel : nat) (input : list tok) : res (list cfg_expr) :=
  match fuel with
  | O => Panic "fuel"
  | S f =>
      match input with
      | [] => Ok []
      | _ =>
          bind (parse_single f input) (fun er =>
            match snd er with
            | [] => Ok [fst er]
            | KComma :: r => bind (parse_multiple f r) (fun l => Ok (fst er :: l))
            | _ => Err "expected `,`"
            end)
      end
  end.

Definition parse_fuel (input : list tok) : nat := 2 * toks_size input + 2.

(** syntax/cfg.rs 31-37 parse_attribute *)
Definition parse_attribute (input : list tok) : res cfg_expr :=
  bind (parse_single (parse_fuel input) input) (fun er =>
    match snd er with
    | [] | [KComma] => Ok (fst er)
    | _ => Err "unexpected token"
    end).

(** syntax/cfg.rs 19-28 CfgExpr::merge *)
Definition merge (self expr : cfg_expr) : cfg_expr :=
  match self with
  | CUnconditional => expr
  | CAll l => CAll (l ++ [expr])
  | _ => CAll [self; expr]
  end.

(** One outer attribute as the loop of attrs::parse sees it: a cfg attribute with
    its tokens; one that the loop passes through to the Rust expansion (lint
    attributes, serde, clippy::); one that it consumes (doc, derive, namespace, ...);
    one it does not know; one whose contents do not parse. *)
Inductive attr : Type :=
| AtCfg (l : list tok)
| AtPass (s : string)
| AtConsumed
| AtUnknown
| AtMalformed.

(** syntax/attrs.rs 47-185 parse, for a parser with [cfg: Some(..)]: the cfg
    accumulated, the passthrough attributes and whether an error was reported.
    [ign] is ignore_unrecognized.  Which attributes the loop consumes depends
    on the parser's other slots, which is what [AtConsumed]/[AtUnknown] record. *)
Fixpoint attrs_parse (ign : bool) (attrs : list attr) (cfg : cfg_expr)
  : cfg_expr * list attr * bool :=
  match attrs with
  | [] => (cfg, [], false)
  | a :: rest =>
      match a with
      | AtCfg l =>
          match parse_attribute l with
          | Ok e => let '(c, p, err) := attrs_parse ign rest (merge cfg e) in (c, a :: p, err)
          | _ => (cfg, [], true)
          end
      | AtPass _ => let '(c, p, err) := attrs_parse ign rest cfg in (c, a :: p, err)
      | AtConsumed => attrs_parse ign rest cfg
      | AtUnknown => if ign then attrs_parse ign rest cfg else (cfg, [], true)
      | AtMalformed => (cfg, [], true)
      end
  end.

(** syntax/parse.rs 360-370 and 455-487 (types), 503-531 (functions): the
    attributes of an extern block, then those of one of its items.  Result: the
    item's cfg, its passthrough attributes (block attributes first, [attrs.extend])
    and whether an error was reported. *)
Definition extern_item_attrs (block item : list attr) : cfg_expr * list attr * bool :=
  let '(bc, bp, be) := attrs_parse false block CUnconditional in
  let '(ic, ip, ie) := attrs_parse false item bc in
  (ic, bp ++ ip, be || ie).

(** syntax/parse.rs 386-392: an include! gets the cfg of its block; the
    attributes written on the include itself are not read. *)
Definition extern_include_attrs (block item : list attr) : cfg_expr * bool :=
  let '(bc, _, be) := attrs_parse false block CUnconditional in (bc, be).

(** gen/src/file.rs 19-66: the items of a source file that matter for finding
    bridges: a bridge module (its attributes and a payload standing for its
    contents), another inline module with its attributes, anything else. *)
Inductive src_item (A : Type) : Type :=
| SBridge (attrs : list attr) (content : A)
| SMod (attrs : list attr) (items : list (src_item A))
| SOther.
Arguments SBridge {A}. Arguments SMod {A}. Arguments SOther {A}.

(** gen/src/file.rs 19-66 parse: collects the bridges; the attributes of an
    enclosing module are parsed ([Attribute::parse_outer]) and dropped. *)
Fixpoint bridges {A} (i : src_item A) : list (list attr * A) :=
  match i with
  | SBridge at_ c => [(at_, c)]
  | SMod _ l => flat_map bridges l
  | SOther => []
  end.
Definition file_bridges {A} (l : list (src_item A)) : list (list attr * A) := flat_map bridges l.

(** gen/src/mod.rs CfgResult *)
Inductive cfg_result : Type := CRTrue | CRFalse | CRUndetermined (msg : string).

(** gen/src/cfg.rs 125-133 impl From<bool> for CfgResult *)
Definition cfg_of_bool (b : bool) : cfg_result := if b then CRTrue else CRFalse.

(** gen/src/mod.rs trait CfgEvaluator *)
Definition evaluator := string -> option string -> cfg_result.

(** gen/src/cfg.rs 11-18 UnsupportedCfgEvaluator *)
Definition unsupported : evaluator := fun _ _ => CRUndetermined "cfg attribute is not supported".

(** Result<bool, Vec<Error>>; an error is its message (the span is dropped). *)
Inductive ev : Type := EvOk (b : bool) | EvErr (errs : list string).

(** gen/src/cfg.rs 74-88, the loop for All, over the results of the
    subexpressions.  The code evaluates lazily; evaluation is pure, so the
    results it would not have looked at do not matter. *)
Fixpoint all_loop (rs : list ev) (all_errors : list string) : ev :=
  match rs with
  | [] => match all_errors with [] => EvOk true | _ => EvErr all_errors end
  | EvOk true :: r => all_loop r all_errors
  | EvOk false :: _ => EvOk false
  | EvErr errors :: r => all_loop r (all_errors ++ errors)
  end.

(** gen/src/cfg.rs 89-103, the loop for Any. *)
Fixpoint any_loop (rs : list ev) (all_errors : list string) : ev :=
  match rs with
  | [] => match all_errors with [] => EvOk false | _ => EvErr all_errors end
  | EvOk true :: _ => EvOk true
  | EvOk false :: r => any_loop r all_errors
  | EvErr errors :: r => any_loop r (all_errors ++ errors)
  end.

(** gen/src/cfg.rs 59-109 try_eval *)
Fixpoint try_eval (cev : evaluator) (expr : cfg_expr) : ev :=
  match expr with
  | CUnconditional => EvOk true
  | CEq key value =>
      match cev key value with
      | CRTrue => EvOk true
      | CRFalse => EvOk false
      | CRUndetermined msg => EvErr [msg]
      end
  | CAll list => all_loop (map (try_eval cev) list) []
  | CAny list => any_loop (map (try_eval cev) list) []
  | CNot e =>
      match try_eval cev e with
      | EvOk v => EvOk (negb v)
      | EvErr errors => EvErr errors
      end
  end.

(** The two pieces of mutable state threaded through gen/src/cfg.rs: the set
    [cfg_errors] of messages seen and the errors pushed to [cx]. *)
Record cfg_state : Type := CfgState { cs_seen : list string; cs_pushed : list string }.

(** gen/src/cfg.rs 48-53: push each error whose message was not seen before. *)
Fixpoint push_errors (st : cfg_state) (errors : list string) : cfg_state :=
  match errors with
  | [] => st
  | m :: r =>
      push_errors (if smem m (cs_seen st) then st
                   else CfgState (m :: cs_seen st) (cs_pushed st ++ [m])) r
  end.

(** gen/src/cfg.rs 40-57 eval *)
Definition cfg_eval (cev : evaluator) (st : cfg_state) (expr : cfg_expr) : cfg_state * bool :=
  match try_eval cev expr with
  | EvOk v => (st, v)
  | EvErr errors => (push_errors st errors, false)
  end.

(** gen/src/cfg.rs 111-123 Api::cfg *)
Definition api_cfg (a : api) : cfg_expr :=
  match a with
  | AInclude i => in_cfg i
  | AStruct s => st_cfg s
  | AEnum e => en_cfg e
  | ACxxType t | ARustType t => et_cfg t
  | ACxxFunction f | ARustFunction f => fn_cfg f
  | ATypeAlias t => ta_cfg t
  | AImpl i => im_cfg i
  end.

(** Vec::retain with the stateful predicate [eval] of the element's cfg. *)
Fixpoint retain {A} (cev : evaluator) (cfg : A -> cfg_expr) (st : cfg_state) (l : list A)
  : cfg_state * list A :=
  match l with
  | [] => (st, [])
  | x :: r =>
      let '(st1, keep) := cfg_eval cev st (cfg x) in
      let '(st2, r') := retain cev cfg st1 r in
      (st2, if keep then x :: r' else r')
  end.

(** gen/src/cfg.rs 27-37: fields and variants of the surviving items. *)
Definition strip_inner (cev : evaluator) (st : cfg_state) (a : api) : cfg_state * api :=
  match a with
  | AStruct s =>
      let '(st', fs) := retain cev v_cfg st (st_fields s) in
      (st', AStruct (Struct_ (st_cfg s) (st_derives s) (st_name s) (st_lts s) fs))
  | AEnum e =>
      let '(st', vs) := retain cev vr_cfg st (en_variants e) in
      (st', AEnum (Enum_ (en_cfg e) (en_derives e) (en_name e) (en_lts e) vs
                         (en_from_header e) (en_repr e) (en_explicit_repr e)))
  | _ => (st, a)
  end.

Fixpoint strip_each (cev : evaluator) (st : cfg_state) (l : list api) : cfg_state * list api :=
  match l with
  | [] => (st, [])
  | a :: r =>
      let '(st1, a') := strip_inner cev st a in
      let '(st2, r') := strip_each cev st1 r in
      (st2, a' :: r')
  end.

(** gen/src/cfg.rs 20-38 strip *)
Definition strip (cev : evaluator) (st : cfg_state) (apis : list api) : cfg_state * list api :=
  let '(st1, kept) := retain cev api_cfg st apis in
  strip_each cev st1 kept.

(** gen/src/mod.rs 143-173: the cfg of each bridge is evaluated, the items of the
    enabled ones are concatenated and stripped; generation goes on only if nothing
    was pushed ([errors.propagate()?]).  Here a bridge is its cfg (already parsed
    by attrs::parse) and its items (parse errors are not part of this function). *)
Fixpoint gather (cev : evaluator) (st : cfg_state) (bs : list (cfg_expr * list api))
  : cfg_state * list api :=
  match bs with
  | [] => (st, [])
  | (c, items) :: r =>
      let '(st1, keep) := cfg_eval cev st c in
      let '(st2, rest) := gather cev st1 r in
      (st2, if keep then items ++ rest else rest)
  end.

Definition generate_apis (cev : evaluator) (bs : list (cfg_expr * list api)) : option (list api) :=
  let '(st1, apis) := gather cev (CfgState [] []) bs in
  let '(st2, apis') := strip cev st1 apis in
  match cs_pushed st2 with
  | [] => Some apis'
  | _ => None
  end.

(** gen/build/src/cargo.rs 92-155: Name and Lookup compare byte-wise after
    to_ascii_lowercase.  The BTreeSet/BTreeMap keyed by that order are modelled
    as lists searched with that equality. *)
Definition eq_ci (a b : string) : bool := String.eqb (smap lower a) (smap lower b).

(** gen/build/src/cargo.rs 10-13 CargoEnv *)
Record cargo_env : Type := CargoEnv { ce_features : list string; ce_cfgs : list (string * string) }.

(** BTreeMap::insert on the case-agnostic key: replaces the value of an equal key
    and keeps the old key. *)
Fixpoint ci_insert (k v : string) (m : list (string * string)) : list (string * string) :=
  match m with
  | [] => [(k, v)]
  | (k', v') :: r => if eq_ci k k' then (k', v) :: r else (k', v') :: ci_insert k v r
  end.

(** BTreeMap::get *)
Fixpoint ci_get (k : string) (m : list (string * string)) : option string :=
  match m with
  | [] => None
  | (k', v) :: r => if eq_ci k k' then Some v else ci_get k r
  end.

(** gen/build/src/cargo.rs 46-70 CargoEnv::load over the (UTF-8) environment
    variables in the order the OS yields them. *)
Fixpoint cargo_load (vars : list (string * string)) (env : cargo_env) : cargo_env :=
  match vars with
  | [] => env
  | (k, v) :: r =>
      cargo_load r
        (match strip_prefix "CARGO_FEATURE_" k with
         | Some f => CargoEnv (if existsb (eq_ci f) (ce_features env) then ce_features env
                               else f :: ce_features env) (ce_cfgs env)
         | None =>
             match strip_prefix "CARGO_CFG_" k with
             | Some c => CargoEnv (ce_features env) (ci_insert c v (ce_cfgs env))
             | None => env
             end
         end)
  end.

(** gen/build/src/cargo.rs 17-44 CargoEnvCfgEvaluator::eval; [dbg] is
    cfg!(debug_assertions) of the build script itself. *)
Definition cargo_eval (vars : list (string * string)) (dbg : bool) : evaluator :=
  fun name query =>
    let env := cargo_load vars (CargoEnv [] []) in
    if String.eqb name "feature" then
      match query with
      | Some q => cfg_of_bool (existsb (eq_ci q) (ce_features env))
      | None => CRUndetermined "expected `feature = ...`"
      end
    else if String.eqb name "test" && is_none query then
      CRUndetermined "cfg(test) is not supported"
    else match ci_get name (ce_cfgs env) with
         | Some cv =>
             match query with
             | Some q => cfg_of_bool (existsb (String.eqb q) (split_on "," cv))
             | None => CRTrue
             end
         | None =>
             if String.eqb name "debug_assertions" && is_none query then cfg_of_bool dbg
             else CRFalse
         end.

(** gen/cmd/src/cfg.rs 7-11 CfgValue *)
Inductive cfg_value : Type := VBool (b : bool) | VStr (s : string).
Definition cfg_value_eqb (a b : cfg_value) : bool :=
  match a, b with
  | VBool x, VBool y => Bool.eqb x y
  | VStr x, VStr y => String.eqb x y
  | _, _ => false
  end.

(** gen/cmd/src/cfg.rs 75-93 parse, on the whole flag text (parse_str also
    requires that the input is consumed). *)
Definition parse_flag (input : list tok) : option (string * cfg_value) :=
  match input with
  | [KIdent n] => Some (n, VBool true)
  | [KIdent n; KEq; KLitBool b] => Some (n, VBool b)
  | [KIdent n; KEq; KStr s] => Some (n, VStr s)
  | _ => None
  end.

(** gen/cmd/src/app.rs 137-152: the value parser applied to each --cfg in turn;
    [bools] is the map bool_cfgs.  None: the command line is rejected. *)
Fixpoint parse_flags (args : list (list tok)) (bools : list (string * bool))
  : option (list (string * cfg_value)) :=
  match args with
  | [] => Some []
  | a :: r =>
      match parse_flag a with
      | Some (n, VStr s) => option_map (cons (n, VStr s)) (parse_flags r bools)
      | Some (n, VBool b) =>
          match assoc n bools with
          | Some prev =>
              if Bool.eqb prev b then option_map (cons (n, VBool b)) (parse_flags r ((n, b) :: bools))
              else None
          | None => option_map (cons (n, VBool b)) (parse_flags r ((n, b) :: bools))
          end
      | None => None
      end
  end.

(** gen/cmd/src/app.rs from_args: the map from name to the set of values. *)
Fixpoint flag_insert (n : string) (v : cfg_value) (m : list (string * list cfg_value))
  : list (string * list cfg_value) :=
  match m with
  | [] => [(n, [v])]
  | (k, s) :: r =>
      if String.eqb n k then (k, if existsb (cfg_value_eqb v) s then s else v :: s) :: r
      else (k, s) :: flag_insert n v r
  end.
Definition flag_map (l : list (string * cfg_value)) : list (string * list cfg_value) :=
  fold_left (fun m nv => flag_insert (fst nv) (snd nv) m) l [].

(** gen/cmd/src/cfg.rs 28-65 FlagsCfgEvaluator::eval *)
Definition flags_eval (m : list (string * list cfg_value)) : evaluator :=
  fun name value =>
    let set := assoc name m in
    match value with
    | Some v =>
        match set with
        | Some s => cfg_of_bool (existsb (cfg_value_eqb (VStr v)) s)
        | None =>
            if String.eqb name "feature" then CRFalse
            else CRUndetermined ("pass --cfg " ++ name ++ "=... to be able to use this attribute")
        end
    | None =>
        let is_false := match set with Some s => existsb (cfg_value_eqb (VBool false)) s | None => false end in
        let is_true := match set with Some s => existsb (cfg_value_eqb (VBool true)) s | None => false end in
        if is_false && is_true then CRUndetermined ("the cxxbridge flags say both: " ++ name)
        else if is_false then CRFalse
        else if is_true then CRTrue
        else CRUndetermined ("pass either true or false for " ++ name)
    end.

(** gen/cmd/src/app.rs + main.rs: the evaluator of a cxxbridge run, if the command
    line is accepted. *)
Definition cli (args : list (list tok)) : option evaluator :=
  option_map (fun l => flags_eval (flag_map l)) (parse_flags args []).
