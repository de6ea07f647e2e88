(** From a source file to what the two programs make of its bridges, up to the writing:
    gen/src/file.rs, gen/src/mod.rs 128-197, gen/src/check.rs 9-27 (the C++ generator);
    macro/src/lib.rs 61-75, macro/src/expand.rs 20-54 (the macro); syntax/file.rs 45-85. *)
From Verif Require Import Base Syntax_Model Cfg_Model Types_Model Check_Model Attrs_Model Parse_Model.
From Verif Require Paths_Model.

(** A file is a list of items: modules, with their body if it is inline (its inner attributes and
    its items), and others.  [attrs] of another item are those written before it.  That syn can
    parse each item is taken for granted. *)
Inductive fitem : Type :=
| FMod (attrs : list sattr) (unsafety : bool) (ident : string) (body : option (list sattr * list fitem))
| FItem (attrs : list sattr) (i : sitem).

(** syntax/file.rs 10-25 Module, as far as it is used *)
Record module_ : Type := Module_ { mo_attrs : list sattr; mo_namespace : list string; mo_unsafe : bool; mo_content : list sitem }.

(** syntax/file.rs 87-139: an item of a bridge; modules are not among those distinguished *)
Definition as_item (i : fitem) : sitem := match i with FMod _ _ _ _ => ItOther | FItem _ i => i end.

(** syntax/file.rs 45-85: [attrs] are those parsed here, none in the generator *)
Definition parse_module (attrs : list sattr) (unsafety : bool) (body : option (list sattr * list fitem)) : res module_ :=
  match body with
  | None => Err "#[cxx::bridge] module must have inline contents"
  | Some (inner, items) => Ok (Module_ (attrs ++ inner) [] unsafety (map as_item items))
  end.

(** gen/src/file.rs 28-31; a leading `::` is not looked at *)
Definition is_bridge (a : sattr) : bool :=
  match a_path a with
  | [x; y] => String.eqb x "cxx" && String.eqb y "bridge"
  | _ => false
  end.

Section File.
  Variable lex : string -> option (list tok).
  Variable keyword : string -> bool.
  Variables experimental async_fn : bool.

  (** gen/src/file.rs 65-71 parse_args *)
  Definition bridge_args (m : meta) : res (list string) :=
    match m with
    | MPath => Ok []
    | MList l => parse_bridge_namespace lex keyword l
    | MNameValue _ => Err "expected attribute arguments in parentheses"
    end.
  (** gen/src/file.rs 24-35: the first bridge attribute, if any *)
  Fixpoint bridge_attr (attrs : list sattr) : res (option (list string)) :=
    match attrs with
    | [] => Ok None
    | a :: attrs => if is_bridge a then bind (bridge_args (a_meta a)) (fun ns => Ok (Some ns)) else bridge_attr attrs
    end.

  (** gen/src/file.rs 19-63 parse; the modules are pushed in order *)
  Fixpoint parse_fitem (i : fitem) : res (list module_) :=
    match i with
    | FItem attrs _ =>
        bind (bridge_attr attrs) (fun b =>
          match b with Some _ => Err "expected a module" | None => Ok [] end)
    | FMod attrs unsafety _ body =>
        bind (bridge_attr attrs) (fun b =>
          match b with
          | Some ns =>
              bind (parse_module [] unsafety body) (fun m =>
                Ok [Module_ (attrs ++ mo_attrs m) ns (mo_unsafe m) (mo_content m)])
          | None =>
              match body with
              | None => Ok []
              | Some (_, items) =>
                  (fix go l := match l with
                               | [] => Ok []
                               | i :: l => bind (parse_fitem i) (fun ms => bind (go l) (fun ms' => Ok (ms ++ ms')))
                               end) items
              end
          end)
    end.
  Fixpoint parse_fitems (l : list fitem) : res (list module_) :=
    match l with
    | [] => Ok []
    | i :: l => bind (parse_fitem i) (fun ms => bind (parse_fitems l) (fun ms' => Ok (ms ++ ms')))
    end.

  (** * The C++ generator *)
  Definition bridge_parser (ignore : bool) : parser := Parser (Some CUnconditional) None None None None None None None ignore.
  (** gen/src/mod.rs 151-171: the items of the modules that are enabled; the errors about
      attributes and items are kept apart from those about cfg *)
  Fixpoint gather_modules (cev : evaluator) (st : cfg_state) (l : list module_) : res ((cfg_state * list api) * list string) :=
    match l with
    | [] => Ok ((st, []), [])
    | m :: l =>
        let '(p, _, es) := attrs_parse lex keyword experimental (bridge_parser true) (mo_attrs m) in
        let '(st, keep) := cfg_eval cev st (cfg_of p) in
        bindR (Ok (tt, es)) (fun _ =>
        bindR (if keep then parse_items lex keyword experimental async_fn (mo_unsafe m) (mo_namespace m) (mo_content m) else ret []) (fun outs =>
        bindR (gather_modules cev st l) (fun '(st, apis) =>
          ret (st, map o_api outs ++ apis))))
    end.

  (** gen/src/check.rs 9-27 precheck; not on Windows *)
  Definition dot_include (a : api) : bool :=
    match a with
    | AInclude i =>
        match Paths_Model.components (in_path i) with
        | (Paths_Model.CurDir | Paths_Model.ParentDir) :: _ => true
        | _ => false
        end
    | _ => false
    end.
  Definition precheck (allow_dot_includes : bool) (apis : list api) : list string :=
    if allow_dot_includes then []
    else flat_map (fun a => if dot_include a then ["#include relative to `.` or `..` is not supported in Cargo builds"] else []) apis.

  (** gen/src/mod.rs 143-182: what there is to generate.  [ord] is the order of hash tables; of
      the errors only that there are some is kept. *)
  Definition generate (allow_dot_includes : bool) (cev : evaluator) (ord : nat -> list string -> list string) (file : list fitem) : res (list api * types) :=
    bind (parse_fitems file) (fun modules =>
      match modules with
      | [] => Err "no #[cxx::bridge] module found"
      | _ =>
          bind (gather_modules cev (CfgState [] []) modules) (fun '((st, apis), es) =>
            let '(st, apis) := strip cev st apis in
            match es, cs_pushed st with
            | [], [] =>
                match collect ord apis with
                | None => Panic "fuel"
                | Some (T, errs) =>
                    match errs, precheck allow_dot_includes apis with
                    | [], [] => match typecheck GBuild T apis with [] => Ok (apis, T) | _ => Err "errors" end
                    | _, _ => Err "errors"
                    end
                end
            | _, _ => Err "errors"
            end)
      end).

  (** * The macro *)
  (** macro/src/lib.rs 61-75, expand.rs 20-54: the tokens inside of the attribute's parentheses,
      if any; the other attributes of the module; its body.  load::load, of an experimental
      feature, is not modelled. *)
  Definition expand_bridge (ord : nat -> list string -> list string) (args : list tok)
      (attrs : list sattr) (unsafety : bool) (body : option (list sattr * list fitem)) : res (list out * types) :=
    bind (parse_bridge_namespace lex keyword args) (fun ns =>
    bind (parse_module attrs unsafety body) (fun m =>
      let '(_, _, es) := attrs_parse lex keyword experimental (Parser (Some CUnconditional) (Some ([], false)) None None None None None None false) (mo_attrs m) in
      bind (parse_items lex keyword experimental async_fn (mo_unsafe m) ns (mo_content m)) (fun '(outs, es') =>
        let apis := map o_api outs in
        match collect ord apis with
        | None => Panic "fuel"
        | Some (T, errs) =>
            match es ++ es', errs with
            | [], [] => match typecheck GMacro T apis with [] => Ok (outs, T) | _ => Err "errors" end
            | _, _ => Err "errors"
            end
        end))).
End File.
