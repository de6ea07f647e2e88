(** What C108 says about the errors of a file, without the loops that find them. *)
From Verif Require Import Base Syntax_Model Cfg_Model Cfg_Spec Types_Model Check_Model Check_Spec Attrs_Model Parse_Model File_Model File_Spec Report_Model.

Section Spec.
  Variable lex : string -> option (list tok).
  Variable keyword : string -> bool.
  Variables experimental async_fn : bool.
  Variable cev : evaluator.

  (** The condition that the attributes of a bridge amount to, and their errors *)
  Definition bridge_cfg (m : module_) : cfg_expr :=
    let '(p, _, _) := attrs_parse lex keyword experimental (bridge_parser true) (mo_attrs m) in cfg_of p.
  Definition attr_errors (m : module_) : list string :=
    snd (attrs_parse lex keyword experimental (bridge_parser true) (mo_attrs m)).
  (** What is read in a bridge: its declarations, and the errors found among its items *)
  Definition items_of (m : module_) (outs : list out) (es : list string) : Prop :=
    parse_items lex keyword experimental async_fn (mo_unsafe m) (mo_namespace m) (mo_content m) = Ok (outs, es).
  Definition on (e : cfg_expr) : Prop := kleene (known cev) e = Some true.
  (** Message [s] says why condition [e] has no value *)
  Definition undecided (e : cfg_expr) (s : string) : Prop := exists l, try_eval cev e = EvErr l /\ In s l.

  (** [a] is declared in a bridge that is switched on *)
  Definition declared (ms : list module_) (a : api) : Prop :=
    exists m outs es, In m ms /\ on (bridge_cfg m) /\ items_of m outs es /\ In a (map o_api outs).
  (** All that are declared in such bridges, in order *)
  Inductive declarations : list module_ -> list api -> Prop :=
  | D_nil : declarations [] []
  | D_on m ms outs es l : on (bridge_cfg m) -> items_of m outs es -> declarations ms l -> declarations (m :: ms) (map o_api outs ++ l)
  | D_off m ms l : ~ on (bridge_cfg m) -> declarations ms l -> declarations (m :: ms) l.

  (** Mistakes that can be seen in one place: an attribute of a bridge, a condition, an item *)
  Inductive reading_error (ms : list module_) : string -> Prop :=
  | R_attr m s : In m ms -> In s (attr_errors m) -> reading_error ms s
  | R_cfg m s : In m ms -> undecided (bridge_cfg m) s -> reading_error ms s
  | R_item m outs es s : In m ms -> on (bridge_cfg m) -> items_of m outs es -> In s es -> reading_error ms s
  | R_item_cfg a s : declared ms a -> undecided (api_cfg a) s -> reading_error ms s
  | R_inner_cfg a e s : declared ms a -> on (api_cfg a) -> In e (inner_cfgs a) -> undecided e s -> reading_error ms s.

  (** Errors of a file whose bridges are [ms], in a configuration [c]; there are three kinds.
      [allow]: relative includes are allowed. *)
  Inductive error_of (c : config) (allow : bool) (ord : nat -> list string -> list string) (ms : list module_) : nat -> error_ -> Prop :=
  | E_read s : reading_error ms s -> error_of c allow ord ms 0 (Says s)
  | E_collect l T errs e : declarations ms l -> collect ord (enabled c l) = Some (T, errs) -> In e errs -> error_of c allow ord ms 1 (Collected e)
  | E_include l i : declarations ms l -> allow = false -> In (AInclude i) (enabled c l) -> relative (in_path i) ->
      error_of c allow ord ms 1 (Says "#include relative to `.` or `..` is not supported in Cargo builds")
  | E_check l T errs s : declarations ms l -> collect ord (enabled c l) = Some (T, errs) -> In s (typecheck GBuild T (enabled c l)) ->
      error_of c allow ord ms 2 (Says s).

  (** Errors of a bridge for the macro, in which conditions play no part: two kinds *)
  Definition expanded_attr_errors (m : module_) : list string :=
    snd (attrs_parse lex keyword experimental (Parser (Some CUnconditional) (Some ([], false)) None None None None None None false) (mo_attrs m)).
  Inductive expansion_error (ord : nat -> list string -> list string) (m : module_) : nat -> error_ -> Prop :=
  | X_attr s : In s (expanded_attr_errors m) -> expansion_error ord m 0 (Says s)
  | X_item outs es s : items_of m outs es -> In s es -> expansion_error ord m 0 (Says s)
  | X_collect outs es T errs e : items_of m outs es -> collect ord (map o_api outs) = Some (T, errs) -> In e errs -> expansion_error ord m 0 (Collected e)
  | X_check outs es T errs s : items_of m outs es -> collect ord (map o_api outs) = Some (T, errs) -> In s (typecheck GMacro T (map o_api outs)) ->
      expansion_error ord m 1 (Says s).
End Spec.
