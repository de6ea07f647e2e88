(** Properties C24-C28 and C58: conditional compilation. *)
From Verif Require Import Base StrLib Syntax_Model Cfg_Model Cfg_Spec Cfg_Proofs Cfg_Proofs2.

Local Definition feat (s : string) : list tok := [KIdent "feature"; KEq; KStr s].
Local Definition grp (n : string) (l : list tok) : list tok := [KIdent n; KGroup l].
Local Definition c_none : config := fun _ _ => false.
Local Definition c_all : config := fun _ _ => true.

(** * C58: the text of a cfg attribute is read according to the grammar *)

(** C58.  The attribute parser accepts exactly the token sequences of the cfg
    grammar, gives each the expression it stands for, and never runs out of
    fuel. *)
Theorem C58_cfg_grammar : forall l,
  (forall e, parse_attribute l = Ok e <-> cfg_attribute l e) /\
  (forall m, parse_attribute l <> Panic m) /\
  (forall e e', cfg_attribute l e -> cfg_attribute l e' -> e = e').
Proof.
  intros l. split; [exact (parse_attribute_spec l)|]. split; [exact (parse_attribute_total l)|].
  exact (cfg_attribute_det l).
Qed.
Print Assumptions C58_cfg_grammar.

Example C58_example :
  parse_attribute (grp "all" (feat "a" ++ [KComma] ++ grp "not" [KIdent "unix"; KComma] ++ [KComma]))
  = Ok (CAll [CEq "feature" (Some "a"); CNot (CEq "unix" None)]) /\
  parse_attribute (grp "all" (feat "a" ++ feat "b")) = Err "expected `,`" /\
  parse_attribute (grp "most" (feat "a")) = Err "unrecognized cfg expression".
Proof. repeat split. Qed.

(** * C24: several cfg attributes mean their conjunction *)

(** C24.  For a function or type in an extern block: if the attributes were
    accepted, the condition under which the C++ generator keeps the item and the
    attributes the Rust expansion carries both say that all cfgs of the block
    and of the item hold. *)
Theorem C24_conjunction : forall block item cfg pass,
  extern_item_attrs block item = (cfg, pass, false) ->
  forall c, (holds c cfg = true <-> attrs_allow c (block ++ item)) /\
            (attrs_allow c pass <-> attrs_allow c (block ++ item)).
Proof. exact extern_item_spec. Qed.
Print Assumptions C24_conjunction.

Example C24_example :
  let '(cfg, pass, err) :=
    extern_item_attrs [AtCfg (feat "a"); AtPass "allow(dead_code)"] [AtConsumed; AtCfg (grp "any" []); AtCfg (feat "b")] in
  err = false /\ cfg = CAll [CEq "feature" (Some "a"); CAny []; CEq "feature" (Some "b")] /\
  List.length pass = 4.
Proof. repeat split. Qed.

(** The same for structs, enums, impls, fields, variants and bridge modules:
    one list of attributes. *)
Theorem C24_one_list : forall ign attrs cfg pass,
  attrs_parse ign attrs CUnconditional = (cfg, pass, false) ->
  forall c, (holds c cfg = true <-> attrs_allow c attrs) /\ (attrs_allow c pass <-> attrs_allow c attrs).
Proof.
  intros ign attrs cfg pass H c. apply attrs_parse_spec in H as [A B]. split.
  - rewrite A. cbn. tauto.
  - rewrite (attrs_allow_cfg_only c pass), B, <- attrs_allow_cfg_only. tauto.
Qed.
Print Assumptions C24_one_list.

(** C24 is false for include!: an attribute on the include itself is ignored, so
    `#[cfg(any())] include!("x.h")` is always included. *)
Theorem C24_include_refuted : exists block item cfg c,
  extern_include_attrs block item = (cfg, false) /\ holds c cfg = true /\ ~ attrs_allow c (block ++ item).
Proof.
  exists [], [AtCfg (grp "any" [])], CUnconditional, c_all.
  split; [reflexivity|]. split; [reflexivity|]. intros H. inversion H as [|? ? H1 _]. subst.
  destruct H1 as (e & He & Hh). apply parse_attribute_spec in He. vm_compute in He.
  injection He as <-. discriminate Hh.
Qed.
Print Assumptions C24_include_refuted.

(** What holds for an include: the attributes of its block count. *)
Theorem C24_include_partial : forall block item cfg,
  extern_include_attrs block item = (cfg, false) ->
  forall c, holds c cfg = true <-> attrs_allow c block.
Proof.
  intros block item cfg. unfold extern_include_attrs.
  destruct (attrs_parse false block CUnconditional) as [[bc bp] be] eqn:E.
  intros H; injection H as -> ->. intros c. apply attrs_parse_spec in E as [A _].
  rewrite A. cbn. tauto.
Qed.
Print Assumptions C24_include_partial.

(** C24 is false for a bridge inside a conditional module: the attributes of
    the enclosing module are ignored by the C++ generator. *)
Theorem C24_nested_module_refuted : exists (file : list (src_item nat)) b x c,
  In (b, x) (file_bridges file) /\ attrs_allow c b /\
  ~ exists i, In i file /\ compiled c i b x.
Proof.
  exists [SMod [AtCfg (grp "any" [])] [SBridge [] 7]], [], 7, c_all.
  split; [left; reflexivity|]. split; [constructor|].
  intros (i & [<-|[]] & H). inversion H as [|at_ l j b x A J K]; subst.
  inversion A as [|? ? A1 _]; subst. destruct A1 as (e & He & Hh).
  apply parse_attribute_spec in He. vm_compute in He. injection He as <-. discriminate Hh.
Qed.
Print Assumptions C24_nested_module_refuted.

(** No module around a bridge has a cfg attribute. *)
Fixpoint plain_modules {A} (i : src_item A) : Prop :=
  match i with
  | SMod at_ l => Forall (fun a => match a with AtCfg _ => False | _ => True end) at_ /\
                  fold_right and True (map plain_modules l)
  | _ => True
  end.

(** What holds: if no enclosing module carries a cfg, the bridges generated are
    the bridges rustc compiles. *)
Theorem C24_nested_module_partial : forall A (file : list (src_item A)) b x c,
  Forall plain_modules file ->
  (In (b, x) (file_bridges file) /\ attrs_allow c b <-> exists i, In i file /\ compiled c i b x).
Proof.
  intros A file b x c P.
  assert (H : forall i : src_item A, plain_modules i ->
            (In (b, x) (bridges i) /\ attrs_allow c b <-> compiled c i b x)).
  { fix rec 1. intros [at_ y|at_ l|] Hp.
    - cbn. split.
      + intros [[E|[]] H]. injection E as -> ->. now constructor.
      + intros H. inversion H; subst. auto.
    - cbn [plain_modules] in Hp. destruct Hp as [Ha Hl].
      assert (AA : attrs_allow c at_).
      { unfold attrs_allow. eapply Forall_impl; [|exact Ha]. intros [] Z; cbn; auto; destruct Z. }
      cbn [bridges].
      assert (Q : In (b, x) (flat_map bridges l) /\ attrs_allow c b <-> exists i, In i l /\ compiled c i b x).
      { clear Ha AA. revert Hl. induction l as [|i l IH]; intros Hl.
        - cbn. split; [intros [[] _]|intros (? & [] & _)].
        - cbn [map fold_right] in Hl. destruct Hl as [H1 H2]. specialize (rec i H1). specialize (IH H2).
          cbn [flat_map]. rewrite in_app_iff. split.
          + intros [[I|I] H].
            * exists i. split; [left; reflexivity|tauto].
            * destruct (proj1 IH (conj I H)) as (j & J & K). exists j. split; [right|]; assumption.
          + intros (j & [->|J] & K).
            * tauto.
            * destruct (proj2 IH); [eauto|]. tauto. }
      rewrite Q. split.
      + intros (i & I & K). econstructor; eassumption.
      + intros K. inversion K; subst. eauto.
    - cbn. split; [intros [[] _]|intros H; inversion H]. }
  unfold file_bridges. rewrite in_flat_map. rewrite Forall_forall in P. split.
  - intros [(i & I & J) K]. exists i. split; [assumption|]. apply H; auto.
  - intros (i & I & J). apply H in J as [J K]; auto. split; [eauto|assumption].
Qed.
Print Assumptions C24_nested_module_partial.

(** * C25: evaluation with unknown flags *)

(** C25.  A decided value is the value under every completion of the unknown
    flags. *)
Theorem C25_sound : forall cev e b c,
  try_eval cev e = EvOk b -> completion cev c -> holds c e = b.
Proof.
  intros cev e b c H C. apply kleene_sound with cev; [assumption|].
  destruct (try_eval_k cev e) as [_ K]. rewrite H in K. now rewrite <- K.
Qed.
Print Assumptions C25_sound.

(** An error is reported exactly when the strong Kleene value is unknown; the
    errors are those of flags the expression mentions. *)
Theorem C25_errors : forall cev e,
  (forall b, try_eval cev e = EvOk b <-> kleene (known cev) e = Some b) /\
  ((exists l, try_eval cev e = EvErr l) <-> kleene (known cev) e = None) /\
  (forall l, try_eval cev e = EvErr l -> l <> [] /\
     forall m, In m l -> exists k v, mentions e k v /\ cev k v = CRUndetermined m).
Proof.
  intros cev e. destruct (try_eval_k cev e) as [G K]. destruct (try_eval cev e) as [b|l] eqn:E; cbn in K; rewrite <- K.
  - split; [intros b'; split; intros H; injection H as <-; reflexivity|].
    split; [split; [intros [l H]; discriminate|discriminate]|discriminate].
  - split; [split; discriminate|]. split; [split; [reflexivity|eauto]|].
    intros l' H; injection H as <-. split.
    + intros ->. now apply G.
    + intros m I. eapply try_eval_errs; eassumption.
Qed.
Print Assumptions C25_errors.

Local Definition ev_ex : evaluator := fun k _ =>
  if String.eqb k "on" then CRTrue else if String.eqb k "off" then CRFalse else CRUndetermined ("unknown " ++ k).
Local Definition q (k : string) : cfg_expr := CEq k None.

Example C25_example :
  try_eval ev_ex (CAll [q "x"; CAny [q "on"; q "y"]; q "off"]) = EvOk false /\
  try_eval ev_ex (CAny [q "x"; CNot (q "off")]) = EvOk true /\
  try_eval ev_ex (CAll [q "x"; q "on"; CNot (q "y")]) = EvErr ["unknown x"; "unknown y"] /\
  completion ev_ex (fun k _ => String.eqb k "on" || String.eqb k "x").
Proof.
  repeat split. intros k v b. unfold known, ev_ex.
  destruct (String.eqb_spec k "on"); [intros H; injection H as <-; reflexivity|].
  destruct (String.eqb_spec k "off"); [|discriminate]. subst. intros H; injection H as <-; reflexivity.
Qed.

(** Every message is reported once; each comes from an undetermined flag of some
    evaluated cfg; nothing is reported iff every evaluated cfg is decided. *)
Theorem C25_reported_once : forall cev apis,
  let pushed := cs_pushed (fst (strip cev (CfgState [] []) apis)) in
  NoDup pushed /\
  (forall m, In m pushed -> exists a e k v, In a apis /\ In e (api_cfg a :: inner_cfgs a) /\
                                            mentions e k v /\ cev k v = CRUndetermined m) /\
  (pushed = [] <->
     (forall a, In a apis -> kleene (known cev) (api_cfg a) <> None) /\
     (forall a e, In a apis -> kleene (known cev) (api_cfg a) = Some true -> In e (inner_cfgs a) ->
                  kleene (known cev) e <> None)).
Proof.
  intros cev apis. cbv zeta.
  assert (S : st_ok (CfgState [] [])) by (split; [constructor|intros m; cbn; tauto]).
  destruct (strip_spec cev _ apis S) as ([N _] & B & _).
  split; [assumption|]. split.
  - intros m I. apply B in I as [[]|I]. apply errs_of_app in I as [(e & l & Ie & E & Im)|(e & l & Ie & E & Im)].
    + apply in_map_iff in Ie as (a & <- & Ia). destruct (try_eval_errs _ _ _ _ E Im) as (k & v & M & U).
      exists a, (api_cfg a), k, v. split; [assumption|]. split; [left; reflexivity|auto].
    + apply in_flat_map in Ie as (a & Ia & Ie). apply filter_In in Ia as [Ia _].
      destruct (try_eval_errs _ _ _ _ E Im) as (k & v & M & U).
      exists a, e, k, v. split; [assumption|]. split; [right; assumption|auto].
  - set (es := map api_cfg apis ++ flat_map inner_cfgs (filter (fun a => kbool cev (api_cfg a)) apis)) in *.
    assert (E : cs_pushed (fst (strip cev (CfgState [] []) apis)) = [] <->
                (forall e, In e es -> kleene (known cev) e <> None)).
    { split.
      - intros P e I. assert (NE : forall m, ~ errs_of cev es m).
        { intros m X. assert (J : In m (cs_pushed (fst (strip cev (CfgState [] []) apis)))) by (apply B; now right).
          rewrite P in J. destruct J. }
        destruct (no_errs_known _ _ _ NE I) as [b K]. congruence.
      - intros K. destruct (cs_pushed (fst (strip cev (CfgState [] []) apis))) as [|m l] eqn:P; [reflexivity|].
        exfalso. destruct (proj1 (B m)) as [[]|(e & le & I & T & J)]; [left; reflexivity|].
        apply (K e I). destruct (try_eval_k cev e) as [_ X]. rewrite T in X. now rewrite <- X. }
    rewrite E. unfold es. split.
    + intros H. split.
      * intros a Ia. apply H. apply in_or_app. left. now apply in_map.
      * intros a e Ia K Ie. apply H. apply in_or_app. right. apply in_flat_map. exists a.
        split; [|assumption]. apply filter_In. split; [assumption|]. unfold kbool. now rewrite K.
    + intros [H1 H2] e I. apply in_app_or in I as [I|I].
      * apply in_map_iff in I as (a & <- & Ia). now apply H1.
      * apply in_flat_map in I as (a & Ia & Ie). apply filter_In in Ia as [Ia Ka].
        apply (H2 a); [assumption| |assumption]. unfold kbool in Ka.
        destruct (kleene (known cev) (api_cfg a)) as [b|]; [now subst|discriminate].
Qed.
Print Assumptions C25_reported_once.

Local Definition nm (s : string) : pair_name := Pair [] s s.
Local Definition st_ex : api :=
  AStruct (Struct_ (q "on") [] (nm "S") [] [Var (q "off") (nm "a") TVoid; Var (q "on") (nm "b") TVoid; Var CUnconditional (nm "c") TVoid]).
Local Definition ty_ex (c : cfg_expr) (s : string) : api :=
  ACxxType (ExternType c LCxx [] (nm s) [] [] false).

Example C25_example2 :
  cs_pushed (fst (strip ev_ex (CfgState [] []) [ty_ex (q "x") "A"; ty_ex (CNot (q "x")) "B"; ty_ex (q "y") "C"; st_ex]))
  = ["unknown x"; "unknown y"].
Proof. reflexivity. Qed.

(** * C26: stripping keeps exactly the enabled items *)

(** C26.  If no error is reported, what is left after stripping is exactly what
    the configuration enables, in order, for every configuration that agrees
    with what the evaluator knows. *)
Theorem C26_strip : forall cev c apis,
  completion cev c -> cs_pushed (fst (strip cev (CfgState [] []) apis)) = [] ->
  snd (strip cev (CfgState [] []) apis) = enabled c apis.
Proof. exact strip_enabled. Qed.
Print Assumptions C26_strip.

Example C26_example :
  cs_pushed (fst (strip ev_ex (CfgState [] []) [ty_ex (q "off") "A"; st_ex; ty_ex (CNot (q "off")) "B"])) = [] /\
  snd (strip ev_ex (CfgState [] []) [ty_ex (q "off") "A"; st_ex; ty_ex (CNot (q "off")) "B"]) =
    [AStruct (Struct_ (q "on") [] (nm "S") [] [Var (q "on") (nm "b") TVoid; Var CUnconditional (nm "c") TVoid]);
     ty_ex (CNot (q "off")) "B"].
Proof. split; reflexivity. Qed.

(** The same for the whole front end of the generator: bridges switched off by
    their own cfg contribute nothing. *)
Theorem C26_generate : forall cev c bs out,
  completion cev c -> generate_apis cev bs = Some out ->
  out = enabled c (flat_map snd (filter (fun b => holds c (fst b)) bs)).
Proof. exact generate_apis_spec. Qed.
Print Assumptions C26_generate.

Example C26_generate_example :
  generate_apis ev_ex [(q "off", [ty_ex (q "x") "A"]); (q "on", [ty_ex (q "off") "B"; ty_ex (q "on") "C"])]
  = Some [ty_ex (q "on") "C"].
Proof. reflexivity. Qed.

(** * C27: cargo's features and cfgs *)

(** C27 is false for a feature whose name has a hyphen: cargo passes
    CARGO_FEATURE_FOO_BAR and the lookup of "foo-bar" fails. *)
Theorem C27_hyphen_refuted : exists features vars dbg f,
  cargo_vars features [] vars /\ In f features /\
  cargo_eval vars dbg "feature" (Some f) = CRFalse.
Proof.
  exists ["foo-bar"], [("CARGO_FEATURE_FOO_BAR", "1")], false, "foo-bar".
  split; [|split; [left; reflexivity|reflexivity]]. split.
  - intros n. split.
    + intros (v & [E|[]]). injection E as E _. exists "foo-bar". split; [left; reflexivity|].
      vm_compute. congruence.
    + intros (f & [<-|[]] & ->). exists "1". left. reflexivity.
  - intros n v. split; [intros [E|[]]; discriminate|intros (k & [] & _)].
Qed.
Print Assumptions C27_hyphen_refuted.

(** C27 is false for names that differ only in case: the feature "Foo" reads as
    enabled when only "foo" is. *)
Theorem C27_case_refuted : exists features vars dbg f,
  cargo_vars features [] vars /\ ~ In f features /\
  cargo_eval vars dbg "feature" (Some f) = CRTrue.
Proof.
  exists ["foo"], [("CARGO_FEATURE_FOO", "1")], false, "Foo".
  split; [|split; [intros [E|[]]; discriminate|reflexivity]]. split.
  - intros n. split.
    + intros (v & [E|[]]). injection E as E _. exists "foo". split; [left; reflexivity|].
      vm_compute. congruence.
    + intros (f & [<-|[]] & ->). exists "1". left. reflexivity.
  - intros n v. split; [intros [E|[]]; discriminate|intros (k & [] & _)].
Qed.
Print Assumptions C27_case_refuted.

(** What holds for features: exactly which feature queries are true. *)
Theorem C27_features_exact : forall features cfgs vars dbg f,
  cargo_vars features cfgs vars ->
  cargo_eval vars dbg "feature" (Some f) =
    cfg_of_bool (negb (has_char "-" f) && existsb (fun g => String.eqb (envify f) (envify g)) features).
Proof. exact cargo_feature. Qed.
Print Assumptions C27_features_exact.

(** Without hyphens, and when no enabled feature other than f has f's upper-case
    name, the answer is rustc's. *)
Theorem C27_features_partial : forall features cfgs vars dbg f,
  cargo_vars features cfgs vars ->
  has_char "-" f = false ->
  (forall g, In g features -> envify g = envify f -> g = f) ->
  cargo_eval vars dbg "feature" (Some f) = cfg_of_bool (rustc_config features cfgs "feature" (Some f)).
Proof.
  intros features cfgs vars dbg f V H U. rewrite (cargo_feature _ _ _ dbg f V), H. cbn [negb andb].
  change (rustc_config features cfgs "feature" (Some f)) with (smem f features). f_equal. apply eq_true_iff_eq. rewrite existsb_exists, smem_In. split.
  - intros (g & I & E). apply String.eqb_eq in E. symmetry in E. apply U in E; [now subst|assumption].
  - intros I. exists f. split; [assumption|apply String.eqb_refl].
Qed.
Print Assumptions C27_features_partial.

(** `cfg(target_os)` without a value is true for the generator although rustc
    says it is not set. *)
Theorem C27_bare_key_refuted : exists cfgs vars dbg k,
  cargo_vars [] cfgs vars /\ rustc_config [] cfgs k None = false /\
  cargo_eval vars dbg k None = CRTrue.
Proof.
  exists [("target_os", Some "linux")], [("CARGO_CFG_TARGET_OS", "linux")], false, "target_os".
  split; [|split; reflexivity]. split.
  - intros n. split; [intros (v & [E|[]]); discriminate|intros (f & [] & _)].
  - intros n v. split.
    + intros [E|[]]. injection E as E1 E2. exists "target_os". split; [left; reflexivity|].
      split; [vm_compute; congruence|vm_compute; congruence].
    + intros (k & [<-|[]] & -> & ->). left. reflexivity.
Qed.
Print Assumptions C27_bare_key_refuted.

(** What holds for other cfgs with a value: if no other key equals k up
    to case and no value is empty or contains a comma, the answer is rustc's. *)
Theorem C27_values_partial : forall features cfgs vars dbg k v,
  cargo_vars features cfgs vars ->
  (forall a, In a (map fst cfgs) -> envify a = envify k -> a = k) ->
  (forall a w, In (a, Some w) cfgs -> has_char "," w = false /\ w <> EmptyString) ->
  has_char "-" k = false -> v <> EmptyString ->
  k <> "feature" -> k <> "test" -> k <> "debug_assertions" ->
  cargo_eval vars dbg k (Some v) = CRTrue <-> rustc_config features cfgs k (Some v) = true.
Proof.
  intros features cfgs vars dbg k v V B C D E N1 N2 N3.
  rewrite (cargo_cfg _ _ _ dbg k v V B C D N1 N2 N3).
  assert (R : rustc_config features cfgs k (Some v) =
              existsb (fun kv => String.eqb k (fst kv) && opt_eqb (Some v) (snd kv)) cfgs).
  { unfold rustc_config. destruct (String.eqb_spec k "feature"); [contradiction|reflexivity]. }
  rewrite R, existsb_exists. split.
  - intros [I|(Z & _)]; [|contradiction]. exists (k, Some v). split; [assumption|].
    cbn. now rewrite !String.eqb_refl.
  - intros ((k' & v') & I & X). cbn in X. apply andb_true_iff in X as [X1 X2]. apply String.eqb_eq in X1. subst k'.
    destruct v' as [v'|]; [|discriminate]. cbn in X2. apply String.eqb_eq in X2. subst v'. auto.
Qed.
Print Assumptions C27_values_partial.

(** A bare key is true iff rustc has the key, with or without a value. *)
Theorem C27_bare_key_exact : forall features cfgs vars dbg k,
  cargo_vars features cfgs vars ->
  (forall a, In a (map fst cfgs) -> envify a = envify k -> a = k) ->
  has_char "-" k = false -> k <> "feature" -> k <> "test" -> k <> "debug_assertions" ->
  cargo_eval vars dbg k None = cfg_of_bool (smem k (map fst cfgs)).
Proof. exact cargo_bare. Qed.
Print Assumptions C27_bare_key_exact.

(** A concrete environment satisfying the hypotheses of the C27 theorems. *)
Example C27_example :
  let cfgs := [("unix", None); ("target_feature", Some "sse"); ("target_feature", Some "sse2")] in
  let vars := [("PATH", "/bin"); ("CARGO_CFG_TARGET_FEATURE", "sse,sse2"); ("CARGO_FEATURE_STD", "1"); ("CARGO_CFG_UNIX", "")] in
  cargo_vars ["std"] cfgs vars /\
  cargo_eval vars false "feature" (Some "std") = CRTrue /\
  cargo_eval vars false "feature" (Some "alloc") = CRFalse /\
  cargo_eval vars false "target_feature" (Some "sse2") = CRTrue /\
  cargo_eval vars false "target_feature" (Some "avx") = CRFalse /\
  cargo_eval vars false "unix" None = CRTrue.
Proof.
  cbv zeta. split; [|repeat split; reflexivity]. split.
  - intros n. split.
    + intros (v & [E|[E|[E|[E|[]]]]]); try discriminate. injection E as E _. exists "std".
      split; [left; reflexivity|]. vm_compute. congruence.
    + intros (f & [<-|[]] & ->). exists "1". right. right. left. reflexivity.
  - intros n v. split.
    + intros [E|[E|[E|[E|[]]]]]; try discriminate; injection E as E1 E2.
      * exists "target_feature". split; [right; left; reflexivity|]. split; vm_compute; congruence.
      * exists "unix". split; [left; reflexivity|]. split; vm_compute; congruence.
    + intros (k & [<-|[<-|[<-|[]]]] & -> & ->).
      * right. right. right. left. reflexivity.
      * right. left. reflexivity.
      * right. left. reflexivity.
Qed.

(** * C28: --cfg flags *)

Lemma flag_means_iff a nv : flag_means a nv <-> parse_flag a = Some nv.
Proof.
  split.
  - intros H. destruct H; reflexivity.
  - intros H. destruct a as [|t a]; [discriminate|]. destruct t; try discriminate H. destruct a as [|t a].
    { injection H as <-. constructor. }
    destruct t; try discriminate H. destruct a as [|t a]; [discriminate|]. destruct t; try discriminate H; (destruct a; [|discriminate H]); injection H as <-; constructor.
Qed.
Lemma flags_mean args l : Forall2 flag_means args l <-> Forall2 (fun a nv => parse_flag a = Some nv) args l.
Proof. split; intros F; induction F; constructor; auto; apply flag_means_iff; assumption. Qed.

(** C28.  The command line is accepted exactly when every flag has one of the
    three forms and no name is given both as true and as false. *)
Theorem C28_accepted : forall args,
  (exists cev, cli args = Some cev) <->
  exists l, Forall2 flag_means args l /\
            forall n, ~ (In (n, VBool true) l /\ In (n, VBool false) l).
Proof.
  intros args. unfold cli. split.
  - intros (cev & H). destruct (parse_flags args []) as [l|] eqn:E; [|discriminate].
    apply parse_flags_spec in E as (F & _ & C). exists l. split; [apply flags_mean; exact F|exact C].
  - intros (l & F & C). apply flags_mean in F. assert (E : parse_flags args [] = Some l).
    { apply parse_flags_spec. split; [assumption|]. split; [discriminate|exact C]. }
    rewrite E. cbn. eauto.
Qed.
Print Assumptions C28_accepted.

(** A query is answered by the flags given and by nothing else: true and false
    only if a flag says so (a name given with other values denies the rest,
    features default to off), otherwise undetermined. *)
Theorem C28_answers : forall args cev l,
  cli args = Some cev -> Forall2 flag_means args l ->
  forall name,
  (cev name None = CRTrue <-> In (name, VBool true) l) /\
  (cev name None = CRFalse <-> In (name, VBool false) l) /\
  (forall v, cev name (Some v) = CRTrue <-> In (name, VStr v) l) /\
  (forall v, cev name (Some v) = CRFalse <->
     ~ In (name, VStr v) l /\ (name = "feature" \/ exists w, In (name, w) l)).
Proof.
  intros args cev l H F name. apply flags_mean in F. unfold cli in H.
  destruct (parse_flags args []) as [l'|] eqn:E; [|discriminate]. injection H as <-.
  apply parse_flags_spec in E as (F' & _ & C).
  assert (l' = l).
  { clear C. revert l' F'. induction F; intros l'' F'; inversion F'; subst; [reflexivity|].
    f_equal; [congruence|auto]. }
  subst l'. destruct (flags_eval_spec l name C) as (A & B & D & G).
  split; [assumption|]. split; [assumption|]. split; [assumption|].
  intros v. rewrite G.
  assert (K : In name (map fst l) <-> exists w, In (name, w) l).
  { rewrite in_map_iff. split.
    - intros ((n & w) & X & I). cbn in X. subst. eauto.
    - intros (w & I). exists (name, w). auto. }
  rewrite K. tauto.
Qed.
Print Assumptions C28_answers.

(** The order and repetition of flags do not matter. *)
Theorem C28_order : forall args args',
  (forall a, In a args <-> In a args') ->
  match cli args, cli args' with
  | Some cev, Some cev' => forall name v, known cev name v = known cev' name v
  | None, None => True
  | _, _ => False
  end.
Proof.
  assert (Half : forall args args' cev, (forall a, In a args' -> In a args) -> cli args = Some cev ->
                 exists cev', cli args' = Some cev').
  { intros args args' cev S H. destruct (proj1 (C28_accepted args)) as (l & F & C); [eauto|].
    apply C28_accepted.
    assert (G : exists l', Forall2 flag_means args' l' /\ forall x, In x l' -> In x l).
    { clear C H. induction args' as [|a args' IH].
      - exists []. split; [constructor|intros x []].
      - destruct IH as (l' & F' & I'); [intros b Hb; apply S; right; assumption|].
        assert (X : exists nv, flag_means a nv /\ In nv l).
        { specialize (S a (or_introl eq_refl)). clear - F S. induction F; [destruct S|].
          destruct S as [<-|S]; [exists y; split; [assumption|left; reflexivity]|].
          destruct (IHF S) as (nv & P & I). exists nv. split; [assumption|right; assumption]. }
        destruct X as (nv & P & I). exists (nv :: l'). split; [constructor; assumption|].
        intros x [<-|J]; auto. }
    destruct G as (l' & F' & I'). exists l'. split; [assumption|]. intros n [H1 H2]. apply (C n). auto. }
  assert (Mem : forall args l, Forall2 flag_means args l ->
                forall nv, In nv l <-> exists a, In a args /\ parse_flag a = Some nv).
  { intros args l F nv. induction F as [|a y args l P F IH].
    - split; [intros []|intros (a & [] & _)].
    - apply flag_means_iff in P. cbn. rewrite IH. split.
      + intros [<-|(b & I & Q)]; [exists a|exists b]; auto.
      + intros (b & [<-|I] & Q); [left; congruence|right; eauto]. }
  intros args args' S.
  destruct (cli args) as [cev|] eqn:E, (cli args') as [cev'|] eqn:E'; [| | |exact I].
  - destruct (proj1 (C28_accepted args)) as (l & F & _); [eauto|].
    destruct (proj1 (C28_accepted args')) as (l' & F' & _); [eauto|].
    assert (Q : forall nv, In nv l <-> In nv l').
    { intros nv. rewrite (Mem _ _ F), (Mem _ _ F').
      split; intros (a & I & P); exists a; (split; [apply S|]); assumption. }
    intros name v. destruct (C28_answers _ _ _ E F name) as (A1 & A2 & A3 & A4).
    destruct (C28_answers _ _ _ E' F' name) as (B1 & B2 & B3 & B4).
    rewrite Q in A1, A2. unfold known. destruct v as [v|].
    + specialize (A3 v). specialize (A4 v). specialize (B3 v). specialize (B4 v).
      assert (W : (exists w, In (name, w) l) <-> (exists w, In (name, w) l')).
      { split; intros (w & I); exists w; now apply Q. }
      rewrite Q in A3, A4. rewrite W in A4. rewrite <- B3 in A3. rewrite <- B4 in A4.
      destruct (cev name (Some v)), (cev' name (Some v)); try reflexivity; exfalso;
        try (now apply A3); try (now apply A4);
        try (destruct A3 as [X Y]; (discriminate (X eq_refl) || discriminate (Y eq_refl)));
        destruct A4 as [X Y]; (discriminate (X eq_refl) || discriminate (Y eq_refl)).
    + rewrite <- B1 in A1. rewrite <- B2 in A2.
      destruct (cev name None), (cev' name None); try reflexivity; exfalso;
        try (destruct A1 as [X Y]; (discriminate (X eq_refl) || discriminate (Y eq_refl)));
        destruct A2 as [X Y]; (discriminate (X eq_refl) || discriminate (Y eq_refl)).
  - destruct (Half args args' cev) as [c H]; [intros a Ha; now apply S|assumption|congruence].
  - destruct (Half args' args cev') as [c H]; [intros a Ha; now apply S|assumption|congruence].
Qed.
Print Assumptions C28_order.

Example C28_example :
  cli [[KIdent "a"]; [KIdent "a"; KEq; KLitBool false]] = None /\
  exists cev, cli [[KIdent "a"]; [KIdent "os"; KEq; KStr "linux"]; [KIdent "b"; KEq; KLitBool false]] = Some cev /\
    cev "a" None = CRTrue /\ cev "b" None = CRFalse /\ known cev "c" None = None /\
    cev "os" (Some "linux") = CRTrue /\ cev "os" (Some "mac") = CRFalse /\
    known cev "env" (Some "gnu") = None /\ cev "feature" (Some "x") = CRFalse.
Proof. split; [reflexivity|]. eexists. repeat split; reflexivity. Qed.
