(** C108: all errors of a file are reported, stage by stage, and nothing is written for it. *)
From Verif Require Import Base Syntax_Model Cfg_Model Cfg_Spec Cfg_Proofs Types_Model Types_Spec Types_Props Check_Model Check_Spec Check_Proofs Check_Props
  Attrs_Model Parse_Model Parse_Props File_Model File_Spec File_Proofs2 File_Props Report_Model Report_Spec Report_Proofs Report_Proofs2.
From Verif Require Import Discriminant_Model Discriminant_Spec Types_Proofs2 Parse_Spec.
From Verif Require Names_Model.
From Coq Require Import Permutation.

Lemma precheck_in allow apis s : In s (precheck allow apis) <->
  allow = false /\ s = "#include relative to `.` or `..` is not supported in Cargo builds" /\ exists i, In (AInclude i) apis /\ relative (in_path i).
Proof.
  unfold precheck. destruct allow; [split; [intros []|intros [X _]; discriminate]|]. rewrite in_flat_map. split.
  - intros (a & I & D). destruct (dot_include a) eqn:E; [|destruct D]. destruct D as [<-|[]]. split; [reflexivity|]. split; [reflexivity|].
    destruct a as [i| | | | | | | |]; try discriminate. exists i. split; [exact I|]. apply relative_spec. unfold dot_include in E.
    destruct (Paths_Model.components (in_path i)) as [|[] r]; try discriminate; eauto.
  - intros (_ & -> & i & I & R). exists (AInclude i). split; [exact I|]. apply relative_spec in R as (r & R). unfold dot_include.
    destruct R as [R|R]; rewrite R; left; reflexivity.
Qed.

(** Errors are of three kinds: those seen in one place (attributes, conditions, items), those about
    names and includes, and those about the use of types.  Of the first kind of which there are
    any, all are reported and nothing else is, and no code is written.  Code is written if there
    are none.  This is so for each configuration that agrees with what is known about it. *)
Theorem C108_reported : forall lex keyword experimental async_fn allow cev c ord file ms,
  completion cev c -> parse_fitems lex keyword file = Ok ms -> ms <> [] ->
  let r := report_file lex keyword experimental async_fn allow cev ord file in
  let error := error_of lex keyword experimental async_fn cev c allow ord ms in
  (exists why, r = Stops why) \/
  (exists apis T l, r = Written apis T /\ declarations lex keyword experimental async_fn cev ms l /\ apis = enabled c l /\ collect ord apis = Some (T, []) /\
     forall k e, ~ error k e) \/
  (exists k es, r = Rejected es /\ all_of es <> [] /\ (forall e, In e (all_of es) <-> error k e) /\ forall j e, error j e -> k <= j).
Proof.
  intros lex keyword experimental async_fn allow cev c ord file ms C P N r error. subst r error. unfold report_file. rewrite P.
  destruct ms as [|m0 ms0] eqn:Ems; [congruence|]. rewrite <- Ems in *. clear m0 ms0 Ems N.
  destruct (read_modules lex keyword experimental async_fn cev [] (CfgState [] []) ms) as [[[errors st] apis]| |] eqn:Rd; [|eauto|eauto].
  destruct (strip cev st apis) as [st' apis'] eqn:St. destruct (stage_read _ _ _ _ _ _ _ _ _ _ _ Rd St) as (De & Ch & En). clear Rd St.
  assert (E0 : forall e, error_of lex keyword experimental async_fn cev c allow ord ms 0 e <-> exists s, e = Says s /\ reading_error lex keyword experimental async_fn cev ms s).
  { intros e. split; [intros X; inversion X; subst; eauto|]. intros (s & -> & X). now constructor. }
  destruct (propagate (errors ++ fresh st st')) as [es|] eqn:P0.
  { right. right. exists 0, es. split; [reflexivity|]. split; [apply all_of_nonempty|]. apply propagate_some in P0. split; [|intros; lia].
    intros e. rewrite P0, Ch, E0. reflexivity. }
  apply propagate_none in P0. specialize (En P0 c C). rewrite P0 in Ch.
  assert (N0 : forall e, ~ error_of lex keyword experimental async_fn cev c allow ord ms 0 e) by (intros e X; apply E0, Ch in X; exact X).
  clear Ch E0 P0. subst apis'. destruct (collect ord (enabled c apis)) as [[T errs]|] eqn:Co; [|eauto].
  assert (E1 : forall e, error_of lex keyword experimental async_fn cev c allow ord ms 1 e <-> In e (map Collected errs ++ map Says (precheck allow (enabled c apis)))).
  { intros e. rewrite in_app_iff. split.
    - intros X; inversion X as [|l T' errs' e' D' Co' I|l i D' Al I R|]; subst.
      + rewrite (declarations_det _ _ _ _ _ _ _ De _ D') in *. rewrite Co in Co'. injection Co' as <- <-. left. now apply in_map.
      + rewrite (declarations_det _ _ _ _ _ _ _ De _ D') in *. right. apply says_in. apply precheck_in. eauto 6.
    - intros [I|I].
      + apply in_map_iff in I as (e' & <- & I). eapply E_collect; eauto.
      + apply in_map_iff in I as (s & <- & I). apply precheck_in in I as (Al & -> & i & I & R). eapply E_include; eauto. }
  destruct (propagate (map Collected errs ++ map Says (precheck allow (enabled c apis)))) as [es|] eqn:P1.
  { right. right. exists 1, es. split; [reflexivity|]. split; [apply all_of_nonempty|]. apply propagate_some in P1. split.
    - intros e. rewrite P1, E1. reflexivity.
    - intros [|j] e X; [elim (N0 _ X)|lia]. }
  apply propagate_none in P1. rewrite P1 in E1. assert (N1 : forall e, ~ error_of lex keyword experimental async_fn cev c allow ord ms 1 e) by (intros e X; apply E1 in X; exact X).
  apply app_eq_nil in P1 as [P1 _]. destruct errs; [|discriminate]. clear P1 E1.
  assert (E2 : forall e, error_of lex keyword experimental async_fn cev c allow ord ms 2 e <-> In e (map Says (typecheck GBuild T (enabled c apis)))).
  { intros e. split.
    - intros X; inversion X as [| | |l T' errs' s D' Co' I]; subst. rewrite (declarations_det _ _ _ _ _ _ _ De _ D') in *. rewrite Co in Co'. injection Co' as <- <-. now apply in_map.
    - intros I. apply in_map_iff in I as (s & <- & I). eapply E_check; eauto. }
  destruct (propagate (map Says (typecheck GBuild T (enabled c apis)))) as [es|] eqn:P2.
  - right. right. exists 2, es. split; [reflexivity|]. split; [apply all_of_nonempty|]. apply propagate_some in P2. split.
    + intros e. rewrite P2, E2. reflexivity.
    + intros [|[|j]] e X; [elim (N0 _ X)|elim (N1 _ X)|lia].
  - apply propagate_none in P2. rewrite P2 in E2. right. left. exists (enabled c apis), T, apis.
    split; [reflexivity|]. split; [exact De|]. split; [reflexivity|]. split; [exact Co|].
    intros k e X. inversion X; subst; [elim (N0 _ X)|elim (N1 _ X)|elim (N1 _ X)|apply E2 in X; destruct X].
Qed.
Print Assumptions C108_reported.

(** The generator does not panic, if the identifiers in the file are identifiers and no variant has
    the value `-0` (C03, C73), so that one of the two is the outcome: code or errors. *)
Lemma read_ends lex keyword experimental async_fn cev ms : (forall m why, In m ms ->
    parse_items lex keyword experimental async_fn (mo_unsafe m) (mo_namespace m) (mo_content m) <> Panic why) ->
  forall errors st, exists r, read_modules lex keyword experimental async_fn cev errors st ms = Ok r.
Proof.
  induction ms as [|m ms IH]; intros H errors st; cbn [read_modules]; [eauto|].
  destruct (attrs_parse _ _ _ _ _) as [[p pass] es]. destruct (cfg_eval cev st (cfg_of p)) as [st1 keep].
  assert (exists outs es', (if keep then parse_items lex keyword experimental async_fn (mo_unsafe m) (mo_namespace m) (mo_content m) else ret []) = Ok (outs, es')) as (outs & es' & ->).
  { destruct keep; [|do 2 eexists; reflexivity]. pose proof (items_ne lex keyword experimental async_fn (mo_unsafe m) (mo_namespace m) (mo_content m)) as N.
    pose proof (fun why => H m why (or_introl eq_refl)) as Q. destruct (parse_items _ _ _ _ _ _ _) as [[outs es']|e|e]; [eauto|elim (N e eq_refl)|elim (Q e eq_refl)]. }
  destruct (IH (fun m' why I => H m' why (or_intror I)) (errors ++ map Says es ++ fresh st st1 ++ map Says es') st1) as ([[e2 s2] a2] & ->). eauto.
Qed.
Theorem C108_ends_partial : forall lex keyword experimental async_fn allow cev ord file ms,
  (forall n l, Permutation (ord n l) l) -> keyword "::" = false -> (forall i, exists x, identifier lex keyword (Names_Model.arg_name i) x) ->
  parse_fitems lex keyword file = Ok ms -> ms <> [] ->
  (forall m it i, In m ms -> In it (mo_content m) -> In i (idents_of_item it) -> exists x, identifier lex keyword i x) ->
  (forall m e, In m ms -> In (ItEnum e) (mo_content m) -> no_negative_zero (map (fun v => RVariant (sv_unit v) (sv_disc v)) (se_variants e))) ->
  (exists apis T, report_file lex keyword experimental async_fn allow cev ord file = Written apis T) \/
  (exists es, report_file lex keyword experimental async_fn allow cev ord file = Rejected es).
Proof.
  intros lex keyword experimental async_fn allow cev ord file ms Or K Nu P N Id Z. unfold report_file. rewrite P.
  destruct ms as [|m0 ms0] eqn:Ems; [congruence|]. rewrite <- Ems in *. clear m0 ms0 Ems N.
  destruct (read_ends lex keyword experimental async_fn cev ms) with (errors := @nil error_) (st := CfgState [] []) as ([[errors st] apis] & ->).
  { intros m why I. apply C73_no_panic_partial; eauto. }
  destruct (strip cev st apis) as [st' apis']. destruct (propagate _); [eauto|].
  destruct (collect_total ord apis' Or) as (T & errs & ->). destruct (propagate _); [eauto|]. destruct (propagate _); eauto.
Qed.
Print Assumptions C108_ends_partial.
Example C108_ends_nonvacuous :
  (forall i, exists x, identifier all_idents no_keyword i x) /\ (forall n l, Permutation (id_order n l) l) /\
  exists ms, parse_fitems all_idents no_keyword [mod_ [bridge_] [block_ "Rust" [type_ "A"; takes "f" [named "A"]]]] = Ok ms /\
    exists m it, In m ms /\ In it (mo_content m) /\ In "f" (idents_of_item it).
Proof.
  split; [intros i; exists i, (KIdent i); split; [reflexivity|constructor]|]. split; [intros; apply Permutation_refl|].
  eexists. split; [reflexivity|]. do 2 eexists. split; [left; reflexivity|]. split; [left; reflexivity|]. cbn. auto.
Qed.

(** Code is written for the files that C74-C77 are about, and for no others. *)
Theorem C108_written : forall lex keyword experimental async_fn allow cev ord file apis T,
  report_file lex keyword experimental async_fn allow cev ord file = Written apis T <->
  generate lex keyword experimental async_fn allow cev ord file = Ok (apis, T).
Proof.
  intros lex keyword experimental async_fn allow cev ord file apis T. unfold report_file, generate.
  destruct (parse_fitems lex keyword file) as [ms| |]; cbn [bind]; [|split; discriminate|split; discriminate].
  destruct ms as [|m0 ms0] eqn:Ems; [split; discriminate|]. rewrite <- Ems in *. clear m0 ms0 Ems.
  pose proof (read_gather lex keyword experimental async_fn cev ms [] (CfgState [] [])) as G.
  destruct (gather_modules lex keyword experimental async_fn cev (CfgState [] []) ms) as [[[st apis0] es]| |]; cbn [bind]; [|rewrite G; split; discriminate|rewrite G; split; discriminate].
  destruct G as (errors & -> & _ & L). cbn in L.
  pose proof (strip_extends cev st apis0) as Ex. destruct (strip cev st apis0) as [st' apis1]. cbn [fst] in Ex. pose proof (fresh_length _ _ Ex) as Lf.
  assert (Lt : List.length (errors ++ fresh st st') = List.length es + List.length (cs_pushed st')) by (rewrite app_length; lia).
  destruct (errors ++ fresh st st') as [|x l].
  - destruct es; [|discriminate]. destruct (cs_pushed st'); [|discriminate]. cbn [propagate].
    destruct (collect ord apis1) as [[T1 errs]|]; [|split; discriminate].
    destruct errs; cbn [map app]; [|cbn; split; discriminate].
    destruct (precheck allow apis1); cbn [map app]; [|cbn; split; discriminate]. cbn [propagate].
    destruct (typecheck GBuild T1 apis1); cbn; [|split; discriminate]. split; intros X; congruence.
  - cbn [propagate]. destruct es; [destruct (cs_pushed st'); [cbn in Lt; lia|]|]; split; discriminate.
Qed.
Print Assumptions C108_written.

(** The errors found in the items of a bridge are reported one after the other, in the order in
    which they are found; those of a bridge that comes first in the file are reported first. *)
Lemma read_grows lex keyword experimental async_fn cev ms : forall errors st errors' st' apis,
  read_modules lex keyword experimental async_fn cev errors st ms = Ok (errors', st', apis) -> exists more, errors' = errors ++ more.
Proof.
  induction ms as [|m ms IH]; intros errors st errors' st' apis E; cbn [read_modules] in E; [injection E as <- _ _; exists []; now rewrite app_nil_r|].
  destruct (attrs_parse _ _ _ _ _) as [[p pass] es]. destruct (cfg_eval cev st (cfg_of p)) as [st1 keep].
  destruct (if keep then _ else _) as [[outs es']| |]; try discriminate.
  destruct (read_modules _ _ _ _ _ _ _ ms) as [[[errors2 st2] apis2]| |] eqn:R; try discriminate. injection E as <- _ _.
  apply IH in R as (more & ->). rewrite <- app_assoc. eauto.
Qed.
Lemma read_finds lex keyword experimental async_fn cev m outs es : on cev (bridge_cfg lex keyword experimental m) -> items_of lex keyword experimental async_fn m outs es ->
  forall pre post errors st errors' st' apis, st_ok st ->
  read_modules lex keyword experimental async_fn cev errors st (pre ++ m :: post) = Ok (errors', st', apis) ->
  exists a st1 apis1 b, st_ok st1 /\ read_modules lex keyword experimental async_fn cev (errors ++ a ++ map Says es) st1 post = Ok (errors', st', apis1) /\ errors' = errors ++ a ++ map Says es ++ b.
Proof.
  intros O It. induction pre as [|m' pre IH]; intros post errors st errors' st' apis OK E; cbn [app read_modules] in E.
  - unfold bridge_cfg in O. destruct (attrs_parse _ _ _ _ _) as [[p pass] es0].
    pose proof (proj2 (kept_on cev st (cfg_of p) OK) O) as K. pose proof (cfg_eval_spec cev st (cfg_of p) OK) as (OK1 & _ & _).
    destruct (cfg_eval cev st (cfg_of p)) as [st1 keep]. cbn [fst snd] in *. subst keep. unfold items_of in It. rewrite It in E.
    destruct (read_modules _ _ _ _ _ _ _ post) as [[[errors2 st2] apis2]| |] eqn:R; try discriminate. injection E as <- <- _.
    pose proof (read_grows _ _ _ _ _ _ _ _ _ _ _ R) as (more & Em).
    exists (map Says es0 ++ fresh st st1), st1, apis2, more. split; [exact OK1|]. rewrite <- !app_assoc in *. auto.
  - destruct (attrs_parse _ _ _ _ _) as [[p pass] es0]. pose proof (cfg_eval_spec cev st (cfg_of p) OK) as (OK1 & _ & _).
    destruct (cfg_eval cev st (cfg_of p)) as [st1 keep]. cbn [fst] in OK1.
    destruct (if keep then _ else _) as [[outs' es']| |]; try discriminate.
    destruct (read_modules _ _ _ _ _ _ _ (pre ++ m :: post)) as [[[errors2 st2] apis2]| |] eqn:R; try discriminate. injection E as <- <- _.
    apply IH in R as (a & st3 & apis3 & b & OK3 & R & Eq); [|exact OK1].
    exists ((map Says es0 ++ fresh st st1 ++ map Says es') ++ a), st3, apis3, b. split; [exact OK3|]. rewrite <- !app_assoc in *. auto.
Qed.
Theorem C108_order : forall lex keyword experimental async_fn allow cev ord file ms1 m1 ms2 m2 ms3 outs1 es1 outs2 es2,
  parse_fitems lex keyword file = Ok (ms1 ++ m1 :: ms2 ++ m2 :: ms3) ->
  on cev (bridge_cfg lex keyword experimental m1) -> items_of lex keyword experimental async_fn m1 outs1 es1 ->
  on cev (bridge_cfg lex keyword experimental m2) -> items_of lex keyword experimental async_fn m2 outs2 es2 -> es1 ++ es2 <> [] ->
  (exists why, report_file lex keyword experimental async_fn allow cev ord file = Stops why) \/
  exists e a b c, report_file lex keyword experimental async_fn allow cev ord file = Rejected e /\
    all_of e = a ++ map Says es1 ++ b ++ map Says es2 ++ c.
Proof.
  intros lex keyword experimental async_fn allow cev ord file ms1 m1 ms2 m2 ms3 outs1 es1 outs2 es2 P O1 I1 O2 I2 N. unfold report_file. rewrite P.
  destruct (ms1 ++ m1 :: ms2 ++ m2 :: ms3) as [|m0 ms0] eqn:Ems; [destruct ms1; discriminate|]. rewrite <- Ems in *. clear m0 ms0 Ems.
  destruct (read_modules _ _ _ _ _ _ _ _) as [[[errors st] apis]| |] eqn:R; [|eauto|eauto]. right.
  assert (OK0 : st_ok (CfgState [] [])) by (split; [constructor|intros m; cbn; tauto]).
  apply (read_finds _ _ _ _ _ _ _ _ O1 I1) in R as (a & st1 & apis1 & b & OK1 & R & _); [|exact OK0].
  apply (read_finds _ _ _ _ _ _ _ _ O2 I2) in R as (a' & st2 & apis2 & b' & _ & _ & Eq); [|exact OK1].
  destruct (strip cev st apis) as [st' apis']. destruct (propagate (errors ++ fresh st st')) as [e|] eqn:Pr.
  - apply propagate_some in Pr. exists e, a, a', (b' ++ fresh st st'). split; [reflexivity|]. rewrite Pr, Eq. cbn. rewrite <- !app_assoc. reflexivity.
  - apply propagate_none in Pr. apply app_eq_nil in Pr as [Pr _]. rewrite Pr in Eq. exfalso. apply N. symmetry in Eq. cbn in Eq.
    repeat match goal with H : _ ++ _ = [] |- _ => apply app_eq_nil in H as [? ?] end.
    destruct es1; [|discriminate]. destruct es2; [reflexivity|discriminate].
Qed.
Print Assumptions C108_order.

(** Not all errors are reported at once: a mistake in one bridge hides that a name is declared
    twice in another one. *)
Definition no_use := "`use` items are not allowed within cxx bridge".
Definition hiding : list fitem := [mod_ [bridge_] [ItUse]; mod_ [bridge_] [block_ "Rust" [type_ "A"; type_ "A"]]].
Theorem C108_hidden_refuted : exists file ms es k e, parse_fitems all_idents no_keyword file = Ok ms /\
  report_file all_idents no_keyword false false true cev0 id_order file = Rejected es /\
  error_of all_idents no_keyword false false cev0 (fun _ _ => false) true id_order ms k e /\ ~ In e (all_of es).
Proof.
  eexists hiding, _, _, 1, (Collected (EDupType "A")). split; [vm_compute; reflexivity|]. split; [vm_compute; reflexivity|]. split.
  - eapply E_collect;
      [eapply D_on; [vm_compute; reflexivity|vm_compute; reflexivity|]; eapply D_on; [vm_compute; reflexivity|vm_compute; reflexivity|]; constructor
      |vm_compute; reflexivity|left; reflexivity].
  - cbn. intros [X|[]]. discriminate.
Qed.
Print Assumptions C108_hidden_refuted.

(** * The macro *)
(** Of a bridge that is expanded, the errors in attributes and items and those about names are
    reported together, all of them, and if there are none all those about the use of types. *)
Theorem C108_expanded : forall lex keyword experimental async_fn ord args attrs un inner items ns,
  parse_bridge_namespace lex keyword args = Ok ns ->
  let r := report_bridge lex keyword experimental async_fn ord args attrs un (Some (inner, items)) in
  let error := expansion_error lex keyword experimental async_fn ord (Module_ (attrs ++ inner) ns un (map as_item items)) in
  (exists why, r = Stops why) \/
  (exists apis T, r = Written apis T /\ forall k e, ~ error k e) \/
  (exists k es, r = Rejected es /\ all_of es <> [] /\ (forall e, In e (all_of es) <-> error k e) /\ forall j e, error j e -> k <= j).
Proof.
  intros lex keyword experimental async_fn ord args attrs un inner items ns P r error. subst r error. unfold report_bridge. rewrite P.
  cbn [parse_module mo_attrs mo_unsafe mo_content]. set (m := Module_ _ _ _ _).
  assert (Ae : expanded_attr_errors lex keyword experimental m = snd (attrs_parse lex keyword experimental (Parser (Some CUnconditional) (Some ([], false)) None None None None None None false) (attrs ++ inner))) by reflexivity.
  destruct (attrs_parse lex keyword experimental _ (attrs ++ inner)) as [[p pass] es]. cbn [snd] in Ae.
  assert (As : forall s, In s (expanded_attr_errors lex keyword experimental m) <-> In s es) by (intros s; rewrite Ae; reflexivity). clear Ae.
  destruct (parse_items lex keyword experimental async_fn un ns (map as_item items)) as [[outs es']| |] eqn:It; [|eauto|eauto].
  assert (I : items_of lex keyword experimental async_fn m outs es') by exact It.
  assert (U : forall outs2 es2, items_of lex keyword experimental async_fn m outs2 es2 -> outs2 = outs /\ es2 = es').
  { intros outs2 es2 X. unfold items_of in *. rewrite I in X. injection X as <- <-. auto. }
  destruct (collect ord (map o_api outs)) as [[T errs]|] eqn:Co; [|eauto].
  assert (E0 : forall e, expansion_error lex keyword experimental async_fn ord m 0 e <-> In e (map Says es ++ map Says es' ++ map Collected errs)).
  { intros e. rewrite !in_app_iff. split.
    - intros X. inversion X as [s Is|outs2 es2 s I2 Is|outs2 es2 T2 errs2 e2 I2 Co2 Ie|]; subst.
      + left. apply As in Is. now apply in_map.
      + apply U in I2 as [-> ->]. right. left. now apply in_map.
      + apply U in I2 as [-> ->]. rewrite Co in Co2. injection Co2 as <- <-. right. right. now apply in_map.
    - intros [X|[X|X]]; apply in_map_iff in X as (s & <- & X); [apply X_attr; apply As; exact X|eapply X_item; eauto|eapply X_collect; eauto]. }
  destruct (propagate (map Says es ++ map Says es' ++ map Collected errs)) as [e0|] eqn:P0.
  { right. right. exists 0, e0. split; [reflexivity|]. split; [apply all_of_nonempty|]. apply propagate_some in P0. split; [|intros; lia].
    intros e. rewrite P0, E0. reflexivity. }
  apply propagate_none in P0. rewrite P0 in E0.
  assert (N0 : forall e, ~ expansion_error lex keyword experimental async_fn ord m 0 e) by (intros e X; apply E0 in X; exact X).
  assert (E1 : forall e, expansion_error lex keyword experimental async_fn ord m 1 e <-> In e (map Says (typecheck GMacro T (map o_api outs)))).
  { intros e. split.
    - intros X. inversion X as [| | |outs2 es2 T2 errs2 s I2 Co2 Is]; subst. apply U in I2 as [-> ->]. rewrite Co in Co2. injection Co2 as <- <-. now apply in_map.
    - intros X. apply in_map_iff in X as (s & <- & X). eapply X_check; eauto. }
  destruct (propagate (map Says (typecheck GMacro T (map o_api outs)))) as [e1|] eqn:P1.
  - right. right. exists 1, e1. split; [reflexivity|]. split; [apply all_of_nonempty|]. apply propagate_some in P1. split.
    + intros e. rewrite P1, E1. reflexivity.
    + intros [|j] e X; [elim (N0 _ X)|lia].
  - apply propagate_none in P1. rewrite P1 in E1. right. left. exists (map o_api outs), T. split; [reflexivity|].
    intros k e X. inversion X; subst; [elim (N0 _ X)|elim (N0 _ X)|elim (N0 _ X)|apply E1 in X; destruct X].
Qed.
Print Assumptions C108_expanded.

(** The bridges that are expanded are those that C75 is about. *)
Theorem C108_accepted : forall lex keyword experimental async_fn ord args attrs un body apis T,
  report_bridge lex keyword experimental async_fn ord args attrs un body = Written apis T <->
  exists outs, apis = map o_api outs /\ expand_bridge lex keyword experimental async_fn ord args attrs un body = Ok (outs, T).
Proof.
  intros lex keyword experimental async_fn ord args attrs un body apis T. unfold report_bridge, expand_bridge.
  destruct (parse_bridge_namespace lex keyword args) as [ns| |]; cbn [bind]; [|split; [discriminate|intros (? & _ & X); discriminate]|split; [discriminate|intros (? & _ & X); discriminate]].
  destruct (parse_module attrs un body) as [m| |]; cbn [bind]; [|split; [discriminate|intros (? & _ & X); discriminate]|split; [discriminate|intros (? & _ & X); discriminate]].
  destruct (attrs_parse lex keyword experimental _ (mo_attrs m)) as [[p pass] es].
  destruct (parse_items lex keyword experimental async_fn (mo_unsafe m) ns (mo_content m)) as [[outs es']| |]; cbn [bind]; [|split; [discriminate|intros (? & _ & X); discriminate]|split; [discriminate|intros (? & _ & X); discriminate]].
  destruct (collect ord (map o_api outs)) as [[T1 errs]|]; [|split; [discriminate|intros (? & _ & X); discriminate]].
  destruct es as [|e0 es]; [destruct es' as [|e1 es']; [destruct errs as [|e2 errs]|]|]; cbn [map app propagate]; try (split; [discriminate|intros (? & _ & X); discriminate]).
  destruct (typecheck GMacro T1 (map o_api outs)); cbn [map propagate]; [|split; [discriminate|intros (? & _ & X); discriminate]].
  split; [intros X; injection X as <- <-; eauto|]. intros (outs2 & -> & X). injection X as <- <-. reflexivity.
Qed.
Print Assumptions C108_accepted.

(** * What is shown for an error *)
(** The label and the note are those of the one known error whose text is in the message. *)
Theorem C108_hint : forall message i e, nth_error errors_table i = Some e -> has_infix (i_msg e) message ->
  (forall j e', nth_error errors_table j = Some e' -> has_infix (i_msg e') message -> j = i) ->
  diagnose message = Diagnostic message (match i_label e with Some l => l | None => message end) (match i_note e with Some n => [n] | None => [] end).
Proof.
  intros message i e Ni H U. unfold diagnose.
  assert (F : find (fun e => contains_str (i_msg e) message) errors_table = Some e); [|rewrite F; reflexivity].
  revert i Ni U. generalize errors_table. intros t. induction t as [|x t IH]; intros i Ni U; [destruct i; discriminate|]. cbn [find].
  destruct (contains_str (i_msg x) message) eqn:Cx.
  - apply contains_str_spec in Cx. assert (X : 0 = i) by (eapply (U 0); [reflexivity|exact Cx]). subst i. cbn in Ni. congruence.
  - destruct i as [|i]; cbn in Ni; [injection Ni as ->; apply contains_str_spec in H; congruence|].
    apply (IH i Ni). intros j e' Nj He. specialize (U (S j) e' Nj He). lia.
Qed.
Print Assumptions C108_hint.
(** Others are shown as they are. *)
Theorem C108_no_hint : forall message, (forall e, In e errors_table -> ~ has_infix (i_msg e) message) -> diagnose message = Diagnostic message message [].
Proof.
  intros message H. unfold diagnose. destruct (find _ errors_table) as [e|] eqn:F; [|reflexivity].
  apply find_some in F as [I F]. apply contains_str_spec in F. elim (H e I F).
Qed.
Print Assumptions C108_no_hint.
(** The text of none of the known errors is part of that of another one. *)
Theorem C108_known : forall i j e e', nth_error errors_table i = Some e -> nth_error errors_table j = Some e' -> has_infix (i_msg e) (i_msg e') -> i = j.
Proof.
  assert (B : forallb (fun i => forallb (fun j => match nth_error errors_table i, nth_error errors_table j with
     | Some e, Some e' => implb (contains_str (i_msg e) (i_msg e')) (Nat.eqb i j) | _, _ => true end) (seq 0 11)) (seq 0 11) = true) by (vm_compute; reflexivity).
  intros i j e e' Ni Nj H. apply contains_str_spec in H. rewrite forallb_forall in B.
  assert (Li : i < 11) by (change 11 with (List.length errors_table); apply nth_error_Some; congruence).
  assert (Lj : j < 11) by (change 11 with (List.length errors_table); apply nth_error_Some; congruence).
  assert (Bi := B i ltac:(apply in_seq; lia)). rewrite forallb_forall in Bi. specialize (Bi j). rewrite Ni, Nj, H in Bi. apply Nat.eqb_eq. apply Bi. apply in_seq. lia.
Qed.
Print Assumptions C108_known.

Example C108_nonvacuous :
  let run := report_file all_idents no_keyword false false false cev0 id_order in
  let two := [mod_ [bridge_] [ItUse; ItOther; ItUse]; mod_ [bridge_] [ItUse]] in
  (* three errors and another, of two bridges *)
  (exists other, run two = Rejected (Says no_use, [Says other; Says no_use; Says no_use])) /\
  completion cev0 (fun _ _ => false) /\
  (* the types and the includes *)
  run [mod_ [bridge_] [block_ "C++" [FInclude [] [ITStr "./b.h"]]; block_ "Rust" [type_ "A"; type_ "A"]]] =
    Rejected (Collected (EDupType "A"), [Says "#include relative to `.` or `..` is not supported in Cargo builds"]) /\
  (* the use of types *)
  (exists e r, run [mod_ [bridge_] [block_ "Rust" [type_ "A"; takes "f" [named "A"]]]] = Rejected (Says e, r)) /\
  (exists apis T, run [mod_ [bridge_] [block_ "Rust" [type_ "A"]]] = Written apis T) /\
  (* what is hidden in another bridge is not hidden in one that is expanded *)
  report_bridge all_idents no_keyword false false id_order [] [] false (Some ([], map (FItem []) [ItUse; block_ "Rust" [type_ "A"; type_ "A"]])) =
    Rejected (Says no_use, [Collected (EDupType "A")]) /\
  d_label (diagnose "unsupported type: [u8]") = "unsupported type" /\ d_notes (diagnose no_use) <> [] /\ d_label (diagnose "unsafe") = "unsafe".
Proof.
  cbv zeta. split; [eexists; vm_compute; reflexivity|]. split; [intros k v b X; vm_compute in X; discriminate|].
  split; [vm_compute; reflexivity|]. split; [do 2 eexists; vm_compute; reflexivity|]. split; [do 2 eexists; vm_compute; reflexivity|].
  split; [vm_compute; reflexivity|]. split; [vm_compute; reflexivity|]. split; [vm_compute; discriminate|vm_compute; reflexivity].
Qed.
