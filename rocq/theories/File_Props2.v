(** C75, the other direction: what the macro accepts, the generator accepts. *)
From Verif Require Import Base Syntax_Model Cfg_Model Cfg_Spec Cfg_Proofs Types_Model Types_Spec Types_Props Check_Model Check_Spec Check_Proofs Check_Props
  Attrs_Model Attrs_Proofs Parse_Model Parse_Proofs Parse_Props File_Model File_Spec File_Proofs File_Proofs2 File_Props Report_Model Report_Spec.

(** The lifetimes that a declaration introduces *)
Definition api_lts (a : api) : list string :=
  match a with
  | AStruct s => st_lts s
  | AEnum e => en_lts e
  | ACxxType t | ARustType t => et_lts t
  | ACxxFunction f | ARustFunction f => fn_generics f
  | ATypeAlias t => ta_lts t
  | AImpl i => im_lts i
  | AInclude _ => []
  end.

Lemma on_eval cev st e : on cev e -> cfg_eval cev st e = (st, true).
Proof.
  intros O. destruct (try_eval_k cev e) as [_ K]. unfold on in O. unfold cfg_eval. destruct (try_eval cev e) as [b|l]; cbn in K; rewrite O in K; congruence.
Qed.
Lemma retain_on {A} cev (cfg : A -> cfg_expr) st l : (forall x, In x l -> on cev (cfg x)) -> retain cev cfg st l = (st, l).
Proof.
  induction l as [|x l IH]; intros H; cbn; [reflexivity|]. rewrite on_eval by (apply H; left; reflexivity).
  rewrite IH by (intros y I; apply H; right; exact I). reflexivity.
Qed.
Lemma strip_on cev st l : (forall a, In a l -> on cev (api_cfg a) /\ forall e, In e (inner_cfgs a) -> on cev e) -> strip cev st l = (st, l).
Proof.
  intros H. unfold strip. rewrite retain_on by (intros a I; apply H; exact I).
  induction l as [|a l IH]; cbn [strip_each]; [reflexivity|].
  assert (strip_inner cev st a = (st, a)) as ->.
  { destruct (H a (or_introl eq_refl)) as [_ Hi]. destruct a; cbn [strip_inner inner_cfgs] in *; try reflexivity.
    - rewrite retain_on by (intros f I; apply Hi; apply in_map; exact I). destruct s; reflexivity.
    - rewrite retain_on by (intros f I; apply Hi; apply in_map; exact I). destruct e; reflexivity. }
  rewrite IH by (intros b I; apply H; right; exact I). reflexivity.
Qed.
Lemma lifetimes_build l : ~ In "static" l -> check_lifetimes GBuild l = [].
Proof.
  intros N. cbn. apply flat_map_nil. intros x I. apply err_if_nil. apply String.eqb_neq. intros ->. contradiction.
Qed.
Lemma typecheck_build T apis : (forall a, In a apis -> ~ In "static" (api_lts a)) -> typecheck GMacro T apis = [] -> typecheck GBuild T apis = [].
Proof.
  intros N. unfold typecheck. rewrite !app_nil. intros (A & B & C). split; [exact A|]. split; [exact B|].
  rewrite flat_map_nil in *. intros a I. specialize (C a I). specialize (N a I). apply lifetimes_build in N.
  destruct a; cbn [check_api api_lts] in *; try exact C;
    unfold check_api_struct, check_api_enum, check_api_type, check_api_fn, check_api_type_alias, check_api_impl in *; rewrite !app_nil in *; rewrite N; tauto.
Qed.

(** The errors of an attribute do not depend on what is looked for. *)
Section Attributes.
  Variable lex : string -> option (list tok).
  Variable keyword : string -> bool.
  Variable experimental : bool.
  Notation attr_step := (attr_step lex keyword experimental).
  Notation attrs_parse := (attrs_parse lex keyword experimental).
  Lemma slot_errors {A B C} (r : res A) (s : option B) (t : option C) f g : snd (slot r s f) = snd (slot r t g).
  Proof. destruct r; reflexivity. Qed.
  Lemma step_errors p q a : snd (attr_step p a) = snd (attr_step q a).
  Proof.
    unfold Attrs_Model.attr_step.
    repeat match goal with |- snd (if ?b then _ else _) = _ => destruct b; [first [apply slot_errors|reflexivity|destruct (parse_derive (a_meta a)) as [[? ?]| |]; reflexivity]|] end.
    destruct (a_path a) as [|t [|u l]]; try reflexivity. destruct (String.eqb t "rustfmt"); [reflexivity|]. destruct (String.eqb t "clippy"); reflexivity.
  Qed.
  Lemma break_errors p a es : attr_step p a = (SBreak, es) -> es <> [].
  Proof.
    unfold Attrs_Model.attr_step, slot. intros E.
    repeat match type of E with
           | (if ?b then _ else _) = _ => destruct b
           | match ?x with _ => _ end = _ => destruct x
           | (match ?x with _ => _ end, _) = _ => destruct x
           | (let '(_, _) := ?x in _) = _ => destruct x
           | (let '(_, _) := ?x in _, _) = _ => destruct x
           end; congruence.
  Qed.
  Lemma parse_none l : forall p p' pass, ps_ignore p = false -> attrs_parse p l = (p', pass, []) -> forall a, In a l -> exists q, snd (attr_step q a) = [].
  Proof.
    induction l as [|b l IH]; intros p p' pass Ig E a I; [destruct I|]. cbn in E. destruct (attr_step p b) as [s es] eqn:S. destruct s as [p1 c| |].
    - destruct (attrs_parse p1 l) as [[p2 others] es'] eqn:P. injection E as <- _ E. apply app_eq_nil in E as [-> ->].
      destruct I as [<-|I]; [exists p; rewrite S; reflexivity|]. eapply (IH p1); [|exact P|exact I].
      clear - S Ig. unfold Attrs_Model.attr_step, slot in S.
      repeat match type of S with
             | (if ?b then _ else _) = _ => destruct b
             | match ?x with _ => _ end = _ => destruct x
             | (match ?x with _ => _ end, _) = _ => destruct x
             | (let '(_, _) := ?x in _) = _ => destruct x
             | (let '(_, _) := ?x in _, _) = _ => destruct x
             end; try discriminate; injection S as <- _; try exact Ig; cbn; assumption.
    - injection E as _ _ E. exfalso. eapply break_errors; eassumption.
    - rewrite Ig in E. injection E as _ _ E. apply app_eq_nil in E as [_ E]. discriminate.
  Qed.
  Lemma none_parse l : forall p, ps_ignore p = true -> (forall a, In a l -> exists q, snd (attr_step q a) = []) -> snd (attrs_parse p l) = [].
  Proof.
    induction l as [|b l IH]; intros p Ig H; [reflexivity|]. cbn. destruct (H b (or_introl eq_refl)) as (q & Q). rewrite (step_errors q p) in Q.
    destruct (attr_step p b) as [s es] eqn:S. cbn in Q. subst es.
    assert (forall p1 c, s = SContinue p1 c -> ps_ignore p1 = true) as Ig1.
    { intros p1 c ->. clear - S Ig. unfold Attrs_Model.attr_step, slot in S.
      repeat match type of S with
             | (if ?b then _ else _) = _ => destruct b
             | match ?x with _ => _ end = _ => destruct x
             | (match ?x with _ => _ end, _) = _ => destruct x
             | (let '(_, _) := ?x in _) = _ => destruct x
             | (let '(_, _) := ?x in _, _) = _ => destruct x
             end; try discriminate; injection S as <- _; try exact Ig; cbn; assumption. }
    destruct s as [p1 c| |].
    - specialize (IH p1 (Ig1 _ _ eq_refl) (fun a I => H a (or_intror I))). destruct (attrs_parse p1 l) as [[? ?] ?]. exact IH.
    - reflexivity.
    - rewrite Ig. specialize (IH p Ig (fun a I => H a (or_intror I))). destruct (attrs_parse p l) as [[? ?] ?]. exact IH.
  Qed.
  Lemma bridge_step p a : names_bridge a -> snd (attr_step p a) = [].
  Proof.
    intros N. apply is_bridge_ok in N. unfold is_bridge in N. destruct a as [lead path meta]. cbn in N.
    destruct path as [|x [|y [|z l]]]; try discriminate. apply andb_true_iff in N as [N1 N2]. apply String.eqb_eq in N1, N2. subst.
    unfold Attrs_Model.attr_step, is_ident. cbn. destruct lead; reflexivity.
  Qed.
End Attributes.

(** A file with one bridge that the macro accepts: the generator accepts it, with the same
    declarations and types, if no condition takes anything away, no lifetime parameter is called 'static (which rustc rejects anyhow) and
    relative includes are allowed or absent. *)
Theorem C75_generated_partial : forall lex keyword experimental async_fn allow cev ord pre a post un x inner items args outs T,
  Forall (fun b => ~ names_bridge b) pre -> names_bridge a -> a_meta a = MPath /\ args = [] \/ a_meta a = MList args ->
  expand_bridge lex keyword experimental async_fn ord args (pre ++ post) un (Some (inner, items)) = Ok (outs, T) ->
  (forall ns, let m := Module_ ((pre ++ a :: post) ++ inner) ns un (map as_item items) in
     on cev (bridge_cfg lex keyword experimental m)) ->
  (forall b, In b (map o_api outs) -> on cev (api_cfg b) /\ forall e, In e (inner_cfgs b) -> on cev e) ->
  (forall b, In b (map o_api outs) -> ~ In "static" (api_lts b)) ->
  (allow = true \/ forall i, In (AInclude i) (map o_api outs) -> ~ relative (in_path i)) ->
  generate lex keyword experimental async_fn allow cev ord [FMod (pre ++ a :: post) un x (Some (inner, items))] = Ok (map o_api outs, T).
Proof.
  intros lex keyword experimental async_fn allow cev ord pre a post un x inner items args outs T Fp Na Ar E At On St Re.
  unfold expand_bridge in E. apply bind_ok in E as (ns & Pn & E). cbn [bind parse_module mo_attrs mo_unsafe mo_content] in E.
  destruct (attrs_parse lex keyword experimental _ ((pre ++ post) ++ inner)) as [[p0 pass0] es0] eqn:Pa0.
  apply bind_ok in E as ([outs' es'] & It & E). destruct (collect ord (map o_api outs')) as [[T' errs]|] eqn:Co; [|discriminate].
  destruct es0; [|discriminate]. destruct es'; [|discriminate]. destruct errs; [|discriminate]. destruct (typecheck GMacro T' (map o_api outs')) eqn:Ty; [|discriminate].
  injection E as -> ->.
  assert (Ae : snd (attrs_parse lex keyword experimental (bridge_parser true) ((pre ++ a :: post) ++ inner)) = []).
  { apply none_parse; [reflexivity|]. intros b I. assert (J : b = a \/ In b ((pre ++ post) ++ inner)).
    { rewrite !in_app_iff in *. cbn in I. intuition (subst; auto). }
    destruct J as [->|J]; [exists (bridge_parser true); apply bridge_step; exact Na|]. eapply parse_none; [|exact Pa0|exact J]. reflexivity. }
  assert (Ba : bridge_attr lex keyword (pre ++ a :: post) = Ok (Some ns)).
  { clear - Fp Na Ar Pn. induction Fp as [|b pre N Fp IH]; cbn [app bridge_attr].
    - rewrite (proj2 (is_bridge_ok a) Na). unfold bridge_args. destruct Ar as [[-> ->] | ->]; [|rewrite Pn; reflexivity].
      assert (ns = []) as -> by (cbn in Pn; congruence). reflexivity.
    - destruct (is_bridge b) eqn:B; [apply is_bridge_ok in B; contradiction|exact IH]. }
  unfold generate. cbn [parse_fitems parse_fitem]. rewrite Ba. cbn [bind parse_module mo_attrs mo_unsafe mo_content app].
  cbn [gather_modules mo_attrs mo_unsafe mo_namespace mo_content]. specialize (At ns). cbv zeta in At. unfold bridge_cfg in At. cbn [mo_attrs] in At.
  destruct (attrs_parse lex keyword experimental (bridge_parser true) ((pre ++ a :: post) ++ inner)) as [[p pass] es]. cbn [snd] in Ae. subst es.
  rewrite (on_eval _ _ _ At). rewrite It. cbn [bindR ret bind app]. rewrite app_nil_r.
  rewrite (strip_on _ _ _ On). cbn [cs_pushed]. rewrite Co. rewrite (proj2 (precheck_spec allow (map o_api outs)) Re).
  rewrite (typecheck_build _ _ St Ty). reflexivity.
Qed.
Print Assumptions C75_generated_partial.

Example C75_generated_nonvacuous : exists outs T,
  let items := map (FItem []) [block_ "C++" [FInclude [] [ITStr "a.h"]]; block_ "Rust" [type_ "A"; takes "f" [over "Box" "A"]]] in
  let on_ := SAttr false ["cfg"] (MList [KIdent "all"; KGroup []]) in
  expand_bridge all_idents no_keyword false false id_order [] [on_] false (Some ([], items)) = Ok (outs, T) /\ List.length outs = 3 /\
  (forall ns, let m := Module_ ([on_; bridge_] ++ []) ns false (map as_item items) in
     on cev0 (bridge_cfg all_idents no_keyword false m)) /\
  (forall b, In b (map o_api outs) -> on cev0 (api_cfg b) /\ (forall e, In e (inner_cfgs b) -> on cev0 e) /\ ~ In "static" (api_lts b)) /\
  (forall i, In (AInclude i) (map o_api outs) -> in_path i = "a.h") /\
  generate all_idents no_keyword false false true cev0 id_order [FMod [on_; bridge_] false "ffi" (Some ([], items))] = Ok (map o_api outs, T).
Proof.
  eexists _, _. cbv zeta. split; [vm_compute; reflexivity|]. split; [reflexivity|]. split; [intros ns; vm_compute; reflexivity|].
  split; [intros b [<-|[<-|[<-|[]]]]; (split; [vm_compute; reflexivity|]); (split; [intros e []|intros []])|].
  split; [intros i [E|[E|[E|[]]]]; try discriminate; injection E as <-; reflexivity|]. vm_compute. reflexivity.
Qed.
(** 'static is left to rustc by the macro, which expands to code that rustc rejects *)
Theorem C75_static_refuted : exists items outs T,
  expand_bridge all_idents no_keyword false false id_order [] [] false (Some ([], items)) = Ok (outs, T) /\
  forall r, generate all_idents no_keyword false false true cev0 id_order [FMod [bridge_] false "ffi" (Some ([], items))] <> Ok r.
Proof.
  exists (map (FItem []) [block_ "C++" [FType (SType [] "C" (SGenerics [GLt "static" false] false))]]). eexists _, _.
  split; [vm_compute; reflexivity|]. intros r. vm_compute. discriminate.
Qed.
Print Assumptions C75_static_refuted.
