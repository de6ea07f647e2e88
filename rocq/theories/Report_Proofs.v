From Verif Require Import Base Syntax_Model Cfg_Model Cfg_Spec Cfg_Proofs Types_Model Check_Model Check_Spec Check_Proofs Attrs_Model Parse_Model
  File_Model File_Spec File_Proofs2 Report_Model Report_Spec.

(** * propagate *)
Lemma combine_all r : forall a, all_of (fold_left (fun all x => combine all (x, [])) r a) = all_of a ++ r.
Proof.
  induction r as [|x r IH]; intros [a l]; cbn [fold_left]; [now rewrite app_nil_r|].
  rewrite IH. unfold combine, all_of. cbn. rewrite <- app_assoc. reflexivity.
Qed.
Lemma propagate_some errors e : propagate errors = Some e -> all_of e = errors.
Proof. destruct errors as [|x r]; [discriminate|]. intros E. injection E as <-. rewrite combine_all. reflexivity. Qed.
Lemma propagate_none errors : propagate errors = None <-> errors = [].
Proof. destruct errors; cbn; split; congruence. Qed.
Lemma all_of_nonempty e : all_of e <> [].
Proof. discriminate. Qed.

(** * What is pushed about conditions is added at the end *)
Definition extends (st st' : cfg_state) : Prop := exists new, cs_pushed st' = cs_pushed st ++ new.
Lemma extends_refl st : extends st st.
Proof. exists []. now rewrite app_nil_r. Qed.
Lemma extends_trans a b c : extends a b -> extends b c -> extends a c.
Proof. intros [x X] [y Y]. exists (x ++ y). now rewrite Y, X, app_assoc. Qed.
Lemma push_extends es : forall st, extends st (push_errors st es).
Proof.
  induction es as [|e es IH]; intros st; cbn; [apply extends_refl|].
  eapply extends_trans; [|apply IH]. destruct (smem e (cs_seen st)); [apply extends_refl|]. exists [e]. reflexivity.
Qed.
Lemma eval_extends cev st e : extends st (fst (cfg_eval cev st e)).
Proof. unfold cfg_eval. destruct (try_eval cev e); [apply extends_refl|apply push_extends]. Qed.
Lemma retain_extends {A} cev (cfg : A -> cfg_expr) l : forall st, extends st (fst (retain cev cfg st l)).
Proof.
  induction l as [|x l IH]; intros st; cbn; [apply extends_refl|].
  pose proof (eval_extends cev st (cfg x)) as E. destruct (cfg_eval cev st (cfg x)) as [st1 k]. specialize (IH st1).
  destruct (retain cev cfg st1 l). cbn [fst] in *. eapply extends_trans; eauto.
Qed.
Lemma strip_each_extends cev l : forall st, extends st (fst (strip_each cev st l)).
Proof.
  induction l as [|a l IH]; intros st; cbn; [apply extends_refl|].
  assert (E : extends st (fst (strip_inner cev st a))).
  { destruct a; cbn; try apply extends_refl.
    - pose proof (retain_extends cev v_cfg (st_fields s) st). destruct (retain _ _ _ _). assumption.
    - pose proof (retain_extends cev vr_cfg (en_variants e) st). destruct (retain _ _ _ _). assumption. }
  destruct (strip_inner cev st a) as [st1 a']. specialize (IH st1). destruct (strip_each cev st1 l). cbn [fst] in *. eapply extends_trans; eauto.
Qed.
Lemma strip_extends cev st apis : extends st (fst (strip cev st apis)).
Proof.
  unfold strip. pose proof (retain_extends cev api_cfg apis st) as E. destruct (retain cev api_cfg st apis) as [st1 k].
  eapply extends_trans; [exact E|apply strip_each_extends].
Qed.
Lemma fresh_in st st' s : extends st st' -> (In s (cs_pushed st') <-> In s (cs_pushed st) \/ In (Says s) (fresh st st')).
Proof.
  intros [new N]. unfold fresh. rewrite N, skipn_app, skipn_all, Nat.sub_diag. cbn. rewrite in_app_iff, in_map_iff.
  split; intros [H|H]; auto; [right; exists s; auto|]. destruct H as (x & E & I). injection E as ->. auto.
Qed.
Lemma fresh_says st st' e : In e (fresh st st') -> exists s, e = Says s.
Proof. unfold fresh. rewrite in_map_iff. intros (s & <- & _). eauto. Qed.
Lemma fresh_length st st' : extends st st' -> List.length (fresh st st') + List.length (cs_pushed st) = List.length (cs_pushed st').
Proof. intros [new N]. unfold fresh. rewrite N, skipn_app, skipn_all, Nat.sub_diag. cbn. rewrite map_length, app_length. lia. Qed.

Lemma says_in s l : In (Says s) (map Says l) <-> In s l.
Proof. rewrite in_map_iff. split; [intros (x & E & I); injection E as ->; exact I|eauto]. Qed.
Lemma kept_on cev st e : st_ok st -> (snd (cfg_eval cev st e) = true <-> on cev e).
Proof.
  intros OK. destruct (cfg_eval_spec cev st e OK) as (_ & _ & K). rewrite K. unfold on.
  destruct (kleene (known cev) e) as [[|]|]; split; congruence.
Qed.
Lemma kbool_on cev e : kbool cev e = true <-> on cev e.
Proof. unfold kbool, on. destruct (kleene (known cev) e) as [[|]|]; split; congruence. Qed.

Section Reading.
  Variable lex : string -> option (list tok).
  Variable keyword : string -> bool.
  Variables experimental async_fn : bool.
  Variable cev : evaluator.
  Notation read_modules := (read_modules lex keyword experimental async_fn cev).
  Notation declarations := (declarations lex keyword experimental async_fn cev).
  Notation declared := (declared lex keyword experimental async_fn cev).
  Notation bridge_cfg := (bridge_cfg lex keyword experimental).
  Notation attr_errors := (attr_errors lex keyword experimental).
  Notation items_of := (items_of lex keyword experimental async_fn).

  (** The errors of one module, apart from conditions inside of it *)
  Definition module_error (m : module_) (s : string) : Prop :=
    In s (attr_errors m) \/ undecided cev (bridge_cfg m) s \/ exists outs es, on cev (bridge_cfg m) /\ items_of m outs es /\ In s es.

  Lemma read_spec ms : forall errors st errors' st' apis, st_ok st -> (forall s, In s (cs_pushed st) -> In (Says s) errors) ->
    read_modules errors st ms = Ok (errors', st', apis) ->
    declarations ms apis /\ st_ok st' /\ (forall s, In s (cs_pushed st') -> In (Says s) errors') /\
    (forall e, In e errors' <-> In e errors \/ exists s m, e = Says s /\ In m ms /\ module_error m s).
  Proof.
    induction ms as [|m ms IH]; intros errors st errors' st' apis OK Inc E; cbn [Report_Model.read_modules] in E.
    - injection E as <- <- <-. split; [constructor|]. split; [exact OK|]. split; [exact Inc|]. intros e. split; [auto|].
      intros [H|(s & m & _ & [] & _)]. exact H.
    - assert (Bc : bridge_cfg m = let '(p, _, _) := attrs_parse lex keyword experimental (bridge_parser true) (mo_attrs m) in cfg_of p) by reflexivity.
      assert (Ae : attr_errors m = snd (attrs_parse lex keyword experimental (bridge_parser true) (mo_attrs m))) by reflexivity.
      destruct (attrs_parse lex keyword experimental (bridge_parser true) (mo_attrs m)) as [[p pass] es]. cbn [snd] in Ae. rewrite <- Bc in E.
      pose proof (cfg_eval_spec cev st (bridge_cfg m) OK) as (OK1 & Pu & _). pose proof (kept_on cev st (bridge_cfg m) OK) as Kp.
      pose proof (eval_extends cev st (bridge_cfg m)) as Ex.
      destruct (cfg_eval cev st (bridge_cfg m)) as [st1 keep] eqn:V. cbn [fst snd] in *.
      assert (exists outs es', (if keep then items_of m outs es' else outs = [] /\ es' = []) /\
        exists errors2 st2 apis2, read_modules (errors ++ map Says es ++ fresh st st1 ++ map Says es') st1 ms = Ok (errors2, st2, apis2) /\
          errors2 = errors' /\ st2 = st' /\ apis = map o_api outs ++ apis2) as (outs & es' & It & errors2 & st2 & apis2 & Rd & -> & -> & ->).
      { destruct keep.
        - unfold Report_Spec.items_of. destruct (parse_items _ _ _ _ _ _ _) as [[outs es']| |]; [|discriminate|discriminate].
          destruct (read_modules _ _ _) as [[[errors2 st2] apis2]| |] eqn:Rd; [|discriminate|discriminate]. injection E as <- <- <-.
          exists outs, es'. split; [reflexivity|]. eauto 8.
        - cbn in E. destruct (read_modules _ _ _) as [[[errors2 st2] apis2]| |] eqn:Rd; [|discriminate|discriminate]. injection E as <- <- <-.
          exists [], []. split; [auto|]. cbn. eauto 8. }
      apply IH in Rd; [|exact OK1|].
      2: { intros s I. apply (fresh_in _ _ _ Ex) in I as [I|I]; rewrite !in_app_iff; auto. }
      destruct Rd as (De & OK2 & Inc2 & Ch). split; [|split; [exact OK2|split; [exact Inc2|]]].
      + destruct keep.
        * econstructor; [apply Kp; reflexivity|exact It|exact De].
        * destruct It as [-> ->]. cbn. apply D_off; [|exact De]. intros O. apply Kp in O. discriminate.
      + intros e. rewrite Ch. rewrite !in_app_iff. split.
        * intros [[I|[I|[I|I]]]|(s & m' & -> & I & M)]; [auto| | | |right; exists s, m'; cbn; auto].
          -- apply in_map_iff in I as (s & <- & I). right. exists s, m. split; [reflexivity|]. split; [left; reflexivity|]. left. rewrite Ae. exact I.
          -- destruct (fresh_says _ _ _ I) as (s & ->). assert (J : In s (cs_pushed st1)) by (apply (fresh_in _ _ _ Ex); auto).
             apply Pu in J as [J|J]; [auto|]. right. exists s, m. split; [reflexivity|]. split; [left; reflexivity|]. right. left. exact J.
          -- apply in_map_iff in I as (s & <- & I). right. exists s, m. split; [reflexivity|]. split; [left; reflexivity|]. right. right.
             destruct keep; [|destruct It as [_ ->]; destruct I]. exists outs, es'. split; [apply Kp; reflexivity|]. auto.
        * intros [I|(s & m' & -> & [<-|I] & M)]; [auto| |right; exists s, m'; auto]. left.
          destruct M as [I|[U|(outs' & es2 & O & It' & I)]].
          -- right. left. rewrite Ae in I. now apply says_in.
          -- assert (J : In s (cs_pushed st1)) by (apply Pu; right; exact U). apply (fresh_in _ _ _ Ex) in J as [J|J]; auto.
          -- right. right. right. apply Kp in O. subst keep. unfold Report_Spec.items_of in *. rewrite It in It'. injection It' as <- <-. now apply says_in.
  Qed.

  Lemma declarations_in ms l : declarations ms l -> forall a, In a l <-> declared ms a.
  Proof.
    induction 1 as [|m ms outs es l O It D IH|m ms l O D IH]; intros a.
    - split; [intros []|]. intros (m & outs & es & [] & _).
    - rewrite in_app_iff, IH. split.
      + intros [I|(m' & outs' & es' & I & R)]; [exists m, outs, es; cbn; auto|]. exists m', outs', es'. cbn. tauto.
      + intros (m' & outs' & es' & [<-|I] & O' & It' & Ia); [|right; exists m', outs', es'; auto]. left.
        unfold Report_Spec.items_of in *. congruence.
    - rewrite IH. split.
      + intros (m' & outs' & es' & I & R). exists m', outs', es'. cbn. tauto.
      + intros (m' & outs' & es' & [<-|I] & O' & R); [contradiction|]. exists m', outs', es'. auto.
  Qed.
  Lemma declarations_det ms l : declarations ms l -> forall l', declarations ms l' -> l' = l.
  Proof.
    induction 1 as [|m ms outs es l O It D IH|m ms l O D IH]; intros l' D'; inversion D'; subst; try contradiction; auto.
    f_equal; [|auto]. unfold Report_Spec.items_of in *. congruence.
  Qed.

  (** Reading and looking at the conditions of items, fields and variants *)
  Lemma stage_read ms errors st apis st' apis' : read_modules [] (CfgState [] []) ms = Ok (errors, st, apis) -> strip cev st apis = (st', apis') ->
    declarations ms apis /\
    (forall e, In e (errors ++ fresh st st') <-> exists s, e = Says s /\ reading_error lex keyword experimental async_fn cev ms s) /\
    (errors ++ fresh st st' = [] -> forall c, completion cev c -> apis' = enabled c apis).
  Proof.
    intros Rd St. assert (OK0 : st_ok (CfgState [] [])) by (split; [constructor|intros m; cbn; tauto]).
    pose proof Rd as Rd'. apply read_spec in Rd' as (De & OK & Inc & Ch); [|exact OK0|intros s []].
    pose proof (strip_spec cev st apis OK) as (_ & B & _). pose proof (strip_extends cev st apis) as Ex. rewrite St in B, Ex. cbn [fst] in *.
    split; [exact De|]. split.
    - intros e. rewrite in_app_iff, Ch. split.
      + intros [[[]|(s & m & -> & I & M)]|I].
        * exists s. split; [reflexivity|]. destruct M as [M|[M|(outs & es & O & It & Is)]]; [eapply R_attr|eapply R_cfg|eapply R_item]; eauto.
        * destruct (fresh_says _ _ _ I) as (s & ->). exists s. split; [reflexivity|].
          assert (J : In s (cs_pushed st')) by (apply (fresh_in _ _ _ Ex); auto). apply B in J as [J|J].
          -- apply Inc, Ch in J as [[]|(s' & m & E & Im & M)]. injection E as <-.
             destruct M as [M|[M|(outs & es & O & It & Is)]]; [eapply R_attr|eapply R_cfg|eapply R_item]; eauto.
          -- apply errs_of_app in J as [(x & l & Ix & Tx & Is)|(x & l & Ix & Tx & Is)].
             ++ apply in_map_iff in Ix as (a & <- & Ia). apply (R_item_cfg _ _ _ _ _ _ a); [apply (declarations_in _ _ De); exact Ia|]. exists l. auto.
             ++ apply in_flat_map in Ix as (a & Ia & Ix). apply filter_In in Ia as [Ia Ka].
                apply (R_inner_cfg _ _ _ _ _ _ a x); [apply (declarations_in _ _ De); exact Ia|now apply kbool_on|exact Ix|]. exists l. auto.
      + assert (X : forall s, errs_of cev (map api_cfg apis ++ flat_map inner_cfgs (filter (fun a => kbool cev (api_cfg a)) apis)) s ->
          (In (Says s) [] \/ (exists s0 m, Says s = Says s0 /\ In m ms /\ module_error m s0)) \/ In (Says s) (fresh st st')).
        { intros s Er. assert (J : In s (cs_pushed st')) by (apply B; auto). apply (fresh_in _ _ _ Ex) in J as [J|J]; [|auto].
          left. apply Ch. apply Inc. exact J. }
        intros (s & -> & R). destruct R as [m s Im Is|m s Im U|m outs es s Im O It Is|a s Da (l & T & Is)|a x s Da O Ix (l & T & Is)].
        * left. right. exists s, m. split; [reflexivity|]. split; [exact Im|]. left. exact Is.
        * left. right. exists s, m. split; [reflexivity|]. split; [exact Im|]. right. left. exact U.
        * left. right. exists s, m. split; [reflexivity|]. split; [exact Im|]. right. right. eauto.
        * apply X. apply errs_of_app. left. exists (api_cfg a), l. split; [|auto]. apply in_map. now apply (declarations_in _ _ De).
        * apply X. apply errs_of_app. right. exists x, l. split; [|auto]. apply in_flat_map. exists a. split; [|exact Ix].
          apply filter_In. split; [now apply (declarations_in _ _ De)|now apply kbool_on].
    - intros Em c C. apply app_eq_nil in Em as [-> Ef].
      assert (st = CfgState [] []) as ->.
      { destruct st as [s p]; cbn in *. assert (p = []) as -> by (destruct p as [|x p]; [reflexivity|exfalso; apply (Inc x); left; reflexivity]).
        f_equal. destruct s as [|x s]; [reflexivity|]. exfalso. apply (proj2 OK x). left. reflexivity. }
      pose proof (strip_enabled cev c apis C) as H. rewrite St in H. cbn in H. apply H.
      unfold fresh in Ef. cbn in Ef. destruct (cs_pushed st'); [reflexivity|discriminate].
  Qed.

  (** The same as File_Model.gather_modules *)
  Lemma read_gather ms : forall errors st,
    match gather_modules lex keyword experimental async_fn cev st ms with
    | Ok ((st', apis), es) => exists errors', read_modules errors st ms = Ok (errors', st', apis) /\ extends st st' /\
        List.length errors' + List.length (cs_pushed st) = List.length errors + List.length es + List.length (cs_pushed st')
    | Err e => read_modules errors st ms = Err e
    | Panic e => read_modules errors st ms = Panic e
    end.
  Proof.
    induction ms as [|m ms IH]; intros errors st; cbn [File_Model.gather_modules Report_Model.read_modules].
    - cbn. exists errors. split; [reflexivity|]. split; [apply extends_refl|]. lia.
    - destruct (attrs_parse lex keyword experimental (bridge_parser true) (mo_attrs m)) as [[p pass] es].
      pose proof (eval_extends cev st (cfg_of p)) as Ex. destruct (cfg_eval cev st (cfg_of p)) as [st1 keep]. cbn [fst] in Ex. cbn [bindR].
      destruct (if keep then _ else _) as [[outs es']| |]; cbn [bindR]; [|reflexivity|reflexivity].
      specialize (IH (errors ++ map Says es ++ fresh st st1 ++ map Says es') st1).
      destruct (gather_modules lex keyword experimental async_fn cev st1 ms) as [[[st2 apis] es2]| |]; cbn [bindR ret].
      + destruct IH as (errors' & -> & Ex2 & L). exists errors'. split; [reflexivity|]. split; [eapply extends_trans; eauto|].
        pose proof (fresh_length _ _ Ex). rewrite !app_length, !map_length in *. cbn [List.length]. lia.
      + rewrite IH. reflexivity.
      + rewrite IH. reflexivity.
  Qed.
End Reading.
