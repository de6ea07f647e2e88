(** Proofs about the two evaluators: cargo's environment and --cfg flags. *)
From Verif Require Import Base StrLib Syntax_Model Cfg_Model Cfg_Spec.

(** * Cargo *)

Lemma eq_ci_refl s : eq_ci s s = true.
Proof. apply String.eqb_refl. Qed.
Lemma eq_ci_eq a b : eq_ci a b = true <-> smap lower a = smap lower b.
Proof. apply String.eqb_eq. Qed.
Lemma eq_ci_trans a b c : eq_ci a b = true -> eq_ci b c = true -> eq_ci a c = true.
Proof. rewrite !eq_ci_eq. congruence. Qed.
Lemma eq_ci_sym a b : eq_ci a b = eq_ci b a.
Proof. unfold eq_ci. apply String.eqb_sym. Qed.

Lemma load_features q vars : forall env,
  existsb (eq_ci q) (ce_features (cargo_load vars env)) = true <->
  existsb (eq_ci q) (ce_features env) = true \/
  exists n v, In (("CARGO_FEATURE_" ++ n)%string, v) vars /\ eq_ci q n = true.
Proof.
  induction vars as [|[k v] vars IH]; intros env; cbn [cargo_load].
  - split; [auto|]. intros [?|(? & ? & [] & _)]; assumption.
  - rewrite IH. clear IH.
    assert (T : (exists n w, In (("CARGO_FEATURE_" ++ n)%string, w) ((k, v) :: vars) /\ eq_ci q n = true) <->
                (exists n, k = ("CARGO_FEATURE_" ++ n)%string /\ eq_ci q n = true) \/
                (exists n w, In (("CARGO_FEATURE_" ++ n)%string, w) vars /\ eq_ci q n = true)).
    { split.
      - intros (n & w & [E|I] & Q); [left; exists n; injection E as -> _; auto|right; eauto].
      - intros [(n & -> & Q)|(n & w & I & Q)]; exists n; [exists v|exists w]; split; auto; [left; reflexivity|right; assumption]. }
    rewrite T. clear T.
    destruct (strip_prefix "CARGO_FEATURE_" k) as [f|] eqn:E.
    + apply strip_prefix_inv in E. subst k.
      assert (U : (exists n, ("CARGO_FEATURE_" ++ f)%string = ("CARGO_FEATURE_" ++ n)%string /\ eq_ci q n = true)
                  <-> eq_ci q f = true).
      { split; [intros (n & X & Q); apply append_cancel_l in X; now subst|eauto]. }
      rewrite U. clear U. cbn [ce_features].
      destruct (existsb (eq_ci f) (ce_features env)) eqn:X.
      * split; [tauto|]. intros [?|[Q|?]]; auto. left.
        apply existsb_exists in X as (y & Iy & Hy). apply existsb_exists.
        exists y. split; [assumption|]. eapply eq_ci_trans; eassumption.
      * cbn [existsb]. rewrite orb_true_iff. tauto.
    + assert (U : ~ exists n, k = ("CARGO_FEATURE_" ++ n)%string /\ eq_ci q n = true).
      { intros (n & -> & _). rewrite strip_prefix_app in E. discriminate. }
      assert (V : ce_features match strip_prefix "CARGO_CFG_" k with
                              | Some c => CargoEnv (ce_features env) (ci_insert c v (ce_cfgs env))
                              | None => env end = ce_features env).
      { destruct (strip_prefix "CARGO_CFG_" k); reflexivity. }
      rewrite V. tauto.
Qed.

Lemma ci_get_insert q k v m :
  ci_get q (ci_insert k v m) = if eq_ci q k then Some v else ci_get q m.
Proof.
  induction m as [|[k' v'] m IH]; cbn [ci_insert ci_get]; [reflexivity|].
  destruct (eq_ci k k') eqn:E; cbn [ci_get].
  - destruct (eq_ci q k) eqn:F.
    + now rewrite (eq_ci_trans _ _ _ F E).
    + destruct (eq_ci q k') eqn:G; [|reflexivity].
      rewrite eq_ci_sym in E. now rewrite (eq_ci_trans _ _ _ G E) in F.
  - rewrite IH. destruct (eq_ci q k') eqn:G; [|reflexivity].
    destruct (eq_ci q k) eqn:F; [|reflexivity].
    rewrite eq_ci_sym in F. now rewrite (eq_ci_trans _ _ _ F G) in E.
Qed.

Lemma load_cfgs q vars : forall env,
  match ci_get q (ce_cfgs (cargo_load vars env)) with
  | Some v => ci_get q (ce_cfgs env) = Some v \/
              exists n, eq_ci q n = true /\ In (("CARGO_CFG_" ++ n)%string, v) vars
  | None => ci_get q (ce_cfgs env) = None /\
            forall n v, In (("CARGO_CFG_" ++ n)%string, v) vars -> eq_ci q n = false
  end.
Proof.
  induction vars as [|[k v] vars IH]; intros env; cbn [cargo_load].
  - destruct (ci_get q (ce_cfgs env)); [auto|]. split; [reflexivity|]. intros n v [].
  - set (env' := match strip_prefix "CARGO_FEATURE_" k with Some f => _ | None => _ end).
    specialize (IH env').
    assert (C : (exists c, k = ("CARGO_CFG_" ++ c)%string /\
                   ce_cfgs env' = ci_insert c v (ce_cfgs env)) \/
                (ce_cfgs env' = ce_cfgs env /\ forall c, k <> ("CARGO_CFG_" ++ c)%string)).
    { unfold env'. destruct (strip_prefix "CARGO_FEATURE_" k) eqn:E1.
      - right. split; [reflexivity|]. intros c ->. apply strip_prefix_inv in E1. discriminate E1.
      - destruct (strip_prefix "CARGO_CFG_" k) as [c|] eqn:E2.
        + left. exists c. split; [now apply strip_prefix_inv|reflexivity].
        + right. split; [reflexivity|]. intros c ->. rewrite strip_prefix_app in E2. discriminate. }
    clearbody env'.
    destruct C as [(c & -> & C)|(C & D)].
    + rewrite C, ci_get_insert in IH. destruct (ci_get q (ce_cfgs (cargo_load vars env'))) as [w|].
      * destruct IH as [IH|(n & Q & I)].
        -- destruct (eq_ci q c) eqn:Q; [|auto]. injection IH as <-.
           right. exists c. split; [assumption|left; reflexivity].
        -- right. exists n. split; [assumption|right; assumption].
      * destruct IH as [IH1 IH2]. destruct (eq_ci q c) eqn:Q; [discriminate|].
        split; [assumption|]. intros n w [X|I]; [|now apply IH2 in I].
        injection X as X _. now subst n.
    + rewrite C in IH. destruct (ci_get q (ce_cfgs (cargo_load vars env'))) as [w|].
      * destruct IH as [IH|(n & Q & I)]; [auto|]. right. exists n. split; [assumption|right; assumption].
      * destruct IH as [IH1 IH2]. split; [assumption|].
        intros n w [X|I]; [|now apply IH2 in I]. injection X as X _. now elim (D n).
Qed.

Lemma lower_envify_char c : Ascii.eqb c "-" = false -> lower (envify_char c) = lower c.
Proof. intros H. unfold envify_char. rewrite H. apply lower_upper. Qed.
Lemma upper_envify_char c : upper (lower (envify_char c)) = envify_char c.
Proof. destruct c as [[|] [|] [|] [|] [|] [|] [|] [|]]; vm_compute; reflexivity. Qed.

Lemma smap_lower_envify s : has_char "-" s = false -> smap lower (envify s) = smap lower s.
Proof.
  unfold envify. induction s as [|a s IH]; cbn [smap has_char]; [reflexivity|].
  intros H; apply orb_false_elim in H as [H1 H2]. now rewrite lower_envify_char, IH.
Qed.
Lemma smap_upper_lower_envify s : smap upper (smap lower (envify s)) = envify s.
Proof.
  unfold envify. rewrite !smap_smap. apply smap_ext. apply upper_envify_char.
Qed.

Lemma eq_ci_envify q f : has_char "-" q = false ->
  (eq_ci q (envify f) = true <-> envify q = envify f).
Proof.
  intros H. rewrite eq_ci_eq. split; intros E.
  - rewrite <- (smap_upper_lower_envify q), <- (smap_upper_lower_envify f).
    now rewrite (smap_lower_envify q H), E.
  - rewrite <- (smap_lower_envify q H). now rewrite E.
Qed.

(** No lower-cased name that cargo passes contains a hyphen. *)
Lemma envify_no_hyphen f : has_char "-" (smap lower (envify f)) = false.
Proof.
  unfold envify. induction f as [|a f IH]; cbn [smap has_char]; [reflexivity|].
  rewrite IH, orb_false_r. destruct a as [[|] [|] [|] [|] [|] [|] [|] [|]]; vm_compute; reflexivity.
Qed.
Lemma lower_hyphen q : has_char "-" (smap lower q) = has_char "-" q.
Proof.
  induction q as [|a q IH]; cbn [smap has_char]; [reflexivity|]. rewrite IH. f_equal.
  destruct a as [[|] [|] [|] [|] [|] [|] [|] [|]]; vm_compute; reflexivity.
Qed.

Lemma cargo_feature features cfgs vars dbg q :
  cargo_vars features cfgs vars ->
  cargo_eval vars dbg "feature" (Some q) =
    cfg_of_bool (negb (has_char "-" q) && existsb (fun f => String.eqb (envify q) (envify f)) features).
Proof.
  intros [F _]. unfold cargo_eval. cbn [String.eqb Ascii.eqb Bool.eqb andb].
  change (String.eqb "feature" "feature") with true. cbn iota. f_equal.
  apply eq_true_iff_eq. rewrite load_features, andb_true_iff, negb_true_iff. cbn [ce_features existsb].
  split.
  - intros [X|(n & v & I & Q)]; [discriminate|].
    destruct (proj1 (F n) (ex_intro _ v I)) as (f & If & ->).
    assert (H : has_char "-" q = false).
    { apply eq_ci_eq in Q. rewrite <- lower_hyphen, Q. apply envify_no_hyphen. }
    split; [assumption|]. apply existsb_exists. exists f. split; [assumption|].
    apply String.eqb_eq. now apply eq_ci_envify.
  - intros [H X]. right. apply existsb_exists in X as (f & If & Q). apply String.eqb_eq in Q.
    destruct (proj2 (F (envify f))) as [v I]; [eauto|]. exists (envify f), v. split; [assumption|].
    now apply eq_ci_envify.
Qed.

Lemma values_of_spec k cfgs v : In v (values_of k cfgs) <-> In (k, Some v) cfgs.
Proof.
  induction cfgs as [|[k' v'] cfgs IH]; cbn [values_of]; [tauto|].
  rewrite in_app_iff, IH. destruct (String.eqb_spec k k').
  - subst k'. destruct v' as [x|]; cbn; split; intros [X|X]; auto.
    + destruct X as [->|[]]. auto.
    + injection X as ->. auto.
    + destruct X.
    + discriminate.
  - cbn. split; [intros [[]|X]; auto|]. intros [X|X]; [congruence|auto].
Qed.

Lemma cargo_cfg features cfgs vars dbg k q :
  cargo_vars features cfgs vars ->
  (forall a, In a (map fst cfgs) -> envify a = envify k -> a = k) ->
  (forall a v, In (a, Some v) cfgs -> has_char "," v = false /\ v <> EmptyString) ->
  has_char "-" k = false ->
  k <> "feature" -> k <> "test" -> k <> "debug_assertions" ->
  cargo_eval vars dbg k (Some q) = CRTrue <-> (In (k, Some q) cfgs \/ (q = "" /\ In (k, None) cfgs /\ values_of k cfgs = [])).
Proof.
  intros [_ C] Injk NC NH N1 N2 N3. unfold cargo_eval.
  rewrite (proj2 (String.eqb_neq _ _) N1), (proj2 (String.eqb_neq _ _) N2),
    (proj2 (String.eqb_neq _ _) N3). cbn [andb].
  pose proof (load_cfgs k vars (CargoEnv [] [])) as L. cbn [ce_cfgs ci_get] in L.
  destruct (ci_get k (ce_cfgs (cargo_load vars (CargoEnv [] [])))) as [cv|].
  - destruct L as [L|(n & Q & I)]; [discriminate|].
    apply C in I as (a & Ia & -> & ->). apply eq_ci_envify in Q; [|assumption].
    assert (a = k) by (apply Injk; auto). subst a.
    assert (X : existsb (String.eqb q) (split_on "," (join_with "," (values_of k cfgs))) = true <->
            (In (k, Some q) cfgs \/ (q = "" /\ In (k, None) cfgs /\ values_of k cfgs = []))).
    { destruct (values_of k cfgs) as [|x xs] eqn:V.
      - cbn. rewrite orb_false_r, String.eqb_eq. split.
        + intros ->. right. split; [reflexivity|]. split; [|reflexivity].
          apply in_map_iff in Ia as ((k' & v') & Ek & Ik). cbn in Ek. subst k'.
          destruct v' as [v'|]; [|assumption]. apply values_of_spec in Ik. rewrite V in Ik. destruct Ik.
        + intros [H|[H _]]; [|assumption]. apply values_of_spec in H. rewrite V in H. destruct H.
      - rewrite split_join; [|discriminate|].
        + rewrite <- V. fold (smem q (values_of k cfgs)). rewrite smem_In, values_of_spec.
          split; [auto|]. intros [?|(_ & _ & X)]; [assumption|]. rewrite V in X. discriminate.
        + intros s Hs. rewrite <- V in Hs. apply values_of_spec in Hs. now apply NC in Hs. }
    rewrite <- X. destruct (existsb _ _); cbn; split; congruence.
  - destruct L as [_ L].
    assert (K : ~ In k (map fst cfgs)).
    { intros Ik. assert (I : In (("CARGO_CFG_" ++ envify k)%string, join_with "," (values_of k cfgs)) vars).
      { apply C. exists k. auto. }
      apply L in I. rewrite (proj2 (eq_ci_envify k k NH) eq_refl) in I. discriminate. }
    split; [discriminate|].
    intros [H|(_ & H & _)]; exfalso; apply K; apply (in_map fst) in H; exact H.
Qed.

Lemma cargo_bare features cfgs vars dbg k :
  cargo_vars features cfgs vars ->
  (forall a, In a (map fst cfgs) -> envify a = envify k -> a = k) ->
  has_char "-" k = false ->
  k <> "feature" -> k <> "test" -> k <> "debug_assertions" ->
  cargo_eval vars dbg k None = cfg_of_bool (smem k (map fst cfgs)).
Proof.
  intros [_ C] Injk NH N1 N2 N3. unfold cargo_eval.
  rewrite (proj2 (String.eqb_neq _ _) N1), (proj2 (String.eqb_neq _ _) N2),
    (proj2 (String.eqb_neq _ _) N3). cbn [andb].
  pose proof (load_cfgs k vars (CargoEnv [] [])) as L. cbn [ce_cfgs ci_get] in L.
  destruct (ci_get k (ce_cfgs (cargo_load vars (CargoEnv [] [])))) as [cv|].
  - destruct L as [L|(n & Q & I)]; [discriminate|].
    apply C in I as (a & Ia & -> & ->). apply eq_ci_envify in Q; [|assumption].
    assert (a = k) by (apply Injk; auto). subst a. now rewrite (proj2 (smem_In _ _) Ia).
  - destruct L as [_ L].
    assert (K : smem k (map fst cfgs) = false).
    { apply smem_false. intros Ik. assert (I : In (("CARGO_CFG_" ++ envify k)%string, join_with "," (values_of k cfgs)) vars).
      { apply C. exists k. auto. }
      apply L in I. rewrite (proj2 (eq_ci_envify k k NH) eq_refl) in I. discriminate. }
    now rewrite K.
Qed.

(** * Command line flags *)

Lemma cfg_value_eqb_eq a b : cfg_value_eqb a b = true <-> a = b.
Proof.
  destruct a, b; cbn; try (split; congruence).
  - rewrite Bool.eqb_true_iff. split; congruence.
  - rewrite String.eqb_eq. split; congruence.
Qed.

Lemma flag_insert_assoc n v m k :
  assoc k (flag_insert n v m) =
  if String.eqb k n then
    Some (match assoc n m with
          | Some s => if existsb (cfg_value_eqb v) s then s else v :: s
          | None => [v] end)
  else assoc k m.
Proof.
  induction m as [|[k' s] m IH]; cbn [flag_insert assoc].
  - destruct (String.eqb k n); reflexivity.
  - destruct (String.eqb_spec n k').
    + subst k'. cbn [assoc]. destruct (String.eqb k n); reflexivity.
    + cbn [assoc]. rewrite IH. destruct (String.eqb_spec k k'); [|reflexivity].
      subst k'. destruct (String.eqb_spec k n); [congruence|reflexivity].
Qed.

Lemma flag_fold l : forall m k v,
  (exists s, assoc k (fold_left (fun m nv => flag_insert (fst nv) (snd nv) m) l m) = Some s /\ In v s) <->
  (exists s, assoc k m = Some s /\ In v s) \/ In (k, v) l.
Proof.
  induction l as [|[n w] l IH]; intros m k v; cbn [fold_left fst snd].
  - cbn. tauto.
  - rewrite IH, flag_insert_assoc. cbn [In].
    destruct (String.eqb_spec k n).
    + subst n. assert (E : (exists s, Some (match assoc k m with
          | Some s => if existsb (cfg_value_eqb w) s then s else w :: s
          | None => [w] end) = Some s /\ In v s) <-> (exists s, assoc k m = Some s /\ In v s) \/ v = w).
      { destruct (assoc k m) as [s|].
        - destruct (existsb (cfg_value_eqb w) s) eqn:E.
          + apply existsb_exists in E as (x & Ix & Ex). apply cfg_value_eqb_eq in Ex. subst x.
            split; [auto|]. intros [H| ->]; [assumption|eauto].
          + split.
            * intros (s' & X & I). injection X as <-. destruct I as [->|I]; [auto|left; eauto].
            * intros [(s' & X & I)| ->]; [injection X as <-|]; eexists; (split; [reflexivity|]); [right|left]; auto.
        - split.
          + intros (s' & X & I). injection X as <-. destruct I as [->|[]]. auto.
          + intros [(s' & X & I)| ->]; [discriminate|]. eexists; split; [reflexivity|left; reflexivity]. }
      rewrite E. split; intros H; intuition (try congruence); auto.
    + split; [intros [H|H]; auto|]. intros [H|[H|H]]; auto. congruence.
Qed.

Lemma flag_fold_none l : forall m k,
  assoc k (fold_left (fun m nv => flag_insert (fst nv) (snd nv) m) l m) = None <->
  assoc k m = None /\ ~ In k (map fst l).
Proof.
  induction l as [|[n w] l IH]; intros m k; cbn [fold_left fst snd map In].
  - tauto.
  - rewrite IH, flag_insert_assoc. destruct (String.eqb_spec k n).
    + subst. split; [intros [? ?]; discriminate|tauto].
    + split; intros [A B]; (split; [assumption|]); intuition congruence.
Qed.

Lemma flag_map_in l k v :
  match assoc k (flag_map l) with Some s => existsb (cfg_value_eqb v) s | None => false end = true
  <-> In (k, v) l.
Proof.
  pose proof (flag_fold l [] k v) as H. fold (flag_map l) in H. split.
  - intros E. destruct (assoc k (flag_map l)) as [s|]; [|discriminate].
    apply existsb_exists in E as (x & I & X). apply cfg_value_eqb_eq in X. subst x.
    destruct (proj1 H) as [(s' & X & _)|]; [eauto|discriminate|assumption].
  - intros I. destruct (proj2 H (or_intror I)) as (s & -> & J).
    apply existsb_exists. exists v. split; [assumption|]. now apply cfg_value_eqb_eq.
Qed.

Lemma flag_map_none l k : assoc k (flag_map l) = None <-> ~ In k (map fst l).
Proof. unfold flag_map. rewrite flag_fold_none. cbn. tauto. Qed.

Definition consistent (l : list (string * cfg_value)) : Prop :=
  forall n, ~ (In (n, VBool true) l /\ In (n, VBool false) l).

Lemma parse_flags_spec args : forall bools l,
  parse_flags args bools = Some l <->
  Forall2 (fun a nv => parse_flag a = Some nv) args l /\
  (forall n b b', In (n, VBool b) l -> assoc n bools = Some b' -> b = b') /\
  consistent l.
Proof.
  induction args as [|a args IH]; intros bools l; cbn [parse_flags].
  - split.
    + intros E; injection E as <-. split; [constructor|]. split; [intros n b b' []|]. intros n [[] _].
    + intros (F & _). inversion F. reflexivity.
  - destruct (parse_flag a) as [[n [b|s]]|] eqn:P.
    + assert (E : forall r : option (list (string * cfg_value)),
                 option_map (cons (n, VBool b)) r = Some l <-> exists l', r = Some l' /\ l = (n, VBool b) :: l').
      { intros [r|]; cbn; split; try discriminate.
        - intros X; injection X as <-. eauto.
        - intros (l' & X & ->). injection X as ->. reflexivity.
        - intros (l' & X & _). discriminate. }
      assert (G : (match assoc n bools with Some prev => Bool.eqb prev b = true | None => True end) ->
        (option_map (cons (n, VBool b)) (parse_flags args ((n, b) :: bools)) = Some l <->
        Forall2 (fun a nv => parse_flag a = Some nv) (a :: args) l /\
        (forall n0 b0 b', In (n0, VBool b0) l -> assoc n0 bools = Some b' -> b0 = b') /\ consistent l)).
      { intros Hp. rewrite E. clear E. split.
        - intros (l' & H & ->). apply IH in H as (F & B & C). split; [constructor; assumption|].
          split.
          + intros n0 b0 b' [X|I] A.
            * injection X as <- <-. rewrite A in Hp. apply Bool.eqb_prop in Hp. congruence.
            * destruct (String.eqb_spec n0 n).
              -- subst n0. rewrite A in Hp. apply Bool.eqb_prop in Hp. subst b'.
                 apply (B n b0 b I). cbn. now rewrite String.eqb_refl.
              -- apply (B n0 b0 b' I). cbn. apply String.eqb_neq in n1. now rewrite n1.
          + intros m [H1 H2]. destruct H1 as [H1|H1], H2 as [H2|H2].
            * congruence.
            * injection H1 as -> ->. specialize (B m false true H2). cbn in B. rewrite String.eqb_refl in B.
              specialize (B eq_refl). discriminate.
            * injection H2 as -> ->. specialize (B m true false H1). cbn in B. rewrite String.eqb_refl in B.
              specialize (B eq_refl). discriminate.
            * apply (C m). auto.
        - intros (F & B & C). inversion F as [|? nv ? l' P' F' X1 X2]; subst. rewrite P in P'. injection P' as <-.
          exists l'. split; [|reflexivity]. apply IH. split; [assumption|]. split.
          + intros n0 b0 b' I A. cbn in A. destruct (String.eqb_spec n0 n).
            * subst n0. injection A as <-.
              destruct b0, b; try reflexivity; exfalso; apply (C n); split; (left; reflexivity) || (right; assumption).
            * apply (B n0 b0 b'); [right; assumption|assumption].
          + intros m [H1 H2]. apply (C m). split; right; assumption. }
      destruct (assoc n bools) as [prev|] eqn:A.
      * destruct (Bool.eqb prev b) eqn:Q; [apply G; reflexivity|].
        split; [discriminate|]. intros (F & B & C). inversion F as [|? nv ? l' P' F' X1 X2]; subst.
        rewrite P in P'. injection P' as <-. exfalso.
        assert (b = prev) by (apply (B n b prev); [left; reflexivity|assumption]). subst.
        rewrite Bool.eqb_reflx in Q. discriminate.
      * apply G. exact I.
    + destruct (parse_flags args bools) as [r|] eqn:R; cbn.
      * split.
        -- intros X; injection X as <-. apply IH in R as (F & B & C). split; [constructor; assumption|].
           split; [intros n0 b0 b' [X|I]; [discriminate|eauto]|].
           intros m [[X|H1] [Y|H2]]; try discriminate. apply (C m); auto.
        -- intros (F & B & C). inversion F as [|? nv ? l' P' F' X1 X2]; subst. rewrite P in P'. injection P' as <-.
           f_equal. f_equal. assert (Some r = Some l'); [|congruence]. rewrite <- R. apply IH.
           split; [assumption|]. split; [intros n0 b0 b' I; apply (B n0 b0 b'); right; assumption|].
           intros m [H1 H2]. apply (C m); split; right; assumption.
      * split; [discriminate|]. intros (F & B & C). inversion F as [|? nv ? l' P' F' X1 X2]; subst.
        rewrite P in P'. injection P' as <-. exfalso.
        assert (None = Some l'); [|congruence]. rewrite <- R. apply IH.
        split; [assumption|]. split; [intros n0 b0 b' I; apply (B n0 b0 b'); right; assumption|].
        intros m [H1 H2]. apply (C m); split; right; assumption.
    + split; [discriminate|]. intros (F & _). inversion F. congruence.
Qed.

Lemma flags_eval_spec l name : consistent l ->
  (flags_eval (flag_map l) name None = CRTrue <-> In (name, VBool true) l) /\
  (flags_eval (flag_map l) name None = CRFalse <-> In (name, VBool false) l) /\
  (forall v, flags_eval (flag_map l) name (Some v) = CRTrue <-> In (name, VStr v) l) /\
  (forall v, flags_eval (flag_map l) name (Some v) = CRFalse <->
     ~ In (name, VStr v) l /\ (name = "feature" \/ In name (map fst l))).
Proof.
  intros C.
  pose proof (flag_map_in l name (VBool true)) as T. pose proof (flag_map_in l name (VBool false)) as F.
  pose proof (C name) as C'. unfold flags_eval.
  set (bt := match assoc name (flag_map l) with Some s => existsb (cfg_value_eqb (VBool true)) s | None => false end) in *.
  set (bf := match assoc name (flag_map l) with Some s => existsb (cfg_value_eqb (VBool false)) s | None => false end) in *.
  clearbody bt bf. split; [|split].
  - destruct bf, bt; cbn; split; intros H; try discriminate; try reflexivity; intuition discriminate.
  - destruct bf, bt; cbn; split; intros H; try discriminate; try reflexivity; intuition discriminate.
  - split; intros v; pose proof (flag_map_in l name (VStr v)) as V; pose proof (flag_map_none l name) as N;
      destruct (assoc name (flag_map l)) as [s|].
    + rewrite <- V. destruct (existsb (cfg_value_eqb (VStr v)) s); cbn; split; congruence.
    + rewrite <- V. destruct (String.eqb name "feature"); split; discriminate.
    + assert (K : In name (map fst l)).
      { destruct (in_dec string_dec name (map fst l)) as [?|n]; [assumption|]. apply N in n. discriminate. }
      rewrite <- V. destruct (existsb (cfg_value_eqb (VStr v)) s); cbn; split.
      * discriminate.
      * intros [X _]. now elim X.
      * intros _. split; [discriminate|auto].
      * reflexivity.
    + rewrite <- V. assert (K : ~ In name (map fst l)) by now apply N.
      destruct (String.eqb_spec name "feature").
      * split; [|reflexivity]. intros _. split; [discriminate|auto].
      * split; [discriminate|]. intros [_ [?|?]]; contradiction.
Qed.
