From Verif Require Import Base Syntax_Model TypeEq_Model Toposort_Model Types_Model Types_Spec Types_Proofs Types_Proofs3 Types_Props Check_Model Check_Spec.

Definition accepted_bridge (gen : generator) (ord : nat -> list string -> list string) (apis : list api) (T : types) : Prop :=
  accepted ord apis T /\ typecheck gen T apis = [].

(** * Small facts *)
Lemma err_if_nil b m : err_if b m = [] <-> b = false.
Proof. destruct b; cbn; split; congruence. Qed.
Lemma flat_map_nil {A B} (f : A -> list B) l : flat_map f l = [] <-> forall x, In x l -> f x = [].
Proof.
  induction l as [|a l IH]; cbn; [split; auto; intros _ x []|]. split.
  - intros H. apply app_eq_nil in H. destruct H as [H1 H2]. intros x [<-|Hx]; [exact H1|]. apply IH; auto.
  - intros H. rewrite (H a) by auto. cbn. apply IH. auto.
Qed.
Lemma app_nil {A} (a b : list A) : a ++ b = [] <-> a = [] /\ b = [].
Proof. split; [apply app_eq_nil|intros [-> ->]; reflexivity]. Qed.

Lemma starts_with_spec p : forall s, starts_with p s = true <-> has_prefix p s.
Proof.
  induction p as [|a p IH]; intros s; cbn.
  - split; [intros _; exists s; reflexivity|reflexivity].
  - destruct s as [|b s]; [split; [discriminate|intros [r H]; discriminate]|].
    rewrite andb_true_iff, Ascii.eqb_eq, IH. split.
    + intros [-> [r ->]]. exists r. reflexivity.
    + intros [r H]. cbn in H. injection H as -> ->. split; [reflexivity|exists r; reflexivity].
Qed.
Lemma contains_str_spec p : forall s, contains_str p s = true <-> has_infix p s.
Proof.
  induction s as [|c s IH]; cbn; rewrite orb_true_iff, starts_with_spec.
  - split; [intros [[r H]|H]; [exists "", r; exact H|discriminate]|]. intros [a [b H]]. left. destruct a; [exists b; exact H|discriminate].
  - rewrite IH. split.
    + intros [[r H]|[a [b H]]]; [exists "", r; exact H|]. exists (String c a), b. cbn. congruence.
    + intros [a [b H]]. destruct a as [|c' a]; [left; exists b; exact H|]. cbn in H. injection H as -> H. right. exists a, b. exact H.
Qed.

(** * Resolution *)
Lemma res_declares apis x p lts : assoc x (c_res (collect_apis apis)) = Some (p, lts) -> declares apis p lts /\ p_rust p = x.
Proof.
  assert (Mono : forall apis a p lts, declares apis p lts -> declares (apis ++ [a]) p lts).
  { intros l a q m H. destruct H; [apply de_struct|apply de_enum|apply de_cxx|apply de_rust|apply de_alias]; apply in_or_app; auto. }
  revert p lts. induction apis as [|a apis IH] using rev_ind; intros p lts; [discriminate|]. rewrite collect_snoc.
  destruct a; cbn [collect_api c_res]; rewrite ?assoc_uinsert;
    try (intros H; destruct (IH _ _ H) as [H1 H2]; split; [apply Mono; exact H1|exact H2]; fail);
    (match goal with |- context [String.eqb x ?y] => destruct (String.eqb_spec x y) as [->|N] end;
     [intros H; injection H as <- <-; split; [constructor; apply in_or_app; right; left; reflexivity|reflexivity]
     |intros H; destruct (IH _ _ H) as [H1 H2]; split; [apply Mono; exact H1|exact H2]]).
Qed.
Lemma declares_res apis p lts : declares apis p lts -> is_some (assoc (p_rust p) (c_res (collect_apis apis))) = true.
Proof.
  assert (G : forall x apis, (exists a, In a apis /\ match a with
     | AStruct s => p_rust (st_name s) = x | AEnum e => p_rust (en_name e) = x | ACxxType t | ARustType t => p_rust (et_name t) = x
     | ATypeAlias t => p_rust (ta_name t) = x | _ => False end) -> is_some (assoc x (c_res (collect_apis apis))) = true).
  { intros x l. induction l as [|a l IH] using rev_ind; [intros [a [[] _]]|]. intros [b [Hb Hx]]. rewrite collect_snoc.
    apply In_snoc in Hb. destruct Hb as [Hb|<-].
    - assert (IH' := IH (ex_intro _ b (conj Hb Hx))).
      destruct a; cbn [collect_api c_res]; rewrite ?assoc_uinsert; try exact IH';
        match goal with |- context [String.eqb x ?y] => destruct (String.eqb x y) end; (reflexivity || exact IH').
    - destruct b; try contradiction; cbn [collect_api c_res]; rewrite assoc_uinsert, Hx, String.eqb_refl; reflexivity. }
  intros H. apply G. destruct H; eexists; split; eauto; reflexivity.
Qed.

Section Accepted.
  Variables (gen : generator) (ord : nat -> list string -> list string) (apis : list api) (T : types).
  Hypothesis Hacc : accepted_bridge gen ord apis T.

  Lemma acc_facts :
    t_structs T = c_structs (collect_apis apis) /\ t_enums T = c_enums (collect_apis apis) /\ t_rust T = c_rust (collect_apis apis) /\
    t_aliases T = c_aliases (collect_apis apis) /\ t_cxx T = c_cxx (collect_apis apis) /\
    t_untrusted T = c_untrusted (collect_apis apis) /\ t_res T = c_res (collect_apis apis) /\ t_all T = c_all (collect_apis apis).
  Proof.
    destruct Hacc as [[_ Hc] _].
    destruct (collect_facts _ _ _ _ Hc) as [order [terrs [imp [_ [_ [_ [E1 [E2 [E3 [E4 [E5 [_ [_ [_ [E6 [E7 E8]]]]]]]]]]]]]]]]. auto 10.
  Qed.
  Lemma structs_ok x : in_structs T x = true <-> is_struct apis x.
  Proof.
    unfold in_structs. destruct acc_facts as [-> _]. unfold has. rewrite <- (last_struct_has x apis), structs_last. reflexivity.
  Qed.
  Lemma enums_ok x : in_enums T x = true <-> is_enum apis x.
  Proof. unfold in_enums. destruct acc_facts as [_ [-> _]]. apply enums_has. Qed.
  Lemma rust_ok x : in_rust T x = true <-> is_rust_type apis x.
  Proof. unfold in_rust. destruct acc_facts as [_ [_ [-> _]]]. apply rust_mem. Qed.
  Lemma aliases_ok x : in_aliases T x = true <-> is_alias apis x.
  Proof. unfold in_aliases. destruct acc_facts as [_ [_ [_ [-> _]]]]. apply aliases_has. Qed.
  Lemma cxx_ok x : in_cxx T x = true <-> is_cxx_type apis x.
  Proof. unfold in_cxx. destruct acc_facts as [_ [_ [_ [_ [-> _]]]]]. apply cxx_mem. Qed.
  Lemma all_ok u : mentioned apis u -> exists v, In v (t_all T) /\ (u = v \/ ty_eqb u v = true).
  Proof. destruct acc_facts as [_ [_ [_ [_ [_ [_ [_ ->]]]]]]]. apply mentioned_all. Qed.
  Lemma resolve_ok x p lts : try_resolve T x = Some (p, lts) -> declares apis p lts /\ p_rust p = x.
  Proof. unfold try_resolve. destruct acc_facts as [_ [_ [_ [_ [_ [_ [-> _]]]]]]]. apply res_declares. Qed.

  Lemma no_idents a : In a apis -> check_idents a = [].
  Proof. destruct Hacc as [_ H]. unfold typecheck in H. apply app_nil in H. destruct H as [H _]. rewrite flat_map_nil in H. apply H. Qed.
  Lemma no_types t : In t (t_all T) -> check_type T t = [].
  Proof. destruct Hacc as [_ H]. unfold typecheck in H. rewrite !app_nil in H. destruct H as [_ [H _]]. rewrite flat_map_nil in H. apply H. Qed.
  Lemma no_apis a : In a apis -> check_api gen T a = [].
  Proof. destruct Hacc as [_ H]. unfold typecheck in H. rewrite !app_nil in H. destruct H as [_ [_ H]]. rewrite flat_map_nil in H. apply H. Qed.

  (** * Opaque and unsized *)
  Lemma opaque_ok x : is_opaque_cxx T x = false -> ~ opaque_cxx apis x.
  Proof.
    unfold is_opaque_cxx. intros H [H1 [H2 [H3 H4]]]. rewrite <- cxx_ok, <- structs_ok, <- enums_ok, <- aliases_ok in *.
    rewrite H1 in H. apply not_true_is_false in H2, H3, H4. rewrite H2, H3, H4 in H. discriminate.
  Qed.
  (** An alias without shared definition is only treated as sized when recorded. *)
  Lemma opaque_alias x : is_opaque_cxx T x = false -> is_alias apis x -> ~ is_struct apis x -> ~ is_enum apis x ->
    exists rs, In (x, rs) (t_required_trivial T).
  Proof.
    unfold is_opaque_cxx. intros H Ha Hs He. assert (Hc : is_cxx_type apis x) by (right; left; exact Ha).
    rewrite <- cxx_ok, <- structs_ok, <- enums_ok, <- aliases_ok in *. apply not_true_is_false in Hs, He.
    rewrite Hc, Hs, He, Ha in H. cbn in H. apply negb_false_iff in H. unfold has in H.
    destruct (assoc x (t_required_trivial T)) eqn:E; [|discriminate]. apply assoc_In in E. eauto.
  Qed.
  Lemma unsized_ok t : is_unsized T t = false -> forall u, inline_in u t -> ~ unsized apis u.
  Proof.
    intros H u Hi. induction Hi as [t|u t len Hi IH].
    - intros Hu. destruct Hu; cbn in H; try discriminate.
      + rewrite H0 in H. cbn in H. discriminate.
      + apply orb_false_iff in H. destruct H as [H _]. apply orb_false_iff in H. destruct H as [_ H]. exact (opaque_ok _ H H0).
      + apply orb_false_iff in H. destruct H as [_ H]. apply rust_ok in H0. congruence.
    - apply IH. exact H.
  Qed.
  Lemma unsized_alias t : is_unsized T t = false -> forall n, inline_in (TIdent n) t ->
    is_alias apis (n_rust n) -> ~ is_struct apis (n_rust n) -> ~ is_enum apis (n_rust n) ->
    exists rs, In (n_rust n, rs) (t_required_trivial T).
  Proof.
    intros H n Hi. remember (TIdent n) as u. induction Hi as [t|u t len Hi IH]; [subst|auto].
    cbn in H. apply orb_false_iff in H. destruct H as [H _]. apply orb_false_iff in H. destruct H as [_ H]. apply opaque_alias. exact H.
  Qed.

  Lemma field_sized s f : In (AStruct s) apis -> In f (st_fields s) -> ~ is_fn_ptr (v_ty f) /\ is_unsized T (v_ty f) = false.
  Proof.
    intros Hs Hf. assert (H := no_apis _ Hs). cbn in H. unfold check_api_struct in H. rewrite !app_nil in H.
    destruct H as [_ [_ [_ [_ [_ H]]]]]. rewrite flat_map_nil in H. specialize (H f Hf).
    destruct (v_ty f); try (apply err_if_nil in H; split; [intros [? [? [? [? E]]]]; discriminate|exact H]). discriminate.
  Qed.
  Lemma fn_api f : all_functions apis f -> check_api_fn gen T f = [].
  Proof. intros [H|H]; exact (no_apis _ H). Qed.
  Lemma arg_sized f x t : all_functions apis f -> In (x, t) (fn_args f) ->
    (is_fn_ptr t /\ fn_lang f = LCxx) \/ is_unsized T t = false.
  Proof.
    intros Hf Ha. assert (H := fn_api f Hf). unfold check_api_fn in H. rewrite !app_nil in H.
    destruct H as [_ [_ [_ [H _]]]]. rewrite flat_map_nil in H. specialize (H _ Ha). cbn [snd] in H.
    destruct t; try (right; reflexivity); try (apply err_if_nil in H; right; exact H).
    left. apply err_if_nil in H. split; [repeat eexists|]. destruct (fn_lang f); [reflexivity|discriminate].
  Qed.
  Lemma ret_sized f t : all_functions apis f -> fn_ret f = Some t -> ~ is_fn_ptr t /\ is_unsized T t = false.
  Proof.
    intros Hf Hr. assert (H := fn_api f Hf). unfold check_api_fn in H. rewrite !app_nil in H.
    destruct H as [_ [_ [_ [_ [H _]]]]]. rewrite Hr in H.
    destruct t; try (apply err_if_nil in H; split; [intros [? [? [? [? E]]]]; discriminate|exact H]). discriminate.
  Qed.

  (** * Types occurring anywhere *)
  Lemma ident_eqb n v : ty_eqb (TIdent n) v = true -> exists m, v = TIdent m /\ n_rust m = n_rust n.
  Proof.
    destruct v; cbn; try discriminate. unfold named_eqb. rewrite andb_true_iff. intros [H _]. apply String.eqb_eq in H. eauto.
  Qed.
  Lemma mentioned_resolves n : mentioned apis (TIdent n) -> is_primitive (n_rust n) \/ exists p lts, try_resolve T (n_rust n) = Some (p, lts).
  Proof.
    intros H. destruct (all_ok _ H) as [v [Hv E]].
    assert (Hm : exists m, v = TIdent m /\ n_rust m = n_rust n) by (destruct E as [<-|E]; [eauto|apply ident_eqb; exact E]).
    destruct Hm as [m [-> Em]]. assert (C := no_types _ Hv). cbn in C. unfold check_type_ident in C. apply err_if_nil in C. rewrite Em in C.
    unfold is_atom in C. destruct (atom_from_str (n_rust n)) as [a|] eqn:Ea; [left; exists a; exact Ea|]. right. cbn [is_some negb andb] in C.
    assert (D : exists p lts, declares apis p lts /\ p_rust p = n_rust n).
    { destruct (in_structs T (n_rust n)) eqn:E1.
      { apply structs_ok in E1. destruct E1 as [s [H1 H2]]. exists (st_name s), (st_lts s). split; [constructor; exact H1|exact H2]. }
      destruct (in_enums T (n_rust n)) eqn:E2.
      { apply enums_ok in E2. destruct E2 as [e [H1 H2]]. exists (en_name e), (en_lts e). split; [constructor; exact H1|exact H2]. }
      destruct (in_cxx T (n_rust n)) eqn:E3.
      { apply cxx_ok in E3. destruct E3 as [[t [H1 H2]]|[[a [H1 H2]]|[e [H1 [H2 _]]]]].
        - exists (et_name t), (et_lts t). split; [apply de_cxx; exact H1|exact H2].
        - exists (ta_name a), (ta_lts a). split; [apply de_alias; exact H1|exact H2].
        - exists (en_name e), (en_lts e). split; [apply de_enum; exact H1|exact H2]. }
      destruct (in_rust T (n_rust n)) eqn:E4; [|discriminate]. apply rust_ok in E4. destruct E4 as [t [H1 H2]].
      exists (et_name t), (et_lts t). split; [apply de_rust; exact H1|exact H2]. }
    destruct D as [p [lts [D1 D2]]]. apply declares_res in D1. rewrite D2 in D1. unfold try_resolve.
    destruct acc_facts as [_ [_ [_ [_ [_ [_ [-> _]]]]]]]. destruct (assoc _ _) as [[q l]|]; [eauto|discriminate].
  Qed.
  Lemma receiver_ok f r : all_functions apis f -> fn_receiver f = Some r ->
    n_rust (rc_ty r) <> "Self" /\ ~ is_enum apis (n_rust (rc_ty r)) /\
    (is_struct apis (n_rust (rc_ty r)) \/ is_cxx_type apis (n_rust (rc_ty r)) \/ is_rust_type apis (n_rust (rc_ty r))) /\
    (rc_mutable r = true -> rc_pinned r = false -> ~ opaque_cxx apis (n_rust (rc_ty r))).
  Proof.
    intros Hf Hr. assert (H := fn_api f Hf). unfold check_api_fn in H. rewrite !app_nil in H. destruct H as [_ [_ [H _]]]. rewrite Hr in H.
    unfold check_receiver in H. destruct (String.eqb_spec (n_rust (rc_ty r)) "Self") as [E|N]; [discriminate|].
    destruct (in_enums T (n_rust (rc_ty r))) eqn:Ee; [discriminate|]. split; [exact N|]. split; [rewrite <- enums_ok; congruence|].
    destruct (in_structs T (n_rust (rc_ty r))) eqn:E1; cbn [negb andb] in H.
    - apply structs_ok in E1. split; [auto|]. intros Hm Hp. rewrite Hm, Hp in H. apply err_if_nil in H. apply opaque_ok. exact H.
    - destruct (in_cxx T (n_rust (rc_ty r))) eqn:E2; cbn [negb andb] in H.
      + apply cxx_ok in E2. split; [auto|]. intros Hm Hp. rewrite Hm, Hp in H. apply err_if_nil in H. apply opaque_ok. exact H.
      + destruct (in_rust T (n_rust (rc_ty r))) eqn:E3; cbn [negb andb] in H; [|discriminate].
        apply rust_ok in E3. split; [auto|]. intros Hm Hp. rewrite Hm, Hp in H. apply err_if_nil in H. apply opaque_ok. exact H.
  Qed.
  Lemma receiver_resolves f r : all_functions apis f -> fn_receiver f = Some r -> exists p lts, try_resolve T (n_rust (rc_ty r)) = Some (p, lts).
  Proof.
    intros Hf Hr. destruct (receiver_ok f r Hf Hr) as [_ [_ [H _]]].
    assert (D : exists p lts, declares apis p lts /\ p_rust p = n_rust (rc_ty r)).
    { destruct H as [[s [H1 H2]]|[[[t [H1 H2]]|[[a [H1 H2]]|[e [H1 [H2 _]]]]]|[t [H1 H2]]]].
      - exists (st_name s), (st_lts s). split; [apply de_struct; exact H1|exact H2].
      - exists (et_name t), (et_lts t). split; [apply de_cxx; exact H1|exact H2].
      - exists (ta_name a), (ta_lts a). split; [apply de_alias; exact H1|exact H2].
      - exists (en_name e), (en_lts e). split; [apply de_enum; exact H1|exact H2].
      - exists (et_name t), (et_lts t). split; [apply de_rust; exact H1|exact H2]. }
    destruct D as [p [lts [D1 D2]]]. apply declares_res in D1. rewrite D2 in D1. unfold try_resolve.
    destruct acc_facts as [_ [_ [_ [_ [_ [_ [-> _]]]]]]]. destruct (assoc _ _) as [[q l]|]; [eauto|discriminate].
  Qed.

  (** Any mentioned Box, Vec, ... *)
  Lemma check_cong u v : ty_eqb u v = true -> (forall n, u <> TIdent n) ->
    match u with TVec a => exists b, v = TVec b /\ ty_eqb a b = true
               | TSlice m l a => exists l' b, v = TSlice m l' b /\ ty_eqb a b = true
               | TBox a => exists b, v = TBox b /\ ty_eqb a b = true
               | TRef p m l a => exists l' b, v = TRef p m l' b /\ ty_eqb a b = true
               | TFn un th args _ => exists args' ret', v = TFn un th args' ret' /\ Forall2 (fun a b => ty_eqb (snd a) (snd b) = true) args args'
               | _ => True end.
  Proof.
    intros H _. destruct u; auto; destruct v; cbn in H; try discriminate.
    - eauto.
    - eauto.
    - rewrite !andb_true_iff in H. destruct H as [[[H1 H2] H3] H4]. apply Bool.eqb_prop in H1, H3. subst. eauto.
    - rewrite !andb_true_iff in H. destruct H as [[[[H1 H2] H3] H4] H5]. apply Bool.eqb_prop in H1, H3. subst.
      exists args0, ret0. split; [reflexivity|]. apply Nat.eqb_eq in H4. clear -H4 H5. revert args0 H4 H5.
      induction args as [|a args IH]; intros [|b args'] H4 H5; try discriminate; constructor; apply andb_true_iff in H5; destruct H5; auto.
    - rewrite !andb_true_iff in H. destruct H as [[H1 H2] H3]. apply Bool.eqb_prop in H2. subst. eauto.
  Qed.

  Lemma unsized_cong u v : ty_eqb u v = true -> is_unsized T u = is_unsized T v.
  Proof.
    destruct u, v; cbn; try discriminate; try reflexivity. unfold named_eqb. rewrite andb_true_iff. intros [H _]. apply String.eqb_eq in H. rewrite H. reflexivity.
  Qed.

  (** A Rust type is declared exactly once (C09). *)
  Lemma rust_not_cxx x : is_rust_type apis x -> ~ is_cxx_type apis x.
  Proof.
    intros [t [H1 H2]] Hc. destruct Hacc as [[Ho Hcol] _].
    assert (G := proj1 (C09_duplicates_partial ord apis T [] x Ho Hcol) (fun F => F)).
    assert (R : In DkRust (decls x apis)).
    { apply in_flat_map. exists (ARustType t). split; [exact H1|]. cbn. rewrite H2, String.eqb_refl. left; reflexivity. }
    assert (C : exists k, In k (decls x apis) /\ (k = DkCxx \/ k = DkAlias \/ k = DkFromHeader)).
    { destruct Hc as [[c [C1 C2]]|[[a [C1 C2]]|[e [C1 [C2 C3]]]]].
      - exists DkCxx. split; [|auto]. apply in_flat_map. eexists. split; [exact C1|]. cbn. rewrite C2, String.eqb_refl. left; reflexivity.
      - exists DkAlias. split; [|auto]. apply in_flat_map. eexists. split; [exact C1|]. cbn. rewrite C2, String.eqb_refl. left; reflexivity.
      - exists DkFromHeader. split; [|auto]. apply in_flat_map. eexists. split; [exact C1|]. cbn. rewrite C2, String.eqb_refl, C3. left; reflexivity. }
    destruct C as [k [C1 C2]].
    destruct G as [[G|[G|G]]|[G|[G|G]]]; try (rewrite G in R; cbn in R; intuition discriminate).
    destruct (decls x apis) as [|d [|d' l]]; cbn in G; [destruct R| |lia]. destruct R as [R|[]]. destruct C1 as [C1|[]].
    subst. destruct C2 as [C2|[C2|C2]]; discriminate.
  Qed.

  Lemma vec_ok t : mentioned apis (TVec t) ->
    (exists l, t = TStr l) \/ exists n, t = TIdent n /\ n_rust n <> "CxxString" /\ ~ opaque_cxx apis (n_rust n).
  Proof.
    intros H. destruct (all_ok _ H) as [v [Hv E]].
    assert (Hm : exists b, v = TVec b /\ (t = b \/ ty_eqb t b = true)).
    { destruct E as [<-|E]; [eauto|]. destruct (check_cong _ _ E) as [b [-> Eb]]; [discriminate|eauto]. }
    destruct Hm as [b [-> Eb]]. assert (C := no_types _ Hv). cbn in C.
    assert (G : (exists l, b = TStr l) \/ exists n, b = TIdent n /\ n_rust n <> "CxxString" /\ ~ opaque_cxx apis (n_rust n)).
    { destruct b; try discriminate; [|left; eauto]. right. exists n. split; [reflexivity|]. cbn in C.
      destruct (only_cxx T (n_rust n)) eqn:Eo; [discriminate|]. split.
      - intros En. rewrite En in C. discriminate.
      - intros [H1 [H2 [H3 H4]]]. unfold only_cxx in Eo. rewrite <- cxx_ok, <- structs_ok, <- enums_ok, <- aliases_ok in *.
        apply not_true_is_false in H2, H3, H4. rewrite H1, H2, H3, H4 in Eo. discriminate. }
    destruct Eb as [->|Eb]; [exact G|]. destruct G as [[l ->]|[n [-> [G1 G2]]]].
    - destruct t; try discriminate. left; eauto.
    - right. destruct t; try discriminate. cbn in Eb. unfold named_eqb in Eb. apply andb_true_iff in Eb. destruct Eb as [Eb _]. apply String.eqb_eq in Eb.
      exists n0. rewrite Eb. auto.
  Qed.
  Lemma slice_ok m l t : ~ is_alias apis "CxxString" -> mentioned apis (TSlice m l t) ->
    (forall u, inline_in u t -> ~ unsized apis u) \/ exists n, t = TIdent n /\ n_rust n <> "CxxString" /\ ~ opaque_cxx apis (n_rust n).
  Proof.
    intros Hna H. destruct (all_ok _ H) as [v [Hv E]].
    assert (Hm : exists l' b, v = TSlice m l' b /\ (t = b \/ ty_eqb t b = true)).
    { destruct E as [<-|E]; [eauto|]. destruct (check_cong _ _ E) as [l' [b [-> Eb]]]; [discriminate|eauto]. }
    destruct Hm as [l' [b [-> Eb]]]. assert (C := no_types _ Hv). cbn in C. unfold check_type_slice in C. apply err_if_nil in C.
    apply negb_false_iff, orb_true_iff in C. destruct C as [C|C].
    - apply negb_true_iff in C. left. apply unsized_ok. destruct Eb as [->|Eb]; [exact C|]. rewrite (unsized_cong _ _ Eb). exact C.
    - destruct b; try discriminate.
      assert (Et : exists k, t = TIdent k /\ n_rust k = n_rust n).
      { destruct Eb as [->|Eb]; [eauto|]. destruct t; try discriminate. cbn in Eb. unfold named_eqb in Eb. apply andb_true_iff in Eb.
        destruct Eb as [Eb _]. apply String.eqb_eq in Eb. eauto. }
      destruct Et as [k [-> Ek]]. rewrite <- Ek in C. right. exists k. split; [reflexivity|].
      apply orb_true_iff in C. destruct C as [C|C].
      + apply rust_ok in C. destruct C as [ty [C1 C2]]. split.
        * intros Es. assert (N := no_apis _ C1). cbn in N. unfold check_api_type in N. rewrite !app_nil in N.
          destruct N as [N _]. apply err_if_nil in N. rewrite C2, Es in N. discriminate.
        * intros [H1 _]. apply (rust_not_cxx (n_rust k)); [|exact H1]. exists ty. auto.
      + apply aliases_ok in C. split; [intros Es; rewrite Es in C; contradiction|]. intros [_ [_ [_ H4]]]. contradiction.
  Qed.
  Lemma array_ok t len : by_value apis (TArray t len) -> forall u, inline_in u t -> ~ unsized apis u.
  Proof.
    intros H. assert (G : is_unsized T (TArray t len) = false); [|exact (unsized_ok t G)].
    remember (TArray t len) as a eqn:Ea. destruct H as [s f Hs Hf|f x t' Hf Ha|f t' Hf Hr].
    - apply (field_sized s f Hs Hf).
    - destruct (arg_sized f x t' Hf Ha) as [[[? [? [? [? E]]]] _]|H]; [subst; discriminate|exact H].
    - apply (ret_sized f t' Hf Hr).
  Qed.
End Accepted.

Section Accepted2.
  Variables (gen : generator) (ord : nat -> list string -> list string) (apis : list api) (T : types).
  Hypothesis Hacc : accepted_bridge gen ord apis T.

  Lemma mentioned_array_ok t len : mentioned apis (TArray t len) -> forall u, inline_in u t -> ~ unsized apis u.
  Proof.
    intros H. destruct (all_ok _ _ _ _ Hacc _ H) as [v [Hv E]]. destruct E as [<-|E]; [|destruct v; discriminate].
    assert (C := no_types _ _ _ _ Hacc _ Hv). cbn in C. apply err_if_nil in C. apply (unsized_ok _ _ _ _ Hacc). exact C.
  Qed.

  Lemma ptr_arg_unsafe f x m t : all_functions apis f -> In (x, TPtr m t) (fn_args f) -> fn_unsafe f = true.
  Proof.
    intros Hf Ha. assert (H := fn_api _ _ _ _ Hacc f Hf). unfold check_api_fn in H. rewrite !app_nil in H.
    destruct H as [_ [_ [_ [H _]]]]. rewrite flat_map_nil in H. specialize (H _ Ha). cbn [snd] in H. apply err_if_nil in H.
    apply negb_false_iff. exact H.
  Qed.

  Lemma mut_return f : all_functions apis f -> fn_lang f = LCxx -> fn_unsafe f = false -> returns_mut f ->
    (exists r, fn_receiver f = Some r /\ (rc_mutable r = true \/ has_lifetime apis (n_rust (rc_ty r)))) \/
    (exists x t u, In (x, t) (fn_args f) /\ occurs u t /\ gives_mut apis u).
  Proof.
    intros Hf Hl Hu Hr. assert (H := fn_api _ _ _ _ Hacc f Hf). unfold check_api_fn in H. rewrite !app_nil in H.
    destruct H as [_ [_ [_ [_ [_ H]]]]]. rewrite Hl in H. unfold check_mut_return_restriction in H. rewrite Hu in H.
    assert (E : match fn_ret f with Some (TRef _ m _ _) => negb m | Some (TSlice m _ _) => negb m | _ => true end = false).
    { destruct Hr as [[p [l [t ->]]]|[l [t ->]]]; reflexivity. }
    rewrite E in H. clear E.
    assert (A : existsb (fun a => find_lifetime_mut T (snd a)) (fn_args f) = true ->
      exists x t u, In (x, t) (fn_args f) /\ occurs u t /\ gives_mut apis u).
    { intros Hx. apply existsb_exists in Hx. destruct Hx as [[x t] [H1 H2]]. cbn in H2. unfold find_lifetime_mut in H2.
      apply existsb_exists in H2. destruct H2 as [u [H2 H3]]. apply subtypes_occurs in H2. exists x, t, u. split; [exact H1|]. split; [exact H2|].
      destruct u; cbn in H3; try discriminate.
      - unfold is_atom in H3. destruct (atom_from_str (n_rust n)) as [a|] eqn:Ea; [discriminate|]. cbn in H3.
        apply gm_named; [apply not_primitive; exact Ea|].
        destruct (try_resolve T (n_rust n)) as [[p lts]|] eqn:Er.
        + apply (resolve_ok _ _ _ _ Hacc) in Er. destruct Er as [D1 D2]. exists p, lts. split; [exact D1|]. split; [exact D2|]. destruct lts; discriminate.
        + exfalso. destruct (mentioned_resolves _ _ _ _ Hacc n) as [[a Ha]|[p [lts Hp]]]; [|congruence|congruence].
          eapply me_arg; [destruct Hf as [Hf|Hf]; [left|right]; exact Hf|exact H1|exact H2].
      - subst. constructor.
      - subst. constructor. }
    destruct (fn_receiver f) as [r|] eqn:Er; [|right; apply A; apply err_if_nil in H; apply negb_false_iff in H; exact H].
    destruct (rc_mutable r) eqn:Em; [left; exists r; auto|]. cbn [orb] in H.
    destruct (receiver_resolves _ _ _ _ Hacc f r Hf Er) as [p [lts Hp]]. rewrite Hp in H.
    destruct lts as [|l0 lts].
    - right. apply A. apply err_if_nil in H. apply negb_false_iff in H. exact H.
    - left. exists r. split; [reflexivity|]. right. apply (resolve_ok _ _ _ _ Hacc) in Hp. destruct Hp as [D1 D2]. exists p, (l0 :: lts). split; [exact D1|]. split; [exact D2|discriminate].
  Qed.

  Lemma item_checked p : item_name apis p -> check_pair p = [].
  Proof.
    assert (G := no_idents _ _ _ _ Hacc).
    intros H. destruct H as [p lts H|s f Hs Hf|e v He Hv|f Hf|f x t Hf Ha].
    - destruct H as [s Hs|e He|t Ht|t Ht|a Ha]; specialize (G _ ltac:(eassumption)); cbn in G; rewrite ?app_nil in G; tauto.
    - specialize (G _ Hs). cbn in G. rewrite app_nil, flat_map_nil in G. apply G. exact Hf.
    - specialize (G _ He). cbn in G. rewrite app_nil, flat_map_nil in G. apply (proj2 G). exact Hv.
    - destruct Hf as [Hf|Hf]; specialize (G _ Hf); cbn in G; rewrite app_nil in G; tauto.
    - destruct Hf as [Hf|Hf]; specialize (G _ Hf); cbn in G; rewrite app_nil, flat_map_nil in G; destruct G as [_ G]; exact (G _ Ha).
  Qed.
End Accepted2.

Lemma check_cxx_ident_ok s : check_cxx_ident s = [] <-> ~ has_prefix "cxxbridge" s /\ ~ has_infix "__" s.
Proof.
  unfold check_cxx_ident. rewrite app_nil, !err_if_nil, <- !not_true_iff_false, starts_with_spec, contains_str_spec. reflexivity.
Qed.
Lemma check_pair_ok p : check_pair p = [] <->
  (forall s, In s (p_ns p) \/ s = p_cxx p -> ~ has_prefix "cxxbridge" s /\ ~ has_infix "__" s) /\ ~ has_prefix "cxxbridge" (p_rust p).
Proof.
  unfold check_pair. rewrite !app_nil, flat_map_nil. unfold check_rust_ident. rewrite err_if_nil, <- not_true_iff_false, starts_with_spec. split.
  - intros [H1 [H2 H3]]. split; [|exact H3]. intros s [Hs| ->]; apply check_cxx_ident_ok; auto.
  - intros [H1 H2]. split; [intros s Hs; apply check_cxx_ident_ok; auto|]. split; [apply check_cxx_ident_ok; auto|exact H2].
Qed.
