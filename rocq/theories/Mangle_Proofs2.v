From Verif Require Import Base Syntax_Model TypeEq_Model Types_Model Types_Spec Types_Proofs Types_Proofs3 Types_Props
  Check_Model Check_Spec Check_Proofs Check_Proofs2 Check_Props Mangle_Model Mangle_Spec Mangle_Proofs StrLib.

(** * Resolution *)
Lemma res_last apis x p : option_map fst (assoc x (c_res (collect_apis apis))) = Some p <-> stands_for apis x p.
Proof.
  revert p. induction apis as [|a apis IH] using rev_ind; intros p.
  - split; [discriminate|]. intros (pre & a & post & H & _). destruct pre; discriminate.
  - assert (Step : c_res (collect_apis (apis ++ [a])) =
        match decl_name a with
        | Some q => uinsert (p_rust q) (q, match a with AStruct s => st_lts s | AEnum e => en_lts e | ACxxType t | ARustType t => et_lts t | ATypeAlias t => ta_lts t | _ => [] end) (c_res (collect_apis apis))
        | None => c_res (collect_apis apis) end) by (rewrite collect_snoc; destruct a; reflexivity).
    rewrite Step. destruct (decl_name a) as [q|] eqn:D.
    + rewrite assoc_uinsert. destruct (String.eqb_spec x (p_rust q)) as [->|N].
      * split.
        -- intros H. cbn in H. injection H as <-. exists apis, a, []. split; [reflexivity|]. split; [exact D|]. split; [reflexivity|]. intros b r [].
        -- intros (pre & b & post & E & Db & Hb & L). destruct post as [|c post] using rev_ind.
           ++ apply app_inj_tail in E. destruct E as (_ & <-). cbn. congruence.
           ++ exfalso. rewrite app_comm_cons, app_assoc in E. apply app_inj_tail in E. destruct E as (_ & <-).
              apply (L a q); [apply in_or_app; right; left; reflexivity|exact D|reflexivity].
      * rewrite IH. split.
        -- intros (pre & b & post & -> & Db & Hb & L). exists pre, b, (post ++ [a]). split; [rewrite <- app_assoc; reflexivity|].
           split; [exact Db|]. split; [exact Hb|]. intros c r Hc Dc. apply in_app_or in Hc. destruct Hc as [Hc|[<-|[]]]; [eapply L; eauto|].
           rewrite D in Dc. injection Dc as <-. congruence.
        -- intros (pre & b & post & E & Db & Hb & L). destruct post as [|c post] using rev_ind.
           ++ apply app_inj_tail in E. destruct E as (_ & <-). rewrite D in Db. injection Db as <-. congruence.
           ++ rewrite app_comm_cons, app_assoc in E. apply app_inj_tail in E. destruct E as (-> & <-).
              exists pre, b, post. split; [reflexivity|]. split; [exact Db|]. split; [exact Hb|]. intros d r Hd. apply L. apply in_or_app. left. exact Hd.
    + rewrite IH. split.
      * intros (pre & b & post & -> & Db & Hb & L). exists pre, b, (post ++ [a]). split; [rewrite <- app_assoc; reflexivity|].
        split; [exact Db|]. split; [exact Hb|]. intros c r Hc Dc. apply in_app_or in Hc. destruct Hc as [Hc|[<-|[]]]; [eapply L; eauto|]. congruence.
      * intros (pre & b & post & E & Db & Hb & L). destruct post as [|c post] using rev_ind.
        -- apply app_inj_tail in E. destruct E as (_ & <-). congruence.
        -- rewrite app_comm_cons, app_assoc in E. apply app_inj_tail in E. destruct E as (-> & <-).
           exists pre, b, post. split; [reflexivity|]. split; [exact Db|]. split; [exact Hb|]. intros d r Hd. apply L. apply in_or_app. left. exact Hd.
Qed.

Lemma stands_declares apis x p : stands_for apis x p -> exists lts, declares apis p lts.
Proof.
  intros (pre & a & post & -> & D & _ & _). assert (I : In a (pre ++ a :: post)) by (apply in_or_app; right; left; reflexivity).
  destruct a; cbn in D; try discriminate; injection D as <-; eexists; econstructor; exact I.
Qed.

Definition slink (e : entity) : option string := Some (link_name e).

Section Accepted.
  Variables (gen : generator) (ord : nat -> list string -> list string) (apis : list api) (T : types).
  Hypothesis Hacc : accepted_bridge gen ord apis T.
  Hypothesis Hwf : wf_bridge apis.

  Lemma resolve_stands x p : resolve_name T x = Some p <-> stands_for apis x p.
  Proof.
    unfold resolve_name, try_resolve. destruct (acc_facts _ _ _ _ Hacc) as (_ & _ & _ & _ & _ & _ & -> & _). apply res_last.
  Qed.

  Lemma item_user p : item_name apis p -> Forall user_ident (p_ns p) /\ user_ident (p_cxx p) /\ user_ident (p_rust p).
  Proof.
    intros H. destruct (Hwf p H) as (W1 & W2 & W3). destruct (C23_reserved_identifiers _ _ _ _ _ Hacc H) as (R1 & R2). split; [|split].
    - apply Forall_forall. intros s Hs. rewrite Forall_forall in W1. split; [apply W1, Hs|]. intros r ->. destruct (R1 _ (or_introl Hs)) as (N & _). apply N. exists r. reflexivity.
    - split; [exact W2|]. intros r E. destruct (R1 _ (or_intror eq_refl)) as (N & _). apply N. exists r. exact E.
    - split; [exact W3|]. intros r E. apply R2. exists r. exact E.
  Qed.
  Lemma stands_item x p : stands_for apis x p -> item_name apis p.
  Proof. intros H. destruct (stands_declares _ _ _ H) as (lts & D). eapply in_type; exact D. Qed.
  Lemma arg_user f x t : all_functions apis f -> In (x, t) (fn_args f) -> user_ident x.
  Proof. intros Hf Hx. apply (item_user (Pair [] x x)). eapply in_arg; eauto. Qed.

  Lemma fn_wf f e : all_functions apis f -> fn_entity apis f e -> wf_entity e.
  Proof.
    intros Hf H. destruct (item_user _ (in_fn _ _ Hf)) as (U1 & U2 & U3). destruct H as [E|r p E S]; cbn; [auto|].
    destruct (item_user _ (stands_item _ _ S)) as (_ & V & _). auto.
  Qed.
  Lemma tramp_wf f h e : all_functions apis f -> trampoline_entity apis f h e -> wf_entity e.
  Proof.
    intros Hf H. destruct (item_user _ (in_fn _ _ Hf)) as (U1 & U2 & U3).
    destruct H as [x un th args ret E I|r p x un th args ret E S I]; cbn; pose proof (arg_user _ _ _ Hf I); auto.
    destruct (item_user _ (stands_item _ _ S)) as (_ & V & _). auto.
  Qed.

  Lemma fn_link f e : all_functions apis f -> fn_entity apis f e -> mangle_extern_fn T f = slink e.
  Proof.
    intros Hf H. pose proof (fn_wf _ _ Hf H) as W. unfold mangle_extern_fn, slink. rewrite <- (sym_join_link e W).
    destruct H as [E|r p E S]; rewrite E; [reflexivity|]. apply resolve_stands in S. rewrite S. reflexivity.
  Qed.
  Lemma fn_has_entity f : all_functions apis f -> exists e, fn_entity apis f e.
  Proof.
    intros Hf. destruct (fn_receiver f) as [r|] eqn:E; [|eexists; apply fe_free; exact E].
    destruct (receiver_resolves _ _ _ _ Hacc f r Hf E) as (p & lts & R). eexists. eapply fe_method; [exact E|].
    apply resolve_stands. unfold resolve_name. rewrite R. reflexivity.
  Qed.

  Lemma tramp_join e x d : wf_entity e -> x <> "" -> sym_join [link_name e; x; d] = Some (join_with dollar (segments e ++ [x; d])).
  Proof.
    intros W Hx. pose proof (segments_ne e) as N. rewrite sym_join_ok.
    - rewrite join_app; [reflexivity|exact N|discriminate].
    - unfold link_name. pose proof (segments_nodollar e W) as F. destruct (segments e) as [|s l]; [congruence|]. inversion F; subst. apply join_with_ne. tauto.
  Qed.

  Lemma c_tramp_link f x un th args ret : all_functions apis f -> In (x, TFn un th args ret) (fn_args f) ->
    exists e, trampoline_entity apis f false e /\ mangle_c_trampoline T f x = slink e.
  Proof.
    intros Hf I. destruct (fn_has_entity f Hf) as (e & He). unfold mangle_c_trampoline. rewrite (fn_link _ _ Hf He). cbn [slink].
    pose proof (fn_wf _ _ Hf He) as W. rewrite tramp_join; [|exact W|apply identifier_ne, user_identifier; eapply arg_user; eauto].
    destruct He as [E|r p E S].
    - eexists. split; [eapply te_free; eauto|]. unfold slink, link_name. cbn [segments]. rewrite <- app_assoc. reflexivity.
    - eexists. split; [eapply te_method; eauto|]. unfold slink, link_name. cbn [segments]. rewrite <- app_assoc. reflexivity.
  Qed.
  Lemma r_tramp_link f x un th args ret : all_functions apis f -> In (x, TFn un th args ret) (fn_args f) ->
    exists e, trampoline_entity apis f true e /\ mangle_r_trampoline T f x = slink e.
  Proof.
    intros Hf I. destruct (fn_has_entity f Hf) as (e & He). unfold mangle_r_trampoline. rewrite (fn_link _ _ Hf He). cbn [slink].
    pose proof (fn_wf _ _ Hf He) as W. rewrite tramp_join; [|exact W|apply identifier_ne, user_identifier; eapply arg_user; eauto].
    destruct He as [E|r p E S].
    - eexists. split; [eapply te_free; eauto|]. unfold slink, link_name. cbn [segments]. rewrite <- app_assoc. reflexivity.
    - eexists. split; [eapply te_method; eauto|]. unfold slink, link_name. cbn [segments]. rewrite <- app_assoc. reflexivity.
  Qed.
  Lemma tramp_inv f h e : trampoline_entity apis f h e -> all_functions apis f -> exists x un th args ret, In (x, TFn un th args ret) (fn_args f) /\
    (if h then mangle_r_trampoline T f x else mangle_c_trampoline T f x) = slink e.
  Proof.
    intros H Hf. pose proof (tramp_wf _ _ _ Hf H) as W.
    destruct H as [x un th args ret E I|r p x un th args ret E S I]; exists x, un, th, args, ret; (split; [exact I|]).
    - destruct h; unfold mangle_r_trampoline, mangle_c_trampoline; rewrite (fn_link _ _ Hf (fe_free _ _ E)); cbn [slink];
        (rewrite tramp_join; [|eapply fn_wf; [exact Hf|apply fe_free, E]|apply identifier_ne, user_identifier; eapply arg_user; eauto]);
        unfold slink, link_name; cbn [segments]; rewrite <- app_assoc; reflexivity.
    - destruct h; unfold mangle_r_trampoline, mangle_c_trampoline; rewrite (fn_link _ _ Hf (fe_method _ _ _ _ E S)); cbn [slink];
        (rewrite tramp_join; [|eapply fn_wf; [exact Hf|eapply fe_method; eauto]|apply identifier_ne, user_identifier; eapply arg_user; eauto]);
        unfold slink, link_name; cbn [segments]; rewrite <- app_assoc; reflexivity.
  Qed.

  Lemma fn_ptr_args_In f x : In x (fn_ptr_args f) <-> exists un th args ret, In (x, TFn un th args ret) (fn_args f).
  Proof.
    unfold fn_ptr_args. rewrite in_flat_map. split.
    - intros ([y t] & I & H). destruct t; cbn in H; try contradiction. destruct H as [<-|[]]. eauto.
    - intros (un & th & args & ret & I). eexists. split; [exact I|]. left. reflexivity.
  Qed.

  Lemma operator_link p op : item_name apis p -> In op operator_names -> mangle_operator p op = slink (EOperator (p_ns p) (p_cxx p) op).
  Proof.
    intros H Ho. destruct (item_user _ H) as (U1 & U2 & _). unfold mangle_operator, slink.
    rewrite <- sym_join_link; [reflexivity|]. cbn. auto.
  Qed.

  (** ** Generic instantiations *)
  Lemma path_ne t : path t <> [].
  Proof. unfold path. destruct (fst t); discriminate. Qed.
  Lemma instance_link x p : stands_for apis x p -> instance_of T x = Some (join_with dollar (path (cxx_name p))).
  Proof.
    intros S. unfold instance_of. pose proof (proj2 (resolve_stands x p) S) as ->. unfold to_symbol.
    destruct (item_user _ (stands_item _ _ S)) as (U1 & U2 & _). apply sym_join_segs.
    - apply path_ne.
    - unfold path, cxx_name. cbn [fst snd]. apply Forall_app. split; [|constructor; [apply identifier_ne, user_identifier, U2|constructor]].
      eapply Forall_impl; [|exact U1]. intros a Ha. apply identifier_ne, user_identifier, Ha.
  Qed.

  Lemma generic_link kinds t op : kinds <> [] ->
    join_with dollar ("cxxbridge1" :: (kinds ++ path t) ++ [op]) =
    ("cxxbridge1$" ++ join_with dollar kinds ++ "$" ++ join_with dollar (path t) ++ "$" ++ op)%string.
  Proof.
    intros K. pose proof (path_ne t) as P.
    change ("cxxbridge1" :: (kinds ++ path t) ++ [op]) with (["cxxbridge1"] ++ ((kinds ++ path t) ++ [op])).
    assert (K2 : kinds ++ path t <> []) by (destruct kinds; [congruence|discriminate]).
    assert (K3 : (kinds ++ path t) ++ [op] <> []) by (intros E; apply app_eq_nil in E; tauto).
    rewrite (join_app dollar ["cxxbridge1"] ((kinds ++ path t) ++ [op])) by (discriminate || exact K3).
    rewrite (join_app dollar (kinds ++ path t) [op]) by (discriminate || exact K2).
    rewrite (join_app dollar kinds (path t)) by assumption. cbn [join_with]. rewrite !append_assoc. reflexivity.
  Qed.

  Lemma impl_resolves k x : In (k, x) (map fst (t_impls T)) -> exists p, stands_for apis x p.
  Proof.
    intros H. destruct Hacc as ((Ho & Hc) & Hch). destruct (C17_instantiations _ _ _ _ Ho Hc) as (_ & I & _). apply I in H.
    assert (G : forall u n, mentioned apis u -> (u = TBox (TIdent n) \/ u = TVec (TIdent n) \/ u = TUniquePtr (TIdent n) \/ u = TSharedPtr (TIdent n) \/ u = TWeakPtr (TIdent n) \/ u = TCxxVector (TIdent n)) ->
       ~ is_primitive (n_rust n) -> exists p, stands_for apis (n_rust n) p).
    { intros u n Hu Hn Np. assert (M : mentioned apis (TIdent n)).
      { eapply mentioned_occurs; [exact Hu|]. destruct Hn as [->|[->|[->|[->|[->| ->]]]]];
          [apply oc_box|apply oc_vec|apply oc_unique|apply oc_shared|apply oc_weak|apply oc_vector]; apply oc_here. }
      destruct (mentioned_resolves _ _ _ _ Hacc n M) as [P|(p & lts & P)]; [contradiction|]. exists p. apply resolve_stands. unfold resolve_name. rewrite P. reflexivity. }
    destruct H as [(i & Hi & Hg)|(Np & _ & u & Hu & Hg)].
    - assert (Hn : exists n, n_rust n = x /\ (im_ty i = TBox (TIdent n) \/ im_ty i = TVec (TIdent n) \/ im_ty i = TUniquePtr (TIdent n) \/ im_ty i = TSharedPtr (TIdent n) \/ im_ty i = TWeakPtr (TIdent n) \/ im_ty i = TCxxVector (TIdent n)))
        by (remember (kind_name k) as kn; destruct Hg as [n|n|n|n|n|n]; exists n; tauto).
      destruct Hn as (n & <- & Hn). apply (G (im_ty i)); [eapply me_impl; [exact Hi|apply oc_here]|exact Hn|].
      unfold typecheck in Hch. apply app_eq_nil in Hch. destruct Hch as (_ & Hch). apply app_eq_nil in Hch. destruct Hch as (_ & Hch).
      rewrite flat_map_nil in Hch. specialize (Hch _ Hi). cbn [check_api] in Hch. unfold check_api_impl in Hch. apply app_eq_nil in Hch. destruct Hch as (_ & Hch).
      destruct (im_negative i); [discriminate|]. intros (a & Ha).
      destruct Hn as [Hn|[Hn|[Hn|[Hn|[Hn|Hn]]]]]; rewrite Hn in Hch; unfold is_atom in Hch; rewrite Ha in Hch; discriminate.
    - assert (Hn : exists n, n_rust n = x /\ (u = TBox (TIdent n) \/ u = TVec (TIdent n) \/ u = TUniquePtr (TIdent n) \/ u = TSharedPtr (TIdent n) \/ u = TWeakPtr (TIdent n) \/ u = TCxxVector (TIdent n)))
        by (remember (kind_name k) as kn; destruct Hg as [n|n|n|n|n|n]; exists n; tauto).
      destruct Hn as (n & <- & Hn). eapply G; eauto.
  Qed.

  Lemma instantiates_key k x : instantiates apis (kind_name k) x <-> In (k, x) (map fst (t_impls T)).
  Proof.
    destruct Hacc as ((Ho & Hc) & _). destruct (C17_instantiations _ _ _ _ Ho Hc) as (_ & I & _). unfold instantiates. symmetry. apply I.
  Qed.
  Lemma trivial_ok x : is_maybe_trivial T x = true <-> maybe_trivial apis x.
  Proof.
    unfold is_maybe_trivial, maybe_trivial. rewrite !orb_true_iff.
    pose proof (structs_ok _ _ _ _ Hacc x) as S. pose proof (enums_ok _ _ _ _ Hacc x) as E. pose proof (aliases_ok _ _ _ _ Hacc x) as A.
    unfold in_structs in S. unfold in_enums in E. unfold in_aliases in A. rewrite S, E, A. tauto.
  Qed.
End Accepted.
