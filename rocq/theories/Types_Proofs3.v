From Verif Require Import Base Syntax_Model TypeEq_Model TypeEq_Spec TypeEq_Proofs Toposort_Model Toposort_Spec Types_Model Types_Spec Types_Proofs.

(** * Visited types = types occurring *)
Lemma subtypes_fn u th args ret :
  subtypes (TFn u th args ret) =
  TFn u th args ret :: (match ret with Some r => subtypes r | None => [] end) ++ flat_map (fun a => subtypes (snd a)) args.
Proof. reflexivity. Qed.

Lemma subtypes_occurs u t : In u (subtypes t) <-> occurs u t.
Proof.
  split.
  - induction t using ty_ind'; try rewrite subtypes_fn; cbn [subtypes In]; intros [<-|Hi]; try apply oc_here; try (destruct Hi; fail);
      try (constructor; auto; fail).
    apply in_app_or in Hi. destruct Hi as [Hi|Hi].
    + destruct ret as [r|]; [|destruct Hi]. apply oc_ret. eapply H0; eauto.
    + apply in_flat_map in Hi. destruct Hi as [[x t] [H1 H2]]. eapply oc_arg; [exact H1|].
      rewrite Forall_forall in H. apply (H _ H1). exact H2.
  - induction 1; try (cbn [subtypes In]; auto; fail).
    + destruct t; cbn; auto.
    + rewrite subtypes_fn. right. apply in_or_app. right. apply in_flat_map. exists (x, t). auto.
    + rewrite subtypes_fn. right. apply in_or_app. left. exact IHoccurs.
Qed.

(** * The set of all types *)
Definition visited_of (a : api) : list ty :=
  match a with
  | AStruct s => flat_map subtypes (map v_ty (st_fields s))
  | AEnum e => [TIdent (Named (atom_name (en_repr e)) [])]
  | ACxxFunction f | ARustFunction f => flat_map subtypes (map snd (fn_args f) ++ opt_list (fn_ret f))
  | AImpl i => subtypes (im_ty i)
  | _ => []
  end.

Lemma visit_types_flat ts : forall all, visit_types all ts = fold_left all_insert (flat_map subtypes ts) all.
Proof.
  induction ts as [|t ts IH]; intros all; [reflexivity|]. cbn [flat_map]. rewrite fold_left_app. cbn. apply IH.
Qed.

Lemma c_all_eq apis : c_all (collect_apis apis) = fold_left all_insert (flat_map visited_of apis) [].
Proof.
  induction apis as [|a apis IH] using rev_ind; [reflexivity|].
  rewrite collect_snoc, flat_map_app, fold_left_app, <- IH. cbn [flat_map]. rewrite app_nil_r.
  destruct a; cbn [collect_api c_all visited_of fold_left]; try reflexivity; apply visit_types_flat.
Qed.

Lemma insert_incl l : forall all u, In u (fold_left all_insert l all) -> In u all \/ In u l.
Proof.
  induction l as [|t l IH]; intros all u H; [auto|]. cbn in H. apply IH in H. destruct H as [H|H]; [|cbn; auto].
  unfold all_insert in H. destruct (existsb (ty_eqb t) all); [auto|]. apply in_app_or in H. destruct H as [H|[H|[]]]; cbn; auto.
Qed.
Lemma insert_keeps l : forall all u, In u all -> In u (fold_left all_insert l all).
Proof.
  induction l as [|t l IH]; intros all u H; [exact H|]. cbn. apply IH. unfold all_insert. destruct (existsb _ all); [exact H|].
  apply in_or_app. auto.
Qed.
Lemma insert_covers l : forall all u, In u l -> exists v, In v (fold_left all_insert l all) /\ (u = v \/ ty_eqb u v = true).
Proof.
  induction l as [|t l IH]; intros all u []; [|cbn; apply IH; assumption]. subst t. cbn. unfold all_insert at 2.
  destruct (existsb (ty_eqb u) all) eqn:E.
  - apply existsb_exists in E. destruct E as [v [E1 E2]]. exists v. split; [apply insert_keeps; exact E1|auto].
  - exists u. split; [|auto]. apply insert_keeps. apply in_or_app. right. left. reflexivity.
Qed.

Lemma visited_mentioned apis u : (exists a, In a apis /\ In u (visited_of a) /\ match a with AEnum _ => False | _ => True end) <-> mentioned apis u.
Proof.
  split.
  - intros [a [Ha [Hu Hn]]]. destruct a; cbn in Hu; try destruct Hu; try destruct Hn.
    + apply in_flat_map in Hu. destruct Hu as [t [H1 H2]]. apply in_map_iff in H1. destruct H1 as [f [<- Hf]].
      eapply me_field; eauto. apply subtypes_occurs. exact H2.
    + apply in_flat_map in Hu. destruct Hu as [t [H1 H2]]. apply subtypes_occurs in H2. apply in_app_or in H1. destruct H1 as [H1|H1].
      * apply in_map_iff in H1. destruct H1 as [[x t'] [<- H1]]. eapply me_arg; eauto.
      * destruct (fn_ret f) eqn:E; [|destruct H1]. destruct H1 as [<-|[]]. eapply me_ret; eauto.
    + apply in_flat_map in Hu. destruct Hu as [t [H1 H2]]. apply subtypes_occurs in H2. apply in_app_or in H1. destruct H1 as [H1|H1].
      * apply in_map_iff in H1. destruct H1 as [[x t'] [<- H1]]. eapply me_arg; eauto.
      * destruct (fn_ret f) eqn:E; [|destruct H1]. destruct H1 as [<-|[]]. eapply me_ret; eauto.
    + eapply me_impl; eauto. apply subtypes_occurs. exact Hu.
  - intros H. destruct H as [s f Hs Hf Ho|f x t Hf Ha Ho|f t Hf Hr Ho|i Hi Ho]; apply subtypes_occurs in Ho.
    + exists (AStruct s). split; [exact Hs|]. split; [|exact I]. cbn. apply in_flat_map. exists (v_ty f). split; [apply in_map; exact Hf|exact Ho].
    + assert (G : In u (flat_map subtypes (map snd (fn_args f) ++ opt_list (fn_ret f)))).
      { apply in_flat_map. exists t. split; [|exact Ho]. apply in_or_app. left. apply (in_map snd) in Ha. exact Ha. }
      destruct Hf as [Hf|Hf]; eexists; (split; [exact Hf|split; [exact G|exact I]]).
    + assert (G : In u (flat_map subtypes (map snd (fn_args f) ++ opt_list (fn_ret f)))).
      { apply in_flat_map. exists t. split; [|exact Ho]. apply in_or_app. right. rewrite Hr. left. reflexivity. }
      destruct Hf as [Hf|Hf]; eexists; (split; [exact Hf|split; [exact G|exact I]]).
    + exists (AImpl i). split; [exact Hi|]. split; [exact Ho|exact I].
Qed.

Lemma all_mentioned apis u : In u (c_all (collect_apis apis)) -> mentioned apis u \/ exists a, u = TIdent (Named (atom_name a) []).
Proof.
  rewrite c_all_eq. intros H. apply insert_incl in H. destruct H as [[]|H]. apply in_flat_map in H. destruct H as [a [H1 H2]].
  destruct a; try (left; apply visited_mentioned; eexists; split; [exact H1|split; [exact H2|exact I]]).
  right. cbn in H2. destruct H2 as [<-|[]]. eauto.
Qed.
Lemma mentioned_all apis u : mentioned apis u -> exists v, In v (c_all (collect_apis apis)) /\ (u = v \/ ty_eqb u v = true).
Proof.
  rewrite c_all_eq. intros H. apply visited_mentioned in H. destruct H as [a [H1 [H2 _]]]. apply insert_covers. apply in_flat_map. eauto.
Qed.

(** * Instantiations *)
Definition kind_name (k : impl_kind) : string :=
  match k with KBox => "Box" | KVec => "Vec" | KUnique => "UniquePtr" | KShared => "SharedPtr" | KWeak => "WeakPtr" | KVector => "CxxVector" end.

Lemma key_generic t k x : key_of t = Some (k, x) <-> generic_over (kind_name k) x t.
Proof.
  split.
  - destruct t as [| t | t | t | t | t | | | | t | | | | ]; cbn; try discriminate; destruct t; try discriminate; intros H; injection H as <- <-; cbn; constructor.
  - intros H. remember (kind_name k) as kn. destruct H, k; try discriminate; reflexivity.
Qed.

Lemma impl_key_eqb_eq a b : impl_key_eqb a b = true <-> a = b.
Proof.
  destruct a as [k x], b as [j y]. unfold impl_key_eqb. cbn. rewrite andb_true_iff, String.eqb_eq. split.
  - intros [H ->]. destruct k, j; try discriminate; reflexivity.
  - intros H. injection H as -> ->. split; [destruct j; reflexivity|reflexivity].
Qed.
Lemma impls_has_In k m : impls_has k m = true <-> In k (map fst m).
Proof.
  unfold impls_has. rewrite existsb_exists, in_map_iff. split.
  - intros [[x v] [H1 H2]]. apply impl_key_eqb_eq in H2. cbn in H2. subst. exists (x, v). auto.
  - intros [[x v] [H1 H2]]. cbn in H1. subst. exists (k, v). split; [auto|]. apply impl_key_eqb_eq. reflexivity.
Qed.
Lemma impls_replace_keys k v m : map fst (impls_replace k v m) = map fst m.
Proof. induction m as [|[x w] m IH]; cbn; [reflexivity|]. destruct (impl_key_eqb k x); cbn; congruence. Qed.
Lemma impls_insert_keys k v m x : In x (map fst (impls_insert k v m)) <-> In x (map fst m) \/ x = k.
Proof.
  unfold impls_insert. destruct (impls_has k m) eqn:E.
  - rewrite impls_replace_keys. apply impls_has_In in E. split; [auto|]. intros [H| ->]; auto.
  - rewrite map_app. cbn [map fst]. rewrite In_snoc. reflexivity.
Qed.
Lemma NoDup_snoc {A} (l : list A) x : NoDup l -> ~ In x l -> NoDup (l ++ [x]).
Proof.
  intros H. induction H as [|y l Hy Hl IH]; intros Hx; cbn; [constructor; [auto|constructor]|]. constructor.
  - rewrite In_snoc. intros [Hi| ->]; [auto|]. apply Hx. left; reflexivity.
  - apply IH. intros Hi. apply Hx. right; exact Hi.
Qed.
Lemma impls_insert_nodup k v m : NoDup (map fst m) -> NoDup (map fst (impls_insert k v m)).
Proof.
  unfold impls_insert. intros H. destruct (impls_has k m) eqn:E; [rewrite impls_replace_keys; exact H|].
  rewrite map_app. cbn [map fst]. apply NoDup_snoc; [exact H|]. rewrite <- impls_has_In, E. discriminate.
Qed.
Lemma impls_replace_In k v m j w : NoDup (map fst m) -> In (j, w) (impls_replace k v m) <-> (j = k /\ w = v /\ In k (map fst m)) \/ (j <> k /\ In (j, w) m).
Proof.
  induction m as [|[x u] m IH]; intros Hnd; cbn; [tauto|]. inversion Hnd as [|? ? Hx Hm]; subst.
  destruct (impl_key_eqb k x) eqn:E.
  - apply impl_key_eqb_eq in E. subst x. cbn. split.
    + intros [H|H]; [injection H as -> ->; left; auto|]. right. split; [|auto]. intros ->. apply Hx. apply (in_map fst) in H. exact H.
    + intros [[-> [-> _]]|[H [H1|H1]]]; [auto| |auto]. injection H1 as -> ->. congruence.
  - assert (Nk : x <> k). { intros ->. rewrite (proj2 (impl_key_eqb_eq k k) eq_refl) in E. discriminate. }
    cbn. rewrite IH by assumption. split.
    + intros [H|[[-> [-> H]]|[H1 H2]]]; [injection H as -> ->; right; auto|left; auto|right; auto].
    + intros [[-> [-> [H|H]]]|[H1 [H2|H2]]]; [contradiction|auto|auto|auto].
Qed.
Lemma impls_insert_In k v m j w : NoDup (map fst m) -> In (j, w) (impls_insert k v m) <-> (j = k /\ w = v) \/ (j <> k /\ In (j, w) m).
Proof.
  intros H. unfold impls_insert. destruct (impls_has k m) eqn:E.
  - rewrite impls_replace_In by exact H. apply impls_has_In in E. tauto.
  - rewrite In_snoc. assert (N : ~ In k (map fst m)) by (rewrite <- impls_has_In, E; discriminate). split.
    + intros [Hi|Hi]; [right; split; [|exact Hi]; intros ->; apply N; apply (in_map fst) in Hi; exact Hi|]. injection Hi as -> ->. auto.
    + intros [[-> ->]|[_ Hi]]; auto.
Qed.

(** Explicit impls: the last one for each key. *)
Lemma explicit_spec apis :
  NoDup (map fst (c_impls (collect_apis apis))) /\
  (forall k v, In (k, v) (c_impls (collect_apis apis)) -> exists i, v = Some i /\ In (AImpl i) apis /\ key_of (im_ty i) = Some k) /\
  (forall i k, In (AImpl i) apis -> key_of (im_ty i) = Some k -> In k (map fst (c_impls (collect_apis apis)))).
Proof.
  induction apis as [|a apis [IH1 [IH2 IH3]]] using rev_ind.
  - split; [constructor|]. split; [intros ? ? []|intros ? ? []].
  - rewrite collect_snoc. assert (Hc : (exists i k, a = AImpl i /\ key_of (im_ty i) = Some k) \/
      c_impls (collect_api (collect_apis apis) a) = c_impls (collect_apis apis) /\ forall i, a = AImpl i -> key_of (im_ty i) = None).
    { destruct a; try (right; split; [reflexivity|intros; discriminate]). cbn. destruct (key_of (im_ty i)) eqn:E; [left; eauto|].
      right. split; [reflexivity|]. intros j H; injection H as <-. exact E. }
    destruct Hc as [[i [k [-> Hk]]]|[-> Hn]].
    + cbn. rewrite Hk. split; [apply impls_insert_nodup; exact IH1|]. split.
      * intros j v Hj. apply impls_insert_In in Hj; [|exact IH1]. destruct Hj as [[-> ->]|[_ Hj]].
        -- exists i. split; [reflexivity|]. split; [apply In_snoc; auto|exact Hk].
        -- destruct (IH2 _ _ Hj) as [i' [H1 [H2 H3]]]. exists i'. split; [exact H1|]. split; [apply In_snoc; auto|exact H3].
      * intros i' j Hi Hj. apply impls_insert_keys. apply In_snoc in Hi. destruct Hi as [Hi|Hi]; [left; eauto|].
        injection Hi as ->. right. congruence.
    + split; [exact IH1|]. split.
      * intros k v Hk. destruct (IH2 _ _ Hk) as [i' [H1 [H2 H3]]]. exists i'. split; [exact H1|]. split; [apply In_snoc; auto|exact H3].
      * intros i k Hi Hk. apply In_snoc in Hi. destruct Hi as [Hi|Hi]; [eauto|]. rewrite (Hn i) in Hk by congruence. discriminate.
Qed.

(** Adding the implicit ones. *)
Lemma implicit_spec al l : forall m, NoDup (map fst m) ->
  let r := fold_left (add_implicit al) l m in
  NoDup (map fst r) /\
  (forall k v, In (k, v) m -> In (k, v) r) /\
  (forall k v, In (k, v) r -> In (k, v) m \/ v = None /\ ~ In k (map fst m) /\ implicit_impl al k = true /\ exists t, In t l /\ key_of t = Some k) /\
  (forall k t, In t l -> key_of t = Some k -> implicit_impl al k = true -> In k (map fst r)).
Proof.
  induction l as [|t l IH]; intros m Hm; cbn.
  - split; [exact Hm|]. split; [auto|]. split; [auto|intros ? ? []].
  - assert (Hc : (exists k, key_of t = Some k /\ implicit_impl al k = true /\ ~ In k (map fst m) /\ add_implicit al m t = m ++ [(k, None)]) \/
      add_implicit al m t = m /\ forall k, key_of t = Some k -> implicit_impl al k = true -> In k (map fst m)).
    { unfold add_implicit. destruct (key_of t) as [k|]; [|right; split; [reflexivity|discriminate]].
      destruct (implicit_impl al k) eqn:Ei; cbn [andb]; [|right; split; [reflexivity|intros k' H; injection H as <-; congruence]].
      destruct (impls_has k m) eqn:Eh; cbn [negb].
      - right. split; [reflexivity|]. intros k' H _; injection H as <-. apply impls_has_In. exact Eh.
      - left. exists k. split; [reflexivity|]. split; [exact Ei|]. split; [rewrite <- impls_has_In, Eh; discriminate|].
        unfold impls_insert. rewrite Eh. reflexivity. }
    destruct Hc as [[k [Hk [Hi [Hn ->]]]]|[-> Hc]].
    + assert (Hm' : NoDup (map fst (m ++ [(k, None)]))) by (rewrite map_app; apply NoDup_snoc; assumption).
      destruct (IH _ Hm') as [A1 [A2 [A3 A4]]]. split; [exact A1|]. split; [intros j v Hj; apply A2; apply In_snoc; auto|]. split.
      * intros j v Hj. destruct (A3 _ _ Hj) as [Hj'|[-> [B1 [B2 [u [B3 B4]]]]]].
        -- apply In_snoc in Hj'. destruct Hj' as [Hj'|Hj']; [auto|]. injection Hj' as -> ->. right. eauto 10.
        -- right. split; [reflexivity|]. split; [intros Hx; apply B1; rewrite map_app; apply in_or_app; auto|]. eauto 10.
      * intros j u [<-|Hu] Hj Hji; [|eauto]. assert (j = k) by congruence. subst j.
        apply (in_map fst _ (k, None)). apply A2. apply In_snoc. auto.
    + destruct (IH _ Hm) as [A1 [A2 [A3 A4]]]. split; [exact A1|]. split; [exact A2|]. split.
      * intros j v Hj. destruct (A3 _ _ Hj) as [Hj'|[-> [B1 [B2 [u [B3 B4]]]]]]; [auto|]. right. eauto 10.
      * intros j u [<-|Hu] Hj Hji; [|eauto]. specialize (Hc _ Hj Hji). apply in_map_iff in Hc. destruct Hc as [[j' v] [<- Hc]].
        apply (in_map fst). apply A2. exact Hc.
Qed.

Lemma eqb_key u v k : ty_eqb u v = true -> key_of u = Some k -> key_of v = Some k.
Proof.
  destruct u as [| u | u | u | u | u | | | | u | | | | ]; cbn; try discriminate; destruct u; try discriminate;
    destruct v as [| v | v | v | v | v | | | | v | | | | ]; try discriminate; cbn; destruct v; try discriminate;
    unfold named_eqb; rewrite andb_true_iff; intros [E _] H; injection H as <-; apply String.eqb_eq in E; rewrite E; reflexivity.
Qed.

Lemma implicit_iff apis k : implicit_impl (c_aliases (collect_apis apis)) k = true <-> ~ is_primitive (snd k) /\ ~ is_alias apis (snd k).
Proof.
  unfold implicit_impl. rewrite andb_true_iff, !negb_true_iff, <- (not_true_iff_false (has _ _)), aliases_has, not_primitive.
  destruct (atom_from_str (snd k)); cbn; intuition (discriminate || auto).
Qed.

Lemma impls_spec apis : let m := fold_left (add_implicit (c_aliases (collect_apis apis))) (c_all (collect_apis apis)) (c_impls (collect_apis apis)) in
  NoDup (map fst m) /\
  (forall k x, In (k, x) (map fst m) <->
     (exists i, In (AImpl i) apis /\ generic_over (kind_name k) x (im_ty i)) \/
     (~ is_primitive x /\ ~ is_alias apis x /\ exists u, mentioned apis u /\ generic_over (kind_name k) x u)) /\
  (forall k x v, In ((k, x), v) m -> match v with
     | Some i => In (AImpl i) apis /\ generic_over (kind_name k) x (im_ty i)
     | None => ~ exists i, In (AImpl i) apis /\ generic_over (kind_name k) x (im_ty i)
     end).
Proof.
  destruct (explicit_spec apis) as [E1 [E2 E3]].
  destruct (implicit_spec (c_aliases (collect_apis apis)) (c_all (collect_apis apis)) _ E1) as [A1 [A2 [A3 A4]]].
  split; [exact A1|]. split.
  - intros k x. split.
    + intros H. apply in_map_iff in H. destruct H as [[kx v] [Hk H]]. cbn in Hk. subst kx.
      destruct (A3 _ _ H) as [H1|[-> [_ [H2 [t [H3 H4]]]]]].
      * destruct (E2 _ _ H1) as [i [_ [H2 H3]]]. left. exists i. split; [exact H2|]. apply key_generic. exact H3.
      * right. apply implicit_iff in H2. cbn in H2. destruct H2 as [H2 H5]. split; [exact H2|]. split; [exact H5|].
        exists t. split; [|apply key_generic; exact H4]. destruct (all_mentioned _ _ H3) as [?|[a ->]]; [assumption|discriminate].
    + intros [[i [H1 H2]]|[H1 [H2 [u [H3 H4]]]]].
      * apply key_generic in H2. specialize (E3 _ _ H1 H2). apply in_map_iff in E3. destruct E3 as [[kx v] [Hk H]]. cbn in Hk. subst.
        apply (in_map fst _ (_, v)). apply A2. exact H.
      * apply key_generic in H4. destruct (mentioned_all _ _ H3) as [v [H5 H6]].
        apply (A4 (k, x) v); [exact H5| |apply implicit_iff; auto]. destruct H6 as [<-|H6]; [exact H4|]. eapply eqb_key; eauto.
  - intros k x v H. destruct (A3 _ _ H) as [H1|[-> [H2 _]]].
    + destruct (E2 _ _ H1) as [i [-> [H2 H3]]]. split; [exact H2|]. apply key_generic. exact H3.
    + intros [i [H3 H4]]. apply H2. apply (E3 i); [exact H3|]. apply key_generic. exact H4.
Qed.

(** * Reasons *)
Definition pos_of (r : reason) : position :=
  match r with
  | RField s => PosField s | RArg f => PosArg f | RRet f => PosRet f | RBoxTarget => PosBox | RVecElement => PosVec
  | RSlice m => PosSlice m | RUnpinnedMut f => PosUnpinnedMut f
  end.

Lemma push_reason_In k r m x q : (exists l, In (x, l) (push_reason k r m) /\ In q l) <-> (x = k /\ q = r) \/ exists l, In (x, l) m /\ In q l.
Proof.
  induction m as [|[y l] m IH]; cbn.
  - split.
    + intros [l [[H|[]] Hq]]. injection H as <- <-. destruct Hq as [<-|[]]. auto.
    + intros [[-> ->]|[l [[] _]]]. exists [r]. split; [auto|left; reflexivity].
  - destruct (String.eqb_spec k y) as [<-|N].
    + split.
      * intros [l' [[H|H] Hq]]; [|right; eauto]. injection H as <- <-. apply in_app_or in Hq. destruct Hq as [Hq|[<-|[]]]; [right; eauto|auto].
      * intros [[-> ->]|[l' [[H|H] Hq]]].
        -- exists (l ++ [r]). split; [left; reflexivity|]. apply in_or_app. right. left. reflexivity.
        -- injection H as <- <-. exists (l ++ [r]). split; [left; reflexivity|]. apply in_or_app. left. exact Hq.
        -- exists l'. split; [right; exact H|exact Hq].
    + split.
      * intros [l' [[H|H] Hq]]; [right; exists l'; split; [left; exact H|exact Hq]|].
        destruct (proj1 IH (ex_intro _ l' (conj H Hq))) as [H1|[l0 [H1 H2]]]; [left; exact H1|].
        right. exists l0. split; [right; exact H1|exact H2].
      * intros [H|[l' [[H|H] Hq]]].
        -- destruct (proj2 IH (or_introl H)) as [l0 [H1 H2]]. exists l0. split; [right; exact H1|exact H2].
        -- exists l'. split; [left; exact H|exact Hq].
        -- destruct (proj2 IH (or_intror (ex_intro _ l' (conj H Hq)))) as [l0 [H1 H2]]. exists l0. split; [right; exact H1|exact H2].
Qed.

Lemma reasons_fold (c : string -> bool) l : forall m x q,
  (exists rs, In (x, rs) (fold_left (fun m '(k, r) => if c k then push_reason k r m else m) l m) /\ In q rs) <->
  (c x = true /\ In (x, q) l) \/ exists rs, In (x, rs) m /\ In q rs.
Proof.
  induction l as [|[k r] l IH]; intros m x q; cbn; [tauto|]. rewrite IH. destruct (c k) eqn:E.
  - rewrite push_reason_In. split.
    + intros [[H1 H2]|[[-> ->]|H]]; auto.
    + intros [[H1 [H2|H2]]|H]; auto. injection H2 as -> ->. auto.
  - split.
    + intros [[H1 H2]|H]; auto.
    + intros [[H1 [H2|H2]]|H]; auto. injection H2 as -> ->. congruence.
Qed.

Lemma sig_ty_spec by_ f t x r : In (x, r) (reasons_of_sig_ty by_ f t) <->
  (exists n, t = TIdent n /\ x = n_rust n /\ r = by_ f) \/ (exists l n, t = TRef false true l (TIdent n) /\ x = n_rust n /\ r = RUnpinnedMut f).
Proof.
  split.
  - destruct t as [| | | | | |p m l t| | | | | | | ]; cbn; try (intros []; fail).
    + intros [H|[]]. injection H as <- <-. left. eauto.
    + destruct t; try (intros []; fail). destruct m, p; cbn; try (intros []; fail). intros [H|[]]. injection H as <- <-. right. eauto.
  - intros [[m [-> [-> ->]]]|[l [m [-> [-> ->]]]]]; cbn; auto.
Qed.

Definition fn_reasons (f : extern_fn) : list (string * reason) := reasons_of_api (ACxxFunction f).
Lemma fn_reasons_spec apis f x r : function_of apis f -> In (x, r) (fn_reasons f) -> used_at apis x (pos_of r).
Proof.
  intros Hf H. unfold fn_reasons in H. cbn in H. apply in_app_or in H. destruct H as [H|H]; [|apply in_app_or in H; destruct H as [H|H]].
  - destruct (fn_receiver f) as [r0|] eqn:E; [|destruct H]. destruct (rc_mutable r0) eqn:E1, (rc_pinned r0) eqn:E2; try (destruct H; fail).
    destruct H as [H|[]]. injection H as <- <-. cbn. eapply ua_receiver; eauto.
  - apply in_flat_map in H. destruct H as [[y t] [H1 H2]]. apply sig_ty_spec in H2. cbn in H2. destruct H2 as [[n [-> [-> ->]]]|[l [n [-> [-> ->]]]]]; cbn.
    + eapply ua_arg; eauto.
    + eapply ua_mut_arg; eauto.
  - destruct (fn_ret f) as [t|] eqn:E; [|destruct H]. apply sig_ty_spec in H. destruct H as [[n [-> [-> ->]]]|[l [n [-> [-> ->]]]]]; cbn.
    + eapply ua_ret; eauto.
    + eapply ua_mut_ret; eauto.
Qed.

Lemma reasons_used apis x r :
  In (x, r) (flat_map reasons_of_api apis ++ flat_map reasons_of_ty (c_all (collect_apis apis))) <-> used_at apis x (pos_of r).
Proof.
  split.
  - intros H. apply in_app_or in H. destruct H as [H|H]; apply in_flat_map in H.
    + destruct H as [a [Ha H]]. destruct a; try (destruct H; fail).
      * cbn in H. apply in_flat_map in H. destruct H as [f [Hf H]]. destruct (v_ty f) eqn:E; try (destruct H; fail).
        destruct H as [H|[]]. injection H as <- <-. cbn. eapply ua_field; eauto.
      * eapply fn_reasons_spec; [left; exact Ha|exact H].
      * eapply fn_reasons_spec; [right; exact Ha|exact H].
    + destruct H as [t [Ht H]]. assert (Hm : mentioned apis t).
      { destruct (all_mentioned _ _ Ht) as [?|[a ->]]; [assumption|destruct H]. }
      destruct t as [|t|t| | | | | | | | | |m l t| ]; cbn in H; try (destruct H; fail); destruct t; try (destruct H; fail);
        destruct H as [H|[]]; injection H as <- <-; cbn; econstructor; eauto.
  - intros H. apply in_or_app. remember (pos_of r) as p eqn:Ep.
    assert (Hfn : forall f, function_of apis f -> In (x, r) (fn_reasons f) -> In (x, r) (flat_map reasons_of_api apis)).
    { intros f [Hf|Hf] Hr; apply in_flat_map; eexists; split; eauto. }
    assert (Hall : forall t, mentioned apis t -> (forall v, t = v \/ ty_eqb t v = true -> In (x, r) (reasons_of_ty v)) ->
      In (x, r) (flat_map reasons_of_ty (c_all (collect_apis apis)))).
    { intros t Ht Hv. destruct (mentioned_all _ _ Ht) as [v [H1 H2]]. apply in_flat_map. exists v. auto. }
    destruct H as [s f n Hs Hf Ht|f y n Hf Ha|f n Hf Hr|n Hm|n Hm|m l n Hm|f r0 Hf Hr Hmu Hp|f y l n Hf Ha|f l n Hf Hr];
      destruct r; cbn in Ep; try discriminate.
    + injection Ep as <-. left. apply in_flat_map. exists (AStruct s). split; [exact Hs|]. cbn. apply in_flat_map. exists f. split; [exact Hf|]. rewrite Ht. left. reflexivity.
    + injection Ep as <-. left. apply (Hfn f Hf). unfold fn_reasons. cbn. apply in_or_app. right. apply in_or_app. left.
      apply in_flat_map. exists (y, TIdent n). split; [exact Ha|]. apply sig_ty_spec. left. exists n. split; [reflexivity|split; reflexivity].
    + injection Ep as <-. left. apply (Hfn f Hf). unfold fn_reasons. cbn. apply in_or_app. right. apply in_or_app. right.
      rewrite Hr. apply sig_ty_spec. left. exists n. split; [reflexivity|split; reflexivity].
    + right. apply (Hall _ Hm). intros v [<-|Hv]; [left; reflexivity|]. destruct v; try discriminate. destruct v; try discriminate. cbn in Hv.
      unfold named_eqb in Hv. apply andb_true_iff in Hv. destruct Hv as [Hv _]. apply String.eqb_eq in Hv. rewrite Hv. left; reflexivity.
    + right. apply (Hall _ Hm). intros v [<-|Hv]; [left; reflexivity|]. destruct v; try discriminate. destruct v; try discriminate. cbn in Hv.
      unfold named_eqb in Hv. apply andb_true_iff in Hv. destruct Hv as [Hv _]. apply String.eqb_eq in Hv. rewrite Hv. left; reflexivity.
    + injection Ep as <-. right. apply (Hall _ Hm). intros v [<-|Hv]; [left; reflexivity|]. destruct v; try discriminate. cbn in Hv.
      apply andb_true_iff in Hv. destruct Hv as [Hv1 Hv]. apply andb_true_iff in Hv1. destruct Hv1 as [_ Hv1]. apply Bool.eqb_prop in Hv1. subst.
      destruct v; try discriminate. unfold named_eqb in Hv. apply andb_true_iff in Hv. destruct Hv as [Hv _]. apply String.eqb_eq in Hv. rewrite Hv. left; reflexivity.
    + injection Ep as <-. left. apply (Hfn f Hf). unfold fn_reasons. cbn. apply in_or_app. left. rewrite Hr, Hmu, Hp. left; reflexivity.
    + injection Ep as <-. left. apply (Hfn f Hf). unfold fn_reasons. cbn. apply in_or_app. right. apply in_or_app. left.
      apply in_flat_map. exists (y, TRef false true l (TIdent n)). split; [exact Ha|]. apply sig_ty_spec. right. exists l, n. split; [reflexivity|split; reflexivity].
    + injection Ep as <-. left. apply (Hfn f Hf). unfold fn_reasons. cbn. apply in_or_app. right. apply in_or_app. right.
      rewrite Hr. apply sig_ty_spec. right. exists l, n. split; [reflexivity|split; reflexivity].
Qed.

Lemma required_spec apis x r : let s := collect_apis apis in
  (exists rs, In (x, rs) (required_trivial_reasons apis (c_all s) (c_structs s) (c_enums s) (c_cxx s)) /\ In r rs) <->
  is_cxx_type apis x /\ ~ is_struct apis x /\ ~ is_enum apis x /\ used_at apis x (pos_of r).
Proof.
  cbv zeta. unfold required_trivial_reasons. set (s := collect_apis apis).
  rewrite (reasons_fold (fun k => smem k (c_cxx s) && negb (has k (c_structs s)) && negb (has k (c_enums s)))).
  unfold s. rewrite reasons_used, !andb_true_iff, !negb_true_iff, cxx_mem.
  rewrite <- (not_true_iff_false (has x (c_enums _))), enums_has.
  assert (E : has x (c_structs (collect_apis apis)) = false <-> ~ is_struct apis x).
  { unfold has. rewrite <- structs_none. destruct (assoc _ _); cbn; split; congruence. }
  rewrite E. split; [intros [H|[rs [[] _]]]; tauto|]. intros H. left. tauto.
Qed.
