From Verif Require Import Base Syntax_Model TypeEq_Model Types_Model Types_Spec Types_Proofs Types_Proofs3 Types_Props
  Check_Model Check_Spec Check_Proofs Check_Proofs2 Check_Props Mangle_Model Mangle_Spec Mangle_Proofs Mangle_Proofs2 StrLib.

(** The list [L] names exactly the entities in [P] (in particular it has no [None]). *)
Definition realizes (L : list (option string)) (P : entity -> Prop) : Prop :=
  forall o, In o L <-> exists e, P e /\ o = slink e.

Lemma realizes_ext L P Q : (forall e, P e <-> Q e) -> realizes L P -> realizes L Q.
Proof. intros H R o. rewrite (R o). split; intros (e & He & ->); exists e; (split; [apply H, He|reflexivity]). Qed.
Lemma realizes_nil : realizes [] (fun _ => False).
Proof. intros o. split; [intros []|intros (e & [] & _)]. Qed.
Lemma realizes_one e : realizes [slink e] (fun e' => e' = e).
Proof. intros o. split; [intros [<-|[]]; eauto|intros (e' & -> & ->); left; reflexivity]. Qed.
Lemma realizes_app L L' P Q : realizes L P -> realizes L' Q -> realizes (L ++ L') (fun e => P e \/ Q e).
Proof.
  intros R R' o. rewrite in_app_iff, (R o), (R' o). split.
  - intros [(e & He & ->)|(e & He & ->)]; eauto.
  - intros (e & [He|He] & ->); eauto.
Qed.
Lemma realizes_flat_map {A} (f : A -> list (option string)) (P : A -> entity -> Prop) l :
  (forall a, In a l -> realizes (f a) (P a)) -> realizes (flat_map f l) (fun e => exists a, In a l /\ P a e).
Proof.
  intros H o. rewrite in_flat_map. split.
  - intros (a & Ha & Ho). apply (H a Ha) in Ho. destruct Ho as (e & He & ->). eauto.
  - intros (e & (a & Ha & He) & ->). exists a. split; [exact Ha|]. apply (H a Ha). eauto.
Qed.
Lemma realizes_map (g : string -> option string) (E : string -> entity) ops :
  (forall op, In op ops -> g op = slink (E op)) -> realizes (map g ops) (fun e => exists op, In op ops /\ e = E op).
Proof.
  intros H o. rewrite in_map_iff. split.
  - intros (op & <- & Ho). exists (E op). rewrite (H op Ho). eauto.
  - intros (e & (op & Ho & ->) & ->). exists op. split; [apply H, Ho|exact Ho].
Qed.
Lemma realizes_when b L P : realizes L P -> realizes (when b L) (fun e => b = true /\ P e).
Proof.
  intros R. destruct b; cbn.
  - eapply realizes_ext; [|exact R]. tauto.
  - eapply realizes_ext; [|apply realizes_nil]. intros e. split; [tauto|intros (H & _); discriminate].
Qed.

Lemma derives_In d l : derives d l = true <-> In d l.
Proof.
  unfold derives. rewrite existsb_exists. split.
  - intros (x & Hx & E). apply internal_trait_dec_bl in E. subst. exact Hx.
  - intros H. exists d. split; [exact H|]. apply internal_trait_dec_lb. reflexivity.
Qed.
Lemma derives_false d l : negb (derives d l) = true <-> ~ In d l.
Proof. rewrite negb_true_iff, <- not_true_iff_false, derives_In. tauto. Qed.

Section Accepted.
  Variables (gen : generator) (ord : nat -> list string -> list string) (apis : list api) (T : types).
  Hypothesis Hacc : accepted_bridge gen ord apis T.
  Hypothesis Hwf : wf_bridge apis.

  Notation opl := (operator_link gen ord apis T Hacc Hwf).

  (** ** Struct operators *)
  Definition struct_ops (s : struct_) (e : entity) : Prop :=
    exists op, e = EOperator (p_ns (st_name s)) (p_cxx (st_name s)) op /\
      ((op = "eq" /\ In DPartialEq (st_derives s)) \/
       (op = "ne" /\ In DPartialEq (st_derives s) /\ ~ In DEq (st_derives s)) \/
       (In op ["lt"; "le"] /\ In DPartialOrd (st_derives s)) \/
       (In op ["gt"; "ge"] /\ In DPartialOrd (st_derives s) /\ ~ In DOrd (st_derives s)) \/
       (op = "hash" /\ In DHash (st_derives s))).

  Lemma struct_item s : In (AStruct s) apis -> item_name apis (st_name s).
  Proof. intros H. eapply in_type, de_struct, H. Qed.

  Ltac opn := cbn; tauto.

  Lemma cxx_operator_decls_ok s : In (AStruct s) apis -> realizes (cxx_operator_decls s) (struct_ops s).
  Proof.
    intros Hs. pose proof (fun op => opl _ op (struct_item s Hs)) as L.
    unfold cxx_operator_decls. rewrite !L by opn.
    eapply realizes_ext; [|apply realizes_app; [apply realizes_when|apply realizes_app; [apply realizes_when|apply realizes_when, realizes_one]]].
    2: { change (?a :: when ?b ?l) with ([a] ++ when b l). apply realizes_app; [apply realizes_one|apply realizes_when, realizes_one]. }
    2: { change (?a :: ?a' :: when ?b ?l) with ([a] ++ [a'] ++ when b l).
         apply realizes_app; [apply realizes_one|]. apply realizes_app; [apply realizes_one|]. apply realizes_when.
         change [?a; ?b] with ([a] ++ [b]). apply realizes_app; apply realizes_one. }
    intros e. cbn beta. rewrite !derives_In, !derives_false. unfold struct_ops. cbn [In]. split.
    - intros [(H & [->|(H' & ->)])|[(H & [->|[->|(H' & [->| ->])]])|(H & ->)]]; eexists; (split; [reflexivity|]); tauto.
    - intros (op & -> & H). destruct H as [(-> & H)|[(-> & H & H')|[([<-|[<-|[]]] & H)|[([<-|[<-|[]]] & H & H')|(-> & H)]]]]; tauto.
  Qed.

  Lemma cxx_operator_calls_ok s : In (AStruct s) apis -> realizes (cxx_operator_calls s) (struct_ops s).
  Proof.
    intros Hs. assert (E : forall o, In o (cxx_operator_calls s) <-> In o (cxx_operator_decls s)).
    { intros o. unfold cxx_operator_calls, cxx_operator_decls.
      destruct (derives DPartialEq (st_derives s)), (derives DEq (st_derives s)), (derives DPartialOrd (st_derives s)), (derives DOrd (st_derives s)),
        (derives DHash (st_derives s)); cbn; tauto. }
    intros o. rewrite (E o). apply cxx_operator_decls_ok, Hs.
  Qed.

  Lemma rust_operator_exports_ok s : In (AStruct s) apis -> realizes (rust_operator_exports s) (struct_ops s).
  Proof.
    intros Hs. assert (E : forall o, In o (rust_operator_exports s) <-> In o (cxx_operator_decls s)).
    { intros o. unfold rust_operator_exports, cxx_operator_decls. rewrite in_flat_map, !in_app_iff. split.
      - intros (d & Hd & H). apply derives_In in Hd. destruct d; cbn beta iota in H; try contradiction; rewrite Hd; [right; right|left|right; left]; exact H.
      - intros H. destruct H as [H|[H|H]].
        + destruct (derives DPartialEq (st_derives s)) eqn:D; [|contradiction]. exists DPartialEq. split; [apply derives_In, D|exact H].
        + destruct (derives DPartialOrd (st_derives s)) eqn:D; [|contradiction]. exists DPartialOrd. split; [apply derives_In, D|exact H].
        + destruct (derives DHash (st_derives s)) eqn:D; [|contradiction]. exists DHash. split; [apply derives_In, D|exact H]. }
    intros o. rewrite (E o). apply cxx_operator_decls_ok, Hs.
  Qed.

  Lemma layout_ok t : In (ARustType t) apis ->
    realizes (cxx_layout_decls t) (fun e => exists op, In op ["sizeof"; "alignof"] /\ e = EOperator (p_ns (et_name t)) (p_cxx (et_name t)) op).
  Proof.
    intros H. apply (realizes_map (mangle_operator (et_name t)) _ ["sizeof"; "alignof"]). intros op Ho. apply opl; [eapply in_type, de_rust, H|].
    cbn in *. tauto.
  Qed.

  (** ** Functions *)
  Lemma fn_ok f : all_functions apis f -> realizes [mangle_extern_fn T f] (fn_entity apis f).
  Proof.
    intros Hf o. split.
    - intros [<-|[]]. destruct (fn_has_entity _ _ _ _ Hacc f Hf) as (e & He). exists e. split; [exact He|]. eapply fn_link; eauto.
    - intros (e & He & ->). left. eapply fn_link; eauto.
  Qed.
  Lemma c_tramp_ok f : all_functions apis f -> realizes (map (mangle_c_trampoline T f) (fn_ptr_args f)) (trampoline_entity apis f false).
  Proof.
    intros Hf o. rewrite in_map_iff. split.
    - intros (x & <- & H). apply fn_ptr_args_In in H. destruct H as (un & th & args & ret & H).
      destruct (c_tramp_link _ _ _ _ Hacc Hwf f x un th args ret Hf H) as (e & He & ->). eauto.
    - intros (e & He & ->). destruct (tramp_inv _ _ _ _ Hacc Hwf f false e He Hf) as (x & un & th & args & ret & H & E). exists x. split; [exact E|].
      apply fn_ptr_args_In. eauto.
  Qed.
  Lemma r_tramp_ok f : all_functions apis f -> realizes (map (mangle_r_trampoline T f) (fn_ptr_args f)) (trampoline_entity apis f true).
  Proof.
    intros Hf o. rewrite in_map_iff. split.
    - intros (x & <- & H). apply fn_ptr_args_In in H. destruct H as (un & th & args & ret & H).
      destruct (r_tramp_link _ _ _ _ Hacc Hwf f x un th args ret Hf H) as (e & He & ->). eauto.
    - intros (e & He & ->). destruct (tramp_inv _ _ _ _ Hacc Hwf f true e He Hf) as (x & un & th & args & ret & H & E). exists x. split; [exact E|].
      apply fn_ptr_args_In. eauto.
  Qed.

  (** ** Instantiations *)
  Lemma generic_ok kind kinds x p op : kind = join_with dollar kinds -> kinds <> [] -> stands_for apis x p ->
    generic_symbol kind (instance_of T x) op = Some (join_with dollar ("cxxbridge1" :: (kinds ++ path (cxx_name p)) ++ [op])).
  Proof.
    intros -> K S. unfold generic_symbol. rewrite (instance_link _ _ _ _ Hacc Hwf x p S). cbn [option_map]. rewrite generic_link by exact K. reflexivity.
  Qed.
  Lemma generic_vector_ok x p op : stands_for apis x p ->
    generic_symbol "unique_ptr" (vector_instance (instance_of T x)) op = slink (EGeneric (IUniqueVector (cxx_name p)) op).
  Proof.
    intros S. unfold generic_symbol. rewrite (instance_link _ _ _ _ Hacc Hwf x p S). unfold vector_instance.
    rewrite sym_join_ok by discriminate. unfold slink, link_name. cbn [segments instance_path option_map].
    change ("cxxbridge1" :: ("unique_ptr" :: "std" :: "vector" :: path (cxx_name p)) ++ [op])
      with ("cxxbridge1" :: (["unique_ptr"; "std"; "vector"] ++ path (cxx_name p)) ++ [op]).
    rewrite generic_link by discriminate. cbn [join_with append dollar]. reflexivity.
  Qed.
  Lemma rust_link_ok prefix kinds x p op : prefix = ("cxxbridge1$" ++ join_with dollar kinds ++ "$")%string -> kinds <> [] -> stands_for apis x p ->
    rust_link prefix (instance_of T x) op = Some (join_with dollar ("cxxbridge1" :: (kinds ++ path (cxx_name p)) ++ [op])).
  Proof.
    intros -> K S. unfold rust_link. rewrite (instance_link _ _ _ _ Hacc Hwf x p S). cbn [option_map]. rewrite generic_link by exact K.
    f_equal. rewrite !append_assoc. reflexivity.
  Qed.

  Definition impl_cxx (k : impl_key) (e : entity) : Prop := exists p, stands_for apis (snd k) p /\
    match fst k with
    | KUnique => exists op, (In op ["null"; "raw"; "get"; "release"; "drop"] \/ op = "uninit" /\ maybe_trivial apis (snd k)) /\ e = EGeneric (IUnique (cxx_name p)) op
    | KShared => exists op, (In op ["null"; "clone"; "get"; "drop"] \/ op = "uninit" /\ maybe_trivial apis (snd k)) /\ e = EGeneric (IShared (cxx_name p)) op
    | KWeak => exists op, In op ["null"; "clone"; "downgrade"; "upgrade"; "drop"] /\ e = EGeneric (IWeak (cxx_name p)) op
    | KVector => (exists op, (In op ["new"; "size"; "get_unchecked"] \/ In op ["push_back"; "pop_back"] /\ maybe_trivial apis (snd k)) /\ e = EGeneric (IVector (cxx_name p)) op) \/
                 (exists op, In op ["null"; "raw"; "get"; "release"; "drop"] /\ e = EGeneric (IUniqueVector (cxx_name p)) op)
    | _ => False
    end.
  Definition impl_rust (k : impl_key) (e : entity) : Prop := exists p, stands_for apis (snd k) p /\
    match fst k with
    | KBox => exists op, In op ["alloc"; "dealloc"; "drop"] /\ e = EGeneric (IBox (cxx_name p)) op
    | KVec => exists op, In op ["new"; "drop"; "len"; "capacity"; "data"; "reserve_total"; "set_len"; "truncate"] /\ e = EGeneric (IVec (cxx_name p)) op
    | _ => False
    end.

  Lemma stands_unique x p q : stands_for apis x p -> stands_for apis x q -> p = q.
  Proof.
    intros H H'. apply (proj2 (resolve_stands _ _ _ _ Hacc x p)) in H. apply (proj2 (resolve_stands _ _ _ _ Hacc x q)) in H'. congruence.
  Qed.

  Lemma realizes_impl L x p (Q : pair_name -> entity -> Prop) : stands_for apis x p -> realizes L (Q p) ->
    realizes L (fun e => exists q, stands_for apis x q /\ Q q e).
  Proof.
    intros S R. eapply realizes_ext; [|exact R]. intros e. split; [eauto|]. intros (q & S' & H). rewrite (stands_unique _ _ _ S S'). exact H.
  Qed.

  Ltac triv Tr x :=
    destruct (is_maybe_trivial T x);
    [assert (M : maybe_trivial apis x) by (apply Tr; reflexivity)
    |assert (M : ~ maybe_trivial apis x) by (intros M; apply Tr in M; discriminate)];
    clear Tr; cbn [when app In]; split; intros (op & H & ->); exists op; (split; [|reflexivity]); intuition (subst; auto).

  Lemma cxx_impl_defs_ok k : In k (map fst (t_impls T)) -> realizes (cxx_impl_defs T k) (impl_cxx k).
  Proof.
    intros Hk. destruct k as (k, x). destruct (impl_resolves _ _ _ _ Hacc k x Hk) as (p & S). unfold impl_cxx. cbn [fst snd].
    assert (Tr := trivial_ok _ _ _ _ Hacc x).
    unfold cxx_impl_defs. cbn [fst snd]. destruct k.
    1,2: apply (realizes_impl _ x p (fun _ _ => False) S), realizes_nil.
    - apply (realizes_impl _ x p (fun p e => exists op, (In op ["null"; "raw"; "get"; "release"; "drop"] \/ op = "uninit" /\ maybe_trivial apis x) /\ e = EGeneric (IUnique (cxx_name p)) op) S).
      unfold cxx_unique_ptr. eapply realizes_ext; [|apply realizes_map; intros op _; exact (generic_ok "unique_ptr" ["unique_ptr"] x p op eq_refl ltac:(discriminate) S : _ = slink (EGeneric (IUnique (cxx_name p)) op))].
      intros e. cbn beta. triv Tr x.
    - apply (realizes_impl _ x p (fun p e => exists op, (In op ["null"; "clone"; "get"; "drop"] \/ op = "uninit" /\ maybe_trivial apis x) /\ e = EGeneric (IShared (cxx_name p)) op) S).
      eapply realizes_ext; [|apply realizes_map; intros op _; exact (generic_ok "shared_ptr" ["shared_ptr"] x p op eq_refl ltac:(discriminate) S : _ = slink (EGeneric (IShared (cxx_name p)) op))].
      intros e. cbn beta. triv Tr x.
    - apply (realizes_impl _ x p (fun p e => exists op, In op ["null"; "clone"; "downgrade"; "upgrade"; "drop"] /\ e = EGeneric (IWeak (cxx_name p)) op) S).
      apply realizes_map; intros op _; exact (generic_ok "weak_ptr" ["weak_ptr"] x p op eq_refl ltac:(discriminate) S).
    - apply (realizes_impl _ x p (fun p e => (exists op, (In op ["new"; "size"; "get_unchecked"] \/ In op ["push_back"; "pop_back"] /\ maybe_trivial apis x) /\ e = EGeneric (IVector (cxx_name p)) op) \/
                 (exists op, In op ["null"; "raw"; "get"; "release"; "drop"] /\ e = EGeneric (IUniqueVector (cxx_name p)) op)) S).
      apply realizes_app.
      + eapply realizes_ext; [|apply realizes_map; intros op _; exact (generic_ok "std$vector" ["std"; "vector"] x p op eq_refl ltac:(discriminate) S : _ = slink (EGeneric (IVector (cxx_name p)) op))].
        intros e. cbn beta. triv Tr x.
      + unfold cxx_unique_ptr. cbn [when app]. apply realizes_map. intros op _. apply generic_vector_ok, S.
  Qed.

  Lemma rust_impl_imports_ok k : In k (map fst (t_impls T)) -> realizes (rust_impl_imports T k) (impl_cxx k).
  Proof.
    intros Hk. destruct k as (k, x). destruct (impl_resolves _ _ _ _ Hacc k x Hk) as (p & S). unfold impl_cxx. cbn [fst snd].
    assert (Tr := trivial_ok _ _ _ _ Hacc x).
    unfold rust_impl_imports. cbn [fst snd]. destruct k.
    1,2: apply (realizes_impl _ x p (fun _ _ => False) S), realizes_nil.
    - apply (realizes_impl _ x p (fun p e => exists op, (In op ["null"; "raw"; "get"; "release"; "drop"] \/ op = "uninit" /\ maybe_trivial apis x) /\ e = EGeneric (IUnique (cxx_name p)) op) S).
      eapply realizes_ext; [|apply realizes_map; intros op _; exact (rust_link_ok "cxxbridge1$unique_ptr$" ["unique_ptr"] x p op eq_refl ltac:(discriminate) S : _ = slink (EGeneric (IUnique (cxx_name p)) op))].
      intros e. cbn beta. triv Tr x.
    - apply (realizes_impl _ x p (fun p e => exists op, (In op ["null"; "clone"; "get"; "drop"] \/ op = "uninit" /\ maybe_trivial apis x) /\ e = EGeneric (IShared (cxx_name p)) op) S).
      eapply realizes_ext; [|apply realizes_map; intros op _; exact (rust_link_ok "cxxbridge1$shared_ptr$" ["shared_ptr"] x p op eq_refl ltac:(discriminate) S : _ = slink (EGeneric (IShared (cxx_name p)) op))].
      intros e. cbn beta. triv Tr x.
    - apply (realizes_impl _ x p (fun p e => exists op, In op ["null"; "clone"; "downgrade"; "upgrade"; "drop"] /\ e = EGeneric (IWeak (cxx_name p)) op) S).
      apply realizes_map; intros op _; exact (rust_link_ok "cxxbridge1$weak_ptr$" ["weak_ptr"] x p op eq_refl ltac:(discriminate) S).
    - apply (realizes_impl _ x p (fun p e => (exists op, (In op ["new"; "size"; "get_unchecked"] \/ In op ["push_back"; "pop_back"] /\ maybe_trivial apis x) /\ e = EGeneric (IVector (cxx_name p)) op) \/
                 (exists op, In op ["null"; "raw"; "get"; "release"; "drop"] /\ e = EGeneric (IUniqueVector (cxx_name p)) op)) S).
      apply realizes_app.
      + eapply realizes_ext; [|apply realizes_map; intros op _; exact (rust_link_ok "cxxbridge1$std$vector$" ["std"; "vector"] x p op eq_refl ltac:(discriminate) S : _ = slink (EGeneric (IVector (cxx_name p)) op))].
        intros e. cbn beta. triv Tr x.
      + apply realizes_map. intros op _. exact (rust_link_ok "cxxbridge1$unique_ptr$std$vector$" ["unique_ptr"; "std"; "vector"] x p op eq_refl ltac:(discriminate) S).
  Qed.

  Lemma cxx_impl_decls_ok k : In k (map fst (t_impls T)) -> realizes (cxx_impl_decls T k) (impl_rust k).
  Proof.
    intros Hk. destruct k as (k, x). destruct (impl_resolves _ _ _ _ Hacc k x Hk) as (p & S). unfold impl_rust. cbn [fst snd].
    unfold cxx_impl_decls. cbn [fst snd]. destruct k.
    3,4,5,6: apply (realizes_impl _ x p (fun _ _ => False) S), realizes_nil.
    - apply (realizes_impl _ x p (fun p e => exists op, In op ["alloc"; "dealloc"; "drop"] /\ e = EGeneric (IBox (cxx_name p)) op) S).
      apply realizes_map; intros op _; exact (generic_ok "box" ["box"] x p op eq_refl ltac:(discriminate) S).
    - apply (realizes_impl _ x p (fun p e => exists op, In op ["new"; "drop"; "len"; "capacity"; "data"; "reserve_total"; "set_len"; "truncate"] /\ e = EGeneric (IVec (cxx_name p)) op) S).
      apply realizes_map; intros op _; exact (generic_ok "rust_vec" ["rust_vec"] x p op eq_refl ltac:(discriminate) S).
  Qed.
  Lemma cxx_impl_calls_ok k : In k (map fst (t_impls T)) -> realizes (cxx_impl_calls T k) (impl_rust k).
  Proof.
    intros Hk. destruct k as (k, x). destruct (impl_resolves _ _ _ _ Hacc k x Hk) as (p & S). unfold impl_rust. cbn [fst snd].
    unfold cxx_impl_calls. cbn [fst snd]. destruct k.
    3,4,5,6: apply (realizes_impl _ x p (fun _ _ => False) S), realizes_nil.
    - apply (realizes_impl _ x p (fun p e => exists op, In op ["alloc"; "dealloc"; "drop"] /\ e = EGeneric (IBox (cxx_name p)) op) S).
      apply realizes_map; intros op _; exact (generic_ok "box" ["box"] x p op eq_refl ltac:(discriminate) S).
    - apply (realizes_impl _ x p (fun p e => exists op, In op ["new"; "drop"; "len"; "capacity"; "data"; "reserve_total"; "set_len"; "truncate"] /\ e = EGeneric (IVec (cxx_name p)) op) S).
      apply realizes_map; intros op _; exact (generic_ok "rust_vec" ["rust_vec"] x p op eq_refl ltac:(discriminate) S).
  Qed.
  Lemma rust_impl_exports_ok k : In k (map fst (t_impls T)) -> realizes (rust_impl_exports T k) (impl_rust k).
  Proof.
    intros Hk. destruct k as (k, x). destruct (impl_resolves _ _ _ _ Hacc k x Hk) as (p & S). unfold impl_rust. cbn [fst snd].
    unfold rust_impl_exports. cbn [fst snd]. destruct k.
    3,4,5,6: apply (realizes_impl _ x p (fun _ _ => False) S), realizes_nil.
    - apply (realizes_impl _ x p (fun p e => exists op, In op ["alloc"; "dealloc"; "drop"] /\ e = EGeneric (IBox (cxx_name p)) op) S).
      apply realizes_map; intros op _; exact (rust_link_ok "cxxbridge1$box$" ["box"] x p op eq_refl ltac:(discriminate) S).
    - apply (realizes_impl _ x p (fun p e => exists op, In op ["new"; "drop"; "len"; "capacity"; "data"; "reserve_total"; "set_len"; "truncate"] /\ e = EGeneric (IVec (cxx_name p)) op) S).
      apply realizes_map; intros op _; exact (rust_link_ok "cxxbridge1$rust_vec$" ["rust_vec"] x p op eq_refl ltac:(discriminate) S).
  Qed.

  (** ** Whole bridges *)
  Definition api_cxx (a : api) (e : entity) : Prop :=
    match a with ACxxFunction f => fn_entity apis f e \/ trampoline_entity apis f false e | _ => False end.
  Definition api_rust (a : api) (e : entity) : Prop :=
    match a with
    | AStruct s => struct_ops s e
    | ARustType t => exists op, In op ["sizeof"; "alignof"] /\ e = EOperator (p_ns (et_name t)) (p_cxx (et_name t)) op
    | ACxxFunction f => trampoline_entity apis f true e
    | ARustFunction f => fn_entity apis f e
    | _ => False
    end.

  Lemma in_impls {P : impl_key -> entity -> Prop} e : (exists i, In i (t_impls T) /\ P (fst i) e) <-> exists k, In k (map fst (t_impls T)) /\ P k e.
  Proof.
    split.
    - intros (i & Hi & H). exists (fst i). split; [apply in_map, Hi|exact H].
    - intros (k & Hk & H). apply in_map_iff in Hk. destruct Hk as (i & <- & Hi). eauto.
  Qed.

  Lemma cxx_provides_iff e : cxx_provides apis e <-> (exists a, In a apis /\ api_cxx a e) \/ (exists k, In k (map fst (t_impls T)) /\ impl_cxx k e).
  Proof.
    pose proof (instantiates_key _ _ _ _ Hacc) as K. split.
    - intros H. destruct H.
      + left. eexists. split; [eassumption|]. left. assumption.
      + left. eexists. split; [eassumption|]. right. assumption.
      + right. exists (KUnique, x). split; [apply K; assumption|]. exists p. split; [assumption|]. cbn [fst snd]. eauto 6.
      + right. exists (KUnique, x). split; [apply K; assumption|]. exists p. split; [assumption|]. cbn [fst snd]. eauto 6.
      + right. exists (KShared, x). split; [apply K; assumption|]. exists p. split; [assumption|]. cbn [fst snd]. eauto 6.
      + right. exists (KShared, x). split; [apply K; assumption|]. exists p. split; [assumption|]. cbn [fst snd]. eauto 6.
      + right. exists (KWeak, x). split; [apply K; assumption|]. exists p. split; [assumption|]. cbn [fst snd]. eauto 6.
      + right. exists (KVector, x). split; [apply K; assumption|]. exists p. split; [assumption|]. cbn [fst snd]. left. eauto 6.
      + right. exists (KVector, x). split; [apply K; assumption|]. exists p. split; [assumption|]. cbn [fst snd]. left. eauto 6.
      + right. exists (KVector, x). split; [apply K; assumption|]. exists p. split; [assumption|]. cbn [fst snd]. right. eauto 6.
    - intros [(a & Ha & H)|((k, x) & Hk & p & S & H)].
      + destruct a; cbn in H; try contradiction. destruct H; [eapply cp_fn|eapply cp_trampoline]; eauto.
      + apply K in Hk. cbn [fst snd] in *. destruct k; try contradiction; cbn [kind_name] in Hk.
        * destruct H as (op & [H|(-> & H)] & ->); [eapply cp_unique|eapply cp_unique_uninit]; eauto.
        * destruct H as (op & [H|(-> & H)] & ->); [eapply cp_shared|eapply cp_shared_uninit]; eauto.
        * destruct H as (op & H & ->). eapply cp_weak; eauto.
        * destruct H as [(op & [H|(H & H')] & ->)|(op & H & ->)]; [eapply cp_vector|eapply cp_vector_value|eapply cp_vector_owner]; eauto.
  Qed.
  Lemma rust_provides_iff e : rust_provides apis e <-> (exists a, In a apis /\ api_rust a e) \/ (exists k, In k (map fst (t_impls T)) /\ impl_rust k e).
  Proof.
    pose proof (instantiates_key _ _ _ _ Hacc) as K. split.
    - intros H. destruct H.
      + left. exists (ARustFunction f). split; assumption.
      + left. exists (ACxxFunction f). split; assumption.
      + left. exists (AStruct s). split; [assumption|]. eexists. split; [reflexivity|]. tauto.
      + left. exists (AStruct s). split; [assumption|]. eexists. split; [reflexivity|]. tauto.
      + left. exists (AStruct s). split; [assumption|]. eexists. split; [reflexivity|]. tauto.
      + left. exists (AStruct s). split; [assumption|]. eexists. split; [reflexivity|]. tauto.
      + left. exists (AStruct s). split; [assumption|]. eexists. split; [reflexivity|]. tauto.
      + left. exists (ARustType t). split; [assumption|]. eexists. split; [eassumption|]. reflexivity.
      + right. exists (KBox, x). split; [apply K; assumption|]. exists p. split; [assumption|]. cbn [fst snd]. eauto 6.
      + right. exists (KVec, x). split; [apply K; assumption|]. exists p. split; [assumption|]. cbn [fst snd]. eauto 6.
    - intros [(a & Ha & H)|((k, x) & Hk & p & S & H)].
      + destruct a; cbn in H; try contradiction.
        * destruct H as (op & -> & H). destruct H as [(-> & H)|[(-> & H & H')|[(Ho & H)|[(Ho & H & H')|(-> & H)]]]];
            [eapply rp_eq|eapply rp_ne|eapply rp_lt|eapply rp_gt|eapply rp_hash]; eauto.
        * eapply rp_trampoline; eauto.
        * destruct H as (op & H & ->). eapply rp_layout; eauto.
        * eapply rp_fn; eauto.
      + apply K in Hk. cbn [fst snd] in *. destruct k; try contradiction; cbn [kind_name] in Hk; destruct H as (op & H & ->); [eapply rp_box|eapply rp_vec]; eauto.
  Qed.

  Lemma realizes_bridge f g (P : api -> entity -> Prop) (Q : impl_key -> entity -> Prop) :
    (forall a, In a apis -> realizes (f a) (P a)) -> (forall k, In k (map fst (t_impls T)) -> realizes (g k) (Q k)) ->
    realizes (flat_map f apis ++ flat_map (fun e => g (fst e)) (t_impls T)) (fun e => (exists a, In a apis /\ P a e) \/ (exists k, In k (map fst (t_impls T)) /\ Q k e)).
  Proof.
    intros Hf Hg. eapply realizes_ext; [|apply realizes_app; [apply realizes_flat_map, Hf|]].
    2: { apply (realizes_flat_map _ (fun i e => Q (fst i) e)). intros i Hi. apply Hg. apply in_map, Hi. }
    intros e. cbn beta. rewrite (in_impls (P := Q)). tauto.
  Qed.

  Ltac one_api := intros a Ha; destruct a; try apply realizes_nil; cbn [api_cxx api_rust].

  Lemma cxx_defs_ok : realizes (cxx_defs T apis) (cxx_provides apis).
  Proof.
    eapply realizes_ext; [intros e; symmetry; apply cxx_provides_iff|]. apply realizes_bridge; [|apply cxx_impl_defs_ok].
    one_api. cbn [cxx_api_defs]. change (?x :: ?l) with ([x] ++ l). apply realizes_app; [apply fn_ok|apply c_tramp_ok]; left; exact Ha.
  Qed.
  Lemma rust_imports_ok : realizes (rust_imports T apis) (cxx_provides apis).
  Proof.
    eapply realizes_ext; [intros e; symmetry; apply cxx_provides_iff|]. apply realizes_bridge; [|apply rust_impl_imports_ok].
    one_api. cbn [rust_api_imports]. change (?x :: ?l) with ([x] ++ l). apply realizes_app; [apply fn_ok|apply c_tramp_ok]; left; exact Ha.
  Qed.
  Lemma cxx_decls_ok : realizes (cxx_decls T apis) (rust_provides apis).
  Proof.
    eapply realizes_ext; [intros e; symmetry; apply rust_provides_iff|]. apply realizes_bridge; [|apply cxx_impl_decls_ok].
    one_api; cbn [cxx_api_decls].
    - apply cxx_operator_decls_ok, Ha.
    - apply r_tramp_ok. left. exact Ha.
    - apply layout_ok, Ha.
    - apply fn_ok. right. exact Ha.
  Qed.
  Lemma cxx_calls_ok : realizes (cxx_calls T apis) (rust_provides apis).
  Proof.
    eapply realizes_ext; [intros e; symmetry; apply rust_provides_iff|]. apply realizes_bridge; [|apply cxx_impl_calls_ok].
    one_api; cbn [cxx_api_calls].
    - apply cxx_operator_calls_ok, Ha.
    - apply r_tramp_ok. left. exact Ha.
    - apply layout_ok, Ha.
    - apply fn_ok. right. exact Ha.
  Qed.
  Lemma rust_exports_ok : realizes (rust_exports T apis) (rust_provides apis).
  Proof.
    eapply realizes_ext; [intros e; symmetry; apply rust_provides_iff|]. apply realizes_bridge; [|apply rust_impl_exports_ok].
    one_api; cbn [rust_api_exports].
    - apply rust_operator_exports_ok, Ha.
    - apply r_tramp_ok. left. exact Ha.
    - apply layout_ok, Ha.
    - apply fn_ok. right. exact Ha.
  Qed.

  (** Every entity of the bridge is well formed. *)
  Lemma generic_wf (I : cxx_type -> instance) x p op : (forall t, instance_type (I t) = t) -> stands_for apis x p -> In op (instance_ops (I (cxx_name p))) -> wf_entity (EGeneric (I (cxx_name p)) op).
  Proof.
    intros HI S Ho. cbn. split; [|exact Ho]. rewrite HI. destruct (item_user _ _ _ _ Hacc Hwf _ (stands_item _ _ _ S)) as (U1 & U2 & _).
    unfold path, cxx_name. cbn [fst snd]. apply Forall_app. split; [exact U1|constructor; [exact U2|constructor]].
  Qed.
  Lemma operator_wf p op : item_name apis p -> In op operator_names -> wf_entity (EOperator (p_ns p) (p_cxx p) op).
  Proof. intros H Ho. destruct (item_user _ _ _ _ Hacc Hwf _ H) as (U1 & U2 & _). cbn. auto. Qed.

  Lemma cxx_provides_wf e : cxx_provides apis e -> wf_entity e.
  Proof.
    intros H. destruct H.
    - eapply fn_wf; eauto. left. assumption.
    - eapply tramp_wf; eauto. left. assumption.
    - apply (generic_wf IUnique x); auto. cbn in *. intuition subst; auto.
    - apply (generic_wf IUnique x); auto. cbn. tauto.
    - apply (generic_wf IShared x); auto. cbn in *. intuition subst; auto.
    - apply (generic_wf IShared x); auto. cbn. tauto.
    - apply (generic_wf IWeak x); auto.
    - apply (generic_wf IVector x); auto. cbn in *. tauto.
    - apply (generic_wf IVector x); auto. cbn in *. tauto.
    - apply (generic_wf IUniqueVector x); auto.
  Qed.
  Lemma rust_provides_wf e : rust_provides apis e -> wf_entity e.
  Proof.
    intros H. destruct H.
    - eapply fn_wf; eauto. right. assumption.
    - eapply tramp_wf; eauto. left. assumption.
    - apply operator_wf; [apply struct_item; assumption|cbn; tauto].
    - apply operator_wf; [apply struct_item; assumption|cbn; tauto].
    - apply operator_wf; [apply struct_item; assumption|cbn in *; tauto].
    - apply operator_wf; [apply struct_item; assumption|cbn in *; tauto].
    - apply operator_wf; [apply struct_item; assumption|cbn; tauto].
    - apply operator_wf; [eapply in_type, de_rust; eassumption|cbn in *; tauto].
    - apply (generic_wf IBox x); auto.
    - apply (generic_wf IVec x); auto.
  Qed.
End Accepted.
