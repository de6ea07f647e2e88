From Verif Require Import Base Syntax_Model TypeEq_Model TypeEq_Spec TypeEq_Proofs Toposort_Model Toposort_Spec Toposort_Proofs Toposort_Proofs2 Types_Model Types_Spec Types_Proofs.
From Coq Require Import Relations Permutation.

(** * C08: the improper fix point *)
Section Improper.
  Variable apis : list api.
  Hypothesis Hnd : NoDup (names (structs_of apis)).
  Let structs := c_structs (collect_apis apis).
  Let rust := c_rust (collect_apis apis).
  Let aliases := c_aliases (collect_apis apis).
  Notation det := (determine_improper structs rust aliases).

  Lemma uinsert_keys {A} k (v : A) m : NoDup (map fst m) -> NoDup (map fst (uinsert k v m)).
  Proof.
    intros H. unfold uinsert. cbn. constructor.
    - intros Hin. apply in_map_iff in Hin. destruct Hin as [[x w] [E Hin]]. apply filter_In in Hin. cbn in *. subst. rewrite String.eqb_refl in Hin. destruct Hin; discriminate.
    - induction m as [|[x w] m IH]; cbn; [constructor|]. inversion H as [|? ? Hx Hm]; subst.
      destruct (negb (String.eqb k x)); cbn; [|auto]. constructor; auto. intros Hin. apply Hx. apply in_map_iff in Hin. destruct Hin as [p [E Hp]]. apply filter_In in Hp. apply in_map_iff. exists p. tauto.
  Qed.

  Lemma key_iff x : In x (map fst structs) <-> is_struct apis x.
  Proof.
    unfold structs. split; intros H.
    - destruct (assoc x (c_structs (collect_apis apis))) as [s|] eqn:E.
      + apply (structs_assoc apis _ _ Hnd) in E. exists s. exact E.
      + apply assoc_None in E. contradiction.
    - destruct (assoc x (c_structs (collect_apis apis))) as [s|] eqn:E.
      + apply assoc_In in E. apply (in_map fst) in E. exact E.
      + apply structs_none in E. contradiction.
  Qed.

  Lemma rust_shape t : (exists u, t = TBox u \/ t = TVec u) \/ (exists l, t = TStr l) \/
    (exists a b c d, t = TFn a b c d) \/ t = TVoid \/ (exists m l u, t = TSlice m l u) <->
    match t with TBox _ | TVec _ | TStr _ | TFn _ _ _ _ | TVoid | TSlice _ _ _ => True | _ => False end.
  Proof.
    split.
    - intros [[u [ -> | -> ]]|[[l -> ]|[[a [b [c [d -> ]]]]|[ -> |[m [l [u -> ]]]]]]]; exact I.
    - destruct t; intros H; try destruct H; eauto 10.
  Qed.
  Lemma improper_inv t : improper apis t ->
    match t with
    | TIdent n => n_rust n = "String" \/
        ~ is_primitive (n_rust n) /\ ~ is_struct apis (n_rust n) /\ (is_rust_type apis (n_rust n) \/ is_alias apis (n_rust n)) \/
        ~ is_primitive (n_rust n) /\ exists s f, In (AStruct s) apis /\ p_rust (st_name s) = n_rust n /\ In f (st_fields s) /\ improper apis (v_ty f)
    | TRef _ _ _ t | TPtr _ t | TArray t _ => improper apis t
    | TUniquePtr _ | TSharedPtr _ | TWeakPtr _ | TCxxVector _ => False
    | _ => True
    end.
  Proof.
    intros H. destruct H as [n E1|n E1 E2 E3|t Hr|p m l t Ht|m t Ht|t len Ht|s f n E1 E2 E3 E4 Ht]; auto.
    - apply rust_shape in Hr. destruct t; tauto.
    - right. right. split; [exact E1|]. exists s, f. auto.
  Qed.

  (** what [det] says *)
  Lemma det_definite t : forall b, det t = Definite b -> (b = true <-> improper apis t).
  Proof.
    induction t using ty_ind'; intros b0; cbn; try discriminate;
      try (intros E; injection E as <-; split; [intros _; apply im_rust; apply rust_shape; exact I|reflexivity]);
      try (intros E; injection E as <-; split; [discriminate|intros Hi; destruct (improper_inv _ Hi)]).
    - destruct (atom_from_str (n_rust n)) as [a|] eqn:Ea.
      + intros E; injection E as <-. rewrite atom_eqb_eq. split.
        * intros ->. apply im_string. apply atom_from_str_inv in Ea. exact Ea.
        * intros Hi. destruct (improper_inv _ Hi) as [E1|[[E1 _]|[E1 _]]].
          -- rewrite E1 in Ea. injection Ea as <-. reflexivity.
          -- exfalso. apply E1. eexists; eauto.
          -- exfalso. apply E1. eexists; eauto.
      + destruct (assoc (n_rust n) structs) as [s|] eqn:Es; [discriminate|]. apply structs_none in Es. apply not_primitive in Ea.
        intros E; injection E as <-. unfold rust, aliases. rewrite orb_true_iff, rust_mem, aliases_has. split.
        * intros Hi. apply im_foreign; auto.
        * intros Hi. destruct (improper_inv _ Hi) as [E1|[[_ [_ E1]]|[E1 [s [f [E2 [E3 _]]]]]]].
          -- exfalso. apply Ea. rewrite E1. eexists; reflexivity.
          -- exact E1.
          -- exfalso. apply Es. exists s. auto.
    - intros E. rewrite (IHt _ E). split; [intros; first [apply im_ref|apply im_ptr|apply im_array]; auto|]. intros Hi. exact (improper_inv _ Hi).
    - intros E. rewrite (IHt _ E). split; [intros; first [apply im_ref|apply im_ptr|apply im_array]; auto|]. intros Hi. exact (improper_inv _ Hi).
    - intros E. rewrite (IHt _ E). split; [intros; first [apply im_ref|apply im_ptr|apply im_array]; auto|]. intros Hi. exact (improper_inv _ Hi).
  Qed.

  Definition sname (x : string) : ty := TIdent (Named x []).

  Lemma improper_lts n m : n_rust n = n_rust m -> improper apis (TIdent n) -> improper apis (TIdent m).
  Proof.
    intros E H. apply improper_inv in H. rewrite E in H. destruct H as [E1|[[E1 [E2 E3]]|[E1 [s [f [E2 [E3 [E4 E5]]]]]]]].
    - apply im_string. exact E1.
    - apply im_foreign; auto.
    - eapply im_struct; eauto.
  Qed.

  Lemma det_depends t : forall x, det t = Depends x -> is_struct apis x /\ ~ is_primitive x /\ (improper apis t <-> improper apis (sname x)).
  Proof.
    induction t using ty_ind'; intros x; cbn; try discriminate.
    - destruct (atom_from_str (n_rust n)) as [a|] eqn:Ea; [discriminate|]. destruct (assoc (n_rust n) structs) as [s|] eqn:Es; [|discriminate].
      apply (structs_assoc apis _ _ Hnd) in Es. destruct Es as [E1 E2]. intros E; injection E as <-. rewrite E2.
      split; [exists s; auto|]. split; [apply not_primitive; exact Ea|]. split; apply improper_lts; reflexivity.
    - intros E. destruct (IHt _ E) as [H1 [H2 H3]]. split; [exact H1|]. split; [exact H2|]. rewrite <- H3. split; [|intros; first [apply im_ref|apply im_ptr|apply im_array]; auto].
      intros Hi. exact (improper_inv _ Hi).
    - intros E. destruct (IHt _ E) as [H1 [H2 H3]]. split; [exact H1|]. split; [exact H2|]. rewrite <- H3. split; [|intros; first [apply im_ref|apply im_ptr|apply im_array]; auto].
      intros Hi. exact (improper_inv _ Hi).
    - intros E. destruct (IHt _ E) as [H1 [H2 H3]]. split; [exact H1|]. split; [exact H2|]. rewrite <- H3. split; [|intros; first [apply im_ref|apply im_ptr|apply im_array]; auto].
      intros Hi. exact (improper_inv _ Hi).
  Qed.

  Definition fields (x : string) : list var := match assoc x structs with Some s => st_fields s | None => [] end.

  (** a field that is certainly fine *)
  Definition fine (f : var) : Prop := det (v_ty f) = Definite false.
  (** ... or depends on a struct not (yet) known to be improper *)
  Definition fine_wrt (imp : list string) (f : var) : Prop :=
    fine f \/ exists y, det (v_ty f) = Depends y /\ ~ In y imp.

  Lemma scan_spec imp fs : forall keep,
    match scan_fields structs rust aliases imp fs keep with
    | inl _ => exists f, In f fs /\ (det (v_ty f) = Definite true \/ exists y, det (v_ty f) = Depends y /\ In y imp)
    | inr k => Forall (fine_wrt imp) fs /\ (k = false -> keep = false /\ Forall fine fs)
    end.
  Proof.
    induction fs as [|f fs IH]; intros keep; cbn; [split; auto|].
    destruct (det (v_ty f)) as [[|]|y] eqn:E.
    - exists f. auto.
    - specialize (IH keep). destruct (scan_fields _ _ _ imp fs keep).
      + destruct IH as [g [H1 H2]]. eauto.
      + destruct IH as [H1 H2]. split; [constructor; [left; exact E|exact H1]|]. intros Hk. destruct (H2 Hk). split; [auto|]. constructor; auto.
    - destruct (smem y imp) eqn:Ey.
      + apply smem_In in Ey. exists f. split; [auto|]. right. eauto.
      + apply smem_false in Ey. specialize (IH true). destruct (scan_fields _ _ _ imp fs true).
        * destruct IH as [g [H1 H2]]. eauto.
        * destruct IH as [H1 H2]. split; [constructor; [right; eauto|exact H1]|]. intros Hk. destruct (H2 Hk) as [? _]. discriminate.
  Qed.

  Definition good_name (x : string) : Prop := is_struct apis x.
  Definition sound (imp : list string) : Prop := forall x, In x imp -> exists s f, In (AStruct s) apis /\ p_rust (st_name s) = x /\ In f (st_fields s) /\ improper apis (v_ty f).

  Lemma sound_improper imp x : sound imp -> In x imp -> ~ is_primitive x -> improper apis (sname x).
  Proof. intros H Hx Hp. destruct (H x Hx) as [s [f [H1 [H2 [H3 H4]]]]]. eapply im_struct; eauto. Qed.

  Lemma fields_spec x f : In f (fields x) -> exists s, In (AStruct s) apis /\ p_rust (st_name s) = x /\ In f (st_fields s).
  Proof.
    unfold fields. destruct (assoc x structs) as [s|] eqn:E; [|intros []]. apply (structs_assoc apis _ _ Hnd) in E.
    intros H. exists s. tauto.
  Qed.

  Lemma pass_spec order : forall imp kept imp' new,
    retain_pass structs rust aliases order imp = (kept, imp', new) -> sound imp ->
    sound imp' /\ incl imp imp' /\ incl kept order /\
    (forall x, In x order -> In x kept \/ In x imp' \/ Forall fine (fields x)) /\
    List.length kept <= List.length order /\
    (new = true -> List.length kept < List.length order) /\
    (new = false -> imp' = imp /\ forall x, In x order -> Forall (fine_wrt imp) (fields x)).
  Proof.
    induction order as [|x order IH]; intros imp kept imp' new; cbn.
    - intros H Hs; injection H as <- <- <-. repeat split; auto using incl_refl; try (intros ? []); try discriminate.
    - fold (fields x). pose proof (scan_spec imp (fields x) false) as Hsc.
      destruct (scan_fields structs rust aliases imp (fields x) false) as [u|keep].
      + destruct (retain_pass structs rust aliases order (x :: imp)) as [[k i] n] eqn:E. intros H Hs; injection H as <- <- <-.
        assert (Hs2 : sound (x :: imp)).
        { intros y [<-|Hy]; [|auto]. destruct Hsc as [f [Hf Hd]]. destruct (fields_spec _ _ Hf) as [s [S1 [S2 S3]]].
          exists s, f. repeat split; auto. destruct Hd as [Hd|[y [Hd Hy]]].
          - apply det_definite in Hd. apply Hd. reflexivity.
          - apply det_depends in Hd. destruct Hd as [_ [D2 D3]]. apply D3. eapply sound_improper; eauto. }
        destruct (IH _ _ _ _ E Hs2) as [A1 [A2 [A3 [A4 [A5 [A6 A7]]]]]].
        split; [exact A1|]. split; [intros y Hy; apply A2; right; exact Hy|]. split; [intros y Hy; right; apply A3; exact Hy|].
        split; [intros y [<-|Hy]; [right; left; apply A2; left; reflexivity|apply A4; exact Hy]|].
        split; [cbn; lia|]. split; [intros _; cbn; lia|discriminate].
      + destruct (retain_pass structs rust aliases order imp) as [[k i] n] eqn:E. intros H Hs; injection H as <- <- <-.
        destruct (IH _ _ _ _ E Hs) as [A1 [A2 [A3 [A4 [A5 [A6 A7]]]]]]. destruct Hsc as [B1 B2].
        split; [exact A1|]. split; [exact A2|]. split; [destruct keep; intros y Hy; [destruct Hy as [<-|Hy]; [left; reflexivity|]|]; right; apply A3; exact Hy|].
        split.
        { intros y [<-|Hy].
          - destruct keep; [left; left; reflexivity|]. right; right. apply B2. reflexivity.
          - destruct (A4 y Hy) as [?|[?|?]]; auto. destruct keep; auto. left. right. assumption. }
        split; [destruct keep; cbn; lia|]. split; [intros Hn; specialize (A6 Hn); destruct keep; cbn; lia|].
        intros Hn. destruct (A7 Hn) as [-> A8]. split; [reflexivity|]. intros y [<-|Hy]; auto.
  Qed.

  Lemma loop_spec ord : (forall n l, Permutation (ord n l) l) -> forall fuel n un imp,
    List.length un < fuel -> sound imp -> incl un (map fst structs) ->
    (forall x, In x (map fst structs) -> In x un \/ In x imp \/ Forall fine (fields x)) ->
    exists imp', improper_loop structs rust aliases fuel ord n un imp = Some imp' /\ sound imp' /\
      forall x, In x (map fst structs) -> In x imp' \/ Forall (fine_wrt imp') (fields x).
  Proof.
    intros Hord. induction fuel as [|fuel IH]; intros n un imp Hlen Hs Hincl Hcov; [lia|]. cbn.
    pose proof (Hord n un) as HP.
    destruct (retain_pass structs rust aliases (ord n un) imp) as [[kept imp'] new] eqn:E.
    destruct (pass_spec _ _ _ _ _ E Hs) as [A1 [A2 [A3 [A4 [A5 [A6 A7]]]]]].
    rewrite (Permutation_length HP) in A5, A6.
    assert (Hcov' : forall x, In x (map fst structs) -> In x kept \/ In x imp' \/ Forall fine (fields x)).
    { intros x Hx. destruct (Hcov x Hx) as [H|[H|H]]; auto. apply A4. apply (Permutation_in _ (Permutation_sym HP)). exact H. }
    destruct new.
    - apply IH; auto.
      + specialize (A6 eq_refl). lia.
      + intros x Hx. apply Hincl. apply (Permutation_in _ HP). apply A3. exact Hx.
    - exists imp'. split; [reflexivity|]. split; [exact A1|]. intros x Hx. destruct (A7 eq_refl) as [-> A8].
      destruct (Hcov x Hx) as [H|[H|H]].
      + right. apply A8. apply (Permutation_in _ (Permutation_sym HP)). exact H.
      + left; exact H.
      + right. rewrite Forall_forall in *. intros f Hf. left. apply H. exact Hf.
  Qed.

  Lemma improper_result ord : (forall n l, Permutation (ord n l) l) ->
    exists imp, struct_improper_ctypes ord structs rust aliases = Some imp /\
      forall x, is_struct apis x -> ~ is_primitive x -> (In x imp <-> improper apis (sname x)).
  Proof.
    intros Hord. unfold struct_improper_ctypes.
    destruct (loop_spec ord Hord (S (List.length structs)) 0 (map fst structs) []) as [imp [E [Hs Hc]]].
    - rewrite map_length. lia.
    - intros x [].
    - apply incl_refl.
    - auto.
    - exists imp. split; [exact E|]. intros x Hx Hp. split; [intros H; eapply sound_improper; eauto|].
      assert (G : forall t, improper apis t -> det t = Definite true \/ exists y, det t = Depends y /\ In y imp).
      { intros t Ht. induction Ht as [n E1|n E1 E2 E3|t Hr|p m l t Ht IH|m t Ht IH|t len Ht IH|s f n E1 E2 E3 E4 Ht IH].
        - left. cbn. rewrite E1. reflexivity.
        - left. cbn. apply not_primitive in E1. rewrite E1. apply structs_none in E2. fold structs in E2. rewrite E2. f_equal.
          unfold rust, aliases. apply orb_true_iff. rewrite rust_mem, aliases_has. exact E3.
        - left. apply rust_shape in Hr. destruct t; try destruct Hr; reflexivity.
        - exact IH.
        - exact IH.
        - exact IH.
        - right. cbn. apply not_primitive in E1. rewrite E1.
          assert (Es : assoc (n_rust n) structs = Some s) by (apply structs_assoc; auto).
          rewrite Es. exists (p_rust (st_name s)). split; [reflexivity|]. rewrite E3.
          destruct (Hc (n_rust n)) as [H|H]; [apply key_iff; exists s; auto|exact H|].
          exfalso. rewrite Forall_forall in H. unfold fields in H. rewrite Es in H. specialize (H f E4).
          destruct H as [H|[y [H1 H2]]]; destruct IH as [IH|[z [IH1 IH2]]]; unfold fine in *; congruence. }
      intros H. destruct (G _ H) as [D|[y [D Hy]]].
      + cbn in D. apply not_primitive in Hp. rewrite Hp in D. destruct (assoc x structs) eqn:Es; [discriminate|].
        apply structs_none in Es. contradiction.
      + cbn in D. apply not_primitive in Hp. rewrite Hp in D. destruct (assoc x structs) as [s|] eqn:Es; [|discriminate].
        apply (structs_assoc apis _ _ Hnd) in Es. injection D as <-. destruct Es as [_ <-]. exact Hy.
  Qed.
End Improper.

(** * C09: duplicate names as an automaton per name *)
Record dfa : Set := Dfa { df_named : bool; df_cxx : bool; df_shared : bool; df_err : bool }.
Definition dfa_step (s : dfa) (k : decl_kind) : dfa :=
  match k with
  | DkShared => Dfa true (df_cxx s) true (df_err s || df_named s && (negb (df_cxx s) || df_shared s))
  | DkFromHeader => Dfa true true true (df_err s || df_named s && (negb (df_cxx s) || df_shared s))
  | DkCxx => Dfa true true (df_shared s) (df_err s || df_named s && (df_cxx s || negb (df_shared s)))
  | DkRust => Dfa true (df_cxx s) (df_shared s) (df_err s || df_named s)
  | DkAlias => Dfa true true (df_shared s) (df_err s || df_named s)
  end.
Definition dfa_run (l : list decl_kind) : dfa := fold_left dfa_step l (Dfa false false false false).

Definition is_dup (n : string) (e : cerr) : bool := match e with EDupType m => String.eqb n m | _ => false end.

Lemma dup_state apis n :
  dfa_run (decls n apis) =
  let s := collect_apis apis in
  Dfa (smem n (c_type_names s)) (smem n (c_cxx s)) (has n (c_structs s) || has n (c_enums s)) (existsb (is_dup n) (c_errs s)).
Proof.
  induction apis as [|a apis IH] using rev_ind; [reflexivity|].
  unfold decls. rewrite flat_map_app. cbn [flat_map]. rewrite app_nil_r. fold (decls n apis).
  unfold dfa_run. rewrite fold_left_app. fold (dfa_run (decls n apis)). rewrite IH. rewrite collect_snoc.
  cbn [collect_apis]. set (s := collect_apis apis). cbv zeta.
  destruct a; cbn [decl_of collect_api c_type_names c_cxx c_structs c_enums c_errs fold_left];
    rewrite ?existsb_app; try (cbn [fold_left existsb]; rewrite ?orb_false_r; reflexivity).
  - destruct (String.eqb_spec (p_rust (st_name s0)) n) as [->|N]; cbn [fold_left dfa_step df_named df_cxx df_shared df_err].
    + rewrite smem_cons, has_uinsert, String.eqb_refl. cbn [orb]. f_equal. rewrite orb_assoc.
      destruct (smem n (c_type_names s) && (negb (smem n (c_cxx s)) || has n (c_structs s) || has n (c_enums s))); cbn; rewrite ?String.eqb_refl; reflexivity.
    + rewrite smem_cons, has_uinsert. assert (E : String.eqb n (p_rust (st_name s0)) = false) by (apply String.eqb_neq; congruence). rewrite E. cbn [orb]. f_equal.
      match goal with |- context [if ?c then _ else _] => destruct c end; cbn; rewrite ?E, ?orb_false_r; reflexivity.
  - destruct (String.eqb_spec (p_rust (en_name e)) n) as [->|N].
    + rewrite has_uinsert, String.eqb_refl, smem_cons, String.eqb_refl. cbn [orb].
      destruct (en_from_header e); cbn [fold_left dfa_step df_named df_cxx df_shared df_err]; rewrite ?smem_cons, ?String.eqb_refl; cbn [orb]; rewrite orb_true_r; f_equal; rewrite ?orb_assoc;
      destruct (smem n (c_type_names s) && (negb (smem n (c_cxx s)) || has n (c_structs s) || has n (c_enums s))); cbn; rewrite ?String.eqb_refl; reflexivity.
    + rewrite smem_cons, has_uinsert. assert (E : String.eqb n (p_rust (en_name e)) = false) by (apply String.eqb_neq; congruence). rewrite E. cbn [orb fold_left].
      f_equal; [destruct (en_from_header e); rewrite ?smem_cons, ?E; reflexivity|].
      match goal with |- context [if ?c then [EDupType _] else _] => destruct c end; cbn; rewrite ?E, ?orb_false_r; reflexivity.
  - destruct (String.eqb_spec (p_rust (et_name t)) n) as [->|N]; cbn [fold_left dfa_step df_named df_cxx df_shared df_err].
    + rewrite !smem_cons, String.eqb_refl. cbn [orb]. f_equal.
      destruct (smem n (c_type_names s)), (smem n (c_cxx s)), (has n (c_structs s)), (has n (c_enums s)); cbn; rewrite ?String.eqb_refl; reflexivity.
    + rewrite !smem_cons. assert (E : String.eqb n (p_rust (et_name t)) = false) by (apply String.eqb_neq; congruence). rewrite E. cbn [orb]. f_equal.
      match goal with |- context [if ?c then _ else _] => destruct c end; cbn; rewrite ?E, ?orb_false_r; reflexivity.
  - match goal with |- context [if ?c then _ else _] => destruct c end; cbn; rewrite ?orb_false_r; reflexivity.
  - destruct (String.eqb_spec (p_rust (et_name t)) n) as [->|N]; cbn [fold_left dfa_step df_named df_cxx df_shared df_err].
    + rewrite !smem_cons, String.eqb_refl. cbn [orb]. f_equal.
      destruct (smem n (c_type_names s)); cbn; rewrite ?String.eqb_refl; reflexivity.
    + rewrite !smem_cons. assert (E : String.eqb n (p_rust (et_name t)) = false) by (apply String.eqb_neq; congruence). rewrite E. cbn [orb]. f_equal.
      match goal with |- context [if ?c then _ else _] => destruct c end; cbn; rewrite ?E, ?orb_false_r; reflexivity.
  - match goal with |- context [if ?c then _ else _] => destruct c end; cbn; rewrite ?orb_false_r; reflexivity.
  - destruct (String.eqb_spec (p_rust (ta_name a)) n) as [->|N]; cbn [fold_left dfa_step df_named df_cxx df_shared df_err].
    + rewrite !smem_cons, String.eqb_refl. cbn [orb]. f_equal.
      destruct (smem n (c_type_names s)); cbn; rewrite ?String.eqb_refl; reflexivity.
    + rewrite !smem_cons. assert (E : String.eqb n (p_rust (ta_name a)) = false) by (apply String.eqb_neq; congruence). rewrite E. cbn [orb]. f_equal.
      match goal with |- context [if ?c then _ else _] => destruct c end; cbn; rewrite ?E, ?orb_false_r; reflexivity.
Qed.

(** The lists accepted by the automaton. *)
Definition accepted_decls (l : list decl_kind) : Prop :=
  (List.length l <= 1)%nat \/ In l
    [[DkShared; DkCxx]; [DkCxx; DkShared]; [DkAlias; DkShared]; [DkCxx; DkFromHeader]; [DkAlias; DkFromHeader]].

Lemma dfa_err_stays l : forall s, df_err s = true -> df_err (fold_left dfa_step l s) = true.
Proof. induction l as [|k l IH]; intros s H; [exact H|]. cbn. apply IH. destruct k; cbn; rewrite H; reflexivity. Qed.

Lemma dfa_accepts l : df_err (dfa_run l) = false <-> accepted_decls l.
Proof.
  assert (G : forall l s, df_named s = true -> df_cxx s = true -> df_shared s = true -> df_err (fold_left dfa_step l s) = false -> l = []).
  { intros l0 s H1 H2 H3 H4. destruct l0 as [|k l0]; [reflexivity|]. exfalso. cbn in H4.
    rewrite dfa_err_stays in H4; [discriminate|]. destruct k; cbn; rewrite ?H1, ?H2, ?H3; cbn; apply orb_true_r. }
  unfold accepted_decls. split.
  - destruct l as [|a [|b l]]; cbn [List.length]; [left; lia|left; lia|]. intros H. right.
    destruct (df_err (fold_left dfa_step [a; b] (Dfa false false false false))) eqn:E.
    { unfold dfa_run in H. change (a :: b :: l) with ([a; b] ++ l) in H. rewrite fold_left_app, dfa_err_stays in H by exact E. discriminate. }
    assert (l = []).
    { unfold dfa_run in H. change (a :: b :: l) with ([a; b] ++ l) in H. rewrite fold_left_app in H.
      apply (G l _) in H; auto; destruct a, b; cbn in *; congruence. }
    subst l. destruct a, b; cbn in E; try discriminate; cbn; tauto.
  - intros [H|H].
    + destruct l as [|a [|b l]]; cbn in H; [reflexivity|destruct a; reflexivity|lia].
    + cbn in H. repeat (destruct H as [<-|H]; [reflexivity|]). destruct H.
Qed.

Lemma dup_iff apis : (forall n, ~ In (EDupType n) (c_errs (collect_apis apis))) <-> forall n, accepted_decls (decls n apis).
Proof.
  assert (E : forall n, In (EDupType n) (c_errs (collect_apis apis)) <-> df_err (dfa_run (decls n apis)) = true).
  { intros n. rewrite dup_state. cbn. rewrite existsb_exists. split.
    - intros H. exists (EDupType n). split; [exact H|apply String.eqb_refl].
    - intros [e [H1 H2]]. destruct e; try discriminate. apply String.eqb_eq in H2. subst. exact H1. }
  split; intros H n; specialize (H n).
  - apply dfa_accepts. rewrite <- not_true_iff_false, <- E. exact H.
  - rewrite E, not_true_iff_false. apply dfa_accepts. exact H.
Qed.

(** Struct names of an accepted bridge are distinct. *)
Lemma decls_shared_count n apis : (forall n, accepted_decls (decls n apis)) ->
  (List.length (filter (fun s => String.eqb (struct_rust s) n) (structs_of apis)) <= 1)%nat.
Proof.
  intros H. specialize (H n).
  assert (G : (List.length (filter (fun s => String.eqb (struct_rust s) n) (structs_of apis)) <=
     List.length (filter (fun k => match k with DkShared => true | _ => false end) (decls n apis)))%nat).
  { clear H. unfold decls, structs_of. induction apis as [|a apis IH]; [cbn; lia|]. cbn [flat_map].
    rewrite !filter_app, !app_length. apply Nat.add_le_mono; [|exact IH].
    destruct a; cbn; try lia. unfold struct_rust. destruct (String.eqb (p_rust (st_name s)) n); cbn; lia. }
  destruct H as [H|H].
  - eapply Nat.le_trans; [exact G|]. destruct (decls n apis) as [|k [|]]; cbn in *; try lia. destruct k; cbn; lia.
  - cbn in H. repeat (destruct H as [H|H]; [rewrite <- H in G; cbn in G; lia|]). destruct H.
Qed.
Lemma accepted_nodup apis : (forall n, accepted_decls (decls n apis)) -> NoDup (names (structs_of apis)).
Proof.
  intros H. assert (G := fun n => decls_shared_count n apis H). clear H. induction (structs_of apis) as [|s l IH]; [constructor|].
  cbn. constructor.
  - intros Hin. specialize (G (struct_rust s)). cbn in G. rewrite String.eqb_refl in G. cbn in G.
    apply in_map_iff in Hin. destruct Hin as [s' [E Hs']].
    assert (Hf : In s' (filter (fun s0 => String.eqb (struct_rust s0) (struct_rust s)) l)) by (apply filter_In; split; [exact Hs'|apply String.eqb_eq; exact E]).
    destruct (filter _ l); [destruct Hf|cbn in G; lia].
  - apply IH. intros n. specialize (G n). cbn in G. destruct (String.eqb (struct_rust s) n); cbn in G; lia.
Qed.

(** Collection ends for every bridge. *)
Lemma pass_len structs rust aliases order : forall imp kept imp' new,
  retain_pass structs rust aliases order imp = (kept, imp', new) ->
  List.length kept <= List.length order /\ (new = true -> List.length kept < List.length order).
Proof.
  induction order as [|x order IH]; intros imp kept imp' new; cbn.
  - intros H; injection H as <- <- <-. split; [auto|discriminate].
  - destruct (scan_fields _ _ _ _ _ _) as [u|keep].
    + destruct (retain_pass structs rust aliases order (x :: imp)) as [[k i] n] eqn:E. intros H; injection H as <- <- <-.
      destruct (IH _ _ _ _ E). cbn. lia.
    + destruct (retain_pass structs rust aliases order imp) as [[k i] n] eqn:E. intros H; injection H as <- <- <-.
      destruct (IH _ _ _ _ E) as [A B]. split; [destruct keep; cbn; lia|]. intros ->. specialize (B eq_refl). destruct keep; cbn; lia.
Qed.
Lemma loop_total structs rust aliases ord : (forall n l, Permutation (ord n l) l) -> forall fuel n un imp,
  List.length un < fuel -> exists imp', improper_loop structs rust aliases fuel ord n un imp = Some imp'.
Proof.
  intros Hord. induction fuel as [|fuel IH]; intros n un imp Hlen; [lia|]. cbn.
  pose proof (Permutation_length (Hord n un)) as HP.
  destruct (retain_pass structs rust aliases (ord n un) imp) as [[kept imp'] new] eqn:E.
  destruct (pass_len _ _ _ _ _ _ _ _ E) as [A B]. destruct new; [|eauto]. apply IH. specialize (B eq_refl). lia.
Qed.
Lemma collect_total ord apis : (forall n l, Permutation (ord n l) l) -> exists T errs, collect ord apis = Some (T, errs).
Proof.
  intros Hord. unfold collect. destruct (toposort_spec (structs_of apis)) as [order [errs [-> _]]].
  unfold struct_improper_ctypes. destruct (loop_total (c_structs (collect_apis apis)) (c_rust (collect_apis apis)) (c_aliases (collect_apis apis)) ord Hord
    (S (List.length (c_structs (collect_apis apis)))) 0 (map fst (c_structs (collect_apis apis))) []) as [imp ->]; [rewrite map_length; lia|eauto].
Qed.
