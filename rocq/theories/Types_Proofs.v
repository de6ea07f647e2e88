From Verif Require Import Base Syntax_Model TypeEq_Model TypeEq_Spec TypeEq_Proofs Toposort_Model Toposort_Spec Toposort_Proofs Toposort_Proofs2 Types_Model Types_Spec.
From Coq Require Import Relations Permutation.

(** * Maps *)
Lemma assoc_uinsert {A} k (v : A) m x : assoc x (uinsert k v m) = if String.eqb x k then Some v else assoc x m.
Proof.
  unfold uinsert. cbn. destruct (String.eqb_spec x k) as [->|N]; [reflexivity|].
  induction m as [|[y w] m IH]; cbn; [reflexivity|].
  destruct (String.eqb_spec k y) as [->|N2]; cbn.
  - rewrite IH. destruct (String.eqb_spec x y); [contradiction|reflexivity].
  - rewrite IH. reflexivity.
Qed.
Lemma has_uinsert {A} k (v : A) m x : has x (uinsert k v m) = String.eqb x k || has x m.
Proof. unfold has. rewrite assoc_uinsert. destruct (String.eqb x k); reflexivity. Qed.

Lemma smem_cons x y l : smem x (y :: l) = String.eqb x y || smem x l.
Proof. reflexivity. Qed.

(** * What the collected tables contain *)
Lemma collect_snoc apis a : collect_apis (apis ++ [a]) = collect_api (collect_apis apis) a.
Proof. unfold collect_apis. rewrite fold_left_app. reflexivity. Qed.

Definition last_struct (n : string) (apis : list api) : option struct_ :=
  fold_left (fun o a => match a with AStruct s => if String.eqb n (p_rust (st_name s)) then Some s else o | _ => o end) apis None.
Lemma structs_last apis n : assoc n (c_structs (collect_apis apis)) = last_struct n apis.
Proof.
  induction apis as [|a apis IH] using rev_ind; [reflexivity|].
  rewrite collect_snoc. unfold last_struct in *. rewrite fold_left_app, <- IH. cbn [fold_left].
  destruct a; try reflexivity. cbn [collect_api c_structs]. rewrite assoc_uinsert. reflexivity.
Qed.

Lemma last_struct_snoc n apis a : last_struct n (apis ++ [a]) =
  match a with AStruct s => if String.eqb n (p_rust (st_name s)) then Some s else last_struct n apis | _ => last_struct n apis end.
Proof. unfold last_struct. rewrite fold_left_app. reflexivity. Qed.

Lemma last_struct_In n apis s : last_struct n apis = Some s -> In (AStruct s) apis /\ p_rust (st_name s) = n.
Proof.
  induction apis as [|a apis IH] using rev_ind; [discriminate|]. rewrite last_struct_snoc.
  intros H. assert (G : last_struct n apis = Some s \/ a = AStruct s /\ p_rust (st_name s) = n).
  { destruct a; auto. destruct (String.eqb_spec n (p_rust (st_name s0))); auto. injection H as ->. auto. }
  destruct G as [G|[-> G]].
  - destruct (IH G). split; [apply in_or_app|]; auto.
  - split; [apply in_or_app; right; left; reflexivity|exact G].
Qed.
Lemma last_struct_has n apis : is_some (last_struct n apis) = true <-> is_struct apis n.
Proof.
  induction apis as [|a apis IH] using rev_ind.
  - split; [discriminate|intros [s [[] _]]].
  - rewrite last_struct_snoc. assert (G : is_struct (apis ++ [a]) n <-> is_struct apis n \/ exists s, a = AStruct s /\ p_rust (st_name s) = n).
    { unfold is_struct. split.
      - intros [s [H1 H2]]. apply in_app_or in H1. destruct H1 as [H1|[H1|[]]]; [left; eauto|right; eauto].
      - intros [[s [H1 H2]]|[s [-> H2]]]; exists s; (split; [apply in_or_app|exact H2]); [left; exact H1|right; left; reflexivity]. }
    rewrite G. destruct a; try (rewrite IH; split; [auto|intros [H|[s0 [H _]]]; [exact H|discriminate]]).
    destruct (String.eqb_spec n (p_rust (st_name s))).
    + split; [intros _; right; eauto|reflexivity].
    + rewrite IH. split; [auto|]. intros [H|[s0 [H H2]]]; [exact H|]. injection H as ->. congruence.
Qed.

Lemma structs_of_In apis s : In s (structs_of apis) <-> In (AStruct s) apis.
Proof.
  unfold structs_of. rewrite in_flat_map. split.
  - intros [a [H1 H2]]. destruct a; cbn in H2; try contradiction. destruct H2 as [->|[]]. exact H1.
  - intros H. exists (AStruct s). split; [exact H|left; reflexivity].
Qed.

Lemma distinct_unique l a b : NoDup (names l) -> In a l -> In b l -> struct_rust a = struct_rust b -> a = b.
Proof.
  intros Hnd Ha Hb E. apply In_nth_error in Ha, Hb. destruct Ha as [i Hi], Hb as [j Hj].
  assert (i = j); [|congruence]. rewrite NoDup_nth_error in Hnd. apply Hnd.
  - unfold names. rewrite map_length. apply nth_error_Some. congruence.
  - unfold names. rewrite !nth_error_map, Hi, Hj. cbn. congruence.
Qed.

Lemma structs_assoc apis n s : NoDup (names (structs_of apis)) ->
  assoc n (c_structs (collect_apis apis)) = Some s <-> In (AStruct s) apis /\ p_rust (st_name s) = n.
Proof.
  intros Hnd. rewrite structs_last. split; [apply last_struct_In|]. intros [H1 H2].
  assert (H3 : is_some (last_struct n apis) = true) by (apply last_struct_has; exists s; auto).
  destruct (last_struct n apis) as [s'|] eqn:E; [|discriminate]. apply last_struct_In in E. destruct E as [E1 E2].
  f_equal. apply (distinct_unique (structs_of apis)); auto; try (apply structs_of_In; assumption). unfold struct_rust. congruence.
Qed.
Lemma structs_none apis n : assoc n (c_structs (collect_apis apis)) = None <-> ~ is_struct apis n.
Proof. rewrite structs_last, <- last_struct_has. destruct (last_struct n apis); cbn; split; congruence. Qed.

Lemma In_snoc {A} (x a : A) l : In x (l ++ [a]) <-> In x l \/ x = a.
Proof. rewrite in_app_iff. cbn. intuition. Qed.

Lemma enums_has apis n : has n (c_enums (collect_apis apis)) = true <-> is_enum apis n.
Proof.
  induction apis as [|a apis IH] using rev_ind.
  - split; [discriminate|intros [s [[] _]]].
  - rewrite collect_snoc.
    assert (G : is_enum (apis ++ [a]) n <-> is_enum apis n \/ exists s, a = AEnum s /\ p_rust (en_name s) = n).
    { unfold is_enum. setoid_rewrite In_snoc. firstorder. }
    rewrite G. destruct a; cbn; rewrite ?has_uinsert; try (rewrite IH; split; [auto|intros [H|[s0 [H _]]]; [exact H|discriminate]]).
    rewrite orb_true_iff, String.eqb_eq, IH. split; [intros [->|H]; eauto|intros [H|[s0 [H H2]]]; [auto|injection H as ->; auto]].
Qed.
Lemma rust_mem apis n : smem n (c_rust (collect_apis apis)) = true <-> is_rust_type apis n.
Proof.
  induction apis as [|a apis IH] using rev_ind.
  - split; [discriminate|intros [s [[] _]]].
  - rewrite collect_snoc.
    assert (G : is_rust_type (apis ++ [a]) n <-> is_rust_type apis n \/ exists s, a = ARustType s /\ p_rust (et_name s) = n).
    { unfold is_rust_type. setoid_rewrite In_snoc. firstorder. }
    rewrite G. destruct a; cbn; rewrite ?smem_cons; try (rewrite IH; split; [auto|intros [H|[s0 [H _]]]; [exact H|discriminate]]).
    rewrite orb_true_iff, String.eqb_eq, IH. split; [intros [->|H]; eauto|intros [H|[s0 [H H2]]]; [auto|injection H as ->; auto]].
Qed.
Lemma aliases_has apis n : has n (c_aliases (collect_apis apis)) = true <-> is_alias apis n.
Proof.
  induction apis as [|a apis IH] using rev_ind.
  - split; [discriminate|intros [s [[] _]]].
  - rewrite collect_snoc.
    assert (G : is_alias (apis ++ [a]) n <-> is_alias apis n \/ exists s, a = ATypeAlias s /\ p_rust (ta_name s) = n).
    { unfold is_alias. setoid_rewrite In_snoc. firstorder. }
    rewrite G. destruct a; cbn; rewrite ?has_uinsert; try (rewrite IH; split; [auto|intros [H|[s0 [H _]]]; [exact H|discriminate]]).
    rewrite orb_true_iff, String.eqb_eq, IH. split; [intros [->|H]; eauto|intros [H|[s0 [H H2]]]; [auto|injection H as ->; auto]].
Qed.
Lemma cxx_mem apis n : smem n (c_cxx (collect_apis apis)) = true <-> is_cxx_type apis n.
Proof.
  induction apis as [|a apis IH] using rev_ind.
  - split; [discriminate|intros [[s [[] _]]|[[s [[] _]]|[s [[] _]]]]].
  - rewrite collect_snoc.
    assert (G : is_cxx_type (apis ++ [a]) n <-> is_cxx_type apis n \/
       (exists s, a = ACxxType s /\ p_rust (et_name s) = n) \/ (exists s, a = ATypeAlias s /\ p_rust (ta_name s) = n)
       \/ exists s, a = AEnum s /\ p_rust (en_name s) = n /\ en_from_header s = true).
    { unfold is_cxx_type, is_alias. setoid_rewrite In_snoc. split.
      - intros [[t [[H1|H1] H2]]|[[t [[H1|H1] H2]]|[t [[H1|H1] H2]]]]; eauto 10.
      - intros [[[t [H1 H2]]|[[t [H1 H2]]|[t [H1 [H2 H3]]]]]|[[t [H1 H2]]|[[t [H1 H2]]|[t [H1 [H2 H3]]]]]]; eauto 10. }
    rewrite G. destruct a; cbn [collect_api c_cxx]; rewrite ?smem_cons;
      try (rewrite IH; split; [auto|intros [H|[[s0 [H _]]|[[s0 [H _]]|[s0 [H _]]]]]; [exact H|discriminate..]]).
    + destruct (en_from_header e) eqn:Eh; rewrite ?smem_cons, ?orb_true_iff, ?String.eqb_eq, IH.
      * split; [intros [->|H]; eauto 10|intros [H|[[s0 [H _]]|[[s0 [H _]]|[s0 [H [H2 _]]]]]]; [auto|discriminate..|injection H as ->; auto]].
      * split; [auto|intros [H|[[s0 [H _]]|[[s0 [H _]]|[s0 [H [H2 H3]]]]]]; [auto|discriminate..|injection H as ->; congruence]].
    + rewrite orb_true_iff, String.eqb_eq, IH.
      split; [intros [->|H]; eauto 10|intros [H|[[s0 [H H2]]|[[s0 [H _]]|[s0 [H [H2 _]]]]]]; [auto|injection H as ->; auto|discriminate..]].
    + rewrite orb_true_iff, String.eqb_eq, IH.
      split; [intros [->|H]; eauto 10|intros [H|[[s0 [H _]]|[[s0 [H H2]]|[s0 [H [H2 _]]]]]]; [auto|discriminate..|injection H as ->; auto|discriminate]].
Qed.

(** * C07: pod *)
Section Pod.
  Variable apis : list api.
  Hypothesis Hnd : NoDup (names (structs_of apis)).
  Let structs := c_structs (collect_apis apis).
  Let enums := c_enums (collect_apis apis).
  Notation pod := (is_guaranteed_pod structs enums).

  Lemma all_fields_mono (p q : ty -> option bool) fs b :
    (forall t b, p t = Some b -> q t = Some b) -> all_fields p fs = Some b -> all_fields q fs = Some b.
  Proof.
    intros H. induction fs as [|f fs IH]; cbn; [auto|].
    destruct (is_none _); [|auto]. destruct (p (v_ty f)) as [[|]|] eqn:E; try discriminate; rewrite (H _ _ E); auto.
  Qed.
  Lemma pod_mono fuel : forall t b fuel', fuel <= fuel' -> pod fuel t = Some b -> pod fuel' t = Some b.
  Proof.
    induction fuel as [|fuel IH]; intros t b fuel' Hle; [discriminate|].
    destruct fuel' as [|fuel']; [lia|]. cbn. destruct t; auto.
    - destruct (atom_from_str (n_rust n)) as [[]|]; auto. destruct (assoc _ structs); auto.
      apply all_fields_mono. intros u c. apply IH. lia.
    - apply IH. lia.
  Qed.

  (** by-value successor relation on names *)
  Definition step (x y : string) : Prop :=
    exists A B, In A (structs_of apis) /\ In B (structs_of apis) /\ struct_rust A = x /\ struct_rust B = y /\ contains A B.

  Lemma step_cycle x : clos_trans _ step x x -> has_cycle contains (structs_of apis).
  Proof.
    assert (G : forall x y, clos_trans _ step x y -> exists A B, In A (structs_of apis) /\ In B (structs_of apis) /\ struct_rust A = x /\ struct_rust B = y /\
       clos_trans _ (fun X Y => In X (structs_of apis) /\ In Y (structs_of apis) /\ contains X Y) A B).
    { intros u v H. induction H as [u v [A [B [H1 [H2 [H3 [H4 H5]]]]]]|u v w H1 IH1 H2 IH2].
      - exists A, B. repeat split; auto. apply t_step. auto.
      - destruct IH1 as [A [B [E1 [E2 [E3 [E4 E5]]]]]], IH2 as [B' [C [F1 [F2 [F3 [F4 F5]]]]]].
        assert (B = B') by (eapply distinct_unique; eauto; congruence). subst B'. exists A, C. repeat split; auto. eapply t_trans; eauto. }
    intros H. destruct (G _ _ H) as [A [B [E1 [E2 [E3 [E4 E5]]]]]]. assert (A = B) by (eapply distinct_unique; eauto; congruence). subst.
    exists B. exact E5.
  Qed.

  Hypothesis Hac : ~ has_cycle contains (structs_of apis).

  Lemma fields_fuel fs : (forall f, In f fs -> exists fuel b, pod fuel (v_ty f) = Some b) ->
    exists fuel b, all_fields (pod fuel) fs = Some b.
  Proof.
    induction fs as [|f fs IH]; intros H; [exists 0, true; reflexivity|].
    destruct (H f (or_introl eq_refl)) as [n1 [b1 E1]]. destruct IH as [n2 [b2 E2]]; [intros; apply H; right; auto|].
    exists (Nat.max n1 n2). cbn. destruct (is_none (prim_kind_of (v_ty f))); [|eauto].
    rewrite (pod_mono _ _ _ (Nat.max n1 n2) (Nat.le_max_l _ _) E1). destruct b1; [|eauto].
    exists b2. eapply all_fields_mono; [|exact E2]. intros t b. apply pod_mono. apply Nat.le_max_r.
  Qed.

  Lemma pod_terminates_aux k : forall path, NoDup path -> incl path (names (structs_of apis)) ->
    List.length (names (structs_of apis)) - List.length path <= k ->
    forall t, (forall p x, In p path -> holds_inline t x -> is_struct apis x -> clos_trans _ step p x) ->
    exists fuel b, pod fuel t = Some b.
  Proof.
    induction k as [k IHk] using lt_wf_ind. intros path Hp Hincl Hk t.
    induction t using ty_ind'; intros Hreach; try (exists 1; eexists; reflexivity).
    - destruct (atom_from_str (n_rust n)) as [a|] eqn:Ea; [exists 1; cbn; rewrite Ea; destruct a; eauto|].
      destruct (assoc (n_rust n) structs) as [s|] eqn:Es; [|exists 1; cbn; rewrite Ea, Es; eauto].
      pose proof Es as Es'. unfold structs in Es'. apply (structs_assoc apis _ _ Hnd) in Es'. destruct Es' as [HA HN].
      assert (Hst : is_struct apis (n_rust n)) by (exists s; auto).
      assert (Hni : ~ In (n_rust n) path).
      { intros Hin. apply Hac. eapply step_cycle. apply (Hreach _ _ Hin (hi_ident n) Hst). }
      assert (Hin2 : incl (n_rust n :: path) (names (structs_of apis))).
      { intros x [<-|Hx]; [|auto]. rewrite <- HN. apply (in_map struct_rust). apply structs_of_In. exact HA. }
      assert (Hnd2 : NoDup (n_rust n :: path)) by (constructor; assumption).
      pose proof (NoDup_incl_length Hnd2 Hin2) as Hlen. cbn in Hlen.
      destruct (fields_fuel (st_fields s)) as [fuel [b Hb]].
      { intros f Hf. apply (IHk (List.length (names (structs_of apis)) - List.length (n_rust n :: path))) with (path := n_rust n :: path); auto.
        - cbn. lia.
        - intros p x Hpx Hhx Hsx.
          assert (Hstep : step (n_rust n) x).
          { destruct Hsx as [B [HB HBn]]. exists s, B. repeat split; auto; try (apply structs_of_In; assumption).
            exists f. unfold struct_rust. rewrite HBn. auto. }
          destruct Hpx as [<-|Hpx]; [apply t_step; exact Hstep|].
          eapply t_trans; [apply (Hreach _ _ Hpx (hi_ident n) Hst)|apply t_step; exact Hstep]. }
      exists (S fuel), b. cbn. rewrite Ea, Es. exact Hb.
    - destruct IHt as [fuel [b Hb]]; [|exists (S fuel), b; exact Hb].
      intros p x H1 H2 H3. apply (Hreach p x H1); auto. constructor. exact H2.
  Qed.

  Lemma pod_terminates t : exists fuel b, pod fuel t = Some b.
  Proof.
    apply (pod_terminates_aux (List.length (names (structs_of apis))) []).
    - constructor.
    - intros x [].
    - lia.
    - intros p x [].
  Qed.

  Lemma prim_scalar t : is_none (prim_kind_of t) = false <-> scalar t.
  Proof.
    split.
    - destruct t; cbn; try discriminate; [|constructor].
      destruct (atom_from_str (n_rust n)) as [a|] eqn:E; [|discriminate].
      intros H. apply sc_atom with (a := a); auto; intros ->; discriminate.
    - intros H. destruct H as [n a E N1 N2|]; [|reflexivity]. cbn. rewrite E. destruct a; auto; contradiction.
  Qed.

  Lemma not_primitive n : ~ is_primitive n <-> atom_from_str n = None.
  Proof. unfold is_primitive. destruct (atom_from_str n) as [a|]; split; try congruence; [intros H; exfalso; eauto|intros _ [a H]; discriminate]. Qed.

  Lemma blocked_ident n : blocked apis (TIdent n) ->
    (exists a, atom_from_str (n_rust n) = Some a /\ (a = ACxxString \/ a = ARustString)) \/
    (~ is_primitive (n_rust n) /\ ~ is_struct apis (n_rust n) /\ ~ is_enum apis (n_rust n)) \/
    (~ is_primitive (n_rust n) /\ exists s f, In (AStruct s) apis /\ p_rust (st_name s) = n_rust n /\ In f (st_fields s) /\ (scalar (v_ty f) \/ blocked apis (v_ty f))).
  Proof.
    remember (TIdent n) as t eqn:E. intros H. destruct H as [m a H1 H2|m H1 H2 H3|t [u Hu]| |t len H|s f m H1 H2 H3 H4 H5]; try discriminate E.
    - injection E as ->. left. eauto.
    - injection E as ->. right; left; auto.
    - subst. repeat (destruct Hu as [Hu|Hu]; try discriminate Hu); discriminate.
    - injection E as ->. right; right. split; [exact H1|]. exists s, f. auto.
  Qed.
  Lemma blocked_array t len : blocked apis (TArray t len) -> blocked apis t.
  Proof.
    remember (TArray t len) as t0 eqn:E. intros H. destruct H as [m a H1 H2|m H1 H2 H3|t' [u Hu]| |t' len' H|s f m H1 H2 H3 H4 H5]; try discriminate E.
    - subst. repeat (destruct Hu as [Hu|Hu]; try discriminate Hu); discriminate.
    - injection E as -> ->. exact H.
  Qed.
  Lemma blocked_free t : match t with TRef _ _ _ _ | TStr _ | TFn _ _ _ _ | TSlice _ _ _ | TPtr _ _ => True | _ => False end -> ~ blocked apis t.
  Proof.
    intros Ht H. destruct H as [m a H1 H2|m H1 H2 H3|t' [u Hu]| |t' len' H|s f m H1 H2 H3 H4 H5]; try contradiction.
    repeat (destruct Hu as [Hu|Hu]; try (subst; contradiction)).
  Qed.

  Lemma pod_correct fuel : forall t b, pod fuel t = Some b -> (b = true <-> ~ blocked apis t).
  Proof.
    induction fuel as [|fuel IH]; intros t b; [discriminate|].
    destruct t; cbn;
      try (intros H; injection H as <-; split; [discriminate|intros Hn; exfalso; apply Hn; solve [apply bl_void|apply bl_owner; eauto 10]]);
      try (intros H; injection H as <-; split; [intros _; apply blocked_free; exact I|reflexivity]).
    - destruct (atom_from_str (n_rust n)) as [a|] eqn:Ea.
      + assert (Hb : blocked apis (TIdent n) <-> (a = ACxxString \/ a = ARustString)).
        { split.
          - intros HB. apply blocked_ident in HB. destruct HB as [[a' [E1 E2]]|[[E1 _]|[E1 _]]].
            + rewrite Ea in E1. injection E1 as <-. exact E2.
            + exfalso. apply E1. eexists; eauto.
            + exfalso. apply E1. eexists; eauto.
          - intros H. eapply bl_string; eauto. }
        rewrite Hb. destruct a; intros H; injection H as <-; split; try discriminate; try (intros _ [?|?]; discriminate); try reflexivity; intros H; exfalso; apply H; auto.
      + apply not_primitive in Ea. destruct (assoc (n_rust n) structs) as [s|] eqn:Es.
        * pose proof Es as Es'. unfold structs in Es'. apply (structs_assoc apis _ _ Hnd) in Es'. destruct Es' as [HA HN].
          assert (Hb : blocked apis (TIdent n) <-> exists f, In f (st_fields s) /\ (scalar (v_ty f) \/ blocked apis (v_ty f))).
          { split.
            - intros HB. apply blocked_ident in HB. destruct HB as [[a' [E1 E2]]|[[E1 [E2 _]]|[E1 [s' [f [E2 [E3 [E4 E5]]]]]]]].
              + exfalso. apply Ea. eexists; eauto.
              + exfalso. apply E2. exists s; auto.
              + assert (s = s') by (apply (distinct_unique (structs_of apis)); auto; try (apply structs_of_In; assumption); unfold struct_rust; congruence).
                subst s'. eauto.
            - intros [f [H1 H2]]. eapply bl_struct; eauto. }
          rewrite Hb. clear - IH. revert b. induction (st_fields s) as [|f fs IHf]; intros b; cbn.
          -- intros H; injection H as <-. split; [intros _ [f [[] _]]|reflexivity].
          -- destruct (is_none (prim_kind_of (v_ty f))) eqn:Ek.
             ++ destruct (pod fuel (v_ty f)) as [[|]|] eqn:Ep; [| |discriminate].
                ** intros H. rewrite (IHf _ H). apply IH in Ep. split.
                   --- intros Hn [g [[->|Hg] H2]]; [|apply Hn; eauto]. destruct H2 as [H2|H2]; [apply prim_scalar in H2; congruence|]. apply (proj1 Ep eq_refl H2).
                   --- intros Hn [g [Hg H2]]. apply Hn; eauto.
                ** intros H; injection H as <-. apply IH in Ep. split; [discriminate|]. intros Hn.
                   apply Ep. intros HB. apply Hn. eauto.
             ++ intros H; injection H as <-. split; [discriminate|]. intros Hn. exfalso. apply Hn. exists f. split; [auto|]. left. apply prim_scalar. exact Ek.
        * apply structs_none in Es. intros H; injection H as <-.
          assert (Hb : blocked apis (TIdent n) <-> ~ is_enum apis (n_rust n)).
          { split.
            - intros HB. apply blocked_ident in HB. destruct HB as [[a' [E1 E2]]|[[E1 [E2 E3]]|[E1 [s' [f [E2 [E3 [E4 E5]]]]]]]].
              + exfalso. apply Ea. eexists; eauto.
              + exact E3.
              + exfalso. apply Es. exists s'. auto.
            - intros H. apply bl_opaque; auto. }
          rewrite Hb. rewrite <- enums_has. fold enums. destruct (has (n_rust n) enums); split; auto; try discriminate; intros H; exfalso; apply H; discriminate.
    - intros H. rewrite (IH _ _ H). split; intros Hn HB; apply Hn; [apply blocked_array in HB; exact HB|constructor; exact HB].
  Qed.
End Pod.
