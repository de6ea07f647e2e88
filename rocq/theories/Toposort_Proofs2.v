From Verif Require Import Base Syntax_Model Toposort_Model Toposort_Spec Toposort_Proofs.
From Coq Require Import Relations Permutation.

Definition names (l : list struct_) : list string := map struct_rust l.

Lemma struct_index_nodup l : NoDup (names l) -> forall i nm j,
  struct_index_from i nm l = Some j <-> exists s, nth_error l (j - i) = Some s /\ i <= j /\ struct_rust s = nm.
Proof.
  induction l as [|s l IH]; intros Hnd i nm j; cbn [struct_index_from].
  - split; [discriminate|]. intros [s [H _]]. destruct (j - i); discriminate.
  - cbn in Hnd. inversion Hnd as [|? ? Hni Hnd']; subst. specialize (IH Hnd').
    destruct (struct_index_from (S i) nm l) as [k|] eqn:E.
    + pose proof E as E'. apply IH in E'. destruct E' as [s' [E1 [E2 E3]]]. split.
      * intros H; injection H as <-. exists s'. replace (k - i) with (S (k - S i)) by lia. cbn. repeat split; auto; lia.
      * intros [s2 [H1 [H2 H3]]]. destruct (j - i) as [|d] eqn:Ed.
        { cbn in H1. injection H1 as <-. exfalso. apply Hni. apply nth_error_In in E1. apply in_map_iff. exists s'. split; congruence. }
        cbn in H1. rewrite <- E. apply IH. exists s2. replace (j - S i) with d by lia. repeat split; auto; lia.
    + destruct (String.eqb_spec (p_rust (st_name s)) nm).
      * split.
        -- intros H; injection H as <-. exists s. rewrite Nat.sub_diag. repeat split; auto.
        -- intros [s2 [H1 [H2 H3]]]. destruct (j - i) as [|d] eqn:Ed; [f_equal; lia|].
           cbn in H1. exfalso. apply Hni. apply nth_error_In in H1. apply in_map_iff. exists s2. split; [|exact H1]. unfold struct_rust in *. congruence.
      * split; [discriminate|]. intros [s2 [H1 [H2 H3]]]. destruct (j - i) as [|d] eqn:Ed.
        { cbn in H1. injection H1 as <-. contradiction. }
        rewrite <- E. apply IH. exists s2. replace (j - S i) with d by lia. repeat split; auto; lia.
Qed.

Lemma struct_index_spec l nm j : NoDup (names l) ->
  struct_index nm l = Some j <-> exists s, nth_error l j = Some s /\ struct_rust s = nm.
Proof.
  intros H. unfold struct_index. rewrite struct_index_nodup by exact H. rewrite Nat.sub_0_r.
  split; intros [s Hs]; exists s; intuition lia.
Qed.

Lemma edge_contains l i j : NoDup (names l) ->
  edge l i j <-> exists A B, nth_error l i = Some A /\ nth_error l j = Some B /\ contains_directly A B.
Proof.
  intros Hnd. split.
  - intros [s [f [m [H1 [H2 [H3 H4]]]]]]. apply struct_index_spec in H4; [|exact Hnd]. destruct H4 as [B [H4 H5]].
    exists s, B. repeat split; auto. exists f, m. auto.
  - intros [A [B [H1 [H2 [f [m [H3 [H4 H5]]]]]]]]. exists A, f, m. repeat split; auto.
    apply struct_index_spec; [exact Hnd|]. exists B. auto.
Qed.

Lemma nth_error_names_inj l i j A : NoDup (names l) -> nth_error l i = Some A -> nth_error l j = Some A -> i = j.
Proof.
  intros Hnd Hi Hj. rewrite NoDup_nth_error in Hnd. apply Hnd.
  - unfold names. rewrite map_length. apply nth_error_Some. congruence.
  - unfold names. rewrite !nth_error_map, Hi, Hj. reflexivity.
Qed.

Lemma cyclic_has_cycle l : NoDup (names l) -> cyclic l <-> has_cycle contains_directly l.
Proof.
  intros Hnd. split.
  - intros [k Hk].
    assert (G : forall i j, clos_trans _ (edge l) i j -> exists A B, nth_error l i = Some A /\ nth_error l j = Some B /\
       clos_trans _ (fun X Y => In X l /\ In Y l /\ contains_directly X Y) A B).
    { intros i j H. induction H as [i j H|i j m H1 IH1 H2 IH2].
      - apply edge_contains in H; [|exact Hnd]. destruct H as [A [B [E1 [E2 E3]]]]. exists A, B. repeat split; auto.
        apply t_step. eauto using nth_error_In.
      - destruct IH1 as [A [B [E1 [E2 E3]]]], IH2 as [B' [C [F1 [F2 F3]]]]. assert (B = B') by congruence. subst B'.
        exists A, C. repeat split; auto. eapply t_trans; eauto. }
    destruct (G _ _ Hk) as [A [B [E1 [E2 E3]]]]. assert (A = B) by congruence. subst. exists B. exact E3.
  - intros [A HA].
    assert (G : forall A B, clos_trans _ (fun X Y => In X l /\ In Y l /\ contains_directly X Y) A B ->
       exists i j, nth_error l i = Some A /\ nth_error l j = Some B /\ clos_trans _ (edge l) i j).
    { intros X Y H. induction H as [X Y [H1 [H2 H3]]|X Y Z H1 IH1 H2 IH2].
      - apply In_nth_error in H1, H2. destruct H1 as [i H1], H2 as [j H2]. exists i, j. repeat split; auto.
        apply t_step. apply edge_contains; eauto.
      - destruct IH1 as [i [j [E1 [E2 E3]]]], IH2 as [j' [m [F1 [F2 F3]]]].
        assert (j = j') by (eapply nth_error_names_inj; eauto). subst j'. exists i, m. repeat split; auto. eapply t_trans; eauto. }
    destruct (G _ _ HA) as [i [j [E1 [E2 E3]]]]. assert (i = j) by (eapply nth_error_names_inj; eauto). subst. exists j. exact E3.
Qed.

Definition pick (l : list struct_) (order : list nat) : list struct_ :=
  flat_map (fun i => match nth_error l i with Some s => [s] | None => [] end) order.

Lemma pick_seq_from l : forall i pre, List.length pre = i -> pick (pre ++ l) (seq i (List.length l)) = l.
Proof.
  induction l as [|s l IH]; intros i pre Hp; [reflexivity|]. cbn [List.length seq pick flat_map].
  fold (pick (pre ++ s :: l)). rewrite nth_error_app2 by lia. replace (i - List.length pre) with 0 by lia. cbn.
  f_equal. specialize (IH (S i) (pre ++ [s])). rewrite <- app_assoc in IH. apply IH. rewrite app_length. cbn. lia.
Qed.

Lemma pick_seq l : pick l (seq 0 (List.length l)) = l.
Proof. exact (pick_seq_from l 0 [] eq_refl). Qed.

Lemma pick_perm l o1 o2 : Permutation o1 o2 -> Permutation (pick l o1) (pick l o2).
Proof. intros H. unfold pick. apply Permutation_flat_map. exact H. Qed.

Lemma pick_before l order i j A B : nth_error l i = Some A -> nth_error l j = Some B -> before order j i ->
  exists l1 l2, pick l order = l1 ++ A :: l2 /\ In B l1.
Proof.
  intros Hi Hj [l1 [l2 [-> Hin]]]. exists (pick l l1), (pick l l2). split.
  - unfold pick. rewrite flat_map_app. cbn [flat_map]. rewrite Hi. reflexivity.
  - unfold pick. apply in_flat_map. exists j. rewrite Hj. split; [exact Hin|left; reflexivity].
Qed.

(** write_until / write_loop *)
Definition em_structs (l : list emitted) : list struct_ :=
  flat_map (fun e => match e with EmStruct s => [s] | _ => [] end) l.
Definition em_others (l : list emitted) : list emitted :=
  filter (fun e => match e with EmStruct _ => false | _ => true end) l.

Lemma write_until_spec in_cxx nm it : forall it' ns outs, write_until in_cxx nm it = (it', ns, outs) ->
  exists consumed, it = consumed ++ it' /\ ns = names consumed /\
    outs = filter (fun s => negb (in_cxx (struct_rust s))) consumed /\ (In nm (names it) -> In nm ns).
Proof.
  induction it as [|s it IH]; intros it' ns outs; cbn [write_until].
  - intros H; injection H as <- <- <-. exists []. repeat split; auto.
  - destruct (String.eqb_spec (p_rust (st_name s)) nm) as [E|E].
    + intros H; injection H as <- <- <-. exists [s]. cbn. unfold struct_rust. destruct (in_cxx _); cbn; repeat split; auto.
    + destruct (write_until in_cxx nm it) as [[it1 ns1] outs1]. destruct (IH _ _ _ eq_refl) as [c [E1 [E2 [E3 E4]]]].
      intros H; injection H as <- <- <-. exists (s :: c). cbn. rewrite E1, E2, E3. unfold struct_rust at 1 3.
      repeat split; [destruct (in_cxx _); reflexivity|].
      intros [H|H]; [contradiction|]. right. rewrite <- E2. apply E4. rewrite E1. exact H.
Qed.

Lemma em_structs_map l : em_structs (map EmStruct l) = l.
Proof. induction l as [|s l IH]; cbn; [reflexivity|f_equal; exact IH]. Qed.
Lemma em_structs_app a b : em_structs (a ++ b) = em_structs a ++ em_structs b.
Proof. apply flat_map_app. Qed.
Lemma em_others_map l : em_others (map EmStruct l) = [].
Proof. induction l; cbn; auto. Qed.
Lemma em_others_app a b : em_others (a ++ b) = em_others a ++ em_others b.
Proof. apply filter_app. Qed.


(** The loop emits, in sorted order, exactly the non-C++ structs it consumes; and
    every struct item is consumed. *)
Lemma write_loop_structs in_cxx apis : forall written it consumed,
  (forall x, In x written <-> In x (names consumed)) ->
  (forall s, In s (structs_of apis) -> In (struct_rust s) (names (consumed ++ it))) ->
  NoDup (names (consumed ++ it)) ->
  exists c rest, it = c ++ rest /\
    em_structs (write_loop in_cxx apis written it) = filter (fun s => negb (in_cxx (struct_rust s))) c /\
    (forall s, In s (structs_of apis) -> In (struct_rust s) (names (consumed ++ c))).
Proof.
  induction apis as [|a apis IH]; intros written it consumed Hw Hin Hnd.
  - exists [], it. cbn. repeat split; auto. intros s [].
  - assert (skip : write_loop in_cxx (a :: apis) written it = write_loop in_cxx apis written it \/
                   (exists e, write_loop in_cxx (a :: apis) written it = e ++ write_loop in_cxx apis written it /\ em_structs e = []) \/ exists s, a = AStruct s).
    { destruct a; cbn [write_loop]; auto.
      - right; right; eauto.
      - right; left. eexists; split; [reflexivity|]. destruct (in_cxx _); [destruct (en_from_header e)|]; reflexivity.
      - right; left. exists [EmOpaque t]. split; reflexivity. }
    assert (Hns : (forall s, a <> AStruct s) -> structs_of (a :: apis) = structs_of apis) by (intros Hne; destruct a; try reflexivity; exfalso; eapply Hne; reflexivity).
    assert (Hcase : (exists s, a = AStruct s) \/ (forall s, a <> AStruct s)) by (destruct a; eauto; right; intros; discriminate).
    destruct Hcase as [[s ->]|Hne].
    + cbn [write_loop]. destruct (smem (p_rust (st_name s)) written) eqn:Es.
      * apply smem_In in Es. destruct (IH written it consumed) as [c [rest [E1 [E2 E3]]]]; auto.
        { intros s0 Hs0. apply Hin. right. exact Hs0. }
        exists c, rest. split; [exact E1|]. split; [exact E2|]. intros s0 [->|Hs0]; [|auto].
        unfold names. rewrite map_app. apply in_or_app. left. apply Hw. exact Es.
      * destruct (write_until in_cxx (p_rust (st_name s)) it) as [[it' ns] outs] eqn:Ew.
        destruct (write_until_spec _ _ _ _ _ _ Ew) as [c [E1 [E2 [E3 E4]]]].
        destruct (IH (ns ++ written) it' (consumed ++ c)) as [c2 [rest [F1 [F2 F3]]]].
        { intros x. unfold names. rewrite map_app, !in_app_iff. rewrite (Hw x), E2. unfold names. tauto. }
        { intros s0 Hs0. rewrite <- app_assoc, <- E1. apply Hin. right. exact Hs0. }
        { rewrite <- app_assoc, <- E1. exact Hnd. }
        exists (c ++ c2), rest. split; [rewrite E1, F1, app_assoc; reflexivity|]. split.
        { rewrite em_structs_app, em_structs_map, F2, filter_app, E3. reflexivity. }
        intros s0 [->|Hs0]; [|rewrite app_assoc; auto].
        assert (Hx : In (struct_rust s0) (names it)).
        { specialize (Hin s0 (or_introl eq_refl)). unfold names in Hin. rewrite map_app in Hin. apply in_app_or in Hin.
          destruct Hin as [Hx|Hx]; [|exact Hx]. exfalso. apply smem_false in Es. apply Es. apply Hw. exact Hx. }
        apply E4 in Hx. rewrite E2 in Hx. unfold names. rewrite !map_app, !in_app_iff. unfold names in Hx. tauto.
    + rewrite Hns in * by exact Hne. destruct (IH written it consumed Hw Hin Hnd) as [c [rest [E1 [E2 E3]]]].
      exists c, rest. split; [exact E1|]. split; [|exact E3].
      destruct skip as [->|[[e [-> He]]|[s Hs]]]; [exact E2| |exfalso; eapply Hne; eauto].
      rewrite em_structs_app, He, E2. reflexivity.
Qed.

Lemma structs_of_others in_cxx apis : forall written it,
  em_others (write_loop in_cxx apis written it) =
  flat_map (fun a => match a with
     | AEnum e => if in_cxx (p_rust (en_name e)) then (if en_from_header e then [] else [EmCheckEnum e]) else [EmEnum e]
     | ARustType t => [EmOpaque t] | _ => [] end) apis.
Proof.
  induction apis as [|a apis IH]; intros written it; [reflexivity|].
  destruct a; cbn [write_loop flat_map app]; auto.
  - destruct (smem _ written); [apply IH|]. destruct (write_until _ _ it) as [[it' ns] outs].
    rewrite em_others_app, em_others_map. apply IH.
  - rewrite em_others_app, IH. destruct (in_cxx _); [destruct (en_from_header e)|]; reflexivity.
  - cbn [em_others filter]. f_equal. apply IH.
Qed.

Lemma filter_Permutation {A} (p : A -> bool) l l' : Permutation l l' -> Permutation (filter p l) (filter p l').
Proof.
  induction 1; cbn; auto.
  - destruct (p x); auto.
  - destruct (p x), (p y); auto; apply perm_swap.
  - eapply Permutation_trans; eauto.
Qed.

Theorem write_spec in_cxx apis : NoDup (names (structs_of apis)) ->
  exists em order errs, write_data_structures in_cxx apis = Some em /\ toposort (structs_of apis) = Some (order, errs) /\
    em_structs em = filter (fun s => negb (in_cxx (struct_rust s))) (pick (structs_of apis) order) /\
    Permutation (em_structs em) (filter (fun s => negb (in_cxx (struct_rust s))) (structs_of apis)) /\
    em_others em = flat_map (fun a => match a with
     | AEnum e => if in_cxx (p_rust (en_name e)) then (if en_from_header e then [] else [EmCheckEnum e]) else [EmEnum e]
     | ARustType t => [EmOpaque t] | _ => [] end) apis.
Proof.
  intros Hnd. destruct (toposort_spec (structs_of apis)) as [order [errs [E [HP [HC HT]]]]].
  unfold write_data_structures. rewrite E. fold (pick (structs_of apis) order).
  set (S := pick (structs_of apis) order).
  assert (HS : Permutation S (structs_of apis)).
  { unfold S. rewrite <- (pick_seq (structs_of apis)) at 2. apply pick_perm. exact HP. }
  assert (HN : Permutation (names S) (names (structs_of apis))) by (apply Permutation_map; exact HS).
  exists (write_loop in_cxx apis [] S), order, errs. split; [reflexivity|]. split; [reflexivity|].
  destruct (write_loop_structs in_cxx apis [] S []) as [c [rest [E1 [E2 E3]]]].
  { intros x; cbn; tauto. }
  { intros s Hs. cbn. apply (Permutation_in _ (Permutation_sym HN)). apply in_map. exact Hs. }
  { cbn. apply (Permutation_NoDup (Permutation_sym HN)). exact Hnd. }
  assert (rest = []).
  { destruct rest as [|s rest]; [reflexivity|]. exfalso.
    assert (Hs : In s (structs_of apis)) by (apply (Permutation_in _ HS); rewrite E1; apply in_or_app; right; left; reflexivity).
    specialize (E3 s Hs). cbn in E3. assert (Hn2 : NoDup (names S)) by (apply (Permutation_NoDup (Permutation_sym HN)); exact Hnd).
    rewrite E1 in Hn2. unfold names in Hn2. rewrite map_app in Hn2. cbn in Hn2. apply NoDup_remove_2 in Hn2. apply Hn2. apply in_or_app. left. exact E3. }
  subst rest. rewrite app_nil_r in E1. subst c. split; [exact E2|]. split; [|apply structs_of_others].
  rewrite E2. apply filter_Permutation. exact HS.
Qed.

Lemma filter_split {A} (p : A -> bool) l1 x l2 : p x = true -> filter p (l1 ++ x :: l2) = filter p l1 ++ x :: filter p l2.
Proof. intros H. rewrite filter_app. cbn. rewrite H. reflexivity. Qed.

Lemma em_split em a b A : em_structs em = a ++ A :: b ->
  exists l1 l2, em = l1 ++ EmStruct A :: l2 /\ em_structs l1 = a.
Proof.
  revert a; induction em as [|e em IH]; intros a H.
  - destruct a; discriminate.
  - destruct e; cbn in H; try (destruct (IH a H) as [l1 [l2 [-> E]]]; eexists (_ :: l1), l2; split; [reflexivity|exact E]).
    destruct a as [|x a]; cbn in H.
    + injection H as -> H. exists [], em. split; reflexivity.
    + injection H as <- H. destruct (IH a H) as [l1 [l2 [-> E]]]. exists (EmStruct s :: l1), l2. split; [reflexivity|]. cbn. f_equal. exact E.
Qed.

Lemma em_structs_In em s : In s (em_structs em) <-> In (EmStruct s) em.
Proof.
  unfold em_structs. rewrite in_flat_map. split.
  - intros [e [He Hs]]. destruct e; cbn in Hs; try contradiction. destruct Hs as [->|[]]. exact He.
  - intros H. exists (EmStruct s). split; [exact H|left; reflexivity].
Qed.

Theorem order_spec in_cxx apis em order : NoDup (names (structs_of apis)) ->
  write_data_structures in_cxx apis = Some em -> toposort (structs_of apis) = Some (order, []) ->
  forall A B, In A (structs_of apis) -> In B (structs_of apis) -> contains_directly A B ->
    in_cxx (struct_rust A) = false -> in_cxx (struct_rust B) = false ->
    exists l1 l2, em = l1 ++ EmStruct A :: l2 /\ In (EmStruct B) l1.
Proof.
  intros Hnd Hw Ht A B HA HB Hc CA CB.
  destruct (write_spec in_cxx apis Hnd) as [em' [order' [errs [E1 [E2 [E3 _]]]]]].
  rewrite Hw in E1. injection E1 as <-. rewrite Ht in E2. injection E2 as <- <-.
  destruct (toposort_spec (structs_of apis)) as [order'' [errs'' [E [_ [_ HT]]]]].
  rewrite Ht in E. injection E as <- <-.
  apply In_nth_error in HA, HB. destruct HA as [i Hi], HB as [j Hj].
  assert (He : edge (structs_of apis) i j) by (apply edge_contains; eauto 6).
  specialize (HT eq_refl _ _ He). destruct (pick_before _ _ _ _ _ _ Hi Hj HT) as [l1 [l2 [Ep Hb]]].
  rewrite Ep, filter_split in E3 by (rewrite CA; reflexivity).
  destruct (em_split _ _ _ _ E3) as [m1 [m2 [-> E4]]]. exists m1, m2. split; [reflexivity|].
  apply em_structs_In. rewrite E4. apply filter_In. split; [exact Hb|rewrite CB; reflexivity].
Qed.

Lemma contains_no_array structs A B : array_free structs -> In A structs -> contains A B -> contains_directly A B.
Proof.
  intros Ha HA [f [Hf Hh]]. remember (v_ty f) as t eqn:Et. remember (struct_rust B) as x eqn:Ex.
  destruct Hh; subst.
  - exists f, n. auto.
  - exfalso. eapply Ha; eauto.
Qed.
