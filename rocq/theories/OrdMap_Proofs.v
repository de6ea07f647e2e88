From Verif Require Import Base OrdMap_Model TypeEq_Spec.

Section P.
  Context {K V : Type} (h : K -> N) (eqb : K -> K -> bool).
  Hypothesis HE : equivalence eqb.
  Hypothesis Hh : forall x y, eqb x y = true -> h x = h y.

  Lemma probe_eqb k x : probe h eqb k x = eqb k x.
  Proof. unfold probe. destruct (eqb k x) eqn:E; [|apply andb_false_r]. rewrite (Hh _ _ E), N.eqb_refl. reflexivity. Qed.

  Lemma eqb_sym_b x y : eqb x y = eqb y x.
  Proof. destruct (eqb x y) eqn:E1, (eqb y x) eqn:E2; auto; [apply (eq_sym_ _ HE) in E1|apply (eq_sym_ _ HE) in E2]; congruence. Qed.

  Lemma contains_eqb s k : hs_contains h eqb s k = existsb (eqb k) s.
  Proof. unfold hs_contains. induction s as [|x s IH]; cbn; [reflexivity|]. rewrite probe_eqb, IH. reflexivity. Qed.

  Definition os_run (l : list K) (s : oset) : oset := fold_left (fun s k => fst (os_insert h eqb s k)) l s.

  Lemma os_run_spec l : forall s, os_vec (os_run l s) = os_vec s ++ firsts eqb (os_set s) l.
  Proof.
    induction l as [|x l IH]; intros s; cbn; [rewrite app_nil_r; reflexivity|].
    unfold os_insert at 2. unfold hs_insert. rewrite contains_eqb. destruct (existsb (eqb x) (os_set s)) eqn:E; cbn.
    - destruct s; cbn in *. apply IH.
    - unfold os_run in IH. rewrite IH. cbn. rewrite <- app_assoc. reflexivity.
  Qed.

  Lemma existsb_cong x y l : eqb x y = true -> existsb (eqb x) l = existsb (eqb y) l.
  Proof.
    intros E. induction l as [|z l IH]; cbn; [reflexivity|]. rewrite IH. f_equal.
    destruct (eqb x z) eqn:E1, (eqb y z) eqn:E2; auto.
    - apply (eq_sym_ _ HE) in E. pose proof (eq_trans_ _ HE _ _ _ E E1). congruence.
    - pose proof (eq_trans_ _ HE _ _ _ E E2). congruence.
  Qed.

  Lemma firsts_mem l : forall seen x, existsb (eqb x) (firsts eqb seen l ++ seen) = existsb (eqb x) (l ++ seen).
  Proof.
    induction l as [|y l IH]; intros seen x; cbn; [reflexivity|].
    destruct (existsb (eqb y) seen) eqn:E; cbn.
    - rewrite IH. destruct (eqb x y) eqn:E2; cbn; [|reflexivity].
      rewrite existsb_app. rewrite (existsb_cong _ _ seen E2), E. apply orb_true_r.
    - specialize (IH (y :: seen) x). rewrite !existsb_app in IH. cbn in IH. rewrite !existsb_app.
      destruct (eqb x y); cbn in *; [reflexivity|exact IH].
  Qed.

  Lemma firsts_snoc l : forall seen x,
    firsts eqb seen (l ++ [x]) = firsts eqb seen l ++ (if existsb (eqb x) (l ++ seen) then [] else [x]).
  Proof.
    induction l as [|y l IH]; intros seen x; cbn.
    - destruct (existsb (eqb x) seen); reflexivity.
    - destruct (existsb (eqb y) seen) eqn:E.
      + rewrite IH. destruct (eqb x y) eqn:E2; cbn; [|reflexivity]. rewrite existsb_app, (existsb_cong _ _ seen E2), E, orb_true_r. reflexivity.
      + rewrite IH. cbn. do 2 f_equal. rewrite !existsb_app. cbn. destruct (eqb x y), (existsb (eqb x) l); reflexivity.
  Qed.

  Lemma firsts_distinct l : forall seen, ForallOrdPairs (fun x y => eqb x y = false) (firsts eqb seen l)
     /\ (forall x, In x (firsts eqb seen l) -> existsb (eqb x) seen = false).
  Proof.
    induction l as [|y l IH]; intros seen; cbn; [split; [constructor|intros x []]|].
    destruct (existsb (eqb y) seen) eqn:E; [apply IH|].
    destruct (IH (y :: seen)) as [H1 H2]. split.
    - constructor; [|exact H1]. apply Forall_forall. intros x Hx. specialize (H2 x Hx). cbn in H2. apply orb_false_iff in H2. rewrite eqb_sym_b. tauto.
    - intros x [<-|Hx]; [exact E|]. specialize (H2 x Hx). cbn in H2. apply orb_false_iff in H2. tauto.
  Qed.

  Notation last_value := (last_value (V:=V) eqb).
  Lemma last_value_snoc ops x v k : last_value (ops ++ [(x, v)]) k = if eqb k x then Some v else last_value ops k.
  Proof.
    induction ops as [|[y w] ops IH]; cbn; [destruct (eqb k x); reflexivity|].
    rewrite IH. destruct (eqb k x); reflexivity.
  Qed.

  Notation om_run := (om_run (V:=V) h eqb).
  Lemma om_run_snoc ops k v m : om_run (ops ++ [(k, v)]) m =
    match om_run ops m with
    | Ok m => match om_insert h eqb m k v with Ok (m, _) => Ok m | Err e => Err e | Panic e => Panic e end
    | Err e => Err e | Panic e => Panic e end.
  Proof.
    revert m; induction ops as [|[x w] ops IH]; intros m; cbn.
    - destruct (om_insert h eqb m k v) as [[m' o]| |]; reflexivity.
    - destruct (om_insert h eqb m x w) as [[m' o]| |]; auto.
  Qed.

  Record inv (ops : list (K * V)) (m : omap (K:=K) (V:=V)) : Prop := Inv
    { i_keys : map fst (om_vec m) = firsts eqb [] (map fst ops);
      i_map : om_map m = combine (map fst (om_vec m)) (seq 0 (List.length (om_vec m)));
      i_vals : forall k v, In (k, v) (om_vec m) -> last_value ops k = Some v }.

  Lemma hm_get_combine keys : forall i k,
    match hm_get h eqb (combine keys (seq i (List.length keys))) k with
    | Some j => exists x, i <= j /\ nth_error keys (j - i) = Some x /\ eqb k x = true
    | None => existsb (eqb k) keys = false
    end.
  Proof.
    induction keys as [|x keys IH]; intros i k; cbn; [reflexivity|].
    rewrite probe_eqb. destruct (eqb k x) eqn:E; cbn.
    - exists x. rewrite Nat.sub_diag. auto.
    - specialize (IH (S i) k). destruct (hm_get _ _ _ k) as [j|].
      + destruct IH as [y [H1 [H2 H3]]]. exists y. replace (j - i) with (S (j - S i)) by lia. auto with arith.
      + exact IH.
  Qed.

  Lemma hm_insert_new keys : forall i k n, existsb (eqb k) keys = false ->
    hm_insert h eqb (combine keys (seq i (List.length keys))) k n = combine keys (seq i (List.length keys)) ++ [(k, n)].
  Proof.
    induction keys as [|x keys IH]; intros i k n H; cbn in *; [reflexivity|].
    apply orb_false_iff in H. rewrite probe_eqb. rewrite (proj1 H). rewrite IH by tauto. reflexivity.
  Qed.

  Lemma combine_snoc {A B} (l1 : list A) (l2 : list B) a b : List.length l1 = List.length l2 ->
    combine (l1 ++ [a]) (l2 ++ [b]) = combine l1 l2 ++ [(a, b)].
  Proof. revert l2; induction l1 as [|x l1 IH]; intros [|y l2] H; cbn in *; try discriminate; [reflexivity|]. rewrite IH by congruence. reflexivity. Qed.

  Lemma replace_nth_keys i v (l : list (K * V)) : map fst (replace_nth i v l) = map fst l.
  Proof. revert i; induction l as [|[k w] l IH]; intros [|i]; cbn; auto. rewrite IH. reflexivity. Qed.
  Lemma replace_nth_len i v (l : list (K * V)) : List.length (replace_nth i v l) = List.length l.
  Proof. rewrite <- (map_length fst), replace_nth_keys, map_length. reflexivity. Qed.
  Lemma replace_nth_In i v (l : list (K * V)) k w : In (k, w) (replace_nth i v l) ->
    (nth_error (map fst l) i = Some k /\ w = v) \/ (exists j, j <> i /\ nth_error l j = Some (k, w)).
  Proof.
    revert i; induction l as [|[x u] l IH]; intros [|i]; cbn.
    - intros [].
    - intros [].
    - intros [H|H]; [injection H as <- <-; auto|]. right. apply In_nth_error in H. destruct H as [j H]. exists (S j). auto.
    - intros [H|H]; [injection H as <- <-; right; exists 0; auto|]. destruct (IH _ H) as [G|[j [G1 G2]]]; [auto|]. right. exists (S j). auto.
  Qed.

  Lemma FOP_nth (l : list K) : ForallOrdPairs (fun x y => eqb x y = false) l ->
    forall i j x y, nth_error l i = Some x -> nth_error l j = Some y -> i <> j -> eqb x y = false.
  Proof.
    intros H. induction H as [|a l Ha Hl IH]; intros i j x y Hi Hj Hne; [destruct i; discriminate|].
    rewrite Forall_forall in Ha. destruct i as [|i], j as [|j]; cbn in *; try lia.
    - injection Hi as <-. apply Ha. eapply nth_error_In; eauto.
    - injection Hj as <-. rewrite eqb_sym_b. apply Ha. eapply nth_error_In; eauto.
    - eapply IH; eauto.
  Qed.

  Lemma last_value_some ops k : existsb (eqb k) (map fst ops) = is_some (last_value ops k).
  Proof.
    induction ops as [|[x v] ops IH]; cbn; [reflexivity|]. rewrite IH.
    destruct (last_value ops k); cbn; [apply orb_true_r|]. destruct (eqb k x); reflexivity.
  Qed.
  Lemma last_value_cong ops k x : eqb k x = true -> last_value ops k = last_value ops x.
  Proof.
    intros E. induction ops as [|[y v] ops IH]; cbn; [reflexivity|]. rewrite IH.
    assert (eqb k y = eqb x y) as ->; [|reflexivity].
    pose proof (existsb_cong _ _ [y] E) as G. cbn in G. rewrite !orb_false_r in G. exact G.
  Qed.

  Lemma om_step ops m k v : inv ops m ->
    exists m', om_insert h eqb m k v = Ok (m', last_value ops k) /\ inv (ops ++ [(k, v)]) m'.
  Proof.
    intros [I1 I2 I3]. unfold om_insert. rewrite I2.
    assert (Hlen : List.length (om_vec m) = List.length (map fst (om_vec m))) by (rewrite map_length; reflexivity).
    pose proof (hm_get_combine (map fst (om_vec m)) 0 k) as G. rewrite <- Hlen in G.
    assert (Hmem : existsb (eqb k) (map fst (om_vec m)) = existsb (eqb k) (map fst ops)).
    { rewrite I1. pose proof (firsts_mem (map fst ops) [] k) as F. rewrite !app_nil_r in F. exact F. }
    assert (Hdist : ForallOrdPairs (fun x y => eqb x y = false) (map fst (om_vec m))) by (rewrite I1; apply firsts_distinct).
    destruct (hm_get h eqb _ k) as [i|].
    - destruct G as [x [_ [G1 G2]]]. rewrite Nat.sub_0_r in G1. rewrite nth_error_map in G1.
      destruct (nth_error (om_vec m) i) as [[x' old]|] eqn:En; [|discriminate]. cbn in G1. injection G1 as ->.
      assert (Hold : last_value ops k = Some old).
      { rewrite (last_value_cong _ _ _ G2). apply I3. eapply nth_error_In; eauto. }
      rewrite Hold. eexists. split; [reflexivity|]. constructor; cbn.
      + rewrite replace_nth_keys, I1, map_app. cbn. rewrite firsts_snoc, app_nil_r.
        rewrite last_value_some, Hold. cbn. rewrite app_nil_r. reflexivity.
      + rewrite replace_nth_keys, replace_nth_len. reflexivity.
      + intros k0 v0 Hin. rewrite last_value_snoc. apply replace_nth_In in Hin. destruct Hin as [[H1 ->]|[j [H1 H2]]].
        * rewrite nth_error_map, En in H1. cbn in H1. injection H1 as <-. rewrite eqb_sym_b, G2. reflexivity.
        * assert (eqb k0 x = false).
          { eapply (FOP_nth _ Hdist j i); auto; rewrite nth_error_map; [rewrite H2|rewrite En]; reflexivity. }
          destruct (eqb k0 k) eqn:Ek; [|apply I3; eapply nth_error_In; eauto].
          pose proof (eq_trans_ _ HE _ _ _ Ek G2). congruence.
    - assert (Hn : last_value ops k = None).
      { rewrite Hmem, last_value_some in G. destruct (last_value ops k); [discriminate|reflexivity]. }
      rewrite Hn. eexists. split; [reflexivity|]. constructor; cbn.
      + rewrite map_app, I1, map_app. cbn. rewrite firsts_snoc, app_nil_r, last_value_some, Hn. reflexivity.
      + rewrite Hlen at 1. rewrite hm_insert_new by exact G. rewrite map_app, app_length. cbn.
        rewrite Nat.add_1_r, seq_S. cbn. rewrite combine_snoc; [rewrite <- Hlen; reflexivity|]. rewrite map_length, seq_length. reflexivity.
      + intros k0 v0 Hin. rewrite last_value_snoc. apply in_app_or in Hin. destruct Hin as [Hin|[Hin|[]]].
        * assert (eqb k0 k = false) as ->; [|apply I3; exact Hin].
          rewrite eqb_sym_b. destruct (eqb k k0) eqn:E; [|reflexivity].
          rewrite (last_value_cong _ _ _ E) in Hn. rewrite (I3 _ _ Hin) in Hn. discriminate.
        * injection Hin as <- <-. rewrite (eq_refl_ _ HE). reflexivity.
  Qed.

  Lemma om_run_inv ops : exists m, om_run ops (om_new (K:=K) (V:=V)) = Ok m /\ inv ops m.
  Proof.
    induction ops as [|[k v] ops IH] using rev_ind.
    - exists om_new. split; [reflexivity|]. constructor; cbn; auto. intros k v [].
    - destruct IH as [m [E HI]]. rewrite om_run_snoc, E. destruct (om_step _ _ k v HI) as [m' [E2 HI2]]. rewrite E2. exists m'. auto.
  Qed.

  Lemma om_contains_spec ops m k : inv ops m -> om_contains h eqb m k = is_some (last_value ops k).
  Proof.
    intros [I1 I2 I3]. unfold om_contains, hm_contains. rewrite I2.
    pose proof (hm_get_combine (map fst (om_vec m)) 0 k) as G. rewrite map_length in G.
    rewrite <- last_value_some. pose proof (firsts_mem (map fst ops) [] k) as F. rewrite !app_nil_r, <- I1 in F. rewrite <- F.
    destruct (hm_get _ _ _ k) as [i|]; cbn.
    - destruct G as [x [_ [G1 G2]]]. symmetry. apply existsb_exists. exists x. split; [eapply nth_error_In; eauto|exact G2].
    - rewrite G. reflexivity.
  Qed.
End P.

(** Facts about [firsts] that need no equivalence. *)
Section F.
  Context {K : Type} (eqb : K -> K -> bool).
  Lemma firsts_unseen l : forall seen x, In x (firsts eqb seen l) -> existsb (eqb x) seen = false.
  Proof.
    induction l as [|y l IH]; intros seen x; cbn; [intros []|].
    destruct (existsb (eqb y) seen) eqn:E; [apply IH|].
    intros [<-|Hx]; [exact E|]. apply IH in Hx. cbn in Hx. apply orb_false_iff in Hx. tauto.
  Qed.
  Lemma firsts_later l : forall seen a x b y c, firsts eqb seen l = a ++ x :: b ++ y :: c -> eqb y x = false.
  Proof.
    induction l as [|z l IH]; intros seen a x b y c; cbn; [destruct a; discriminate|].
    destruct (existsb (eqb z) seen) eqn:E; [apply IH|].
    destruct a as [|w a]; cbn.
    - intros H. injection H as -> H. assert (Hy : In y (firsts eqb (x :: seen) l)) by (rewrite H; apply in_or_app; right; left; reflexivity).
      apply firsts_unseen in Hy. cbn in Hy. apply orb_false_iff in Hy. tauto.
    - intros H. injection H as -> H. eapply IH; eauto.
  Qed.
  Lemma firsts_cover l : (forall x, In x l -> eqb x x = true) -> forall seen x, In x l -> existsb (eqb x) (seen ++ firsts eqb seen l) = true.
  Proof.
    induction l as [|z l IH]; intros Hr seen x; cbn; [intros []|].
    intros [->|Hx].
    - destruct (existsb (eqb x) seen) eqn:E; rewrite existsb_app, E; [reflexivity|]. cbn. rewrite (Hr x (or_introl eq_refl)). reflexivity.
    - destruct (existsb (eqb z) seen) eqn:E; [apply IH; auto; intros; apply Hr; right; auto|].
      specialize (IH (fun x H => Hr x (or_intror H)) (z :: seen) x Hx). rewrite existsb_app. cbn in *. rewrite existsb_app in IH.
      destruct (eqb x z), (existsb (eqb x) seen); cbn in *; auto.
  Qed.
End F.
