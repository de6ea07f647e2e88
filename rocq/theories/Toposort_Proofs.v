From Verif Require Import Base Syntax_Model Toposort_Model.
From Coq Require Import Relations Permutation.

Section topo.
Variable structs : list struct_.
Let n := List.length structs.

Definition edge (i j : nat) : Prop :=
  exists s f m, nth_error structs i = Some s /\ In f (st_fields s) /\ v_ty f = TIdent m /\
                struct_index (n_rust m) structs = Some j.

Lemma struct_index_from_bound l : forall i nm j, struct_index_from i nm l = Some j ->
  i <= j < i + List.length l.
Proof.
  induction l as [|s l IH]; intros i nm j; cbn [struct_index_from List.length]; [discriminate|].
  destruct (struct_index_from (S i) nm l) eqn:E.
  - intros H; injection H as <-. apply IH in E. lia.
  - destruct (String.eqb _ nm); [|discriminate]. intros H; injection H as <-. lia.
Qed.

Lemma struct_index_bound nm j : struct_index nm structs = Some j -> j < n.
Proof. intros H. apply struct_index_from_bound in H. unfold n. lia. Qed.

Lemma edge_bound i j : edge i j -> i < n /\ j < n.
Proof.
  intros [s [f [m [H1 [_ [_ H2]]]]]]. split.
  - apply nth_error_Some. congruence.
  - eapply struct_index_bound; eauto.
Qed.

Definition mk (st : tstate) (i : nat) : option mark := get_mark i (ts_marks st).
Definition unmarked (st : tstate) : nat := List.length (filter (fun i => is_none (mk st i)) (seq 0 n)).

Lemma filter_length_le {A} (p q : A -> bool) l :
  (forall x, In x l -> p x = true -> q x = true) -> List.length (filter p l) <= List.length (filter q l).
Proof.
  induction l as [|x l IH]; intros H; cbn; [lia|].
  assert (IHl : List.length (filter p l) <= List.length (filter q l)) by (apply IH; intros; apply H; [right|]; assumption).
  pose proof (H x (or_introl eq_refl)) as Hx.
  destruct (p x), (q x); cbn; try lia; specialize (Hx eq_refl); discriminate.
Qed.

Lemma clos_trans_rt a b : clos_trans _ edge a b -> clos_refl_trans _ edge a b.
Proof. induction 1; [apply rt_step; assumption|eapply rt_trans; eassumption]. Qed.

Lemma rt_edge a b c : clos_refl_trans _ edge a b -> edge b c -> clos_trans _ edge a c.
Proof.
  intros H Hbc. apply clos_rt_rt1n in H. induction H; [apply t_step; assumption|].
  eapply t_trans; [apply t_step; eassumption|auto].
Qed.


Lemma filter_length_lt {A} (p q : A -> bool) l x :
  (forall x, In x l -> p x = true -> q x = true) -> In x l -> p x = false -> q x = true ->
  List.length (filter p l) < List.length (filter q l).
Proof.
  induction l as [|y l IH]; intros H Hin Hp Hq; cbn; [destruct Hin|].
  assert (Hle : List.length (filter p l) <= List.length (filter q l)) by (apply filter_length_le; intros; apply H; [right|]; assumption).
  pose proof (H y (or_introl eq_refl)) as Hy.
  destruct Hin as [->|Hin].
  - rewrite Hp, Hq. cbn. lia.
  - assert (List.length (filter p l) < List.length (filter q l)) by (apply IH; auto; intros; apply H; [right|]; assumption).
    destruct (p y), (q y); cbn; try lia; specialize (Hy eq_refl); discriminate.
Qed.

Record wf (st : tstate) : Prop := {
  wf_sorted : forall i, In i (ts_sorted st) <-> mk st i = Some Visited;
  wf_nodup : NoDup (ts_sorted st);
  wf_bound : forall i, mk st i <> None -> i < n }.

Definition before (l : list nat) (j k : nat) : Prop := exists l1 l2, l = l1 ++ k :: l2 /\ In j l1.

Definition cyclic : Prop := exists k, clos_trans _ edge k k.

Record post (i : nat) (st st' : tstate) (ok : bool) : Prop := {
  po_wf : wf st';
  po_visiting : forall j, mk st' j = Some Visiting <-> mk st j = Some Visiting;
  po_visited : forall j, mk st j = Some Visited -> mk st' j = Some Visited;
  po_self : mk st i <> Some Visiting -> mk st' i = Some Visited;
  po_vis_false : mk st i = Some Visiting -> ok = false;
  po_ext : exists ext eext, ts_sorted st' = ts_sorted st ++ ext /\ ts_errors st' = ts_errors st ++ eext /\
     (eext <> [] -> cyclic) /\ (ok = false -> cyclic) /\ (ok = false -> mk st i <> Some Visiting -> eext <> []) /\
     (eext = [] -> forall k j, In k ext -> edge k j -> before (ts_sorted st') j k) }.

Definition pre (i : nat) (st : tstate) (fuel : nat) : Prop :=
  wf st /\ i < n /\ unmarked st < fuel /\ (forall g, mk st g = Some Visiting -> clos_trans _ edge g i).

(** Loop over fields. *)
Definition fedge (f : var) : option nat :=
  match v_ty f with TIdent m => struct_index (n_rust m) structs | _ => None end.

Lemma fields_step v i f fs st ok :
  visit_fields structs v i (f :: fs) st ok =
  match fedge f with
  | Some j => match v j st with
              | None => None
              | Some (st', true) => visit_fields structs v i fs st' ok
              | Some (st', false) =>
                  visit_fields structs v i fs
                    (TState (ts_sorted st') (ts_marks st') (ts_errors st' ++ [(i, f)])) false
              end
  | None => visit_fields structs v i fs st ok
  end.
Proof. unfold fedge. cbn [visit_fields]. destruct (v_ty f); reflexivity. Qed.

Lemma unmarked_mono st st' : (forall j, mk st j <> None -> mk st' j <> None) -> unmarked st' <= unmarked st.
Proof.
  intros H. apply filter_length_le. intros x _. unfold is_none, is_some.
  specialize (H x). destruct (mk st' x), (mk st x); cbn; try congruence. intros _. exfalso. apply H; congruence.
Qed.

Lemma before_app l l' j k : before l j k -> before (l ++ l') j k.
Proof. intros [l1 [l2 [-> H]]]. exists l1, (l2 ++ l'). rewrite <- app_assoc. auto. Qed.

Record fpost (i : nat) (fs : list var) (st st' : tstate) (ok ok' : bool) : Prop := {
  fp_wf : wf st';
  fp_visiting : forall j, mk st' j = Some Visiting <-> mk st j = Some Visiting;
  fp_visited : forall j, mk st j = Some Visited -> mk st' j = Some Visited;
  fp_ext : exists ext eext, ts_sorted st' = ts_sorted st ++ ext /\ ts_errors st' = ts_errors st ++ eext /\
     (eext <> [] -> cyclic) /\ (ok' = false -> ok = false \/ cyclic) /\ (ok' = false -> ok = false \/ eext <> []) /\
     (eext = [] -> (forall f j, In f fs -> fedge f = Some j -> mk st' j = Some Visited) /\
                   forall k j, In k ext -> edge k j -> before (ts_sorted st') j k) }.

Lemma fields_ok fuel v i : 
  (forall j st, pre j st fuel -> exists st' ok, v j st = Some (st', ok) /\ post j st st' ok) ->
  forall fs st ok,
  wf st -> i < n -> unmarked st < fuel -> (forall g, mk st g = Some Visiting -> clos_refl_trans _ edge g i) ->
  (forall f j, In f fs -> fedge f = Some j -> edge i j) ->
  exists st' ok', visit_fields structs v i fs st ok = Some (st', ok') /\ fpost i fs st st' ok ok'.
Proof.
  intros Hv fs. induction fs as [|f fs IH]; intros st ok Hwf Hi Hu Hg He.
  - exists st, ok. split; [reflexivity|]. constructor; auto; try tauto.
    exists [], []. rewrite !app_nil_r. repeat split; auto; try congruence.
    + intros f j [].
    + intros k j [].
  - rewrite fields_step. assert (He' : forall f0 j, In f0 fs -> fedge f0 = Some j -> edge i j) by (intros; eapply He; [right|]; eauto).
    destruct (fedge f) as [j|] eqn:Ef.
    + pose proof (He f j (or_introl eq_refl) Ef) as Hij.
      destruct (Hv j st) as [st1 [ok1 [Ev Hp]]].
      { split; [exact Hwf|]. split; [apply (edge_bound _ _ Hij)|]. split; [exact Hu|].
        intros g Hgg. apply rt_edge with i; [apply Hg; exact Hgg|exact Hij]. }
      rewrite Ev. destruct Hp as [Pwf Pvg Pvd Pself Pvf [ext [eext [Es [Ee [Hc1 [Hc2 [Hc3 Htop]]]]]]]].
      assert (Hmono : forall j, mk st j <> None -> mk st1 j <> None).
      { intros k Hk. destruct (mk st k) as [[]|] eqn:E; [|rewrite (Pvd k E); discriminate|congruence].
        apply Pvg in E. congruence. }
      pose proof (unmarked_mono _ _ Hmono) as Hle.
      set (st1' := if ok1 then st1 else TState (ts_sorted st1) (ts_marks st1) (ts_errors st1 ++ [(i, f)])).
      assert (Hmk : forall k, mk st1' k = mk st1 k) by (intros; destruct ok1; reflexivity).
      assert (Hso : ts_sorted st1' = ts_sorted st1) by (destruct ok1; reflexivity).
      assert (Hwf1 : wf st1').
      { destruct Pwf. constructor; intros; rewrite ?Hmk, ?Hso in *; auto. }
      destruct (IH st1' (if ok1 then ok else false)) as [st2 [ok2 [E2 F2]]]; auto.
      { replace (unmarked st1') with (unmarked st1); [lia|]. unfold unmarked. destruct ok1; reflexivity. }
      { intros g Hgg. rewrite Hmk in Hgg. apply Pvg in Hgg. auto. }
      exists st2, ok2. split.
      { destruct ok1; exact E2. }
      destruct F2 as [Fwf Fvg Fvd [ext2 [eext2 [Es2 [Ee2 [D1 [D2 [D3 Dtop]]]]]]]].
      constructor; auto.
      * intros k. rewrite Fvg, Hmk. apply Pvg.
      * intros k Hk. apply Fvd. rewrite Hmk. auto.
      * exists (ext ++ ext2), (eext ++ (if ok1 then [] else [(i, f)]) ++ eext2).
        split. { rewrite Es2, Hso, Es, app_assoc. reflexivity. }
        split. { rewrite Ee2. unfold st1'. destruct ok1; cbn [ts_errors]; rewrite Ee, <- ?app_assoc; reflexivity. }
        split. { intros Hne. destruct ok1.
                 - cbn in Hne. destruct eext; [apply D1; exact Hne|apply Hc1; discriminate].
                 - apply Hc2; reflexivity. }
        split. { intros Ho. destruct ok1; [exact (D2 Ho)|]. right. apply Hc2; reflexivity. }
        split. { intros Ho. destruct ok1.
                 - destruct (D3 Ho) as [|Hne]; [left; assumption|right]. cbn. destruct eext; [exact Hne|discriminate].
                 - right. destruct eext; discriminate. }
        intros Hnil. apply app_eq_nil in Hnil. destruct Hnil as [-> Hnil]. apply app_eq_nil in Hnil. destruct Hnil as [H1 ->].
        destruct ok1; [|discriminate]. destruct (Dtop eq_refl) as [G1 G2]. split.
        -- intros f0 k [->|Hf0] Hk; [|eauto]. rewrite Ef in Hk. injection Hk as <-. apply Fvd. rewrite Hmk.
           apply Pself. intros Hx. specialize (Pvf Hx). discriminate.
        -- intros k l Hk Hkl. apply in_app_or in Hk. destruct Hk as [Hk|Hk]; [|eauto].
           rewrite Es2, Hso. apply before_app. apply Htop; auto.
    + destruct (IH st ok) as [st2 [ok2 [E2 F2]]]; auto. exists st2, ok2. split; [exact E2|].
      destruct F2 as [Fwf Fvg Fvd [ext2 [eext2 [Es2 [Ee2 [D1 [D2 [D3 Dtop]]]]]]]].
      constructor; auto. exists ext2, eext2. repeat (split; [assumption|]).
      intros Hnil. destruct (Dtop Hnil) as [G1 G2]. split; [|exact G2].
      intros f0 k [->|Hf0] Hk; [congruence|eauto].
Qed.

Lemma get_mark_set i k st j : mk (set_mark i k st) j = if Nat.eqb j i then Some k else mk st j.
Proof. unfold mk, set_mark. cbn. destruct (Nat.eqb j i); reflexivity. Qed.

Lemma visit_ok fuel : forall i st, pre i st fuel ->
  exists st' ok, visit fuel structs i st = Some (st', ok) /\ post i st st' ok.
Proof.
  induction fuel as [|fuel IH]; intros i st [Hwf [Hi [Hu Hg]]]; [lia|].
  cbn [visit]. change (get_mark i (ts_marks st)) with (mk st i). destruct (mk st i) as [[]|] eqn:Em.
  - exists st, false. split; [reflexivity|]. constructor; auto; try tauto; try congruence.
    exists [], []. rewrite !app_nil_r. split; [reflexivity|]. split; [reflexivity|]. split; [congruence|].
    split; [intros _; exists i; apply Hg; exact Em|]. split; [congruence|intros _ k j []].
  - exists st, true. split; [reflexivity|]. constructor; auto; try tauto; try congruence.
    exists [], []. rewrite !app_nil_r. split; [reflexivity|]. split; [reflexivity|]. split; [congruence|].
    split; [discriminate|]. split; [discriminate|intros _ k j []].
  - set (st1 := set_mark i Visiting st).
    assert (Hm1 : forall j, mk st1 j = if Nat.eqb j i then Some Visiting else mk st j) by (intros; apply get_mark_set).
    assert (Hwf1 : wf st1).
    { destruct Hwf as [W1 W2 W3]. constructor.
      - intros j. cbn [ts_sorted st1 set_mark]. rewrite Hm1. destruct (Nat.eqb_spec j i); [subst|apply W1].
        rewrite W1, Em. split; discriminate.
      - exact W2.
      - intros j. rewrite Hm1. destruct (Nat.eqb_spec j i); [subst; auto|apply W3]. }
    assert (Hu1 : unmarked st1 < fuel).
    { enough (unmarked st1 < unmarked st) by lia.
      apply filter_length_lt with (x := i).
      - intros x _. rewrite Hm1. destruct (Nat.eqb x i); [discriminate|auto].
      - apply in_seq. lia.
      - rewrite Hm1, Nat.eqb_refl. reflexivity.
      - rewrite Em. reflexivity. }
    set (fs := match nth_error structs i with Some s => st_fields s | None => [] end).
    destruct (fields_ok fuel (visit fuel structs) i IH fs st1 true Hwf1 Hi Hu1) as [st2 [ok [E F]]].
    { intros g. rewrite Hm1. destruct (Nat.eqb_spec g i); [subst; intros; apply rt_refl|].
      intros Hgg. apply clos_trans_rt, Hg, Hgg. }
    { intros f j Hf Hj. unfold fs in Hf. destruct (nth_error structs i) as [s|] eqn:Es; [|destruct Hf].
      unfold fedge in Hj. destruct (v_ty f) as [m| | | | | | | | | | | | |] eqn:Et; try discriminate.
      exists s, f, m. auto. }
    rewrite E. exists (TState (ts_sorted (set_mark i Visited st2) ++ [i]) (ts_marks (set_mark i Visited st2)) (ts_errors (set_mark i Visited st2))), ok.
    split; [reflexivity|].
    set (st3 := TState _ _ _).
    assert (Hm3 : forall j, mk st3 j = if Nat.eqb j i then Some Visited else mk st2 j) by (intros; apply (get_mark_set i Visited st2)).
    destruct F as [Fwf Fvg Fvd [ext [eext [Es [Ee [D1 [D2 [D3 Dtop]]]]]]]].
    assert (Hi2 : mk st2 i = Some Visiting) by (apply Fvg; rewrite Hm1, Nat.eqb_refl; reflexivity).
    constructor.
    + destruct Fwf as [W1 W2 W3]. constructor.
      * intros j. cbn [ts_sorted st3 set_mark]. rewrite Hm3, in_app_iff, W1. destruct (Nat.eqb_spec j i).
        -- subst. rewrite Hi2. cbn. intuition.
        -- cbn. intuition congruence.
      * cbn [ts_sorted st3 set_mark].         apply Permutation_NoDup with (i :: ts_sorted st2); [apply Permutation_cons_append|].
        constructor; [|exact W2]. rewrite W1, Hi2. discriminate.
      * intros j. rewrite Hm3. destruct (Nat.eqb_spec j i); [subst; auto|apply W3].
    + intros j. rewrite Hm3. destruct (Nat.eqb_spec j i).
      * subst. rewrite Em. split; discriminate.
      * rewrite Fvg, Hm1. destruct (Nat.eqb_spec j i); [contradiction|tauto].
    + intros j Hj. rewrite Hm3. destruct (Nat.eqb_spec j i); [reflexivity|]. apply Fvd. rewrite Hm1.
      destruct (Nat.eqb_spec j i); [contradiction|exact Hj].
    + intros _. rewrite Hm3, Nat.eqb_refl. reflexivity.
    + congruence.
    + exists (ext ++ [i]), eext. split; [cbn [ts_sorted st3 set_mark]; rewrite Es, app_assoc; reflexivity|].
      split; [exact Ee|]. split; [exact D1|]. split; [intros Ho; destruct (D2 Ho); [discriminate|assumption]|].
      split; [intros Ho _; destruct (D3 Ho); [discriminate|assumption]|].
      intros Hnil k j Hk Hkj. destruct (Dtop Hnil) as [G1 G2]. apply in_app_or in Hk. destruct Hk as [Hk|[->|[]]].
      * cbn [ts_sorted st3 set_mark]. apply before_app. auto.
      * cbn [ts_sorted st3 set_mark]. exists (ts_sorted st2), []. split; [reflexivity|].
        apply (wf_sorted _ Fwf). destruct Hkj as [s [f [m [H1 [H2 [H3 H4]]]]]].
        apply (G1 f); [unfold fs; rewrite H1; exact H2|]. unfold fedge. rewrite H3. exact H4.
Qed.

Lemma sort_ok fuel is : forall st, n < fuel -> wf st -> (forall j, mk st j <> Some Visiting) -> (forall i, In i is -> i < n) ->
  exists st', sort_loop fuel structs is st = Some st' /\ wf st' /\ (forall j, mk st' j <> Some Visiting) /\
    (forall j, mk st j = Some Visited -> mk st' j = Some Visited) /\
    (forall j, In j is -> mk st' j = Some Visited) /\
    exists ext eext, ts_sorted st' = ts_sorted st ++ ext /\ ts_errors st' = ts_errors st ++ eext /\
      (eext <> [] -> cyclic) /\ (eext = [] -> forall k j, In k ext -> edge k j -> before (ts_sorted st') j k).
Proof.
  induction is as [|i is IH]; intros st Hf Hwf Hnv Hb; cbn [sort_loop].
  - exists st. split; [reflexivity|]. split; [exact Hwf|]. split; [exact Hnv|]. split; [auto|]. split; [intros j []|].
    exists [], []. rewrite !app_nil_r. split; [reflexivity|]. split; [reflexivity|]. split; [congruence|intros _ k j []].
  - destruct (visit_ok fuel i st) as [st1 [ok [E P]]].
    { split; [exact Hwf|]. split; [apply Hb; left; reflexivity|]. split.
      - assert (unmarked st <= n); [|lia]. unfold unmarked. apply (Nat.le_trans _ (List.length (seq 0 n))); [|rewrite seq_length; lia].
        clear. induction (seq 0 n) as [|x l IHl]; cbn; [lia|]. destruct (is_none _); cbn; lia.
      - intros g Hgg. exfalso. eapply Hnv; eauto. }
    rewrite E. destruct P as [Pwf Pvg Pvd Pself Pvf [ext [eext [Es [Ee [Hc1 [Hc2 [Hc3 Htop]]]]]]]].
    destruct (IH st1) as [st2 [E2 [W2 [N2 [V2 [I2 [ext2 [eext2 [Es2 [Ee2 [D1 D2]]]]]]]]]]]; auto.
    { intros j Hj. apply Pvg in Hj. eapply Hnv; eauto. }
    { intros; apply Hb; right; assumption. }
    exists st2. split; [exact E2|]. split; [exact W2|]. split; [exact N2|]. split; [auto|].
    split. { intros j [->|Hj]; [|auto]. apply V2, Pself, Hnv. }
    exists (ext ++ ext2), (eext ++ eext2). split; [rewrite Es2, Es, app_assoc; reflexivity|].
    split; [rewrite Ee2, Ee, app_assoc; reflexivity|]. split.
    + intros Hne. destruct eext; [apply D1, Hne|apply Hc1; discriminate].
    + intros Hnil k j Hk Hkj. apply app_eq_nil in Hnil. destruct Hnil as [-> ->].
      apply in_app_or in Hk. destruct Hk as [Hk|Hk]; [|auto]. rewrite Es2. apply before_app. auto.
Qed.

Lemma before_acyclic l : NoDup l -> (forall k j, In k l -> edge k j -> before l j k) ->
  (forall k j, edge k j -> In k l) -> ~ cyclic.
Proof.
  intros Hnd Hb Hin [k Hk].
  assert (G : forall a b, clos_trans _ edge a b -> before l b a).
  { intros a b H. induction H as [a b H|a b c H1 IH1 H2 IH2]; [eauto|].
    destruct IH1 as [l1 [l2 [E1 I1]]], IH2 as [m1 [m2 [E2 I2]]].
    exists l1, l2. split; [exact E1|].
    apply in_split in I1. destruct I1 as [u1 [u2 ->]].
    rewrite <- app_assoc in E1. cbn in E1. rewrite E2 in E1.
    (* b occurs at the end of m1 and of u1; NoDup makes them equal *)
    assert (m1 = u1); [|subst; apply in_or_app; auto].
    clear -Hnd E1 E2. subst l. revert u1 E1 Hnd. induction m1 as [|x m1 IH]; intros u1 E1 Hnd; destruct u1 as [|y u1]; cbn in *; auto.
    - injection E1 as -> E1. apply NoDup_cons_iff in Hnd. destruct Hnd as [Hni _]. exfalso. apply Hni. rewrite E1. apply in_or_app; right; left; reflexivity.
    - injection E1 as -> E1. inversion Hnd as [|? ? Hni _]; subst. exfalso. apply Hni. apply in_or_app; right; left; reflexivity.
    - injection E1 as -> E1. f_equal. inversion Hnd; subst. auto. }
  apply G in Hk. destruct Hk as [l1 [l2 [E Hk]]]. subst l. apply NoDup_remove_2 in Hnd. apply Hnd. apply in_or_app; auto.
Qed.

Theorem toposort_spec : exists order errs, toposort structs = Some (order, errs) /\
  Permutation order (seq 0 n) /\ (errs <> [] <-> cyclic) /\
  (errs = [] -> forall i j, edge i j -> before order j i).
Proof.
  unfold toposort. fold n.
  destruct (sort_ok (S n) (seq 0 n) (TState [] [] [])) as [st [E [W [N [_ [V [ext [eext [Es [Ee [D1 D2]]]]]]]]]]].
  - lia.
  - constructor; cbn; [intros; split; [intros []|discriminate]|constructor|congruence].
  - intros j; discriminate.
  - intros i Hi. apply in_seq in Hi. lia.
  - rewrite E. cbn in Es, Ee. exists (ts_sorted st), (ts_errors st). split; [reflexivity|].
    assert (HP : Permutation (ts_sorted st) (seq 0 n)).
    { apply NoDup_Permutation; [apply (wf_nodup _ W)|apply seq_NoDup|]. intros i. split.
      - intros Hi. apply (wf_sorted _ W) in Hi. apply in_seq. split; [lia|]. apply (wf_bound _ W). congruence.
      - intros Hi. apply (wf_sorted _ W). apply V; exact Hi. }
    split; [exact HP|].
    assert (HT : ts_errors st = [] -> forall i j, edge i j -> before (ts_sorted st) j i).
    { intros Hn i j Hij. rewrite Ee in Hn. apply D2; auto. rewrite <- Es.
      apply (Permutation_in _ (Permutation_sym HP)). apply in_seq. apply edge_bound in Hij. lia. }
    split; [|exact HT]. split.
    + rewrite Ee. exact D1.
    + intros Hc Hn. revert Hc. apply (before_acyclic (ts_sorted st)); [apply (wf_nodup _ W)|intros; apply HT; auto|].
      intros k j Hkj. apply (Permutation_in _ (Permutation_sym HP)). apply in_seq. apply edge_bound in Hkj. lia.
Qed.
End topo.
