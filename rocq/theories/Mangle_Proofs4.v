From Verif Require Import Base Syntax_Model TypeEq_Model Types_Model Types_Spec Types_Proofs Types_Proofs3 Types_Props
  Check_Model Check_Spec Check_Proofs Check_Proofs2 Check_Props Mangle_Model Mangle_Spec Mangle_Proofs Mangle_Proofs2 Mangle_Proofs3 StrLib.

(** * The runtime *)
Lemma runtime_link : runtime_symbols = map link_name runtime_entities.
Proof. vm_compute. reflexivity. Qed.

Definition user_identb (s : string) : bool :=
  negb (has_char dollar s) && match s with "" => false | String c _ => negb (digit c) end && is_none (strip_prefix "cxxbridge" s).
Lemma user_identb_ok s : user_identb s = true -> user_ident s.
Proof.
  unfold user_identb. rewrite !andb_true_iff, negb_true_iff. intros ((H1 & H2) & H3). split.
  - apply ident_of_string. split; [exact H1|]. destruct s; [discriminate|]. apply negb_true_iff. exact H2.
  - intros r ->. rewrite strip_prefix_app in H3. discriminate.
Qed.
Definition wf_entityb (e : entity) : bool :=
  match e with
  | EOneOff n => user_identb n
  | EBuiltin t n => user_identb t && user_identb n
  | EGeneric i op => forallb user_identb (path (instance_type i)) && smem op (instance_ops i)
  | _ => false
  end.
Lemma wf_entityb_ok e : wf_entityb e = true -> wf_entity e.
Proof.
  destruct e; cbn [wf_entityb wf_entity]; try discriminate; rewrite ?andb_true_iff.
  - apply user_identb_ok.
  - intros (H & H'). split; apply user_identb_ok; assumption.
  - intros (H & H'). split; [|apply smem_In, H']. apply Forall_forall. intros s Hs. apply user_identb_ok. rewrite forallb_forall in H. apply H, Hs.
Qed.
Lemma runtime_wf e : In e runtime_entities -> wf_entity e.
Proof.
  intros H. apply wf_entityb_ok. revert e H. apply forallb_forall. vm_compute. reflexivity.
Qed.
Definition runtime_shape (e : entity) : bool :=
  match e with
  | EOneOff _ | EBuiltin _ _ => true
  | EGeneric (IUnique (ns, _)) _ => match ns with ["std"] => true | _ => false end
  | EGeneric i _ => match fst (instance_type i) with [] => true | _ => false end
  | _ => false
  end.
Lemma runtime_shape_ok e : In e runtime_entities -> runtime_shape e = true.
Proof. revert e. apply forallb_forall. vm_compute. reflexivity. Qed.

Definition bridge_entity (apis : list api) (e : entity) : Prop := cxx_provides apis e \/ rust_provides apis e.
Lemma bridge_not_runtime apis e : bridge_entity apis e -> match e with EOneOff _ | EBuiltin _ _ => False | _ => True end.
Proof.
  assert (F : forall f e, fn_entity apis f e -> match e with EOneOff _ | EBuiltin _ _ => False | _ => True end) by (intros f x H; destruct H; exact I).
  assert (G : forall f h e, trampoline_entity apis f h e -> match e with EOneOff _ | EBuiltin _ _ => False | _ => True end) by (intros f h x H; destruct H; exact I).
  intros [H|H]; destruct H; try exact I; (eapply F; eassumption) || (eapply G; eassumption).
Qed.

Lemma clash_iff e : wf_entity e -> match e with EOneOff _ | EBuiltin _ _ => False | _ => True end ->
  (In (link_name e) runtime_symbols <-> clashes e).
Proof.
  intros W N. rewrite runtime_link, in_map_iff. split.
  - intros (r & E & Hr). apply (proj1 (link_name_decode r e (runtime_wf _ Hr) W)) in E.
    pose proof (runtime_shape_ok _ Hr) as Sh. destruct E as [<-|[A|A]].
    + destruct r; try contradiction; try discriminate Sh. apply cl_same, Hr.
    + inversion A; subst; try contradiction; try discriminate Sh. cbn in Sh. destruct ns; [|discriminate]. apply cl_vector, Hr.
    + inversion A; subst; try contradiction; try discriminate Sh; [apply cl_fn|apply cl_method]; exact Hr.
  - intros C. inversion C; subst.
    + exists (EOneOff n). split; [reflexivity|assumption].
    + exists (EBuiltin t n). split; [reflexivity|assumption].
    + eexists. split; [reflexivity|assumption].
    + eexists. split; [|eassumption]. reflexivity.
Qed.

Lemma clash_namespace e : clashes e -> entity_namespace e = [] \/ exists ns, entity_namespace e = "std" :: ns.
Proof.
  intros C. destruct C as [n H|t n H|i op H|n op H]; cbn [entity_namespace]; [auto|auto| |right; eexists; reflexivity].
  apply runtime_shape_ok in H. destruct i as [(ns, n)|(ns, n)|(ns, n)|(ns, n)|(ns, n)|(ns, n)|(ns, n)|(ns, n)|(ns, n)]; cbn [instance_type fst]; cbn [runtime_shape instance_type fst] in H;
    (try (destruct ns as [|s ns]; [auto|discriminate])).
  right. destruct ns as [|s ns]; [discriminate|]. exists ns.
  repeat (match goal with H : match ?b with _ => _ end = true |- _ => destruct b; try discriminate H end). reflexivity.
Qed.

(** * C10: functions *)
Lemma collect_app a b : collect_apis (a ++ b) = fold_left collect_api b (collect_apis a).
Proof. apply fold_left_app. Qed.
Lemma errs_grow l : forall s, exists r, c_errs (fold_left collect_api l s) = c_errs s ++ r.
Proof.
  induction l as [|a l IH]; intros s; [exists []; symmetry; apply app_nil_r|]. cbn [fold_left].
  destruct (IH (collect_api s a)) as (r & ->).
  destruct a; cbn [collect_api c_errs]; rewrite <- ?app_assoc; eexists; reflexivity.
Qed.
Lemma fn_names_grow l : forall s, exists r, c_fn_names (fold_left collect_api l s) = r ++ c_fn_names s.
Proof.
  induction l as [|a l IH]; intros s; [exists []; reflexivity|]. cbn [fold_left].
  destruct (IH (collect_api s a)) as (r & ->).
  destruct a; cbn [collect_api c_fn_names]; try (exists r; reflexivity); eexists (r ++ [_]); rewrite <- app_assoc; reflexivity.
Qed.

Lemma no_dup_fn apis pre a mid b post f g : apis = pre ++ a :: mid ++ b :: post -> fn_of a = Some f -> fn_of b = Some g ->
  c_errs (collect_apis apis) = [] -> opt_receiver_eqb (fn_receiver g) (fn_receiver f) && String.eqb (p_rust (fn_name g)) (p_rust (fn_name f)) = false.
Proof.
  intros -> Fa Fb He.
  replace (pre ++ a :: mid ++ b :: post) with ((pre ++ [a]) ++ mid ++ [b] ++ post) in He by (rewrite <- app_assoc; reflexivity).
  rewrite !collect_app, !fold_left_app in He. destruct (errs_grow post (fold_left collect_api [b] (fold_left collect_api mid (fold_left collect_api [a] (collect_apis pre))))) as (r & Er).
  rewrite Er in He. apply app_eq_nil in He. destruct He as (He & _). cbn [fold_left] in He.
  set (s := fold_left collect_api mid (collect_api (collect_apis pre) a)) in He.
  assert (Hin : In (fn_receiver f, p_rust (fn_name f)) (c_fn_names s)).
  { unfold s. destruct (fn_names_grow mid (collect_api (collect_apis pre) a)) as (r' & ->). apply in_or_app. right.
    destruct a; cbn in Fa; try discriminate; injection Fa as <-; left; reflexivity. }
  clearbody s. apply not_true_is_false. intros D.
  assert (Dup : existsb (fun k => opt_receiver_eqb (fn_receiver g) (fst k) && String.eqb (p_rust (fn_name g)) (snd k)) (c_fn_names s) = true)
    by (apply existsb_exists; exists (fn_receiver f, p_rust (fn_name f)); split; [exact Hin|exact D]).
  destruct b; cbn in Fb; try discriminate; injection Fb as <-; cbn [collect_api c_errs fst snd] in He; rewrite Dup in He;
    apply app_eq_nil in He; destruct He as (_ & He); discriminate.
Qed.

Section Accepted.
  Variables (gen : generator) (ord : nat -> list string -> list string) (apis : list api) (T : types).
  Hypothesis Hacc : accepted_bridge gen ord apis T.
  Hypothesis Hwf : wf_bridge apis.

  Definition same_method_name (f g : extern_fn) : Prop :=
    (fn_receiver f = None /\ fn_receiver g = None) \/
    (exists r p r' p', fn_receiver f = Some r /\ stands_for apis (n_rust (rc_ty r)) p /\
       fn_receiver g = Some r' /\ stands_for apis (n_rust (rc_ty r')) p' /\ p_cxx p = p_cxx p').

  Lemma fn_collision f g : all_functions apis f -> all_functions apis g ->
    (mangle_extern_fn T f = mangle_extern_fn T g <->
     p_ns (fn_name f) = p_ns (fn_name g) /\ p_rust (fn_name f) = p_rust (fn_name g) /\ same_method_name f g).
  Proof.
    intros Hf Hg.
    destruct (fn_has_entity _ _ _ _ Hacc f Hf) as (e & He). destruct (fn_has_entity _ _ _ _ Hacc g Hg) as (e' & He').
    rewrite (fn_link _ _ _ _ Hacc Hwf _ _ Hf He), (fn_link _ _ _ _ Hacc Hwf _ _ Hg He'). unfold slink.
    assert (Hd := link_name_decode e e' (fn_wf _ _ _ _ Hacc Hwf _ _ Hf He) (fn_wf _ _ _ _ Hacc Hwf _ _ Hg He')).
    assert (Hs : Some (link_name e) = Some (link_name e') <-> link_name e = link_name e') by (split; congruence).
    rewrite Hs, Hd. clear Hs Hd. unfold same_method_name.
    destruct He as [E|r p E S], He' as [E'|r' p' E' S'].
    - split.
      + intros [H|[A|A]]; [|inversion A|inversion A]. injection H. auto.
      + intros (-> & -> & _). auto.
    - split.
      + intros [H|[A|A]]; [discriminate|inversion A|inversion A].
      + intros (_ & _ & [(_ & H)|(r0 & _ & _ & _ & H & _)]); congruence.
    - split.
      + intros [H|[A|A]]; [discriminate|inversion A|inversion A].
      + intros (_ & _ & [(H & _)|(_ & _ & r0 & _ & _ & _ & H & _)]); congruence.
    - split.
      + intros [H|[A|A]]; [|inversion A|inversion A]. injection H as H1 H2 H3. split; [exact H1|]. split; [exact H3|]. right. exists r, p, r', p'. auto.
      + intros (-> & -> & [(H & _)|(r0 & p0 & r0' & p0' & H1 & H2 & H3 & H4 & H5)]); [congruence|].
        left. rewrite E in H1. injection H1 as <-. rewrite E' in H3. injection H3 as <-.
        rewrite (stands_unique _ _ _ _ Hacc _ _ _ S H2), (stands_unique _ _ _ _ Hacc _ _ _ S' H4), H5. reflexivity.
  Qed.

  Lemma acc_errs : c_errs (collect_apis apis) = [].
  Proof.
    destruct Hacc as ((_ & Hc) & _). destruct (collect_facts _ _ _ _ Hc) as (order & terrs & imp & _ & _ & E & _).
    symmetry in E. apply app_eq_nil in E. tauto.
  Qed.
End Accepted.
