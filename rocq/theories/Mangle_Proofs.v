From Verif Require Import Base Syntax_Model Types_Model Mangle_Model Mangle_Spec StrLib.

(** * symbol.rs builds the '$'-separated list *)
Lemma length_append s t : String.length (s ++ t)%string = (String.length s + String.length t)%nat.
Proof. induction s; cbn; congruence. Qed.

Lemma sym_push_first seg : seg <> "" -> sym_push "" seg = Some seg.
Proof. destruct seg; [congruence|]. reflexivity. Qed.

Lemma sym_push_next sym seg : sym <> "" -> sym_push sym seg = Some (sym ++ String dollar seg)%string.
Proof.
  intros H. unfold sym_push. destruct (String.eqb_spec sym ""); [contradiction|].
  rewrite append_assoc. cbn [append]. rewrite !length_append. cbn [String.length].
  replace (_ <? _)%nat with true; [reflexivity|]. symmetry. apply Nat.ltb_lt. lia.
Qed.

Lemma sym_pushes_ok segs : forall sym, sym <> "" ->
  sym_pushes sym segs = Some (fold_left (fun a s => a ++ String dollar s)%string segs sym).
Proof.
  induction segs as [|s segs IH]; intros sym H; [reflexivity|].
  cbn [sym_pushes fold_left]. rewrite sym_push_next by exact H. apply IH. destruct sym; cbn; congruence.
Qed.

Lemma join_with_fold c segs : forall sym,
  fold_left (fun a s => a ++ String c s)%string segs sym = join_with c (sym :: segs).
Proof.
  induction segs as [|s segs IH]; intros sym; [reflexivity|].
  cbn [fold_left]. rewrite IH. destruct segs as [|s' segs]; cbn [join_with].
  - reflexivity.
  - rewrite append_assoc. reflexivity.
Qed.

Lemma join_with_ne c s segs : s <> "" -> join_with c (s :: segs) <> "".
Proof. intros H. destruct segs; cbn; [exact H|]. destruct s; cbn; congruence. Qed.

(** The first segment must not be empty; the assertion in push does not see the others. *)
Lemma sym_join_ok s segs : s <> "" -> sym_join (s :: segs) = Some (join_with dollar (s :: segs)).
Proof.
  intros H. unfold sym_join. cbn [sym_pushes]. rewrite sym_push_first by exact H. rewrite sym_pushes_ok by exact H.
  rewrite join_with_fold. pose proof (join_with_ne dollar s segs H) as Hn.
  destruct (String.eqb_spec (join_with dollar (s :: segs)) ""); [contradiction|reflexivity].
Qed.

Lemma identifier_ne s : identifier s -> s <> "".
Proof. intros (_ & c & r & -> & _). discriminate. Qed.
Lemma identifier_dollar s : identifier s -> has_char dollar s = false.
Proof. intros (H & _). exact H. Qed.
Lemma user_identifier s : user_ident s -> identifier s.
Proof. intros (H & _). exact H. Qed.
Lemma user_not_bridge s : user_ident s -> s <> "cxxbridge1".
Proof. intros (_ & H) ->. apply (H "1"). reflexivity. Qed.

Lemma join_app c l l' : l <> [] -> l' <> [] ->
  join_with c (l ++ l') = (join_with c l ++ String c (join_with c l'))%string.
Proof.
  intros Hl Hl'. induction l as [|a l IH]; [congruence|]. destruct l as [|b l].
  - cbn [app]. destruct l' as [|x l']; [congruence|]. reflexivity.
  - change (join_with c ((a :: b :: l) ++ l')) with (a ++ String c (join_with c ((b :: l) ++ l')))%string.
    rewrite IH by discriminate.
    change (join_with c (a :: b :: l)) with (a ++ String c (join_with c (b :: l)))%string.
    rewrite append_assoc. reflexivity.
Qed.

Lemma sym_join_segs segs : segs <> [] -> Forall (fun s => s <> "") segs -> sym_join segs = Some (join_with dollar segs).
Proof. intros H F. destruct segs as [|s segs]; [congruence|]. inversion F; subst. apply sym_join_ok. assumption. Qed.

(** * Decoding *)
Lemma split_bridge ns : forall ns' r r', Forall user_ident ns -> Forall user_ident ns' ->
  ns ++ "cxxbridge1" :: r = ns' ++ "cxxbridge1" :: r' -> ns = ns' /\ r = r'.
Proof.
  induction ns as [|n ns IH]; intros [|n' ns'] r r' F F' E.
  - injection E as E. split; congruence.
  - cbn in E. inversion F'; subst. inversion E; subst. exfalso. eapply user_not_bridge; eauto.
  - cbn in E. inversion F; subst. inversion E; subst. exfalso. eapply user_not_bridge; eauto.
  - cbn in E. inversion F; inversion F'; subst. inversion E; subst. destruct (IH ns' r r') as (-> & ->); auto.
Qed.

Definition entity_ns (e : entity) : list string :=
  match e with EOneOff _ | EBuiltin _ _ | EGeneric _ _ => [] | EFn ns _ | EMethod ns _ _ | EOperator ns _ _ | ETrampoline ns _ _ _ _ => ns end.
Definition entity_tail (e : entity) : list string :=
  match e with
  | EOneOff n | EFn _ n => [n]
  | EBuiltin t n | EMethod _ t n => [t; n]
  | EGeneric i op => instance_path i ++ [op]
  | EOperator _ t op => [t; "operator"; op]
  | ETrampoline _ t n a h => match t with Some t => [t] | None => [] end ++ [n; a; if h then "1" else "0"]
  end.
Lemma segments_split e : segments e = entity_ns e ++ "cxxbridge1" :: entity_tail e.
Proof. destruct e; reflexivity. Qed.

Lemma wf_ns e : wf_entity e -> Forall user_ident (entity_ns e).
Proof. destruct e; cbn; intros H; try tauto; constructor. Qed.

Lemma ident_of_string s : (has_char dollar s = false /\ match s with "" => False | String c _ => digit c = false end) -> identifier s.
Proof. intros (H & H'). split; [exact H|]. destruct s; [contradiction|]. exists a, s. auto. Qed.

Lemma instance_ops_ident i op : In op (instance_ops i) -> identifier op.
Proof. intros H. apply ident_of_string. destruct i; cbn in H; repeat (destruct H as [<-|H]; [vm_compute; auto|]); contradiction. Qed.
Lemma operator_names_ident op : In op operator_names -> identifier op.
Proof. intros H. apply ident_of_string. cbn in H; repeat (destruct H as [<-|H]; [vm_compute; auto|]); contradiction. Qed.

Lemma path_ident t : Forall user_ident (path t) -> Forall identifier (path t).
Proof. apply Forall_impl. intros a. apply user_identifier. Qed.

Lemma instance_path_ident i : Forall user_ident (path (instance_type i)) -> Forall identifier (instance_path i).
Proof.
  intros H. apply path_ident in H.
  destruct i; cbn in *; repeat (constructor; [apply ident_of_string; vm_compute; auto|]); exact H.
Qed.

(** Every segment is non-empty and without '$'. *)
Lemma segments_nodollar e : wf_entity e -> Forall (fun s => s <> "" /\ has_char dollar s = false) (segments e).
Proof.
  intros W. rewrite segments_split. apply Forall_app. split.
  - pose proof (wf_ns e W) as F. eapply Forall_impl; [|exact F]. intros a Ha. apply user_identifier in Ha.
    split; [apply identifier_ne|apply identifier_dollar]; assumption.
  - constructor; [split; [discriminate|reflexivity]|].
    assert (U : forall s, identifier s -> s <> "" /\ has_char dollar s = false)
      by (intros s Hs; split; [apply identifier_ne|apply identifier_dollar]; assumption).
    assert (V : forall s, user_ident s -> s <> "" /\ has_char dollar s = false)
      by (intros s Hs; apply U, user_identifier, Hs).
    destruct e as [n|t n|i op|ns n|ns t n|ns t op|ns t n a h]; cbn in W |- *.
    + constructor; [auto|constructor].
    + destruct W; repeat (constructor; [auto|]); constructor.
    + destruct W as (W & I). apply Forall_app. split.
      * eapply Forall_impl; [|apply instance_path_ident, W]. exact U.
      * constructor; [apply U, (instance_ops_ident i), I|constructor].
    + destruct W; repeat (constructor; [auto|]); constructor.
    + destruct W as (? & ? & ?); repeat (constructor; [auto|]); constructor.
    + destruct W as (? & ? & ?). constructor; [auto|]. constructor; [split; [discriminate|reflexivity]|].
      constructor; [apply U, operator_names_ident; assumption|constructor].
    + destruct W as (? & ? & ? & ?). apply Forall_app. split; [destruct t; repeat constructor; apply V; assumption|].
      constructor; [auto|]. constructor; [auto|]. constructor; [|constructor]. destruct h; split; (discriminate || reflexivity).
Qed.

Lemma segments_ne e : segments e <> [].
Proof. rewrite segments_split. destruct (entity_ns e); discriminate. Qed.

Lemma link_name_segments e e' : wf_entity e -> wf_entity e' -> link_name e = link_name e' -> segments e = segments e'.
Proof.
  intros W W' E. apply segments_nodollar in W, W'.
  rewrite Forall_forall in W, W'. apply (join_inj dollar); [apply segments_ne|apply segments_ne| | |exact E].
  - intros s Hs. apply (W s Hs).
  - intros s Hs. apply (W' s Hs).
Qed.

Lemma sym_join_link e : wf_entity e -> sym_join (segments e) = Some (link_name e).
Proof.
  intros W. apply sym_join_segs; [apply segments_ne|]. eapply Forall_impl; [|apply segments_nodollar, W].
  intros a (H & _). exact H.
Qed.

Lemma path_inj t t' : path t = path t' -> t = t'.
Proof. destruct t as (ns, n), t' as (ns', n'). unfold path. cbn. intros H. apply app_inj_tail in H. destruct H; congruence. Qed.

Lemma path_std ns n t : ns ++ [n] = "std" :: "vector" :: path t -> (ns, n) = ("std" :: "vector" :: fst t, snd t).
Proof.
  intros H. change ("std" :: "vector" :: path t) with (("std" :: "vector" :: fst t) ++ [snd t]) in H.
  apply app_inj_tail in H. destruct H; congruence.
Qed.

Lemma instance_decode i i' op : instance_path i = instance_path i' ->
  i = i' \/ ambiguous (EGeneric i op) (EGeneric i' op) \/ ambiguous (EGeneric i' op) (EGeneric i op).
Proof.
  destruct i as [t|t|t|t|t|t|t|t|t], i' as [t'|t'|t'|t'|t'|t'|t'|t'|t']; cbn [instance_path]; intros H;
    try discriminate H; try (injection H as H; apply path_inj in H; left; congruence).
  - right. right. injection H as H. destruct t as (ns, n). unfold path in H at 1. cbn in H.
    apply path_std in H. rewrite H. destruct t'. apply am_vector.
  - right. left. injection H as H. destruct t' as (ns, n). unfold path in H at 2. cbn in H.
    symmetry in H. apply path_std in H. rewrite H. destruct t. apply am_vector.
Qed.

Lemma generic_len i op : (3 <= List.length (instance_path i ++ [op]))%nat.
Proof.
  rewrite app_length. assert (P : forall t, (1 <= List.length (path t))%nat)
    by (intros t; unfold path; rewrite app_length; cbn; lia).
  destruct i as [t|t|t|t|t|t|t|t|t]; cbn [instance_path List.length]; specialize (P t); lia.
Qed.

Lemma instance_ops_digit i op : In op (instance_ops i) -> op <> "0" /\ op <> "1".
Proof. intros H. apply instance_ops_ident in H. destruct H as (_ & c & r & -> & D). split; intros E; injection E as -> _; discriminate D. Qed.
Lemma operator_digit op : In op operator_names -> op <> "0" /\ op <> "1".
Proof. intros H. apply operator_names_ident in H. destruct H as (_ & c & r & -> & D). split; intros E; injection E as -> _; discriminate D. Qed.
Lemma ops_disjoint i op : In op (instance_ops i) -> In op operator_names -> False.
Proof. intros H H'. destruct i; cbn in H, H'; repeat (destruct H as [<-|H]; [intuition discriminate|]); contradiction. Qed.

Lemma generic_last i op l x : instance_path i ++ [op] = l ++ [x] -> op = x.
Proof. intros H. apply app_inj_tail in H. tauto. Qed.

Lemma user_not_digit s : user_ident s -> s <> "0" /\ s <> "1".
Proof. intros ((_ & c & r & -> & D) & _). split; intros E; injection E as -> _; discriminate D. Qed.

Lemma tramp_tail t n a (h : bool) t' n' a' (h' : bool) :
  match t with Some t => [t] | None => [] end ++ [n; a; if h then "1" else "0"] =
  match t' with Some t => [t] | None => [] end ++ [n'; a'; if h' then "1" else "0"] -> t = t' /\ n = n' /\ a = a' /\ h = h'.
Proof.
  intros E. assert (Hd : forall x y : bool, (if x then "1" else "0") = (if y then "1" else "0") -> x = y)
    by (intros [|] [|]; (reflexivity || discriminate)).
  destruct t, t'; cbn in E; try discriminate; injection E; intros; subst; repeat split; auto.
Qed.

Lemma decode e e' : wf_entity e -> wf_entity e' -> segments e = segments e' ->
  e = e' \/ ambiguous e e' \/ ambiguous e' e.
Proof.
  intros W W' E. rewrite !segments_split in E.
  destruct (split_bridge _ _ _ _ (wf_ns e W) (wf_ns e' W') E) as (N & Tl). clear E.
  destruct e as [n|t n|i op|ns n|ns t n|ns t op|ns t n a h]; destruct e' as [n'|t' n'|i' op'|ns' n'|ns' t' n'|ns' t' op'|ns' t' n' a' h'];
    cbn [entity_ns entity_tail] in N, Tl; subst;
    try (injection Tl; intros; subst; auto using ambiguous; fail);
    try discriminate Tl;
    try (apply (f_equal (@List.length string)) in Tl; first [pose proof (generic_len i op)|pose proof (generic_len i' op')]; cbn in Tl; exfalso; lia);
    try (apply (f_equal (@List.length string)) in Tl; rewrite app_length in Tl; cbn in Tl; exfalso; lia).
  - destruct (app_inj_tail _ _ _ _ Tl) as (P & <-). destruct (instance_decode i i' op P) as [->|[H|H]]; auto.
  - exfalso. cbn in W, W'. change [t'; "operator"; op'] with ([t'; "operator"] ++ [op']) in Tl.
    apply generic_last in Tl. subst. eapply ops_disjoint; [apply W|apply W'].
  - exfalso. cbn in W, W'. replace (match t' with Some t => [t] | None => [] end ++ [n'; a'; if h' then "1" else "0"])
      with ((match t' with Some t => [t] | None => [] end ++ [n'; a']) ++ [if h' then "1" else "0"]) in Tl by (rewrite <- app_assoc; reflexivity).
    apply generic_last in Tl. subst. destruct W as (_ & W). apply instance_ops_digit in W. destruct h'; tauto.
  - exfalso. cbn in W, W'. change [t; "operator"; op] with ([t; "operator"] ++ [op]) in Tl. symmetry in Tl.
    apply generic_last in Tl. subst. eapply ops_disjoint; [apply W'|apply W].
  - exfalso. cbn in W. destruct W as (_ & _ & W). apply operator_digit in W.
    destruct t', h'; cbn in Tl; try discriminate; injection Tl; intros; subst; tauto.
  - exfalso. cbn in W, W'. replace (match t with Some t => [t] | None => [] end ++ [n; a; if h then "1" else "0"])
      with ((match t with Some t => [t] | None => [] end ++ [n; a]) ++ [if h then "1" else "0"]) in Tl by (rewrite <- app_assoc; reflexivity).
    symmetry in Tl. apply generic_last in Tl. subst. destruct W' as (_ & W'). apply instance_ops_digit in W'. destruct h; tauto.
  - exfalso. cbn in W'. destruct W' as (_ & _ & W'). apply operator_digit in W'.
    destruct t, h; cbn in Tl; try discriminate; injection Tl; intros; subst; tauto.
  - destruct (tramp_tail _ _ _ _ _ _ _ _ Tl) as (-> & -> & -> & ->). auto.
Qed.

Lemma ambiguous_link e e' : ambiguous e e' -> link_name e = link_name e'.
Proof. intros H. destruct H; reflexivity. Qed.

Lemma link_name_decode e e' : wf_entity e -> wf_entity e' ->
  (link_name e = link_name e' <-> e = e' \/ ambiguous e e' \/ ambiguous e' e).
Proof.
  intros W W'. split.
  - intros E. apply decode; auto. apply link_name_segments; auto.
  - intros [->|[H|H]]; [reflexivity|apply ambiguous_link, H|symmetry; apply ambiguous_link, H].
Qed.
