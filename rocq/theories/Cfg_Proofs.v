From Verif Require Import Base StrLib Syntax_Model Cfg_Model Cfg_Spec.
From Coq Require Import Permutation.

(** Induction on cfg expressions through the lists. *)
Section cfg_ind.
  Variable P : cfg_expr -> Prop.
  Hypothesis HU : P CUnconditional.
  Hypothesis HE : forall k v, P (CEq k v).
  Hypothesis HA : forall l, Forall P l -> P (CAll l).
  Hypothesis HO : forall l, Forall P l -> P (CAny l).
  Hypothesis HN : forall e, P e -> P (CNot e).
  Fixpoint cfg_ind' (e : cfg_expr) : P e :=
    match e return P e with
    | CUnconditional => HU
    | CEq k v => HE k v
    | CAll l => HA l ((fix go l : Forall P l :=
                         match l with [] => Forall_nil P | x :: r => Forall_cons x (cfg_ind' x) (go r) end) l)
    | CAny l => HO l ((fix go l : Forall P l :=
                         match l with [] => Forall_nil P | x :: r => Forall_cons x (cfg_ind' x) (go r) end) l)
    | CNot e => HN e (cfg_ind' e)
    end.
End cfg_ind.

(** * The parser *)

Lemma toks_size_cons t l : toks_size (t :: l) = tok_size t + toks_size l.
Proof. reflexivity. Qed.
Lemma toks_size_app l r : toks_size (l ++ r) = toks_size l + toks_size r.
Proof. unfold toks_size. now rewrite map_app, list_sum_app. Qed.
Lemma tok_size_pos t : 1 <= tok_size t.
Proof. destruct t; simpl; lia. Qed.

Scheme pred_mut := Induction for pred Sort Prop
with preds_mut := Induction for preds Sort Prop.
Combined Scheme pred_preds_ind from pred_mut, preds_mut.

(** What parse_single may leave for its caller after a predicate. *)
Definition stops (r : list tok) : Prop := r = [] \/ exists r', r = KComma :: r'.

Lemma pred_shape l e : pred l e -> exists n t, l = KIdent n :: t.
Proof. intros H; inversion H; eauto. Qed.

Lemma pred_pos l e : pred l e -> 1 <= toks_size l.
Proof.
  intros H. apply pred_shape in H as (n & t & ->).
  rewrite toks_size_cons. simpl. lia.
Qed.

Lemma parse_complete :
  (forall l e, pred l e -> forall fuel r, stops r -> 2 * toks_size l + 1 <= fuel ->
     parse_single fuel (l ++ r) = Ok (e, r)) /\
  (forall l es, preds l es -> forall fuel, 2 * toks_size l + 2 <= fuel ->
     parse_multiple fuel l = Ok es).
Proof.
  apply pred_preds_ind.
  - intros n fuel r S F. cbn in F. destruct fuel as [|f]; [lia|].
    destruct S as [-> | [r' ->]]; reflexivity.
  - intros n s fuel r S F. cbn in F. destruct fuel as [|f]; [lia|]. reflexivity.
  - intros l es H IH fuel r S F. rewrite !toks_size_cons in F. cbn [tok_size] in F.
    destruct fuel as [|f]; [lia|]. cbn. fold (toks_size l) in F. rewrite IH; [reflexivity|].
    unfold toks_size in *. cbn in F. lia.
  - intros l es H IH fuel r S F. rewrite !toks_size_cons in F. cbn [tok_size] in F.
    destruct fuel as [|f]; [lia|]. cbn. fold (toks_size l) in F. rewrite IH; [reflexivity|].
    unfold toks_size in *. cbn in F. lia.
  - intros l e H IH fuel r S F. rewrite !toks_size_cons in F. cbn [tok_size] in F.
    destruct fuel as [|f]; [lia|]. cbn. fold (toks_size l) in F.
    specialize (IH f []). rewrite app_nil_r in IH. rewrite IH; [reflexivity|left; reflexivity|].
    unfold toks_size in *. cbn in F. lia.
  - intros l e H IH fuel r S F. rewrite !toks_size_cons in F. cbn [tok_size] in F.
    destruct fuel as [|f]; [lia|]. cbn. fold (toks_size (l ++ [KComma])) in F.
    rewrite toks_size_app in F. cbn in F.
    rewrite (IH f [KComma]); [reflexivity|right; eauto|]. lia.
  - intros fuel F. destruct fuel; [lia|]. reflexivity.
  - intros l e H IH fuel F. destruct fuel as [|f]; [lia|].
    destruct (pred_shape _ _ H) as (n & t & El).
    specialize (IH f []). rewrite app_nil_r in IH.
    cbn [parse_multiple]. rewrite El in *. rewrite IH; [reflexivity|left; reflexivity|lia].
  - intros l e r es H IH H' IH' fuel F. destruct fuel as [|f]; [lia|].
    rewrite toks_size_app, toks_size_cons in F. cbn [tok_size] in F.
    pose proof (pred_pos _ _ H).
    destruct (pred_shape _ _ H) as (n & t & El).
    assert (E : parse_single f (l ++ KComma :: r) = Ok (e, KComma :: r)).
    { apply IH; [right; eauto|]. lia. }
    cbn [parse_multiple]. rewrite El in *. cbn [app] in *. rewrite E. cbn [bind snd fst].
    rewrite IH'; [reflexivity|]. lia.
Qed.

Lemma parse_sound fuel :
  (forall l e r, parse_single fuel l = Ok (e, r) -> exists p, l = p ++ r /\ pred p e) /\
  (forall l es, parse_multiple fuel l = Ok es -> preds l es).
Proof.
  induction fuel as [|f [IH1 IH2]]; [split; discriminate|]. split.
  - intros l e r H. cbn [parse_single] in H.
    destruct l as [|t l]; [discriminate|]. destruct t; try discriminate.
    destruct l as [|t l].
    { injection H as <- <-. exists [KIdent s]. split; [reflexivity|constructor]. }
    destruct t; try discriminate.
    + (* = *) destruct l as [|t l]; [discriminate|]. destruct t; try discriminate.
      injection H as <- <-. exists [KIdent s; KEq; KStr s0]. split; [reflexivity|constructor].
    + injection H as <- <-. exists [KIdent s]. split; [reflexivity|constructor].
    + destruct (String.eqb_spec s "all").
      { subst. destruct (parse_multiple f l0) eqn:E; try discriminate.
        injection H as <- <-. exists [KIdent "all"; KGroup l0]. split; [reflexivity|].
        constructor. now apply IH2. }
      destruct (String.eqb_spec s "any").
      { subst. destruct (parse_multiple f l0) eqn:E; try discriminate.
        injection H as <- <-. exists [KIdent "any"; KGroup l0]. split; [reflexivity|].
        constructor. now apply IH2. }
      destruct (String.eqb_spec s "not"); [|discriminate].
      subst. destruct (parse_single f l0) as [[e' r']| |] eqn:E; try discriminate.
      cbn [bind snd fst] in H. apply IH1 in E as (p & -> & Hp).
      destruct r' as [|t' r'].
      { injection H as <- <-. rewrite app_nil_r. exists [KIdent "not"; KGroup p].
        split; [reflexivity|]. now constructor. }
      destruct t'; try discriminate. destruct r'; [|discriminate].
      injection H as <- <-. exists [KIdent "not"; KGroup (p ++ [KComma])].
      split; [reflexivity|]. now constructor.
  - intros l es H. cbn [parse_multiple] in H.
    destruct l as [|t l]; [injection H as <-; constructor|].
    destruct (parse_single f (t :: l)) as [[e r]| |] eqn:E; try discriminate.
    cbn [bind snd fst] in H. apply IH1 in E as (p & -> & Hp).
    destruct r as [|t' r].
    { injection H as <-. rewrite app_nil_r. now constructor. }
    destruct t'; try discriminate.
    destruct (parse_multiple f r) eqn:E; try discriminate.
    injection H as <-. constructor; [assumption|]. now apply IH2.
Qed.

Lemma parse_single_rest fuel l e r :
  parse_single fuel l = Ok (e, r) -> toks_size r < toks_size l.
Proof.
  intros H. apply (proj1 (parse_sound fuel)) in H as (p & -> & Hp).
  rewrite toks_size_app. apply pred_pos in Hp. lia.
Qed.

Lemma parse_total fuel :
  (forall l, 2 * toks_size l + 1 <= fuel -> forall m, parse_single fuel l <> Panic m) /\
  (forall l, 2 * toks_size l + 2 <= fuel -> forall m, parse_multiple fuel l <> Panic m).
Proof.
  induction fuel as [|f [IH1 IH2]]; [split; intros; lia|]. split.
  - intros l F m. cbn [parse_single].
    destruct l as [|t l]; [discriminate|]. destruct t; try discriminate.
    destruct l as [|t l]; [discriminate|].
    destruct t; try discriminate.
    + destruct l as [|t l]; [discriminate|]. destruct t; discriminate.
    + assert (2 * toks_size l0 + 2 <= f).
      { change (toks_size (KIdent s :: KGroup l0 :: l)) with (2 + (toks_size l0 + toks_size l)) in F. lia. }
      destruct (String.eqb s "all").
      { destruct (parse_multiple f l0) eqn:E; try discriminate. exfalso. now apply (IH2 l0 H msg). }
      destruct (String.eqb s "any").
      { destruct (parse_multiple f l0) eqn:E; try discriminate. exfalso. now apply (IH2 l0 H msg). }
      destruct (String.eqb s "not"); [|discriminate].
      destruct (parse_single f l0) as [[e' r']| |] eqn:E; cbn [bind snd fst].
      * destruct r' as [|t' r']; [discriminate|]. destruct t'; try discriminate. destruct r'; discriminate.
      * discriminate.
      * exfalso. apply (IH1 l0) with (m := msg); [lia|assumption].
  - intros l F m. cbn [parse_multiple].
    destruct l as [|t l]; [discriminate|].
    destruct (parse_single f (t :: l)) as [[e r]| |] eqn:E; cbn [bind snd fst].
    + pose proof (parse_single_rest _ _ _ _ E).
      destruct r as [|t' r]; [discriminate|]. destruct t'; try discriminate.
      destruct (parse_multiple f r) eqn:E'; try discriminate. exfalso.
      apply (IH2 r) with (m := msg); [|assumption]. change (toks_size (KComma :: r)) with (1 + toks_size r) in H. lia.
    + discriminate.
    + exfalso. apply (IH1 (t :: l)) with (m := msg); [lia|assumption].
Qed.

Lemma parse_attribute_spec l e : parse_attribute l = Ok e <-> cfg_attribute l e.
Proof.
  unfold parse_attribute, cfg_attribute. split.
  - intros H. destruct (parse_single (parse_fuel l) l) as [[e' r]| |] eqn:E; try discriminate.
    cbn [bind snd fst] in H. apply (proj1 (parse_sound _)) in E as (p & -> & Hp).
    destruct r as [|t r].
    { injection H as <-. left. now rewrite app_nil_r. }
    destruct t; try discriminate. destruct r; [|discriminate].
    injection H as <-. right. eauto.
  - intros [H | (l' & -> & H)].
    + pose proof (proj1 parse_complete _ _ H (parse_fuel l) []) as E.
      rewrite app_nil_r in E. rewrite E; [reflexivity|left; reflexivity|unfold parse_fuel; lia].
    + rewrite (proj1 parse_complete _ _ H (parse_fuel (l' ++ [KComma])) [KComma]); [reflexivity|right; eauto|].
      unfold parse_fuel. rewrite toks_size_app. lia.
Qed.

Lemma parse_attribute_total l m : parse_attribute l <> Panic m.
Proof.
  unfold parse_attribute. destruct (parse_single (parse_fuel l) l) as [[e' r]| |] eqn:E; cbn [bind snd fst].
  - destruct r as [|t r]; [discriminate|]. destruct t; try discriminate. destruct r; discriminate.
  - discriminate.
  - exfalso. apply (proj1 (parse_total (parse_fuel l)) l) with (m := msg); [unfold parse_fuel; lia|assumption].
Qed.

Lemma cfg_attribute_det l e e' : cfg_attribute l e -> cfg_attribute l e' -> e = e'.
Proof. rewrite <- !parse_attribute_spec. congruence. Qed.

(** * merge and the attribute loop *)

Lemma holds_merge c s e : holds c (merge s e) = holds c s && holds c e.
Proof.
  destruct s; cbn [merge holds]; try (cbn; now rewrite andb_true_r).
  - reflexivity.
  - rewrite forallb_app. cbn. now rewrite andb_true_r.
Qed.

Lemma attrs_parse_spec ign attrs : forall cfg c' p,
  attrs_parse ign attrs cfg = (c', p, false) ->
  (forall c, holds c c' = true <-> holds c cfg = true /\ attrs_allow c attrs) /\
  filter (fun a => match a with AtCfg _ => true | _ => false end) p =
  filter (fun a => match a with AtCfg _ => true | _ => false end) attrs.
Proof.
  induction attrs as [|a attrs IH]; intros cfg c' p H; cbn [attrs_parse] in H.
  - injection H as <- <-. split; [|reflexivity].
    intros c. unfold attrs_allow. split; [intros; split; [assumption|constructor]|tauto].
  - destruct a.
    + destruct (parse_attribute l) as [e| |] eqn:E; try discriminate.
      destruct (attrs_parse ign attrs (merge cfg e)) as [[c1 p1] e1] eqn:E1.
      injection H as <- <- ->. apply IH in E1 as [E1 E2]. apply parse_attribute_spec in E.
      split; [|cbn; now rewrite E2].
      intros c. rewrite E1, holds_merge, andb_true_iff. unfold attrs_allow.
      rewrite Forall_cons_iff. cbn [attr_allows]. split.
      * intros [[? ?] ?]. repeat split; eauto.
      * intros (? & (e' & He' & Hh) & ?). rewrite (cfg_attribute_det _ _ _ E He'). auto.
    + destruct (attrs_parse ign attrs cfg) as [[c1 p1] e1] eqn:E1.
      injection H as <- <- ->. apply IH in E1 as [E1 E2]. split; [|cbn; now rewrite E2].
      intros c. rewrite E1. unfold attrs_allow. rewrite Forall_cons_iff. cbn. tauto.
    + apply IH in H as [E1 E2]. split; [|cbn; now rewrite E2].
      intros c. rewrite E1. unfold attrs_allow. rewrite Forall_cons_iff. cbn. tauto.
    + destruct ign; [|discriminate]. apply IH in H as [E1 E2]. split; [|cbn; now rewrite E2].
      intros c. rewrite E1. unfold attrs_allow. rewrite Forall_cons_iff. cbn. tauto.
    + discriminate.
Qed.

Lemma attrs_allow_cfg_only c l :
  attrs_allow c l <-> attrs_allow c (filter (fun a => match a with AtCfg _ => true | _ => false end) l).
Proof.
  unfold attrs_allow. induction l as [|a l IH]; [tauto|].
  destruct a; cbn; rewrite ?Forall_cons_iff, IH; cbn; tauto.
Qed.

Lemma attrs_allow_app c l r : attrs_allow c (l ++ r) <-> attrs_allow c l /\ attrs_allow c r.
Proof. unfold attrs_allow. apply Forall_app. Qed.

Lemma extern_item_spec block item c' p :
  extern_item_attrs block item = (c', p, false) ->
  forall c, (holds c c' = true <-> attrs_allow c (block ++ item)) /\
            (attrs_allow c p <-> attrs_allow c (block ++ item)).
Proof.
  unfold extern_item_attrs.
  destruct (attrs_parse false block CUnconditional) as [[bc bp] be] eqn:E1.
  destruct (attrs_parse false item bc) as [[ic ip] ie] eqn:E2.
  intros H. injection H as <- <- He. apply orb_false_elim in He as [-> ->].
  apply attrs_parse_spec in E1 as [A1 B1]. apply attrs_parse_spec in E2 as [A2 B2].
  intros c. split.
  - rewrite A2, A1, attrs_allow_app. cbn. tauto.
  - rewrite !attrs_allow_app, (attrs_allow_cfg_only c bp), B1, (attrs_allow_cfg_only c ip), B2,
      <- !attrs_allow_cfg_only. tauto.
Qed.

(** * Evaluation *)

Lemma all_loop_app rs : forall errs,
  all_loop rs errs =
  match all_loop rs [] with
  | EvOk false => EvOk false
  | EvOk true => match errs with [] => EvOk true | _ => EvErr errs end
  | EvErr l => EvErr (errs ++ l)
  end.
Proof.
  induction rs as [|r rs IH]; intros errs; cbn [all_loop].
  - destruct errs; reflexivity.
  - destruct r as [[|]|l]; [apply IH|reflexivity|].
    rewrite IH, (IH ([] ++ l)). cbn [app].
    destruct (all_loop rs []) as [[|]|l']; [|reflexivity|now rewrite app_assoc].
    destruct l as [|x l]; [now rewrite app_nil_r; destruct errs|].
    destruct errs; reflexivity.
Qed.

Lemma any_loop_app rs : forall errs,
  any_loop rs errs =
  match any_loop rs [] with
  | EvOk true => EvOk true
  | EvOk false => match errs with [] => EvOk false | _ => EvErr errs end
  | EvErr l => EvErr (errs ++ l)
  end.
Proof.
  induction rs as [|r rs IH]; intros errs; cbn [any_loop].
  - destruct errs; reflexivity.
  - destruct r as [[|]|l]; [reflexivity|apply IH|].
    rewrite IH, (IH ([] ++ l)). cbn [app].
    destruct (any_loop rs []) as [[|]|l']; [reflexivity| |now rewrite app_assoc].
    destruct l as [|x l]; [now rewrite app_nil_r; destruct errs|].
    destruct errs; reflexivity.
Qed.

Definition ev_val (r : ev) : option bool := match r with EvOk b => Some b | EvErr _ => None end.
Definition ev_good (r : ev) : Prop := r <> EvErr [].

Lemma all_loop_k rs : Forall ev_good rs ->
  ev_good (all_loop rs []) /\ ev_val (all_loop rs []) = fold_right k_and (Some true) (map ev_val rs).
Proof.
  induction 1 as [|r rs G _ [IH1 IH2]]; [split; [discriminate|reflexivity]|].
  cbn [all_loop map fold_right]. rewrite <- IH2. clear IH2.
  destruct r as [[|]|l]; cbn [ev_val].
  - split; [assumption|]. destruct (all_loop rs []) as [[|]|]; reflexivity.
  - split; [discriminate|]. destruct (all_loop rs []) as [[|]|]; reflexivity.
  - cbn [app]. rewrite all_loop_app. destruct l as [|x l]; [now elim G|].
    destruct (all_loop rs []) as [[|]|]; split; try discriminate; reflexivity.
Qed.

Lemma any_loop_k rs : Forall ev_good rs ->
  ev_good (any_loop rs []) /\ ev_val (any_loop rs []) = fold_right k_or (Some false) (map ev_val rs).
Proof.
  induction 1 as [|r rs G _ [IH1 IH2]]; [split; [discriminate|reflexivity]|].
  cbn [any_loop map fold_right]. rewrite <- IH2. clear IH2.
  destruct r as [[|]|l]; cbn [ev_val].
  - split; [discriminate|]. destruct (any_loop rs []) as [[|]|]; reflexivity.
  - split; [assumption|]. destruct (any_loop rs []) as [[|]|]; reflexivity.
  - cbn [app]. rewrite any_loop_app. destruct l as [|x l]; [now elim G|].
    destruct (any_loop rs []) as [[|]|]; split; try discriminate; reflexivity.
Qed.

Lemma try_eval_k cev e :
  ev_good (try_eval cev e) /\ ev_val (try_eval cev e) = kleene (known cev) e.
Proof.
  induction e using cfg_ind'; cbn [try_eval kleene].
  - split; [discriminate|reflexivity].
  - unfold known. destruct (cev k v); split; try discriminate; reflexivity.
  - assert (G : Forall ev_good (map (try_eval cev) l)).
    { apply Forall_map. eapply Forall_impl; [|exact H]. now intros a [? ?]. }
    destruct (all_loop_k _ G) as [A B]. split; [assumption|]. rewrite B. f_equal.
    rewrite map_map. apply map_ext_in. intros a Ha. rewrite Forall_forall in H. now apply H.
  - assert (G : Forall ev_good (map (try_eval cev) l)).
    { apply Forall_map. eapply Forall_impl; [|exact H]. now intros a [? ?]. }
    destruct (any_loop_k _ G) as [A B]. split; [assumption|]. rewrite B. f_equal.
    rewrite map_map. apply map_ext_in. intros a Ha. rewrite Forall_forall in H. now apply H.
  - destruct IHe as [A B]. destruct (try_eval cev e) as [b|l]; cbn in *; rewrite <- B.
    + split; [discriminate|reflexivity].
    + split; [assumption|reflexivity].
Qed.

Lemma k_and_some a b r : k_and a b = Some r ->
  (r = true /\ a = Some true /\ b = Some true) \/ (r = false /\ (a = Some false \/ b = Some false)).
Proof. destruct a as [[|]|], b as [[|]|]; cbn; intros H; inversion H; auto 6. Qed.
Lemma k_or_some a b r : k_or a b = Some r ->
  (r = false /\ a = Some false /\ b = Some false) \/ (r = true /\ (a = Some true \/ b = Some true)).
Proof. destruct a as [[|]|], b as [[|]|]; cbn; intros H; inversion H; auto 6. Qed.

Lemma kleene_sound cev c e b :
  completion cev c -> kleene (known cev) e = Some b -> holds c e = b.
Proof.
  intros C. revert b. induction e using cfg_ind'; intros b; cbn [kleene holds].
  - intros E; now injection E.
  - apply C.
  - revert b. induction H as [|x l Hx Hl IH]; cbn [map fold_right forallb]; intros b E.
    + now injection E.
    + apply k_and_some in E as [(-> & E1 & E2)|(-> & [E|E])].
      * now rewrite (Hx _ E1), (IH _ E2).
      * now rewrite (Hx _ E).
      * rewrite (IH _ E). apply andb_false_r.
  - revert b. induction H as [|x l Hx Hl IH]; cbn [map fold_right existsb]; intros b E.
    + now injection E.
    + apply k_or_some in E as [(-> & E1 & E2)|(-> & [E|E])].
      * now rewrite (Hx _ E1), (IH _ E2).
      * now rewrite (Hx _ E).
      * rewrite (IH _ E). apply orb_true_r.
  - destruct (kleene (known cev) e) as [b'|]; cbn; [|discriminate].
    intros E. injection E as <-. now rewrite (IHe b' eq_refl).
Qed.

(** Errors come from flags that occur in the expression and are undetermined. *)
Lemma all_loop_errs rs : forall acc l m,
  all_loop rs acc = EvErr l -> In m l -> In m acc \/ exists l', In (EvErr l') rs /\ In m l'.
Proof.
  induction rs as [|r rs IH]; cbn [all_loop]; intros acc l m E I.
  - destruct acc; [discriminate|]. injection E as <-. auto.
  - destruct r as [[|]|l']; [|discriminate|].
    + destruct (IH _ _ _ E I) as [?|(l' & ? & ?)]; [auto|right; exists l'; split; [right|]; assumption].
    + destruct (IH _ _ _ E I) as [X|(l1 & ? & ?)].
      * apply in_app_or in X as [?|?]; [auto|right; exists l'; split; [left; reflexivity|assumption]].
      * right; exists l1; split; [right|]; assumption.
Qed.
Lemma any_loop_errs rs : forall acc l m,
  any_loop rs acc = EvErr l -> In m l -> In m acc \/ exists l', In (EvErr l') rs /\ In m l'.
Proof.
  induction rs as [|r rs IH]; cbn [any_loop]; intros acc l m E I.
  - destruct acc; [discriminate|]. injection E as <-. auto.
  - destruct r as [[|]|l']; [discriminate| |].
    + destruct (IH _ _ _ E I) as [?|(l' & ? & ?)]; [auto|right; exists l'; split; [right|]; assumption].
    + destruct (IH _ _ _ E I) as [X|(l1 & ? & ?)].
      * apply in_app_or in X as [?|?]; [auto|right; exists l'; split; [left; reflexivity|assumption]].
      * right; exists l1; split; [right|]; assumption.
Qed.

Lemma try_eval_errs cev e : forall l m, try_eval cev e = EvErr l -> In m l ->
  exists k v, mentions e k v /\ cev k v = CRUndetermined m.
Proof.
  induction e using cfg_ind'; intros l0 m; cbn [try_eval].
  - discriminate.
  - destruct (cev k v) eqn:E; try discriminate. intros X; injection X as <-.
    intros [->|[]]. exists k, v. split; [constructor|assumption].
  - intros E I. destruct (all_loop_errs _ _ _ _ E I) as [[]|(l' & Hl & Hm)].
    apply in_map_iff in Hl as (x & Ex & Hx). rewrite Forall_forall in H.
    destruct (H x Hx _ _ Ex Hm) as (k & v & A & B). exists k, v. split; [econstructor; eassumption|assumption].
  - intros E I. destruct (any_loop_errs _ _ _ _ E I) as [[]|(l' & Hl & Hm)].
    apply in_map_iff in Hl as (x & Ex & Hx). rewrite Forall_forall in H.
    destruct (H x Hx _ _ Ex Hm) as (k & v & A & B). exists k, v. split; [econstructor; eassumption|assumption].
  - destruct (try_eval cev e) eqn:E; [discriminate|]. intros X; injection X as <-. intros I.
    destruct (IHe _ _ eq_refl I) as (k & v & A & B). exists k, v. split; [now constructor|assumption].
Qed.

(** * Error reporting *)

Definition st_ok (st : cfg_state) : Prop :=
  NoDup (cs_pushed st) /\ (forall m, In m (cs_seen st) <-> In m (cs_pushed st)).

Lemma push_errors_spec errs : forall st, st_ok st ->
  st_ok (push_errors st errs) /\
  (forall m, In m (cs_pushed (push_errors st errs)) <-> In m (cs_pushed st) \/ In m errs).
Proof.
  induction errs as [|x errs IH]; intros st S; cbn [push_errors].
  - split; [assumption|]. intros m; cbn; tauto.
  - destruct (smem x (cs_seen st)) eqn:E.
    + destruct (IH st S) as [A B]. split; [assumption|]. intros m. rewrite B. cbn.
      apply smem_In in E. apply (proj2 S) in E. intuition (subst; auto).
    + assert (S' : st_ok (CfgState (x :: cs_seen st) (cs_pushed st ++ [x]))).
      { destruct S as [N I]. split; cbn.
        - apply (Permutation_NoDup (Permutation_app_comm [x] (cs_pushed st))). cbn. constructor; [|assumption].
          rewrite <- I. now apply smem_false.
        - intros m. rewrite in_app_iff, <- I. cbn. tauto. }
      destruct (IH _ S') as [A B]. split; [assumption|]. intros m. rewrite B. cbn [cs_pushed].
      rewrite in_app_iff. cbn. tauto.
Qed.

Lemma cfg_eval_spec cev st e : st_ok st ->
  st_ok (fst (cfg_eval cev st e)) /\
  (forall m, In m (cs_pushed (fst (cfg_eval cev st e))) <->
     In m (cs_pushed st) \/ exists l, try_eval cev e = EvErr l /\ In m l) /\
  snd (cfg_eval cev st e) = match kleene (known cev) e with Some b => b | None => false end.
Proof.
  intros S. unfold cfg_eval. destruct (try_eval_k cev e) as [G K].
  destruct (try_eval cev e) as [b|l]; cbn [fst snd]; rewrite <- K; cbn.
  - split; [assumption|]. split; [|reflexivity]. intros m. split; [auto|].
    intros [?|(l & ? & ?)]; [assumption|discriminate].
  - destruct (push_errors_spec l st S) as [A B]. split; [assumption|]. split; [|reflexivity].
    intros m. rewrite B. split; intros [?|X]; auto.
    + right; exists l; auto.
    + destruct X as (l' & X & ?). injection X as <-. auto.
Qed.

Definition errs_of (cev : evaluator) (es : list cfg_expr) (m : string) : Prop :=
  exists e l, In e es /\ try_eval cev e = EvErr l /\ In m l.

Lemma errs_of_app cev a b m : errs_of cev (a ++ b) m <-> errs_of cev a m \/ errs_of cev b m.
Proof.
  unfold errs_of. split.
  - intros (e & l & I & R). apply in_app_or in I as [I|I]; [left|right]; eauto.
  - intros [(e & l & I & R)|(e & l & I & R)]; exists e, l; (split; [apply in_or_app|]); auto.
Qed.
Lemma errs_of_cons cev e b m :
  errs_of cev (e :: b) m <-> (exists l, try_eval cev e = EvErr l /\ In m l) \/ errs_of cev b m.
Proof.
  unfold errs_of. split.
  - intros (e' & l & [->|I] & R); [left|right]; eauto.
  - intros [(l & R)|(e' & l & I & R)]; [exists e, l|exists e', l]; (split; [|assumption]); [left|right]; auto.
Qed.

Definition kbool (cev : evaluator) (e : cfg_expr) : bool :=
  match kleene (known cev) e with Some b => b | None => false end.

Lemma retain_spec {A} cev (cfg : A -> cfg_expr) l : forall st, st_ok st ->
  st_ok (fst (retain cev cfg st l)) /\
  (forall m, In m (cs_pushed (fst (retain cev cfg st l))) <->
     In m (cs_pushed st) \/ errs_of cev (map cfg l) m) /\
  snd (retain cev cfg st l) = filter (fun x => kbool cev (cfg x)) l.
Proof.
  induction l as [|x l IH]; intros st S; cbn [retain].
  - cbn. split; [assumption|]. split; [|reflexivity]. intros m; split; [auto|].
    intros [?|(? & ? & [] & _)]; assumption.
  - destruct (cfg_eval_spec cev st (cfg x) S) as (A1 & B1 & C1).
    destruct (cfg_eval cev st (cfg x)) as [st1 keep]; cbn [fst snd] in *.
    destruct (IH st1 A1) as (A2 & B2 & C2).
    destruct (retain cev cfg st1 l) as [st2 r']; cbn [fst snd] in *.
    split; [assumption|]. split.
    + intros m. rewrite B2, B1. cbn [map]. rewrite errs_of_cons. tauto.
    + cbn [filter]. unfold kbool at 1. rewrite <- C1, C2. destruct keep; reflexivity.
Qed.

Definition kkeep (cev : evaluator) (a : api) : api :=
  match a with
  | AStruct s => AStruct (Struct_ (st_cfg s) (st_derives s) (st_name s) (st_lts s)
                            (filter (fun f => kbool cev (v_cfg f)) (st_fields s)))
  | AEnum e => AEnum (Enum_ (en_cfg e) (en_derives e) (en_name e) (en_lts e)
                        (filter (fun v => kbool cev (vr_cfg v)) (en_variants e))
                        (en_from_header e) (en_repr e) (en_explicit_repr e))
  | _ => a
  end.

Lemma strip_each_spec cev l : forall st, st_ok st ->
  st_ok (fst (strip_each cev st l)) /\
  (forall m, In m (cs_pushed (fst (strip_each cev st l))) <->
     In m (cs_pushed st) \/ errs_of cev (flat_map inner_cfgs l) m) /\
  snd (strip_each cev st l) = map (kkeep cev) l.
Proof.
  induction l as [|a l IH]; intros st S; cbn [strip_each].
  - cbn. split; [assumption|]. split; [|reflexivity]. intros m; split; [auto|].
    intros [?|(? & ? & [] & _)]; assumption.
  - assert (H : st_ok (fst (strip_inner cev st a)) /\
      (forall m, In m (cs_pushed (fst (strip_inner cev st a))) <->
         In m (cs_pushed st) \/ errs_of cev (inner_cfgs a) m) /\
      snd (strip_inner cev st a) = kkeep cev a).
    { destruct a; cbn [strip_inner inner_cfgs kkeep];
        try (split; [assumption|]; split; [|reflexivity]; intros m; split;
             [intros; left; assumption|intros [?|(? & ? & [] & _)]; assumption]).
      - destruct (retain_spec cev v_cfg (st_fields s) st S) as (A & B & C).
        destruct (retain cev v_cfg st (st_fields s)) as [st' fs]; cbn [fst snd] in *.
        split; [assumption|]. split; [assumption|]. now rewrite C.
      - destruct (retain_spec cev vr_cfg (en_variants e) st S) as (A & B & C).
        destruct (retain cev vr_cfg st (en_variants e)) as [st' fs]; cbn [fst snd] in *.
        split; [assumption|]. split; [assumption|]. now rewrite C. }
    destruct H as (A1 & B1 & C1). destruct (strip_inner cev st a) as [st1 a']; cbn [fst snd] in *.
    destruct (IH st1 A1) as (A2 & B2 & C2). destruct (strip_each cev st1 l) as [st2 r']; cbn [fst snd] in *.
    split; [assumption|]. split.
    + intros m. rewrite B2, B1. cbn [flat_map]. rewrite errs_of_app. tauto.
    + cbn. now rewrite C1, C2.
Qed.

Lemma strip_spec cev st apis : st_ok st ->
  let kept := filter (fun a => kbool cev (api_cfg a)) apis in
  st_ok (fst (strip cev st apis)) /\
  (forall m, In m (cs_pushed (fst (strip cev st apis))) <->
     In m (cs_pushed st) \/ errs_of cev (map api_cfg apis ++ flat_map inner_cfgs kept) m) /\
  snd (strip cev st apis) = map (kkeep cev) kept.
Proof.
  intros S kept. unfold strip.
  destruct (retain_spec cev api_cfg apis st S) as (A1 & B1 & C1).
  destruct (retain cev api_cfg st apis) as [st1 k]; cbn [fst snd] in *.
  fold kept in C1. subst k.
  destruct (strip_each_spec cev kept st1 A1) as (A2 & B2 & C2).
  split; [assumption|]. split; [|assumption].
  intros m. rewrite B2, B1, errs_of_app. tauto.
Qed.

Lemma no_errs_known cev es e :
  (forall m, ~ errs_of cev es m) -> In e es -> exists b, kleene (known cev) e = Some b.
Proof.
  intros N I. destruct (try_eval_k cev e) as [G K].
  destruct (try_eval cev e) as [b|l] eqn:E.
  - exists b. now rewrite <- K.
  - destruct l as [|m l]; [now elim G|]. exfalso. apply (N m). exists e, (m :: l).
    split; [assumption|]. split; [assumption|left; reflexivity].
Qed.

Lemma kbool_holds cev c es e :
  (forall m, ~ errs_of cev es m) -> completion cev c -> In e es -> kbool cev e = holds c e.
Proof.
  intros N C I. destruct (no_errs_known _ _ _ N I) as [b E]. unfold kbool. rewrite E.
  symmetry. now apply kleene_sound with cev.
Qed.

Lemma strip_enabled cev c apis : completion cev c ->
  cs_pushed (fst (strip cev (CfgState [] []) apis)) = [] ->
  snd (strip cev (CfgState [] []) apis) = enabled c apis.
Proof.
  intros C P. assert (S : st_ok (CfgState [] [])) by (split; [constructor|intros m; cbn; tauto]).
  destruct (strip_spec cev (CfgState [] []) apis S) as (_ & B & R). rewrite R. clear R.
  assert (N : forall m, ~ errs_of cev (map api_cfg apis ++
     flat_map inner_cfgs (filter (fun a => kbool cev (api_cfg a)) apis)) m).
  { intros m X. assert (I : In m (cs_pushed (fst (strip cev (CfgState [] []) apis)))).
    { rewrite B. now right. } rewrite P in I. destruct I. }
  unfold enabled.
  assert (E : filter (fun a => kbool cev (api_cfg a)) apis = filter (fun a => holds c (api_cfg a)) apis).
  { apply filter_ext_in. intros a Ia. eapply kbool_holds; [exact N|assumption|].
    apply in_or_app. left. now apply in_map. }
  rewrite <- E. apply map_ext_in. intros a Ia.
  assert (Hin : forall e, In e (inner_cfgs a) -> kbool cev e = holds c e).
  { intros e Ie. eapply kbool_holds; [exact N|assumption|].
    apply in_or_app. right. apply in_flat_map. eauto. }
  destruct a; cbn [kkeep keep_inner]; try reflexivity; cbn [inner_cfgs] in Hin.
  - unfold keep_fields. do 2 f_equal. apply filter_ext_in. intros f If. apply Hin. now apply in_map.
  - unfold keep_variants. do 2 f_equal. apply filter_ext_in. intros f If. apply Hin. now apply in_map.
Qed.

Lemma gather_spec cev bs : forall st, st_ok st ->
  st_ok (fst (gather cev st bs)) /\
  (forall m, In m (cs_pushed (fst (gather cev st bs))) <->
     In m (cs_pushed st) \/ errs_of cev (map fst bs) m) /\
  snd (gather cev st bs) = flat_map snd (filter (fun b => kbool cev (fst b)) bs).
Proof.
  induction bs as [|[c items] bs IH]; intros st S; cbn [gather].
  - cbn. split; [assumption|]. split; [|reflexivity]. intros m; split; [auto|].
    intros [?|(? & ? & [] & _)]; assumption.
  - destruct (cfg_eval_spec cev st c S) as (A1 & B1 & C1).
    destruct (cfg_eval cev st c) as [st1 keep]; cbn [fst snd] in *.
    destruct (IH st1 A1) as (A2 & B2 & C2).
    destruct (gather cev st1 bs) as [st2 r']; cbn [fst snd] in *.
    split; [assumption|]. split.
    + intros m. rewrite B2, B1. cbn [map fst]. rewrite errs_of_cons. tauto.
    + cbn [filter fst]. unfold kbool at 1. rewrite <- C1, C2. destruct keep; reflexivity.
Qed.

Lemma strip_monotone_pushed cev st apis : st_ok st ->
  cs_pushed (fst (strip cev st apis)) = [] -> cs_pushed st = [].
Proof.
  intros S E. destruct (strip_spec cev st apis S) as (_ & B & _).
  rewrite E in B. destruct (cs_pushed st) as [|m l]; [reflexivity|].
  exfalso. apply (B m). left. left. reflexivity.
Qed.

Lemma generate_apis_spec cev c bs out : completion cev c ->
  generate_apis cev bs = Some out ->
  out = enabled c (flat_map snd (filter (fun b => holds c (fst b)) bs)).
Proof.
  intros C. unfold generate_apis.
  assert (S : st_ok (CfgState [] [])) by (split; [constructor|intros m; cbn; tauto]).
  destruct (gather_spec cev bs _ S) as (A1 & B1 & C1).
  destruct (gather cev (CfgState [] []) bs) as [st1 apis]; cbn [fst snd] in *.
  pose proof (strip_monotone_pushed cev st1 apis A1) as M.
  destruct (strip cev st1 apis) as [st2 apis'] eqn:E2; cbn [fst] in M.
  destruct (cs_pushed st2) eqn:P; [|discriminate]. intros X; injection X as <-.
  specialize (M eq_refl).
  assert (st1 = CfgState [] []).
  { destruct st1 as [s p]; cbn in *. subst p. f_equal. destruct s as [|m s]; [reflexivity|].
    exfalso. apply (proj2 A1 m). left; reflexivity. }
  subst st1. pose proof (strip_enabled cev c apis C) as H. rewrite E2 in H. cbn in H. rewrite (H P).
  f_equal. rewrite C1. f_equal. apply filter_ext_in. intros b Hb.
  eapply kbool_holds; [|eassumption|apply in_map; eassumption].
  intros m X. apply (or_intror (A := In m (cs_pushed (CfgState [] [])))) in X.
  apply B1 in X. destruct X.
Qed.
