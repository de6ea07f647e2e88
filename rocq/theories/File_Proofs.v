From Verif Require Import Parse_Proofs.
From Verif Require Import Base Syntax_Model Cfg_Model Types_Model Check_Model Cfg_Spec Cfg_Proofs Attrs_Model Attrs_Spec Attrs_Proofs Parse_Model File_Model File_Spec.
From Coq Require Import Sorting.Sorted.

Section FitemInd.
  Variable P : fitem -> Prop.
  Hypothesis Hitem : forall attrs i, P (FItem attrs i).
  Hypothesis Hnone : forall attrs un x, P (FMod attrs un x None).
  Hypothesis Hmod : forall attrs un x inner items, Forall P items -> P (FMod attrs un x (Some (inner, items))).
  Fixpoint fitem_ind2 (i : fitem) : P i :=
    match i with
    | FItem attrs i => Hitem attrs i
    | FMod attrs un x None => Hnone attrs un x
    | FMod attrs un x (Some (inner, items)) =>
        Hmod attrs un x inner items
          ((fix go l : Forall P l := match l with [] => Forall_nil P | i :: l => Forall_cons i (fitem_ind2 i) (go l) end) items)
    end.
End FitemInd.

Section Proofs.
  Variable lex : string -> option (list tok).
  Variable keyword : string -> bool.
  Hypothesis keyword_sep : keyword "::" = false.
  Notation qualified_loop := (qualified_loop keyword).

  (** * The argument of the attribute *)
  Lemma strip_unraw x y : match strip_raw x with Some z => Ok z | None => Ok x end = Ok y <-> unraw x y.
  Proof.
    unfold unraw. destruct (strip_raw x) as [z|] eqn:S.
    - assert (E : x = ("r#" ++ z)%string).
      { clear - S. destruct x as [|c x]; [discriminate|]. destruct c as [[] [] [] [] [] [] [] []]; try discriminate.
        destruct x as [|c x]; [discriminate|]. destruct c as [[] [] [] [] [] [] [] []]; try discriminate. cbn in S. injection S as <-. reflexivity. }
      split.
      + intros F. injection F as <-. left. exact E.
      + intros [F|[N _]]; [rewrite E in F; cbn in F; injection F as ->; reflexivity|]. exfalso. apply N. exists z. exact E.
    - apply strip_raw_none in S. split.
      + intros F. injection F as <-. right. auto.
      + intros [F|[_ ->]]; [exfalso; apply S; exists y; exact F|reflexivity].
  Qed.
  Lemma loop_raw l : forall ns tr rest, qualified_loop true l = Ok (ns, tr, rest) -> ns <> [] -> tr = false ->
    exists l0, l = l0 ++ rest /\ raw_path keyword l0 ns.
  Proof.
    induction l as [l IH] using (well_founded_induction (Wf_nat.well_founded_ltof _ (@List.length tok))).
    intros ns tr rest E N T. destruct l as [|t l]; [cbn in E; injection E as <- <-; congruence|].
    cbn in E. destruct (any_ident keyword t) as [x|] eqn:A; [|injection E as <- <-; congruence].
    apply any_ident_spec in A. apply bind_ok in E as (y & Y & E). apply strip_unraw in Y.
    destruct l as [|c l]; [injection E as <- <- <-; exists [t]; split; [reflexivity|econstructor; eauto]|].
    destruct (is_sep c) eqn:S.
    - apply is_sep_spec in S as ->. apply bind_ok in E as ([[ns' tr'] r'] & E & F). injection F as <- <- ->.
      assert (N' : ns' <> []).
      { intros ->. destruct l as [|t' l']; cbn in E; [injection E as <-; congruence|].
        destruct (any_ident keyword t') as [x'|]; [|injection E as <-; congruence].
        apply bind_ok in E as (? & _ & E). destruct l' as [|c' l']; [discriminate|].
        destruct (is_sep c'); [|discriminate]. apply bind_ok in E as ([[? ?] ?] & _ & F). discriminate. }
      destruct (IH l ltac:(unfold Wf_nat.ltof; cbn; lia) _ _ _ E N' T) as (l0 & -> & P).
      exists (t :: KPunct "::" :: l0). split; [reflexivity|]. econstructor; eauto.
    - injection E as <- <- <-. exists [t]. split; [reflexivity|]. econstructor; eauto.
  Qed.
  Lemma raw_loop l ns : raw_path keyword l ns -> forall c, optional_comma c -> qualified_loop true (l ++ c) = Ok (ns, false, c).
  Proof.
    induction 1 as [t x y W R|t x y l ns W R P IH]; intros c C; cbn; apply any_ident_spec in W; rewrite W; apply strip_unraw in R.
    - assert (B : (match strip_raw x with Some unraw => Ok unraw | None => Ok x end) = Ok y) by exact R. rewrite B. cbn.
      destruct C as [->| ->]; reflexivity.
    - assert (B : (match strip_raw x with Some unraw => Ok unraw | None => Ok x end) = Ok y) by exact R. rewrite B. cbn.
      rewrite (IH c C). reflexivity.
  Qed.
  Lemma raw_nonempty l ns : raw_path keyword l ns -> ns <> [].
  Proof. intros []; discriminate. Qed.
  Lemma raw_head l ns : raw_path keyword l ns -> exists t l' x, l = t :: l' /\ word keyword t x.
  Proof. intros []; eauto 6. Qed.

  Lemma unquoted_raw l ns rest : parse_unquoted keyword true l = Ok (ns, rest) ->
    exists l0, (l = l0 ++ rest \/ l = KPunct "::" :: l0 ++ rest) /\ raw_path keyword l0 ns.
  Proof.
    unfold parse_unquoted. destruct l as [|t l]; [discriminate|].
    destruct (is_sep t) eqn:S; intros E; apply bind_ok in E as ([[ns' tr] rest'] & E & F); (destruct ns' as [|n ns']; [discriminate|]); (destruct tr; [discriminate|]); injection F as <- ->.
    - apply is_sep_spec in S as ->. apply loop_raw in E as (l0 & -> & P); [|discriminate|reflexivity]. eauto.
    - apply loop_raw in E as (l0 & E & P); [|discriminate|reflexivity]. eauto.
  Qed.
  Lemma raw_unquoted l ns c : raw_path keyword l ns -> optional_comma c ->
    parse_unquoted keyword true (l ++ c) = Ok (ns, c) /\ parse_unquoted keyword true (KPunct "::" :: l ++ c) = Ok (ns, c).
  Proof.
    intros P C. pose proof (raw_loop _ _ P _ C) as Q. pose proof (raw_nonempty _ _ P) as N. split.
    - unfold parse_unquoted. destruct (raw_head _ _ P) as (t & l' & x & -> & W). cbn [app] in *. rewrite (word_not_sep _ keyword_sep _ _ W).
      rewrite Q. cbn. destruct ns; [congruence|reflexivity].
    - unfold parse_unquoted. cbn. rewrite Q. cbn. destruct ns; [congruence|reflexivity].
  Qed.

  Lemma bridge_namespace_ok l ns : parse_bridge_namespace lex keyword l = Ok ns <-> bridge_namespace lex keyword l ns.
  Proof.
    split.
    - unfold parse_bridge_namespace. destruct l as [|k l]; [intros E; injection E as <-; constructor|].
      destruct k; try discriminate. destruct l as [|k l]; [discriminate|]. destruct k; try discriminate.
      destruct (String.eqb_spec s "namespace") as [->|]; [|discriminate]. intros E. apply bind_ok in E as ([ns' rest] & E & F).
      assert (C : optional_comma rest /\ ns' = ns).
      { unfold optional_comma. destruct rest as [|[] [|]]; try discriminate; injection F as ->; auto. }
      destruct C as [C ->]. clear F.
      destruct l as [|k l]; [discriminate|].
      assert (U : parse_unquoted keyword true (k :: l) = Ok (ns, rest) -> bridge_namespace lex keyword (KIdent "namespace" :: KEq :: k :: l) ns).
      { intros U. apply unquoted_raw in U as (l0 & [-> | ->] & P); constructor; assumption. }
      destruct k; try (apply U; exact E). apply bind_ok in E as (ns' & E & F). injection F as -> ->.
      apply parse_quoted_spec in E; [|exact keyword_sep]. destruct E as [[-> ->]|[N (l' & L & P)]]; [constructor; exact C|econstructor; eauto].
    - intros []; try reflexivity.
      + cbn. destruct H as [-> | ->]; reflexivity.
      + assert (Q : parse_quoted lex keyword s = Ok ns0) by (apply (proj2 (parse_quoted_spec lex keyword keyword_sep s ns0)); right; split; [assumption|eexists; split; eassumption]).
        cbn -[parse_quoted]. rewrite Q. cbn. destruct H as [-> | ->]; reflexivity.
      + destruct (raw_unquoted _ _ _ H0 H) as [U _]. destruct (raw_head _ _ H0) as (t & l' & x & -> & W).
        cbn [parse_bridge_namespace app] in *. rewrite String.eqb_refl.
        destruct W; rewrite U; cbn; destruct H as [-> | ->]; reflexivity.
      + destruct (raw_unquoted _ _ _ H0 H) as [_ U]. cbn [parse_bridge_namespace]. rewrite String.eqb_refl. rewrite U. cbn. destruct H as [-> | ->]; reflexivity.
  Qed.
  Lemma bridge_args_ok m ns : bridge_args lex keyword m = Ok ns <-> bridge_argument lex keyword m ns.
  Proof.
    destruct m; cbn; split.
    - intros E. injection E as <-. constructor.
    - intros E. inversion E. reflexivity.
    - intros E. constructor. apply bridge_namespace_ok. exact E.
    - intros E. inversion E; subst. apply bridge_namespace_ok. assumption.
    - discriminate.
    - intros E. inversion E.
  Qed.

  Lemma is_bridge_ok a : is_bridge a = true <-> names_bridge a.
  Proof.
    unfold is_bridge, names_bridge. destruct (a_path a) as [|x [|y [|z l]]]; try (split; discriminate).
    rewrite andb_true_iff, !String.eqb_eq. split; [intros [-> ->]; reflexivity|intros E; injection E; auto].
  Qed.
  Lemma bridge_attr_none attrs : bridge_attr lex keyword attrs = Ok None <-> forall a, In a attrs -> ~ names_bridge a.
  Proof.
    induction attrs as [|a attrs IH]; cbn; [split; [intros _ ? []|reflexivity]|].
    destruct (is_bridge a) eqn:B.
    - split.
      + intros E. apply bind_ok in E as (? & _ & E). discriminate.
      + intros H. apply is_bridge_ok in B. destruct (H a (or_introl eq_refl) B).
    - rewrite IH. split.
      + intros H b [<-|I]; [rewrite <- is_bridge_ok; congruence|auto].
      + intros H b I. apply H. right. exact I.
  Qed.
  Definition first_bridge (attrs : list sattr) (ns : list string) : Prop :=
    exists pre a post, attrs = pre ++ a :: post /\ Forall (fun b => ~ names_bridge b) pre /\ names_bridge a /\ bridge_argument lex keyword (a_meta a) ns.
  Lemma bridge_attr_some attrs ns : bridge_attr lex keyword attrs = Ok (Some ns) <-> first_bridge attrs ns.
  Proof.
    induction attrs as [|a attrs IH]; cbn.
    - split; [discriminate|]. intros (pre & a & post & E & _). destruct pre; discriminate.
    - destruct (is_bridge a) eqn:B.
      + apply is_bridge_ok in B. split.
        * intros E. apply bind_ok in E as (ns' & E & F). injection F as ->. apply bridge_args_ok in E. exists [], a, attrs. auto.
        * intros (pre & b & post & E & F & N & A). destruct pre as [|p pre].
          -- cbn in E. injection E as <- <-. apply bridge_args_ok in A. rewrite A. reflexivity.
          -- cbn in E. injection E as <- _. inversion F; subst. contradiction.
      + assert (N : ~ names_bridge a) by (rewrite <- is_bridge_ok; congruence). rewrite IH. split.
        * intros (pre & b & post & -> & F & M & A). exists (a :: pre), b, post. auto.
        * intros (pre & b & post & E & F & M & A). destruct pre as [|p pre]; cbn in E; injection E as <- ->; [contradiction|].
          inversion F; subst. exists pre, b, post. auto.
  Qed.
  Lemma first_bridge_bridged attrs ns : first_bridge attrs ns -> exists a, In a attrs /\ names_bridge a.
  Proof. intros (pre & a & post & -> & _ & N & _). exists a. split; [apply in_or_app; right; left; reflexivity|exact N]. Qed.

  (** * Positions *)
  Definition bridge_in (i : fitem) (p : list nat) : Prop :=
    (exists j, inside i p = Some j /\ bridged j) /\
    forall q r j, p = q ++ r -> r <> [] -> inside i q = Some j -> ~ bridged j.

  Notation parse_fitem := (parse_fitem lex keyword).
  Notation parse_fitems := (parse_fitems lex keyword).
  Lemma fitem_eq attrs un x body : parse_fitem (FMod attrs un x body) =
    bind (bridge_attr lex keyword attrs) (fun b =>
      match b with
      | Some ns => bind (parse_module [] un body) (fun m => Ok [Module_ (attrs ++ mo_attrs m) ns (mo_unsafe m) (mo_content m)])
      | None => match body with None => Ok [] | Some (_, items) => parse_fitems items end
      end).
  Proof.
    cbn [File_Model.parse_fitem]. destruct (bridge_attr lex keyword attrs) as [[ns|]| |]; cbn; try reflexivity.
  Qed.

  Definition found (P : list nat -> Prop) (at_ : list nat -> option fitem) (ms : list module_) : Prop :=
    exists ps, StronglySorted before ps /\ (forall p, In p ps <-> P p) /\
      Forall2 (fun p m => exists i, at_ p = Some i /\ reads lex keyword i m) ps ms.

  Lemma before_trans p q r : before p q -> before q r -> before p r.
  Proof.
    intros H. revert r. induction H; intros r K.
    - inversion K; constructor.
    - inversion K; subst; [apply bf_lt; lia|apply bf_lt; assumption].
    - inversion K; subst; [apply bf_lt; assumption|apply bf_eq; auto].
  Qed.

  (** positions of the items from the [k]-th on *)
  Definition at_from (k : nat) (l : list fitem) (p : list nat) : option fitem :=
    match p with
    | [] => None
    | n :: p => if Nat.ltb n k then None else match nth_error l (n - k) with Some i => inside i p | None => None end
    end.
  Definition bridge_from (k : nat) (l : list fitem) (p : list nat) : Prop :=
    exists n p' i, p = (k + n)%nat :: p' /\ nth_error l n = Some i /\ bridge_in i p'.

  Lemma sorted_map n ps : StronglySorted before ps -> StronglySorted before (map (cons n) ps).
  Proof.
    induction 1 as [|p ps S IH F]; cbn; constructor; auto. apply Forall_forall. intros q I. apply in_map_iff in I as (r & <- & I).
    apply bf_eq. rewrite Forall_forall in F. auto.
  Qed.
  Lemma sorted_app ps qs : StronglySorted before ps -> StronglySorted before qs -> (forall p q, In p ps -> In q qs -> before p q) -> StronglySorted before (ps ++ qs).
  Proof.
    induction 1 as [|p ps S IH F]; intros K L; cbn; [exact K|]. constructor.
    - apply IH; [exact K|]. intros a b A B. apply L; [right; exact A|exact B].
    - apply Forall_app. split; [exact F|]. apply Forall_forall. intros q I. apply L; [left; reflexivity|exact I].
  Qed.

  Definition item_ok (i : fitem) : Prop := forall ms, parse_fitem i = Ok ms -> found (bridge_in i) (inside i) ms.
  Lemma items_from l : Forall item_ok l -> forall k ms, parse_fitems l = Ok ms -> found (bridge_from k l) (at_from k l) ms.
  Proof.
    induction 1 as [|i l Hi Hl IH]; intros k ms E; cbn in E.
    - injection E as <-. exists []. split; [constructor|]. split; [|constructor]. intros p. split; [intros []|].
      intros (n & p' & j & _ & E & _). destruct n; discriminate.
    - apply bind_ok in E as (m1 & E1 & E). apply bind_ok in E as (m2 & E2 & E). injection E as <-.
      destruct (Hi _ E1) as (ps & S1 & I1 & F1). destruct (IH (S k) _ E2) as (qs & S2 & I2 & F2).
      exists (map (cons k) ps ++ qs). split; [|split].
      + apply sorted_app; [apply sorted_map; exact S1|exact S2|]. intros p q A B. apply in_map_iff in A as (r & <- & A).
        apply I2 in B as (n & p' & j & -> & _). apply bf_lt. lia.
      + intros p. rewrite in_app_iff, in_map_iff. rewrite I2. split.
        * intros [(r & <- & A)|(n & p' & j & -> & N & B)].
          -- apply I1 in A. exists 0%nat, r, i. rewrite Nat.add_0_r. auto.
          -- exists (S n), p', j. replace (k + S n)%nat with (S k + n)%nat by lia. auto.
        * intros (n & p' & j & -> & N & B). destruct n as [|n].
          -- left. cbn in N. injection N as <-. exists p'. rewrite Nat.add_0_r. split; [reflexivity|]. apply I1. exact B.
          -- right. exists n, p', j. replace (k + S n)%nat with (S k + n)%nat by lia. auto.
      + apply Forall2_app.
        * clear - F1. induction F1 as [|p m ps ms (j & A & R) F IH]; cbn; constructor; auto. exists j. split; [|exact R].
          cbn [at_from]. rewrite Nat.ltb_irrefl, Nat.sub_diag. exact A.
        * assert (K : forall q, In q qs -> exists n p', q = (S k + n)%nat :: p') by (intros q B; apply I2 in B as (n & p' & j & -> & _); eauto).
          clear - F2 K. induction F2 as [|p m ps ms (j & A & R) F IH]; constructor; [|apply IH; intros q I; apply K; right; exact I].
          exists j. split; [|exact R]. destruct (K p (or_introl eq_refl)) as (n & p' & ->).
          cbn [at_from] in *. destruct (Nat.ltb_spec (S k + n) (S k)); [lia|]. destruct (Nat.ltb_spec (S k + n) k); [lia|].
          replace (S k + n - k)%nat with (S (S k + n - S k))%nat by lia. cbn [nth_error]. exact A.
  Qed.

  Lemma bridge_in_here i : bridged i -> forall p, bridge_in i p <-> p = [].
  Proof.
    intros B p. split.
    - intros [_ H]. destruct p as [|n p]; [reflexivity|]. exfalso. apply (H [] (n :: p) i eq_refl); [discriminate|reflexivity|exact B].
    - intros ->. split; [exists i; auto|]. intros q r j E N. destruct q; [|discriminate]. cbn in E. congruence.
  Qed.
  Lemma bridge_in_mod attrs un x inner items p : ~ bridged (FMod attrs un x (Some (inner, items))) ->
    (bridge_in (FMod attrs un x (Some (inner, items))) p <-> bridge_from 0 items p).
  Proof.
    intros N. split.
    - intros [(j & A & B) H]. destruct p as [|n p]; [cbn in A; injection A as <-; contradiction|].
      cbn in A. destruct (nth_error items n) as [k|] eqn:E; [|discriminate]. exists n, p, k. cbn. split; [reflexivity|]. split; [exact E|].
      split; [eauto|]. intros q r j' -> R I. apply (H (n :: q) r j'); [reflexivity|exact R|]. cbn. rewrite E. exact I.
    - intros (n & p' & k & -> & E & (j & A & B) & H). cbn [Nat.add]. split.
      + exists j. cbn. rewrite E. auto.
      + intros q r j' Q R I. destruct q as [|m q]; [cbn in I; injection I as <-; exact N|].
        cbn in Q. injection Q as <- ->. cbn in I. rewrite E in I. eapply H; eauto.
  Qed.
  Lemma inside_mod attrs un x inner items p i : at_from 0 items p = Some i -> inside (FMod attrs un x (Some (inner, items))) p = Some i.
  Proof. destruct p as [|n p]; [discriminate|]. cbn. rewrite Nat.sub_0_r. auto. Qed.

  Lemma fitem_found i : item_ok i.
  Proof.
    induction i as [attrs i|attrs un x|attrs un x inner items IH] using fitem_ind2; intros ms E.
    - cbn in E. apply bind_ok in E as (b & B & E). destruct b; [discriminate|]. injection E as <-.
      exists []. split; [constructor|]. split; [|constructor]. intros p. split; [intros []|]. intros [(j & A & (a & I & N)) _].
      destruct p; [|discriminate]. cbn in A. injection A as <-. exact (proj1 (bridge_attr_none attrs) B a I N).
    - rewrite fitem_eq in E. apply bind_ok in E as (b & B & E). destruct b as [ns|]; [discriminate|]. injection E as <-.
      exists []. split; [constructor|]. split; [|constructor]. intros p. split; [intros []|]. intros [(j & A & (a & I & N)) _].
      destruct p; [|discriminate]. cbn in A. injection A as <-. exact (proj1 (bridge_attr_none attrs) B a I N).
    - rewrite fitem_eq in E. apply bind_ok in E as (b & B & E). destruct b as [ns|].
      + cbn in E. injection E as <-. apply bridge_attr_some in B. exists [[]]. split; [constructor; constructor|]. split.
        * intros p. rewrite bridge_in_here; [cbn; intuition|]. apply first_bridge_bridged in B as (a & I & N). exists a. auto.
        * constructor; [|constructor]. eexists. split; [reflexivity|]. destruct B as (pre & a & post & -> & F & N & A).
          exists (pre ++ a :: post), un, x, inner, items, pre, a, post, ns. auto 10.
      + apply (items_from _ IH 0%nat) in E as (ps & S & I & F).
        assert (N : ~ bridged (FMod attrs un x (Some (inner, items)))) by (intros (a & Ia & Na); revert Na; apply (proj1 (bridge_attr_none attrs) B a Ia)).
        exists ps. split; [exact S|]. split; [intros p; rewrite I; symmetry; apply bridge_in_mod; exact N|].
        clear - F. induction F as [|p m ps ms (j & A & R) F IH]; constructor; auto. exists j. split; [apply inside_mod; exact A|exact R].
  Qed.

  Lemma item_at_from file p : item_at file p = at_from 0 file p.
  Proof. destruct p as [|n p]; [reflexivity|]. cbn. rewrite Nat.sub_0_r. reflexivity. Qed.
  Lemma bridge_at_from file p : bridge_at file p <-> bridge_from 0 file p.
  Proof.
    split.
    - intros [(j & A & B) H]. destruct p as [|n p]; [discriminate|].
      cbn in A. destruct (nth_error file n) as [k|] eqn:E; [|discriminate]. exists n, p, k. cbn. split; [reflexivity|]. split; [exact E|].
      split; [eauto|]. intros q r j' -> R I. apply (H (n :: q) r j'); [reflexivity|exact R|]. cbn. rewrite E. exact I.
    - intros (n & p' & k & -> & E & (j & A & B) & H). cbn [Nat.add]. split.
      + exists j. cbn. rewrite E. auto.
      + intros q r j' Q R I. destruct q as [|m q]; [discriminate|].
        cbn in Q. injection Q as <- ->. cbn in I. rewrite E in I. eapply H; eauto.
  Qed.
  Lemma file_found file ms : parse_fitems file = Ok ms -> found (bridge_at file) (item_at file) ms.
  Proof.
    intros E. apply (items_from file ltac:(apply Forall_forall; intros; apply fitem_found) 0%nat) in E as (ps & S & I & F).
    exists ps. split; [exact S|]. split; [intros p; rewrite I; symmetry; apply bridge_at_from|].
    clear - F. induction F as [|p m ps ms (j & A & R) F IH]; constructor; auto. exists j. split; [rewrite item_at_from; exact A|exact R].
  Qed.

  (** ** the converse *)
  Lemma not_bridged_attr attrs : (forall a, In a attrs -> ~ names_bridge a) -> bridge_attr lex keyword attrs = Ok None.
  Proof. apply bridge_attr_none. Qed.
  Lemma bridged_dec attrs : (exists a, In a attrs /\ names_bridge a) \/ (forall a, In a attrs -> ~ names_bridge a).
  Proof.
    induction attrs as [|a attrs IH]; [right; intros ? []|]. destruct (is_bridge a) eqn:B.
    - left. exists a. split; [left; reflexivity|apply is_bridge_ok; exact B].
    - destruct IH as [(b & I & N)|H]; [left; exists b; split; [right; exact I|exact N]|].
      right. intros b [<-|I]; [rewrite <- is_bridge_ok; congruence|auto].
  Qed.
  Definition readable (i : fitem) : Prop := exists m, reads lex keyword i m.
  Lemma items_readable l : Forall (fun i => (forall p j, inside i p = Some j -> bridge_in i p -> readable j) -> exists ms, parse_fitem i = Ok ms) l ->
    (forall p j n i, nth_error l n = Some i -> inside i p = Some j -> bridge_in i p -> readable j) -> exists ms, parse_fitems l = Ok ms.
  Proof.
    induction 1 as [|i l Hi Hl IH]; intros H; cbn; [eauto|].
    destruct Hi as (m1 & ->); [intros p j A B; exact (H p j 0%nat i eq_refl A B)|].
    destruct IH as (m2 & ->); [intros p j n k N; apply (H p j (S n) k); exact N|]. cbn. eauto.
  Qed.
  Lemma fitem_readable i : (forall p j, inside i p = Some j -> bridge_in i p -> readable j) -> exists ms, parse_fitem i = Ok ms.
  Proof.
    induction i as [attrs i|attrs un x|attrs un x inner items IH] using fitem_ind2; intros H.
    - destruct (bridged_dec attrs) as [B|B].
      + destruct (H [] (FItem attrs i) eq_refl) as (m & attrs' & ? & ? & ? & ? & ? & ? & ? & ? & E & _); [|discriminate].
        apply bridge_in_here; [exact B|reflexivity].
      + cbn. rewrite (not_bridged_attr _ B). cbn. eauto.
    - rewrite fitem_eq. destruct (bridged_dec attrs) as [B|B].
      + destruct (H [] (FMod attrs un x None) eq_refl) as (m & attrs' & ? & ? & ? & ? & ? & ? & ? & ? & E & _); [|discriminate].
        apply bridge_in_here; [exact B|reflexivity].
      + rewrite (not_bridged_attr _ B). cbn. eauto.
    - rewrite fitem_eq. destruct (bridged_dec attrs) as [B|B].
      + destruct (H [] _ eq_refl) as (m & attrs' & ? & ? & ? & ? & pre & a & post & ns & E & A1 & A2 & A3 & A4 & _).
        * apply bridge_in_here; [exact B|reflexivity].
        * injection E as <- <- <- <- <-. assert (F : first_bridge attrs ns) by (exists pre, a, post; auto). apply bridge_attr_some in F. rewrite F. cbn. eauto.
      + rewrite (not_bridged_attr _ B). cbn. apply items_readable; [exact IH|]. intros p j n i N A K.
        assert (NB : ~ bridged (FMod attrs un x (Some (inner, items)))) by (intros (a & Ia & Na); exact (B a Ia Na)).
        apply (H (n :: p) j); [cbn; rewrite N; exact A|]. apply bridge_in_mod; [exact NB|]. exists n, p, i. auto.
  Qed.
  Lemma file_readable file : (forall p i, item_at file p = Some i -> bridge_at file p -> readable i) -> exists ms, parse_fitems file = Ok ms.
  Proof.
    intros H. apply items_readable; [apply Forall_forall; intros i _; apply fitem_readable|].
    intros p j n i N A B. apply (H (n :: p) j); [cbn; rewrite N; exact A|]. apply bridge_at_from. exists n, p, i. auto.
  Qed.
End Proofs.

(** * Conditions of a module *)
Section Conditions.
  Variable lex : string -> option (list tok).
  Variable keyword : string -> bool.
  Variable experimental : bool.

  Definition only_cfg (p : parser) : Prop :=
    ps_ignore p = true /\ (exists e, ps_cfg p = Some e) /\ ps_doc p = None /\ ps_derives p = None /\ ps_repr p = None /\
    ps_namespace p = None /\ ps_cxx_name p = None /\ ps_rust_name p = None /\ ps_header p = None.

  Lemma slot_none {A B} (r : res A) (f : A -> B -> step) s : slot r None f = (s, []) -> s = SUnrecognized.
  Proof. destruct r; cbn; congruence. Qed.

  Lemma step_ignore p a s : only_cfg p -> attr_step lex keyword experimental p a = (s, []) ->
    (exists l e e0, is_named a "cfg" /\ a_meta a = MList l /\ cfg_attribute l e /\ ps_cfg p = Some e0 /\ s = SContinue (set_cfg p (Some (merge e0 e))) true) \/
    (~ is_named a "cfg" /\ ((exists b, s = SContinue p b) \/ s = SUnrecognized)).
  Proof.
    intros (_ & (e0 & C0) & C1 & C2 & C3 & C4 & C5 & C6 & C7) E. unfold attr_step in E.
    rewrite C0, C1, C2, C3, C4, C5, C6, C7 in E.
    assert (D : forall x y, is_ident a x = true -> is_named a y -> x = y).
    { intros x y X [_ Y]. apply is_ident_named in X. destruct X as [_ X]. congruence. }
    assert (NC : forall x, is_ident a x = true -> x <> "cfg" -> ~ is_named a "cfg") by (intros x X N Y; apply N; eapply D; eauto).
    destruct (is_ident a "doc") eqn:I1; [apply slot_none in E as ->; right; split; [eapply NC; [exact I1|discriminate]|auto]|].
    destruct (is_ident a "derive") eqn:I2.
    { right. split; [eapply NC; [exact I2|discriminate]|]. destruct (parse_derive (a_meta a)) as [[ds es]|e|e]; [|discriminate|discriminate]. injection E as <- _. auto. }
    destruct (is_ident a "repr") eqn:I3; [apply slot_none in E as ->; right; split; [eapply NC; [exact I3|discriminate]|auto]|].
    destruct (is_ident a "namespace") eqn:I4; [apply slot_none in E as ->; right; split; [eapply NC; [exact I4|discriminate]|auto]|].
    destruct (is_ident a "cxx_name") eqn:I5; [apply slot_none in E as ->; right; split; [eapply NC; [exact I5|discriminate]|auto]|].
    destruct (is_ident a "rust_name") eqn:I6; [apply slot_none in E as ->; right; split; [eapply NC; [exact I6|discriminate]|auto]|].
    destruct (is_ident a "cfg") eqn:I7.
    { left. apply is_ident_named in I7. unfold slot, parse_cfg in E. destruct (a_meta a) as [|l|v]; [discriminate| |discriminate].
      destruct (parse_attribute l) as [e|e|e] eqn:P; [|discriminate|discriminate]. injection E as <-. apply parse_attribute_spec in P.
      exists l, e, e0. auto 10. }
    assert (N : ~ is_named a "cfg") by (intros Y; pose proof (is_named_eqb _ _ Y "cfg") as Z; rewrite I7 in Z; discriminate).
    right. split; [exact N|]. clear - E.
    repeat match type of E with
           | (if ?b then _ else _) = _ => destruct b
           | match ?x with _ => _ end = _ => destruct x
           end; injection E as <-; eauto.
  Qed.

  Lemma ignore_conditions attrs : forall p p' pass, only_cfg p -> attrs_parse lex keyword experimental p attrs = (p', pass, []) ->
    exists es, conditions attrs es /\ forall c, holds c (cfg_of p') = (holds c (cfg_of p) && forallb (holds c) es)%bool.
  Proof.
    induction attrs as [|a attrs IH]; intros p p' pass O E; cbn in E.
    - injection E as <- _. exists []. split; [constructor|]. intros c. rewrite andb_true_r. reflexivity.
    - destruct (attr_step lex keyword experimental p a) as [s es] eqn:S.
      assert (Es : es = []).
      { destruct s as [p1 b| |].
        - destruct (attrs_parse lex keyword experimental p1 attrs) as [[? ?] es']. injection E as _ _ E. apply app_eq_nil in E as [E _]. exact E.
        - injection E as _ _ E. exact E.
        - destruct (ps_ignore p); [destruct (attrs_parse lex keyword experimental p attrs) as [[? ?] es']|]; injection E as _ _ E; apply app_eq_nil in E as [E _]; exact E. }
      subst es. pose proof (step_ignore _ _ _ O S) as [(l & e & e0 & N & M & A & C0 & ->)|(N & [(b & ->)| ->])].
      + destruct (attrs_parse lex keyword experimental (set_cfg p (Some (merge e0 e))) attrs) as [[p1 pass1] es1] eqn:P.
        cbn in E. injection E as <- _ ->. apply IH in P as (es & C & H).
        * exists (e :: es). split; [econstructor; eauto|]. intros c. rewrite H. cbn [forallb cfg_of set_cfg ps_cfg].
          rewrite merge_holds. unfold cfg_of. rewrite C0. rewrite andb_assoc. reflexivity.
        * destruct O as (O1 & O2 & O3). split; [exact O1|]. split; [eexists; reflexivity|exact O3].
      + destruct (attrs_parse lex keyword experimental p attrs) as [[p1 pass1] es1] eqn:P. cbn in E. injection E as <- _ ->.
        apply IH in P as (es & C & H); [|exact O]. exists es. split; [apply co_other; assumption|exact H].
      + rewrite (proj1 O) in E. destruct (attrs_parse lex keyword experimental p attrs) as [[p1 pass1] es1] eqn:P. cbn in E. injection E as <- _ ->.
        apply IH in P as (es & C & H); [|exact O]. exists es. split; [apply co_other; assumption|exact H].
  Qed.
  Lemma module_conditions attrs p pass : attrs_parse lex keyword experimental (bridge_parser true) attrs = (p, pass, []) ->
    exists es, conditions attrs es /\ forall c, holds c (cfg_of p) = forallb (holds c) es.
  Proof.
    intros E. apply ignore_conditions in E; [exact E|]. unfold only_cfg. cbn. eauto 10.
  Qed.
  Lemma conditions_det attrs es es' : conditions attrs es -> conditions attrs es' -> es = es'.
  Proof.
    intros H. revert es'. induction H as [|a l e attrs es N M A C IH|a attrs es N C IH]; intros es' K; inversion K; subst; try contradiction; try reflexivity.
    - f_equal; [|auto]. rewrite M in *. assert (l0 = l) by congruence. subst. eapply cfg_attribute_det; eauto.
    - auto.
  Qed.
End Conditions.

(** * What the generator gathers *)
Section Gather.
  Variable lex : string -> option (list tok).
  Variable keyword : string -> bool.
  Hypothesis keyword_sep : keyword "::" = false.
  Variables experimental async_fn : bool.
  Notation parse_items := (parse_items lex keyword experimental async_fn).
  Notation gather_modules := (gather_modules lex keyword experimental async_fn).

  Definition gathered (cev : evaluator) (m : module_) (b : cfg_expr * list api) : Prop :=
    (exists es, conditions (mo_attrs m) es /\ forall c, holds c (fst b) = forallb (holds c) es) /\
    ((exists outs, parse_items (mo_unsafe m) (mo_namespace m) (mo_content m) = Ok (outs, []) /\ snd b = map o_api outs) \/
     (kbool cev (fst b) = false /\ snd b = [])).
  Lemma gather_gathered cev ms : forall st st' apis, st_ok st -> gather_modules cev st ms = Ok ((st', apis), []) ->
    exists bs, Forall2 (gathered cev) ms bs /\ gather cev st bs = (st', apis).
  Proof.
    induction ms as [|m ms IH]; intros st st' apis OK E; cbn [File_Model.gather_modules] in E.
    - injection E as <- <-. exists []. split; [constructor|reflexivity].
    - destruct (attrs_parse lex keyword experimental (bridge_parser true) (mo_attrs m)) as [[p pass] es] eqn:P.
      pose proof (cfg_eval_spec cev st (cfg_of p) OK) as (OK1 & _ & K).
      destruct (cfg_eval cev st (cfg_of p)) as [st1 keep] eqn:V. cbn [fst snd] in *.
      apply bindR_ok in E as (u & A & E). assert (es = []) by congruence. subst es. clear A u.
      apply bindR_ok in E as (outs & O & E). apply bindR_ok in E as ([st2 apis2] & G & E). apply ret_inv in E. injection E as <- <-.
      apply IH in G as (bs & F & G); [|exact OK1].
      exists ((cfg_of p, map o_api outs) :: bs). split.
      + constructor; [|exact F]. split; [apply module_conditions in P; exact P|]. cbn [fst snd].
        destruct keep; [left; eauto|]. right. apply ret_inv in O. subst outs. split; [|reflexivity]. unfold kbool. rewrite <- K. reflexivity.
      + cbn. rewrite V, G. destruct keep; [reflexivity|]. apply ret_inv in O. subst outs. reflexivity.
  Qed.

  Lemma generate_apis_known cev c bs out b : completion cev c -> generate_apis cev bs = Some out -> In b bs -> kbool cev (fst b) = holds c (fst b).
  Proof.
    intros C. unfold generate_apis.
    assert (S : st_ok (CfgState [] [])) by (split; [constructor|intros m; cbn; tauto]).
    destruct (gather_spec cev bs _ S) as (A1 & B1 & C1).
    destruct (gather cev (CfgState [] []) bs) as [st1 apis]; cbn [fst snd] in *.
    pose proof (strip_monotone_pushed cev st1 apis A1) as M.
    destruct (strip cev st1 apis) as [st2 apis'] eqn:E2; cbn [fst] in M.
    destruct (cs_pushed st2) eqn:P; [|discriminate]. intros _ I. specialize (M eq_refl).
    eapply kbool_holds; [|eassumption|apply in_map; eassumption].
    intros m X. apply (or_intror (A := In m (cs_pushed (CfgState [] [])))) in X. apply B1 in X. rewrite M in X. destruct X.
  Qed.

  (** the bridges that are enabled, with their declarations *)
  Definition read_as (i : fitem) (outs : list out) : Prop :=
    exists m, reads lex keyword i m /\ parse_items (mo_unsafe m) (mo_namespace m) (mo_content m) = Ok (outs, []).
  Lemma reads_attrs i m : reads lex keyword i m -> mo_attrs m = all_attrs i.
  Proof. intros (attrs & un & x & inner & items & pre & a & post & ns & -> & _ & _ & _ & _ & ->). reflexivity. Qed.

  Lemma generated allow cev c ord file apis T : completion cev c -> generate lex keyword experimental async_fn allow cev ord file = Ok (apis, T) ->
    (exists ps outss, enabled_bridges c file ps /\
      Forall2 (fun p outs => exists i, item_at file p = Some i /\ read_as i outs) ps outss /\
      apis = enabled c (map o_api (List.concat outss))) /\
    (forall p i, bridge_at file p -> item_at file p = Some i -> exists b, switched c i b) /\
    collect ord apis = Some (T, []) /\ precheck allow apis = [] /\ typecheck GBuild T apis = [].
  Proof.
    intros C E. unfold generate in E. apply bind_ok in E as (ms & P & E). apply (file_found _ _ keyword_sep) in P as (ps & So & In_ & F).
    destruct ms as [|m0 ms0] eqn:Ems; [discriminate|]. rewrite <- Ems in *. clear m0 ms0 Ems.
    apply bind_ok in E as ([[st apis0] es] & G & E).
    destruct (strip cev st apis0) as [st' apis1] eqn:S. destruct es as [|? ?]; [|discriminate]. destruct (cs_pushed st') as [|? ?] eqn:Pu; [|discriminate].
    destruct (collect ord apis1) as [[T1 errs]|] eqn:Co; [|discriminate]. destruct errs; [|discriminate].
    destruct (precheck allow apis1) eqn:Pr; [|discriminate]. destruct (typecheck GBuild T1 apis1) eqn:Ty; [|discriminate].
    injection E as -> ->.
    assert (OK : st_ok (CfgState [] [])) by (split; [constructor|intros m; cbn; tauto]).
    apply gather_gathered in G as (bs & Fg & G); [|exact OK].
    assert (GA : generate_apis cev bs = Some apis) by (unfold generate_apis; rewrite G, S, Pu; reflexivity).
    pose proof (generate_apis_spec _ _ _ _ C GA) as EA.
    assert (Kn' : forall b, In b bs -> kbool cev (fst b) = holds c (fst b)) by (intros b; eapply generate_apis_known; eassumption). clear GA G S Pu.
    repeat match goal with |- _ /\ _ => split end; try reflexivity; try assumption.
    - (* the enabled ones *)
      rewrite EA. clear EA.
      assert (exists qs outss, StronglySorted before qs /\ (forall p, In p qs -> In p ps) /\
        (forall p, In p qs <-> In p ps /\ exists i, item_at file p = Some i /\ switched c i true) /\
        Forall2 (fun p outs => exists i, item_at file p = Some i /\ read_as i outs) qs outss /\
        flat_map snd (filter (fun b => holds c (fst b)) bs) = map o_api (List.concat outss)) as (qs & outss & A1 & A0 & A2 & A3 & A4).
      { clear In_. revert bs Fg Kn'. induction F as [|p m ps ms (i & At & R) F IH]; intros bs Fg Kn'.
        - inversion Fg; subst. exists [], []. split; [constructor|]. split; [intros ? []|]. split; [intros p; cbn; tauto|]. split; [constructor|reflexivity].
        - inversion Fg as [|? b ? bs' Gm Fg']; subst. clear Fg. apply StronglySorted_inv in So as [So Hd].
          destruct (IH So bs' Fg') as (qs & outss & A1 & A0 & A2 & A3 & A4); [intros b' I; apply Kn'; right; exact I|]. clear IH.
          destruct Gm as ((es & Ce & He) & Gi). rewrite (reads_attrs _ _ R) in Ce.
          cbn [filter]. destruct (holds c (fst b)) eqn:Hb.
          + destruct Gi as [(outs & Po & Ao)|[Kf _]]; [|rewrite (Kn' b (or_introl eq_refl)) in Kf; congruence].
            exists (p :: qs), (outs :: outss). split.
            { constructor; [exact A1|]. apply Forall_forall. intros q I. rewrite Forall_forall in Hd. auto. }
            split; [intros q [<-|I]; [left; reflexivity|right; auto]|]. split.
            { intros q. cbn. rewrite A2. split.
              - intros [<-|[I X]]; [|auto]. split; [auto|]. exists i. split; [exact At|]. exists es. rewrite <- He. auto.
              - intros [[<-|I] X]; auto. }
            split; [constructor; [|exact A3]; exists i; split; [exact At|]; exists m; auto|].
            cbn. rewrite Ao, map_app, A4. reflexivity.
          + exists qs, outss. split; [exact A1|]. split; [intros q I; right; auto|]. split.
            { intros q. cbn. rewrite A2. split; [intros [I X]; auto|]. intros [[<-|I] X]; [|auto]. exfalso.
              destruct X as (j & At' & es' & Ce' & Hj). assert (j = i) by congruence. subst j.
              rewrite (conditions_det _ _ _ Ce' Ce), <- He, Hb in Hj. discriminate. }
            split; assumption. }
      exists qs, outss. split; [split; [exact A1|]; intros p; rewrite A2, In_; reflexivity|]. split; [exact A3|]. rewrite A4. reflexivity.
    - intros p i B At. apply In_ in B. clear - F Fg B At.
      revert bs Fg. induction F as [|q m ps ms (j & At' & R) F IH]; [destruct B|]. intros bs Fg. inversion Fg as [|? b ? bs' Gm Fg']; subst.
      destruct B as [->|B]; [|eauto]. assert (j = i) by congruence. subst j. destruct Gm as ((es & Ce & He) & _). rewrite (reads_attrs _ _ R) in Ce.
      exists (forallb (holds c) es), es. auto.
  Qed.

  (** ** the macro *)
  Lemma namespace_det m ns ns' : bridge_argument lex keyword m ns -> bridge_argument lex keyword m ns' -> ns = ns'.
  Proof. rewrite <- !(bridge_args_ok _ _ keyword_sep). congruence. Qed.
  Lemma before_irrefl p : ~ before p p.
  Proof. induction p as [|n p IH]; intros B; inversion B; subst; [lia|auto]. Qed.
  Lemma sorted_unique ps : forall qs, StronglySorted before ps -> StronglySorted before qs -> (forall p, In p ps <-> In p qs) -> ps = qs.
  Proof.
    induction ps as [|p ps IH]; intros [|q qs] S S' H; [reflexivity|destruct (proj2 (H q) (or_introl eq_refl))|destruct (proj1 (H p) (or_introl eq_refl))|].
    apply StronglySorted_inv in S as [S F]. apply StronglySorted_inv in S' as [S' F']. rewrite Forall_forall in F, F'.
    assert (p = q).
    { destruct (proj1 (H p) (or_introl eq_refl)) as [E|I]; [auto|]. destruct (proj2 (H q) (or_introl eq_refl)) as [E|J]; [auto|].
      exfalso. apply (before_irrefl p). eapply (before_trans keyword keyword_sep); [apply F; exact J|apply F'; exact I]. }
    subst q. f_equal. apply IH; auto. intros r. split; intros I.
    - destruct (proj1 (H r) (or_intror I)) as [E|J]; [|exact J]. subst r. exfalso. exact (before_irrefl _ (F _ I)).
    - destruct (proj2 (H r) (or_intror I)) as [E|J]; [|exact J]. subst r. exfalso. exact (before_irrefl _ (F' _ I)).
  Qed.
  Lemma enabled_unique c file ps qs : enabled_bridges c file ps -> enabled_bridges c file qs -> ps = qs.
  Proof. intros [S I] [S' I']. apply sorted_unique; auto. intros p. rewrite I, I'. reflexivity. Qed.
  Lemma first_split (pre pre' : list sattr) a a' post post' : pre ++ a :: post = pre' ++ a' :: post' ->
    Forall (fun b => ~ names_bridge b) pre -> names_bridge a -> Forall (fun b => ~ names_bridge b) pre' -> names_bridge a' -> a = a'.
  Proof.
    revert pre'. induction pre as [|b pre IH]; intros [|b' pre'] E F N F' N'; cbn in E; injection E as E1 E2; subst; auto.
    - inversion F'; contradiction.
    - inversion F; contradiction.
    - inversion F; inversion F'; subst. eauto.
  Qed.
  Lemma macro_same i outs ord outs' T : read_as i outs -> macro_expands lex keyword experimental async_fn ord i outs' T -> outs' = outs.
  Proof.
    intros (m & (attrs & un & x & inner & items & pre & a & post & ns & -> & -> & Fp & Na & Ba & ->) & P)
           (attrs' & un' & x' & body & pre' & a' & post' & args & rest & E & Es & Fp' & Na' & Ar & X).
    injection E as <- <- <- <-. pose proof (first_split _ _ _ _ _ _ Es Fp Na Fp' Na') as <-.
    unfold expand_bridge in X. apply bind_ok in X as (ns' & Pn & X).
    assert (ns' = ns) as ->.
    { apply (bridge_namespace_ok _ _ keyword_sep) in Pn. eapply namespace_det; [|exact Ba].
      destruct Ar as [[-> ->]| ->]; [|constructor; exact Pn].
      inversion Pn; subst. constructor. }
    apply bind_ok in X as (m & Pm & X). cbn in Pm. injection Pm as <-. cbn in *.
    destruct (attrs_parse lex keyword experimental _ (rest ++ inner)) as [[p1 p2] es].
    apply bind_ok in X as ([outs1 es1] & P1 & X). rewrite P in P1. injection P1 as <- <-.
    destruct (collect ord (map o_api outs)) as [[T1 errs]|]; [|discriminate].
    destruct (es ++ []); [|discriminate]. destruct errs; [|discriminate].
    destruct (typecheck GMacro T1 (map o_api outs)); [|discriminate]. congruence.
  Qed.
End Gather.
