From Verif Require Import Base Syntax_Model Discriminant_Model Names_Model Load_Model Load_Spec Load_Proofs.

Section Load.
  Context (any_ident ident : string -> bool).
  Notation c1 := (c1 any_ident ident). Notation cs1 := (cs1 any_ident ident). Notation d1 := (d1 any_ident ident). Notation ds1 := (ds1 any_ident ident).
  Notation traverse := (traverse any_ident ident). Notation enter_node := (enter_node any_ident ident).

  (** * One enum, all of its declarations *)
  Lemma translate_ok t r : translate_qual_type t = Some r <-> exists c, t = cxx_spelling c /\ r = ffi_name c.
  Proof.
    unfold translate_qual_type. split.
    - intros H. repeat match type of H with (if String.eqb ?x ?y then _ else _) = _ => destruct (String.eqb_spec x y) as [->|]; [injection H as <-|] end; [..|discriminate H].
      + exists CChar. auto. + exists CInt. auto. + exists CLong. auto. + exists CLongLong. auto. + exists CSChar. auto. + exists CShort. auto.
      + exists CUChar. auto. + exists CUInt. auto. + exists CULong. auto. + exists CULongLong. auto. + exists CUShort. auto.
    - intros (c & -> & ->). destruct c; reflexivity.
  Qed.
  Definition under (q : qual) : string := match q_desugared q with Some t => t | None => q_type q end.
  Lemma based_under d t : based_on d t <-> exists q, d_fixed d = Some q /\ under q = cxx_spelling t.
  Proof.
    unfold based_on, under. split; intros (q & F & H); exists q; (split; [exact F|]).
    - destruct H as [->|(-> & H)]; [reflexivity|exact H].
    - destruct (q_desugared q) as [x|]; [left; congruence|right; auto].
  Qed.
  Definition inner_ok (d : decl) : Prop := Forall init_ok (constants (d_inner d)).
  Definition fresh (e : lenum) : Prop := l_variants e = [].
  Lemma d1_more e d : l_variants e <> [] -> snd (d1 e d) <> [].
  Proof. intros N. unfold Load_Proofs.d1. destruct (l_variants e); [contradiction|discriminate]. Qed.
  Lemma d1_exact e d : fresh e -> inner_ok d ->
    (snd (d1 e d) = [] <-> (exists t, based_on d t) /\ exists vs, enumerators None (constants (d_inner d)) vs /\ acceptable any_ident vs) /\
    (snd (d1 e d) = [] -> taken_from d (fst (d1 e d)) /\ l_name (fst (d1 e d)) = l_name e /\ (l_variants (fst (d1 e d)) = [] <-> ~ defines d)).
  Proof.
    intros Fr P. unfold Load_Proofs.d1. rewrite Fr. destruct (d_fixed d) as [q|] eqn:Q.
    2: { split; [split; [discriminate|intros ((t & B) & _); apply based_under in B as (q & B & _); congruence]|discriminate]. }
    fold (under q). set (e0 := LEnum (l_name e) [] _).
    assert (G : good_enum e0) by constructor.
    destruct (cs1_exact any_ident ident (constants (d_inner d)) e0 G P) as (A & B). destruct (cs1_facts any_ident ident (constants (d_inner d)) e0 G P) as (_ & N).
    pose proof (cs1_some any_ident ident (constants (d_inner d)) e0) as So.
    change (last_value e0) with (@None Z) in *. change (shown (l_variants e0)) with (@nil (string * Z)) in B. cbn [app] in B.
    assert (Bt : (exists t, based_on d t) <-> exists r, translate_qual_type (under q) = Some r).
    { split.
      - intros (t & H). apply based_under in H as (q' & E & H). rewrite Q in E. injection E as <-. exists (ffi_name t). apply translate_ok. eauto.
      - intros (r & H). apply translate_ok in H as (t & H & _). exists t. apply based_under. eauto. }
    destruct (cs1 e0 (constants (d_inner d))) as [e2 er] eqn:E2. cbn [fst snd] in *.
    split; [split|].
    - intros H. apply app_eq_nil in H as (H1 & H2). split; [|apply A, H2]. apply Bt. destruct (translate_qual_type (under q)); [eauto|discriminate H1].
    - intros (H1 & H2). apply Bt in H1 as (r & ->). cbn [app]. apply A, H2.
    - intros H. apply app_eq_nil in H as (H1 & H2). pose proof (proj1 A H2) as (vs & En & Ac). destruct (B vs En Ac) as (B1 & B2).
      destruct (translate_qual_type (under q)) as [r|] eqn:T; [|discriminate H1]. apply translate_ok in T as (t & T & ->).
      split; [split|split].
      + exists t. split; [apply based_under; eauto|]. exact B2.
      + fold (shown (l_variants e2)). rewrite B1. exact En.
      + exact N.
      + unfold defines. split.
        * intros V D. exact (So H2 D V).
        * intros D. destruct (constants (d_inner d)) as [|c l] eqn:K; [|exfalso; apply D; discriminate]. cbn in E2. injection E2 as <- _. reflexivity.
  Qed.
  Lemma ds1_more l : forall e, l_variants e <> [] -> snd (ds1 e l) = [] -> l = [].
  Proof.
    intros e N. destruct l as [|d l]; [reflexivity|]. cbn [Load_Proofs.ds1]. pose proof (d1_more e d N) as M. destruct (d1 e d) as [e1 er]. destruct (ds1 e1 l) as [e2 er2]. cbn [snd] in *.
    intros H. apply app_eq_nil in H as (H & _). contradiction.
  Qed.
  Lemma ds1_exact l : forall e, fresh e -> Forall inner_ok l ->
    (snd (ds1 e l) = [] /\ l_variants (fst (ds1 e l)) <> [] <-> loadable any_ident l) /\
    (snd (ds1 e l) = [] -> l_variants (fst (ds1 e l)) <> [] -> exists before d, l = before ++ [d] /\ taken_from d (fst (ds1 e l)) /\ l_name (fst (ds1 e l)) = l_name e).
  Proof.
    induction l as [|d l IH]; intros e Fr P.
    - cbn [Load_Proofs.ds1 fst snd]. split; [split|].
      + intros (_ & N). contradiction.
      + intros (before & d & vs & E & _). destruct before; discriminate E.
      + intros _ N. contradiction.
    - cbn [Load_Proofs.ds1]. destruct (d1_exact e d Fr (Forall_inv P)) as (A & B). destruct (d1 e d) as [e1 er] eqn:E1. cbn [fst snd] in *.
      destruct (ds1 e1 l) as [e2 er2] eqn:E2. cbn [fst snd]. destruct (l_variants e1) as [|v vr] eqn:V.
      + destruct (IH e1 V (Forall_inv_tail P)) as (I & J). rewrite E2 in I, J. cbn [fst snd] in I, J. split; [split|].
        * intros (H & N). apply app_eq_nil in H as (-> & H). destruct (B eq_refl) as ((_ & _) & _ & Df). destruct (proj1 A eq_refl) as (Bd & _).
          destruct (proj1 I (conj H N)) as (before & d' & vs & -> & Hb & Rest). exists (d :: before), d', vs. split; [reflexivity|]. split; [|exact Rest].
          intros b [<-|Ib]; [|exact (Hb b Ib)]. split; [apply Df; reflexivity|exact Bd].
        * intros (before & d' & vs & E & Hb & Hd & Bd & En & Ac). destruct before as [|b before].
          -- injection E as -> ->. exfalso. assert (er = []) as -> by (apply A; split; [exact Bd|exists vs; auto]). destruct (B eq_refl) as (_ & _ & Df). apply Df; [reflexivity|exact Hd].
          -- injection E as -> ->. destruct (Hb b (or_introl eq_refl)) as (Nb & Bb).
             assert (er = []) as ->. { apply A. split; [exact Bb|]. exists []. split; [|intros y w []]. unfold defines in Nb. destruct (constants (d_inner b)); [constructor|exfalso; apply Nb; discriminate]. }
             cbn [app]. apply I. exists before, d', vs. split; [reflexivity|]. split; [intros b' Ib'; apply Hb; right; exact Ib'|auto].
        * intros H N. apply app_eq_nil in H as (-> & H). destruct (J H N) as (before & d' & -> & Tk & Nm). exists (d :: before), d'. split; [reflexivity|]. split; [exact Tk|].
          destruct (B eq_refl) as (_ & Nm' & _). congruence.
      + assert (Nv : l_variants e1 <> []) by (rewrite V; discriminate). split; [split|].
        * intros (H & N). apply app_eq_nil in H as (-> & H). pose proof (ds1_more l e1 Nv) as M. rewrite E2 in M. specialize (M H). subst l. cbn in E2. injection E2 as <- <-.
          destruct (proj1 A eq_refl) as (Bd & vs & En & Ac). destruct (B eq_refl) as (_ & _ & Df). exists [], d, vs. split; [reflexivity|]. split; [intros b []|].
          split; [|auto]. intros X. assert (Z : v :: vr = []) by (apply Df; intros D; exact (D X)). discriminate Z.
        * intros (before & d' & vs & E & Hb & Hd & Bd & En & Ac). destruct before as [|b before].
          -- injection E as -> ->. assert (er = []) as -> by (apply A; split; [exact Bd|exists vs; auto]). cbn in E2. injection E2 as <- <-. split; [reflexivity|exact Nv].
          -- injection E as -> ->. exfalso. destruct (Hb b (or_introl eq_refl)) as (Nb & Bb).
             assert (er = []) as ->. { apply A. split; [exact Bb|]. exists []. split; [|intros y w []]. unfold defines in Nb. destruct (constants (d_inner b)); [constructor|exfalso; apply Nb; discriminate]. }
             destruct (B eq_refl) as (_ & _ & Df). apply Df in Nb. discriminate Nb.
        * intros H N. apply app_eq_nil in H as (-> & H). pose proof (ds1_more l e1 Nv) as M. rewrite E2 in M. specialize (M H). subst l. cbn in E2. injection E2 as <- <-.
          destruct (B eq_refl) as (Tk & Nm & _). exists [], d. auto.
  Qed.

  (** * The whole state *)
  Definition hidden (p : list scope) : bool := existsb (fun s => match s with Anonymous => true | _ => false end) p.
  Definition place (names : list pair_name) (d : decl) : option nat :=
    if hidden (d_path d) then None else first_same (d_name d) (namespaces (d_path d)) (map (fun n => LEnum n [] None) names).
  Definition put (i : nat) (e : lenum) (l : list lenum) : list lenum := firstn i l ++ e :: skipn (S i) l.
  Definition hstep (s : st) (d : decl) : st :=
    match place (map l_name (es s)) d with
    | None => s
    | Some i => match nth_error (es s) i with
                | None => s
                | Some e => St (ns s) (errs s ++ snd (d1 e d)) (put i (fst (d1 e d)) (es s))
                end
    end.

  Lemma first_same_names name path l : first_same name path (map (fun n => LEnum n [] None) (map l_name l)) = first_same name path l.
  Proof. induction l as [|e l IH]; [reflexivity|]. cbn [map first_same]. rewrite IH. reflexivity. Qed.
  Lemma first_same_lt name path l i : first_same name path l = Some i -> exists e, nth_error l i = Some e /\ same name path e = true.
  Proof.
    revert i. induction l as [|e l IH]; [discriminate|]. cbn [first_same]. intros i. destruct (same name path e) eqn:S; [intros H; injection H as <-; exists e; auto|].
    destruct (first_same name path l) as [j|]; [|discriminate]. intros H. injection H as <-. exact (IH j eq_refl).
  Qed.
  Lemma put_nth i e l : i < List.length l -> nth_error (put i e l) i = Some e.
  Proof.
    intros L. unfold put. rewrite nth_error_app2; rewrite firstn_length_le by lia; [|lia]. rewrite Nat.sub_diag. reflexivity.
  Qed.
  Lemma put_other i j e l : i < List.length l -> j <> i -> nth_error (put i e l) j = nth_error l j.
  Proof.
    intros L N. unfold put. destruct (Nat.lt_ge_cases j i) as [H|H].
    - rewrite nth_error_app1 by (rewrite firstn_length_le; lia). rewrite <- (firstn_skipn i l) at 2. rewrite nth_error_app1 by (rewrite firstn_length_le; lia). reflexivity.
    - rewrite nth_error_app2; rewrite firstn_length_le by lia; [|lia]. destruct (j - i) as [|k] eqn:E; [lia|]. cbn [nth_error].
      rewrite <- (firstn_skipn (S i) l) at 2. rewrite nth_error_app2; rewrite firstn_length_le by lia; [|lia]. f_equal. lia.
  Qed.
  Lemma put_length i e l : i < List.length l -> List.length (put i e l) = List.length l.
  Proof. intros L. unfold put. rewrite app_length, firstn_length_le by lia. cbn [List.length]. rewrite skipn_length. lia. Qed.
  Lemma put_names i e e' l : nth_error l i = Some e -> l_name e' = l_name e -> map l_name (put i e' l) = map l_name l.
  Proof.
    revert i. induction l as [|x l IH]; intros [|i] H N; try discriminate H.
    - cbn in H. injection H as ->. unfold put. cbn. congruence.
    - cbn [nth_error] in H. unfold put in *. cbn [firstn skipn app map]. f_equal. exact (IH i H N).
  Qed.
  Lemma put_put i e e' l : i < List.length l -> put i e' (put i e l) = put i e' l.
  Proof.
    intros L. unfold put. rewrite firstn_app, firstn_firstn, firstn_length_le, Nat.min_id, Nat.sub_diag by lia. cbn [firstn]. rewrite app_nil_r. f_equal. f_equal.
    rewrite skipn_app, firstn_length_le by lia. rewrite skipn_all2 by (rewrite firstn_length_le; lia). replace (S i - i) with 1 by lia. reflexivity.
  Qed.
  Lemma put_same i e l : nth_error l i = Some e -> put i e l = l.
  Proof. revert i. induction l as [|x l IH]; intros [|i] H; try discriminate H; [injection H as ->; reflexivity|]. unfold put in *. cbn [firstn skipn app]. f_equal. exact (IH i H). Qed.

  (** ** The traversal *)
  Notation children := (fix go (idx : option nat) (l : list node) (s : st) {struct l} : res st :=
      match l with [] => Ok s | n :: l => bind (traverse n idx s) (go idx l) end).
  Lemma traverse_plain : forall n idx s, plain n -> traverse n idx s = Ok s.
  Proof.
    fix IH 1. intros [k l] idx s P. inversion P as [k' l' K _ F]; subst.
    assert (G : forall idx s, children idx l s = Ok s).
    { clear P K. induction l as [|n l IHl]; intros i x; [reflexivity|]. rewrite (IH n i x (Forall_inv F)). cbn [bind]. apply IHl. exact (Forall_inv_tail F). }
    destruct k; try destruct K; cbn [Load_Model.traverse Load_Model.enter_node bind]; rewrite G; reflexivity.
  Qed.
  Lemma plains idx l s : Forall plain l -> children idx l s = Ok s.
  Proof. intros F. induction F as [|n l P F IH]; [reflexivity|]. rewrite (traverse_plain n idx s P). cbn [bind]. exact IH. Qed.
  (** One enumerator *)
  Lemma traverse_constant x init i e s : nth_error (es s) i = Some e -> good_enum e -> Forall plain init ->
    traverse (Node (EnumConstantDecl x) init) (Some i) s = Ok (St (ns s) (errs s ++ snd (c1 e (x, init))) (put i (fst (c1 e (x, init))) (es s))).
  Proof.
    intros N G P. cbn [Load_Model.traverse Load_Model.enter_node]. unfold enter_constant. rewrite N. unfold Load_Proofs.c1.
    destruct (any_ident x).
    2: { cbn [bind fst snd]. unfold error. rewrite (put_same i e (es s) N). reflexivity. }
    destruct (discriminant_value init) as [d| |] eqn:D.
    - cbn [bind]. rewrite plains by exact P. cbn [bind fst snd]. rewrite app_nil_r. reflexivity.
    - destruct (rev (l_variants e)) as [|v r] eqn:R.
      + cbn [bind]. rewrite plains by exact P. cbn [bind fst snd]. rewrite app_nil_r. reflexivity.
      + pose proof (good_last e v r G R) as (w & F & E). unfold succ1. rewrite E, succ_of_Z by exact F. cbn [bind]. destruct (Z.eqb w (2 ^ 64 - 1)).
        * cbn [bind fst snd]. unfold error. rewrite (put_same i e (es s) N). reflexivity.
        * cbn [bind]. rewrite plains by exact P. cbn [bind fst snd]. rewrite app_nil_r. reflexivity.
    - cbn [bind]. rewrite plains by exact P. reflexivity.
  Qed.
  Definition child_ok (n : node) : Prop := plain n \/ exists y init, n = Node (EnumConstantDecl y) init /\ Forall plain init.
  Lemma constants_ok l : Forall child_ok l -> Forall init_ok (constants l).
  Proof.
    intros F. unfold constants. induction F as [|n l H F IH]; [constructor|]. cbn [flat_map]. apply Forall_app. split; [|exact IH].
    destruct H as [P|(y & init & -> & P)]; [inversion P as [k l' K _ _]; subst; destruct k; try destruct K; constructor|]. constructor; [exact P|constructor].
  Qed.
  Lemma traverse_constants l : Forall child_ok l -> forall i e s, nth_error (es s) i = Some e -> good_enum e ->
    children (Some i) l s = Ok (St (ns s) (errs s ++ snd (cs1 e (constants l))) (put i (fst (cs1 e (constants l))) (es s))).
  Proof.
    intros F. induction F as [|n l H F IH]; intros i e s N G.
    - cbn [constants flat_map Load_Proofs.cs1 fst snd]. rewrite app_nil_r, (put_same i e (es s) N). destruct s; reflexivity.
    - destruct H as [P|(y & init & -> & P)].
      + rewrite (traverse_plain n (Some i) s P). cbn [bind]. rewrite (IH i e s N G).
        replace (constants (n :: l)) with (constants l); [reflexivity|]. unfold constants. cbn [flat_map]. inversion P as [k l' K _ _]; subst; destruct k; try destruct K; reflexivity.
      + rewrite (traverse_constant y init i e s N G P). cbn [bind]. change (constants (Node (EnumConstantDecl y) init :: l)) with ((y, init) :: constants l). cbn [Load_Proofs.cs1].
        assert (L : i < List.length (es s)) by (apply nth_error_Some; congruence).
        pose proof (c1_good any_ident ident e (y, init) G P) as G'. destruct (c1 e (y, init)) as [e1 er]. cbn [fst snd] in *.
        rewrite (IH i e1 (St (ns s) (errs s ++ er) (put i e1 (es s))) (put_nth i e1 (es s) L) G'). cbn [ns errs es]. destruct (cs1 e1 (constants l)) as [e2 er2]. cbn [fst snd]. rewrite <- app_assoc, put_put by exact L. reflexivity.
  Qed.
  Definition good_st (s : st) : Prop := Forall good_enum (es s).
  Lemma put_Forall (P : lenum -> Prop) i e l : Forall P l -> P e -> Forall P (put i e l).
  Proof.
    intros F H. unfold put. apply Forall_app. split.
    - apply Forall_forall. intros x I. rewrite Forall_forall in F. apply F. rewrite <- (firstn_skipn i l). apply in_or_app. left. exact I.
    - constructor; [exact H|]. apply Forall_forall. intros x I. rewrite Forall_forall in F. apply F. rewrite <- (firstn_skipn (S i) l). apply in_or_app. right. exact I.
  Qed.
  Lemma d1_good e d : good_enum e -> inner_ok d -> good_enum (fst (d1 e d)) /\ l_name (fst (d1 e d)) = l_name e.
  Proof.
    intros G P. unfold Load_Proofs.d1. destruct (l_variants e) as [|v vr] eqn:V; [|cbn [fst]; auto]. destruct (d_fixed d) as [q|]; [|cbn [fst]; auto].
    set (e0 := LEnum _ _ _). assert (G0 : good_enum e0) by constructor. destruct (cs1_facts any_ident ident (constants (d_inner d)) e0 G0 P) as (A & B).
    destruct (cs1 e0 _) as [e2 er]. cbn [fst] in *. auto.
  Qed.
  Lemma hstep_facts s d : good_st s -> inner_ok d -> good_st (hstep s d) /\ ns (hstep s d) = ns s /\ map l_name (es (hstep s d)) = map l_name (es s).
  Proof.
    intros G P. unfold hstep. destruct (place _ d) as [i|]; [|auto]. destruct (nth_error (es s) i) as [e|] eqn:N; [|auto].
    assert (Ge : good_enum e) by (unfold good_st in G; rewrite Forall_forall in G; apply G; eapply nth_error_In; exact N). destruct (d1_good e d Ge P) as (A & B).
    split; [|split]; cbn [es ns].
    - unfold good_st. cbn [es]. apply put_Forall; [exact G|exact A].
    - reflexivity.
    - eapply put_names; eassumption.
  Qed.
  Lemma fold_facts l : forall s, good_st s -> Forall inner_ok l -> good_st (fold_left hstep l s) /\ ns (fold_left hstep l s) = ns s /\ map l_name (es (fold_left hstep l s)) = map l_name (es s).
  Proof.
    induction l as [|d l IH]; intros s G P; cbn [fold_left]; [auto|]. destruct (hstep_facts s d G (Forall_inv P)) as (A & B & C).
    destruct (IH _ A (Forall_inv_tail P)) as (A' & B' & C'). split; [exact A'|]. split; congruence.
  Qed.

  (** One enum declaration *)
  Lemma traverse_enum x fixed l idx s p : good_st s -> Forall child_ok l -> hidden p = false -> namespaces p = ns s ->
    traverse (Node (EnumDecl (Some x) fixed) l) idx s = Ok (hstep s (Decl p x fixed l)).
  Proof.
    intros G F H E. cbn [Load_Model.traverse Load_Model.enter_node bind]. unfold enter_enum, hstep, place. cbn [d_path d_name]. rewrite H, E, first_same_names.
    destruct (first_same x (ns s) (es s)) as [i|] eqn:S; [|reflexivity]. destruct (nth_error (es s) i) as [e|] eqn:N; [|reflexivity].
    assert (L : i < List.length (es s)) by (apply nth_error_Some; congruence).
    unfold Load_Proofs.d1. cbn [d_fixed d_inner]. destruct (l_variants e) as [|v vr] eqn:V.
    2: { cbn [bind fst snd]. unfold error. rewrite (put_same i e (es s) N). reflexivity. }
    destruct fixed as [q|].
    2: { cbn [bind fst snd]. unfold error. rewrite (put_same i e (es s) N). reflexivity. }
    destruct (translate_qual_type _) as [r|]; cbn [bind].
    - set (e0 := LEnum _ _ _). rewrite (traverse_constants l F i e0); [|exact (put_nth i e0 (es s) L)|constructor]. cbn [bind]. unfold set_enum. cbn [ns errs es].
      destruct (cs1 e0 (constants l)) as [e2 er]. cbn [fst snd app]. fold (put i e0 (es s)). rewrite put_put by exact L. reflexivity.
    - set (e0 := LEnum _ _ _). rewrite (traverse_constants l F i e0); [|exact (put_nth i e0 (es s) L)|constructor]. cbn [bind]. unfold set_enum, error. cbn [ns errs es].
      destruct (cs1 e0 (constants l)) as [e2 er]. cbn [fst snd]. fold (put i e0 (es s)). rewrite put_put, <- app_assoc by exact L. reflexivity.
  Qed.
  Lemma decls_prefix : forall n p d, In d (decls p n) -> exists q, d_path d = p ++ q.
  Proof.
    fix IH 1. intros [k l] p d I.
    assert (G : forall p, In d (flat_map (decls p) l) -> exists q, d_path d = p ++ q).
    { clear I. induction l as [|n l IHl]; intros p' I; [destruct I|]. cbn [flat_map] in I. apply in_app_or in I as [I|I]; [exact (IH n p' d I)|exact (IHl p' I)]. }
    assert (G2 : forall x, In d (flat_map (decls (p ++ [x])) l) -> exists q, d_path d = p ++ q) by (intros x J; apply G in J as (q & ->); exists (x :: q); rewrite <- app_assoc; reflexivity).
    destruct k as [[x|]|[x|] fixed|x| |v|[]]; cbn [decls] in I; try (destruct I; fail); try (eapply G2; exact I); try (eapply G; exact I).
    destruct I as [<-|[]]. exists []. rewrite app_nil_r. reflexivity.
  Qed.
  Lemma hidden_skip s l : Forall (fun d => hidden (d_path d) = true) l -> fold_left hstep l s = s.
  Proof. intros F. revert s. induction F as [|d l H F IH]; intros s; [reflexivity|]. cbn [fold_left]. unfold hstep at 2, place. rewrite H. apply IH. Qed.
  Lemma hidden_app p q : hidden (p ++ q) = hidden p || hidden q.
  Proof. apply existsb_app. Qed.
  Lemma namespaces_app p q : namespaces (p ++ q) = namespaces p ++ namespaces q.
  Proof. apply flat_map_app. Qed.
  Lemma plain_decls : forall n p, plain n -> decls p n = [].
  Proof.
    fix IH 1. intros [k l] p P. inversion P as [k' l' K _ F]; subst.
    assert (G : forall p, flat_map (decls p) l = []).
    { clear P K. induction l as [|n l IHl]; intros q; [reflexivity|]. cbn [flat_map]. rewrite (IH n q (Forall_inv F)), IHl; [reflexivity|exact (Forall_inv_tail F)]. }
    destruct k as [| | | | |[]]; try destruct K; cbn [decls]; auto.
  Qed.
  Lemma sane_inner : forall n p, sane n -> Forall inner_ok (decls p n).
  Proof.
    fix IH 1. intros [k l] p S.
    assert (G : Forall sane l -> forall p, Forall inner_ok (flat_map (decls p) l)).
    { clear S. induction l as [|n l IHl]; intros F q; [constructor|]. cbn [flat_map]. apply Forall_app. split; [exact (IH n q (Forall_inv F))|exact (IHl (Forall_inv_tail F) q)]. }
    inversion S as [x l' F|w l' F|n' P|x fixed l' F]; subst.
    - destruct x; cbn [decls]; apply G; exact F.
    - destruct w; cbn [decls]; apply G; exact F.
    - rewrite plain_decls by exact P. constructor.
    - destruct x; cbn [decls]; [|constructor]. constructor; [|constructor]. unfold inner_ok. cbn [d_inner]. apply constants_ok. exact F.
  Qed.
  Lemma traverse_ok : forall n p s, sane n -> good_st s -> hidden p = false -> namespaces p = ns s -> traverse n None s = Ok (fold_left hstep (decls p n) s).
  Proof.
    fix IH 1. intros [k l] p s S G H E.
    assert (Go : Forall sane l -> forall p s, good_st s -> hidden p = false -> namespaces p = ns s -> children None l s = Ok (fold_left hstep (flat_map (decls p) l) s)).
    { clear s S G H E. induction l as [|n l IHl]; intros F q s G H E; [reflexivity|]. rewrite (IH n q s (Forall_inv F) G H E). cbn [bind flat_map]. rewrite fold_left_app.
      destruct (fold_facts (decls q n) s G (sane_inner n q (Forall_inv F))) as (A & B & C). apply (IHl (Forall_inv_tail F)); [exact A|exact H|congruence]. }
    inversion S as [x l' F|w l' F|n' P|x fixed l' F]; subst.
    - destruct x as [x|]; cbn [Load_Model.traverse Load_Model.enter_node bind decls].
      + set (s0 := St (ns s ++ [x]) (errs s) (es s)). assert (E0 : namespaces (p ++ [Namespace x]) = ns s0) by (rewrite namespaces_app, E; reflexivity).
        assert (H0 : hidden (p ++ [Namespace x]) = false) by (rewrite hidden_app, H; reflexivity).
        rewrite (Go F (p ++ [Namespace x]) s0 G H0 E0). cbn [bind].
        assert (In_ : Forall inner_ok (flat_map (decls (p ++ [Namespace x])) l)) by (apply (sane_inner (Node (NamespaceDecl (Some x)) l) p); exact S).
        (* the namespace does not matter to the steps *)
        assert (Q : forall ds a b, errs a = errs b -> es a = es b -> errs (fold_left hstep ds a) = errs (fold_left hstep ds b) /\ es (fold_left hstep ds a) = es (fold_left hstep ds b)).
        { clear. induction ds as [|d ds IHd]; intros a b A B; cbn [fold_left]; [auto|]. apply IHd; unfold hstep; rewrite B; destruct (place _ d); auto; destruct (nth_error _ _); cbn [errs es]; congruence. }
        destruct (fold_facts _ s0 G In_) as (_ & N1 & _). destruct (fold_facts _ s G In_) as (_ & N2 & _). destruct (Q (flat_map (decls (p ++ [Namespace x])) l) s0 s eq_refl eq_refl) as (Q1 & Q2).
        rewrite N1. cbn [ns s0]. destruct (ns s ++ [x]) eqn:Z; [destruct (ns s); discriminate Z|]. rewrite <- Z, removelast_last, Q1, Q2, <- N2.
        destruct (fold_left hstep _ s); reflexivity.
      + rewrite hidden_skip; [reflexivity|]. apply Forall_forall. intros d I. apply (decls_prefix (Node (NamespaceDecl None) l) p) in I as X.
        assert (Y : exists q, d_path d = (p ++ [Anonymous]) ++ q).
        { apply in_flat_map in I as (n & _ & I). exact (decls_prefix n _ d I). }
        destruct Y as (q & ->). rewrite !hidden_app. cbn. rewrite orb_true_r. reflexivity.
    - cbn [Load_Model.traverse Load_Model.enter_node bind].
      destruct w; cbn [decls].
      1, 2: rewrite (Go F (p ++ [Local]) s G); [reflexivity|rewrite hidden_app, H; reflexivity|rewrite namespaces_app, E; cbn; apply app_nil_r].
      1, 2: rewrite (Go F p s G H E); reflexivity.
    - rewrite plain_decls by exact P. cbn [fold_left]. apply traverse_plain. exact P.
    - destruct x as [x|]; cbn [decls fold_left]; [apply traverse_enum; assumption|]. reflexivity.
  Qed.
End Load.
