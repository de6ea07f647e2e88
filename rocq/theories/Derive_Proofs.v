From Verif Require Import Base StrLib Syntax_Model Mangle_Model Derive_Model Derive_Spec.
Require Import ZArith Lia.

Lemma derives_In d l : derives d l = true <-> In d l.
Proof.
  unfold derives. rewrite existsb_exists. split.
  - intros (x & I & E). apply internal_trait_dec_bl in E. now subst.
  - intros I. exists d. split; [assumption|]. now apply internal_trait_dec_lb.
Qed.
Lemma derives_not d l : derives d l = false <-> ~ In d l.
Proof. rewrite <- derives_In. destruct (derives d l); intuition congruence. Qed.

Lemma find_app {A} (p : A -> bool) l l' :
  find p (l ++ l') = match find p l with Some x => Some x | None => find p l' end.
Proof. induction l as [|x l IH]; cbn; [reflexivity|]. destruct (p x); auto. Qed.

Section P.
  Context {V H : Type} (impl : string -> field_impl V H).

  Lemma find_flat_skip {A B} (g : A -> list B) p l :
    (forall x, In x l -> find p (g x) = None) -> find p (flat_map g l) = None.
  Proof.
    induction l as [|x l IH]; intros N; cbn; [reflexivity|].
    rewrite find_app, (N x (or_introl eq_refl)). apply IH. intros; apply N; now right.
  Qed.

  Lemma find_flat_first {A B} (g : A -> list B) p l y x0 :
    In x0 l -> find p (g x0) = Some y ->
    (forall x, In x l -> find p (g x) = None \/ find p (g x) = Some y) ->
    find p (flat_map g l) = Some y.
  Proof.
    induction l as [|x l IH]; intros I F N; [destruct I|]. cbn. rewrite find_app.
    destruct (N x (or_introl eq_refl)) as [E|E]; rewrite E; [|reflexivity].
    destruct I as [->|I]; [congruence|]. apply IH; auto. intros; apply N; now right.
  Qed.

  Definition op_sym (o : op) : string :=
    match o with OEq => "eq" | ONe => "ne" | OLt => "lt" | OLe => "le" | OGt => "gt" | OGe => "ge" end.

  Lemma export_found s o :
    match o with
    | OEq => In DPartialEq (st_derives s)
    | ONe => In DPartialEq (st_derives s) /\ ~ In DEq (st_derives s)
    | OLt | OLe => In DPartialOrd (st_derives s)
    | OGt | OGe => In DPartialOrd (st_derives s) /\ ~ In DOrd (st_derives s)
    end -> find_export s (op_sym o) = Some o.
  Proof.
    intros D. unfold find_export, exports.
    set (k := match o with OEq | ONe => DPartialEq | _ => DPartialOrd end).
    assert (K : In k (st_derives s)) by (destruct o; cbn in D |- *; tauto).
    rewrite (find_flat_first _ _ _ (op_sym o, o) k); [reflexivity|exact K| |].
    - destruct o; cbn in D |- *; try reflexivity.
      + destruct D as [_ D]. apply derives_not in D. now rewrite D.
      + destruct D as [_ D]. apply derives_not in D. now rewrite D.
      + destruct D as [_ D]. apply derives_not in D. now rewrite D.
    - intros d _.
      destruct d; try (left; reflexivity);
        destruct o; cbn in D |- *; try (left; reflexivity); try (right; reflexivity);
        try (destruct D as [_ D]; apply derives_not in D; rewrite D; right; reflexivity);
        try (destruct (derives DEq (st_derives s)); left; reflexivity);
        try (destruct (derives DOrd (st_derives s)); left; reflexivity).
  Qed.

  Lemma partial_total s a b : In DOrd (st_derives s) ->
    rust_partial_cmp impl s a b = Some (rust_cmp impl s a b).
  Proof. intros D. unfold rust_partial_cmp, struct_partial_ord. apply derives_In in D. now rewrite D. Qed.

  Lemma cxx_agrees s o a b fuel : (2 <= fuel)%nat ->
    cxx_op impl fuel s o a b =
    if existsb (op_eqb o) (class_operators s) then Some (rust_op impl s o a b) else None.
  Proof.
    intros F. destruct fuel as [|[|fuel]]; try lia. clear F.
    pose proof (export_found s) as X.
    pose proof (derives_In DPartialEq (st_derives s)) as HPE.
    pose proof (derives_In DPartialOrd (st_derives s)) as HPO.
    pose proof (derives_not DEq (st_derives s)) as HE.
    pose proof (derives_not DOrd (st_derives s)) as HO.
    pose proof (derives_In DOrd (st_derives s)) as HO'.
    assert (PT := partial_total s a b).
    cbn [cxx_op]. unfold class_operators, find_def, operator_defs, operator_decls.
    destruct (derives DPartialEq (st_derives s)), (derives DPartialOrd (st_derives s)),
             (derives DEq (st_derives s)), (derives DOrd (st_derives s)); destruct o;
      cbn -[find_export rust_op negb]; try reflexivity;
      (let x := constr:(OEq) in specialize (X OEq) as X1; specialize (X ONe) as X2; specialize (X OLt) as X3;
       specialize (X OLe) as X4; specialize (X OGt) as X5; specialize (X OGe) as X6; cbn [op_sym] in *);
      try (rewrite X1 by tauto); try (rewrite X2 by tauto); try (rewrite X3 by tauto);
      try (rewrite X4 by tauto); try (rewrite X5 by tauto); try (rewrite X6 by tauto);
      cbn [option_map]; try reflexivity;
      f_equal; cbn [rust_op]; rewrite ?PT by tauto; try reflexivity;
      destruct (rust_cmp impl s a b); reflexivity.
  Qed.

  (** * Lexicographic order *)
  Lemma run_cmp_first l a b :
    first_decides Eq (fun f => f_cmp (impl f) (a f) (b f)) l (run_cmp impl (map MatchCmp l) a b).
  Proof.
    induction l as [|f l IH]; cbn.
    - left. split; [reflexivity|]. intros x [].
    - destruct (f_cmp (impl f) (a f) (b f)) eqn:E.
      + destruct IH as [[R A]|(N & p & x & q & -> & D & A)].
        * left. split; [exact R|]. intros x [<-|I]; auto.
        * right. split; [exact N|]. exists (f :: p), x, q. repeat split; auto.
          intros y [<-|I]; auto.
      + right. split; [discriminate|]. exists [], f, l. repeat split; auto. intros y [].
      + right. split; [discriminate|]. exists [], f, l. repeat split; auto. intros y [].
  Qed.
  Lemma run_partial_first l a b :
    first_decides (Some Eq) (fun f => f_partial_cmp (impl f) (a f) (b f)) l
                  (run_partial impl (map MatchPartialCmp l) a b).
  Proof.
    induction l as [|f l IH]; cbn.
    - left. split; [reflexivity|]. intros x [].
    - destruct (f_partial_cmp (impl f) (a f) (b f)) as [[]|] eqn:E.
      + destruct IH as [[R A]|(N & p & x & q & -> & D & A)].
        * left. split; [exact R|]. intros x [<-|I]; auto.
        * right. split; [exact N|]. exists (f :: p), x, q. repeat split; auto.
          intros y [<-|I]; auto.
      + right. split; [discriminate|]. exists [], f, l. repeat split; auto. intros y [].
      + right. split; [discriminate|]. exists [], f, l. repeat split; auto. intros y [].
      + right. split; [discriminate|]. exists [], f, l. repeat split; auto. intros y [].
  Qed.

  Definition lawful (f : string) : Prop :=
    lawful_ord (f_eq (impl f)) (f_partial_cmp (impl f)) (f_cmp (impl f)).

  Lemma eq_cmp l a b : Forall lawful l ->
    (forallb (fun f => f_eq (impl f) (a f) (b f)) l = true <-> run_cmp impl (map MatchCmp l) a b = Eq).
  Proof.
    induction 1 as [|f l L _ IH]; cbn; [tauto|].
    rewrite andb_true_iff, IH, (lo_eq _ _ _ L).
    destruct (f_cmp (impl f) (a f) (b f)); intuition congruence.
  Qed.
  Lemma cmp_refl l a : Forall lawful l -> run_cmp impl (map MatchCmp l) a a = Eq.
  Proof. induction 1 as [|f l L _ IH]; cbn; [reflexivity|]. now rewrite (lo_refl _ _ _ L). Qed.
  Lemma cmp_opp l a b : Forall lawful l ->
    run_cmp impl (map MatchCmp l) b a = CompOpp (run_cmp impl (map MatchCmp l) a b).
  Proof.
    induction 1 as [|f l L _ IH]; cbn; [reflexivity|]. rewrite (lo_opp _ _ _ L (a f) (b f)).
    destruct (f_cmp (impl f) (a f) (b f)); cbn; auto.
  Qed.
  Lemma cmp_congr l a b c : Forall lawful l -> run_cmp impl (map MatchCmp l) a b = Eq ->
    run_cmp impl (map MatchCmp l) a c = run_cmp impl (map MatchCmp l) b c.
  Proof.
    induction 1 as [|f l L _ IH]; cbn; [reflexivity|].
    destruct (f_cmp (impl f) (a f) (b f)) eqn:E; try discriminate. intros R.
    rewrite (lo_congr _ _ _ L _ _ (c f) E), (IH R). reflexivity.
  Qed.
  Lemma cmp_trans l a b c o : Forall lawful l -> run_cmp impl (map MatchCmp l) a b = o ->
    run_cmp impl (map MatchCmp l) b c = o -> run_cmp impl (map MatchCmp l) a c = o.
  Proof.
    induction 1 as [|f l L _ IH]; cbn; [auto|].
    destruct (f_cmp (impl f) (a f) (b f)) eqn:E1.
    - rewrite (lo_congr _ _ _ L _ _ (c f) E1).
      destruct (f_cmp (impl f) (b f) (c f)); auto.
    - destruct (f_cmp (impl f) (b f) (c f)) eqn:E2.
      + intros <- R.
        assert (E : f_cmp (impl f) (a f) (c f) = Lt).
        { rewrite (lo_opp _ _ _ L (c f) (a f)).
          assert (E3 : f_cmp (impl f) (c f) (b f) = Eq).
          { now rewrite (lo_opp _ _ _ L (b f) (c f)), E2. }
          rewrite (lo_congr _ _ _ L _ _ (a f) E3), (lo_opp _ _ _ L (a f) (b f)), E1. reflexivity. }
        now rewrite E.
      + intros <- _. now rewrite (lo_trans _ _ _ L _ _ _ Lt E1 E2).
      + intros <-. discriminate.
    - destruct (f_cmp (impl f) (b f) (c f)) eqn:E2.
      + intros <- R.
        assert (E : f_cmp (impl f) (a f) (c f) = Gt).
        { rewrite (lo_opp _ _ _ L (c f) (a f)).
          assert (E3 : f_cmp (impl f) (c f) (b f) = Eq).
          { now rewrite (lo_opp _ _ _ L (b f) (c f)), E2. }
          rewrite (lo_congr _ _ _ L _ _ (a f) E3), (lo_opp _ _ _ L (a f) (b f)), E1. reflexivity. }
        now rewrite E.
      + intros <-. discriminate.
      + intros <- _. now rewrite (lo_trans _ _ _ L _ _ _ Gt E1 E2).
  Qed.
  Lemma partial_cmp_cmp l a b : Forall lawful l ->
    run_partial impl (map MatchPartialCmp l) a b = Some (run_cmp impl (map MatchCmp l) a b).
  Proof.
    induction 1 as [|f l L _ IH]; cbn; [reflexivity|]. rewrite (lo_partial _ _ _ L).
    destruct (f_cmp (impl f) (a f) (b f)); auto.
  Qed.

  Lemma partial_eq l a b :
    Forall (fun f => lawful_partial (f_eq (impl f)) (f_partial_cmp (impl f))) l ->
    (forallb (fun f => f_eq (impl f) (a f) (b f)) l = true <->
     run_partial impl (map MatchPartialCmp l) a b = Some Eq).
  Proof.
    induction 1 as [|f l L _ IH]; cbn; [tauto|].
    rewrite andb_true_iff, IH, (lp_eq _ _ L).
    destruct (f_partial_cmp (impl f) (a f) (b f)) as [[]|]; intuition congruence.
  Qed.
  Lemma partial_opp l a b :
    Forall (fun f => lawful_partial (f_eq (impl f)) (f_partial_cmp (impl f))) l ->
    run_partial impl (map MatchPartialCmp l) b a =
    option_map CompOpp (run_partial impl (map MatchPartialCmp l) a b).
  Proof.
    induction 1 as [|f l L _ IH]; cbn; [reflexivity|]. rewrite (lp_opp _ _ L (a f) (b f)).
    destruct (f_partial_cmp (impl f) (a f) (b f)) as [[]|]; cbn; auto.
  Qed.

  Lemma hash_eq l a b : (forall f, In f l -> forall x y h, f_eq (impl f) x y = true ->
      f_hash (impl f) x h = f_hash (impl f) y h) ->
    forallb (fun f => f_eq (impl f) (a f) (b f)) l = true ->
    forall h, fold_left (fun h f => f_hash (impl f) (a f) h) l h =
              fold_left (fun h f => f_hash (impl f) (b f) h) l h.
  Proof.
    induction l as [|f l IH]; intros L E h; cbn in *; [reflexivity|].
    apply andb_true_iff in E. destruct E as [E1 E2].
    rewrite (L f (or_introl eq_refl) _ _ h E1). apply IH; auto.
  Qed.
End P.

Lemma find_disc e x v : find (fun v => Z.eqb (vr_disc v) x) (en_variants e) = Some v ->
  In v (en_variants e) /\ vr_disc v = x.
Proof. intros E. apply find_some in E. destruct E as [I E]. split; [assumption|]. now apply Z.eqb_eq. Qed.

Lemma no_paren_app s t : no_paren (s ++ "(" ++ t)%string -> False.
Proof. induction s as [|c s IH]; cbn; intros N; [now apply (proj1 N)|apply IH, N]. Qed.

Lemma append_cancel_r s t c : (s ++ String c "")%string = (t ++ String c "")%string -> s = t.
Proof.
  revert t. induction s as [|a s IH]; intros [|b t] E; cbn in *; auto.
  - inversion E as [[X Y]]. destruct t; discriminate.
  - inversion E as [[X Y]]. destruct s; discriminate.
  - inversion E as [[X Y]]. f_equal. now apply IH.
Qed.
