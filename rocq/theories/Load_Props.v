(** C98: variants that are taken from a C++ header are those of the enum of that name. *)
From Verif Require Import Base Syntax_Model Discriminant_Model Names_Model Names_Props Load_Model Load_Spec Load_Proofs Load_Proofs2.

Section Whole.
  Context (any_ident ident : string -> bool).
  Notation ds1 := (ds1 any_ident ident). Notation hstep := (hstep any_ident ident).
  Definition at_place (names : list pair_name) (i : nat) (d : decl) : bool := match place names d with Some j => Nat.eqb j i | None => false end.
  Lemma place_lt names d i : place names d = Some i -> i < List.length names.
  Proof.
    unfold place. destruct (hidden _); [discriminate|]. intros H. apply first_same_lt in H as (e & H & _). assert (L : i < List.length (map (fun n => LEnum n [] None) names)) by (apply nth_error_Some; congruence).
    rewrite map_length in L. exact L.
  Qed.
  Lemma projection ds : forall s, good_st s -> Forall inner_ok ds ->
    let names := map l_name (es s) in
    (forall i e, nth_error (es s) i = Some e -> nth_error (es (fold_left hstep ds s)) i = Some (fst (ds1 e (filter (at_place names i) ds)))) /\
    (errs (fold_left hstep ds s) = [] <-> errs s = [] /\ forall i e, nth_error (es s) i = Some e -> snd (ds1 e (filter (at_place names i) ds)) = []).
  Proof.
    induction ds as [|d ds IH]; intros s G P names.
    - cbn [fold_left filter Load_Proofs.ds1 fst snd]. split; [auto|]. intuition.
    - cbn [fold_left filter]. destruct (hstep_facts any_ident ident s d G (Forall_inv P)) as (A & _ & C). specialize (IH _ A (Forall_inv_tail P)). cbv zeta in IH. rewrite C in IH. fold names in IH. destruct IH as (I & J).
      destruct (place names d) as [j|] eqn:Pl.
      + pose proof (place_lt _ _ _ Pl) as L. unfold names in L. rewrite map_length in L.
        destruct (nth_error (es s) j) as [ej|] eqn:Nj; [|apply nth_error_None in Nj; lia].
        assert (Hs : hstep s d = St (ns s) (errs s ++ snd (d1 any_ident ident ej d)) (put j (fst (d1 any_ident ident ej d)) (es s))) by (unfold Load_Proofs2.hstep; fold names; rewrite Pl, Nj; reflexivity).
        rewrite Hs in *. cbn [es errs] in I, J. clear C A.
        assert (Hat : forall i, at_place names i d = Nat.eqb j i) by (intros i; unfold at_place; rewrite Pl; reflexivity).
        split.
        * intros i e N. rewrite Hat. destruct (Nat.eqb_spec j i) as [<-|Ne].
          -- rewrite Nj in N. injection N as <-. rewrite (I j _ (put_nth j _ _ L)). cbn [Load_Proofs.ds1]. destruct (d1 any_ident ident ej d) as [e1 er]. cbn [fst]. destruct (ds1 e1 _). reflexivity.
          -- apply I. rewrite put_other by (try exact L; congruence). exact N.
        * rewrite J. split.
          -- intros (H & K). apply app_eq_nil in H as (H1 & H2). split; [exact H1|]. intros i e N. rewrite Hat. destruct (Nat.eqb_spec j i) as [<-|Ne].
             ++ rewrite Nj in N. injection N as <-. specialize (K j _ (put_nth j _ _ L)). cbn [Load_Proofs.ds1]. destruct (d1 any_ident ident ej d) as [e1 er]. cbn [fst snd] in *. destruct (ds1 e1 _) as [e2 er2]. cbn [snd] in *. subst. reflexivity.
             ++ apply K. rewrite put_other by (try exact L; congruence). exact N.
          -- intros (H & K). pose proof (K j ej Nj) as Kj. rewrite Hat, Nat.eqb_refl in Kj. cbn [Load_Proofs.ds1] in Kj.
             destruct (d1 any_ident ident ej d) as [e1 er]. cbn [fst snd] in *. destruct (ds1 e1 (filter (at_place names j) ds)) as [e2 er2] eqn:E2. cbn [snd] in Kj. apply app_eq_nil in Kj as (-> & ->).
             split; [rewrite H; reflexivity|]. intros i e N. destruct (Nat.eq_dec i j) as [->|Ne].
             ++ rewrite put_nth in N by exact L. injection N as <-. rewrite E2. reflexivity.
             ++ rewrite put_other in N by (try exact L; congruence). specialize (K i e N). rewrite Hat in K. destruct (Nat.eqb_spec j i); [congruence|exact K].
      + assert (Hs : hstep s d = s) by (unfold Load_Proofs2.hstep; fold names; rewrite Pl; reflexivity). rewrite Hs in *.
        assert (Hat : forall i, at_place names i d = false) by (intros i; unfold at_place; rewrite Pl; reflexivity).
        split; [intros i e N; rewrite Hat; apply I, N|]. rewrite J. split; intros (H & K); (split; [exact H|]); intros i e N; specialize (K i e N); rewrite Hat in *; exact K.
  Qed.

  Definition key (n : pair_name) : list string * string := (p_ns n, p_cxx n).
  Lemma same_key name path n : same name path (LEnum n [] None) = true <-> key n = (path, name).
  Proof.
    unfold same, key. cbn [l_name]. rewrite andb_true_iff, String.eqb_eq. destruct (list_eq_dec string_dec (p_ns n) path); split; intros H; try (destruct H as [? H]; congruence); try (split; congruence).
  Qed.
  Lemma looks_key n d : looks_named n d = true <-> hidden (d_path d) = false /\ key n = (namespaces (d_path d), d_name d).
  Proof.
    unfold looks_named, key. fold (hidden (d_path d)). rewrite !andb_true_iff, negb_true_iff, String.eqb_eq. destruct (list_eq_dec string_dec (namespaces (d_path d)) (p_ns n)); split; intros H.
    - destruct H as ((H & _) & E). split; [exact H|congruence].
    - destruct H as (H & E). injection E as E1 E2. auto.
    - destruct H as ((_ & H) & _). discriminate H.
    - destruct H as (_ & E). congruence.
  Qed.
  Lemma first_key name path names i : first_same name path (map (fun n => LEnum n [] None) names) = Some i <->
    exists n, nth_error names i = Some n /\ key n = (path, name) /\ forall j m, j < i -> nth_error names j = Some m -> key m <> (path, name).
  Proof.
    revert i. induction names as [|n names IH]; intros i.
    - split; [discriminate|intros (n & N & _); destruct i; discriminate N].
    - cbn [map first_same]. destruct (same name path (LEnum n [] None)) eqn:Sm.
      + apply same_key in Sm. split.
        * intros H. injection H as <-. exists n. split; [reflexivity|]. split; [exact Sm|]. intros j m L. lia.
        * intros (m & N & _ & F). destruct i as [|i]; [reflexivity|]. exfalso. exact (F 0 n (Nat.lt_0_succ i) eq_refl Sm).
      + assert (Sn : key n <> (path, name)) by (intros E; apply same_key in E; congruence). destruct i as [|i].
        * split; [destruct (first_same _ _ _); discriminate|]. intros (m & N & K & _). injection N as <-. contradiction.
        * transitivity (first_same name path (map (fun n => LEnum n [] None) names) = Some i).
          { destruct (first_same _ _ _); cbn [option_map]; split; intros H; congruence. }
          rewrite IH. split; intros (m & N & K & F); exists m; (split; [exact N|]); (split; [exact K|]).
          -- intros [|j] m' L N'; [injection N' as <-; exact Sn|]. apply (F j m'); [lia|exact N'].
          -- intros j m' L N'. apply (F (S j) m'); [lia|exact N'].
  Qed.
  Lemma place_key names d i : place names d = Some i <->
    exists n, nth_error names i = Some n /\ looks_named n d = true /\ forall j m, j < i -> nth_error names j = Some m -> looks_named m d = false.
  Proof.
    unfold place. destruct (hidden (d_path d)) eqn:H.
    - split; [discriminate|]. intros (n & _ & L & _). apply looks_key in L as (L & _). congruence.
    - rewrite first_key. split; intros (n & N & K & F); exists n; (split; [exact N|]).
      + split; [apply looks_key; auto|]. intros j m L Nm. apply not_true_iff_false. intros X. apply looks_key in X as (_ & X). exact (F j m L Nm X).
      + split; [apply looks_key in K; apply K|]. intros j m L Nm X. specialize (F j m L Nm). assert (Y : looks_named m d = true) by (apply looks_key; auto). congruence.
  Qed.
  Lemma place_distinct names i n ds : NoDup (map key names) -> nth_error names i = Some n -> filter (at_place names i) ds = filter (looks_named n) ds.
  Proof.
    intros D N. apply filter_ext. intros d. unfold at_place.
    assert (U : forall j m, nth_error names j = Some m -> looks_named m d = true -> looks_named n d = true -> j = i).
    { intros j m Nm X Y. apply looks_key in X as (_ & X). apply looks_key in Y as (_ & Y).
      apply (proj1 (NoDup_nth_error (map key names)) D); [rewrite map_length; apply nth_error_Some; congruence|].
      rewrite (map_nth_error key j names Nm), (map_nth_error key i names N). congruence. }
    destruct (looks_named n d) eqn:Ln.
    - assert (P : place names d = Some i).
      { apply place_key. exists n. split; [exact N|]. split; [exact Ln|]. intros j m L Nm. apply not_true_iff_false. intros X. specialize (U j m Nm X eq_refl). lia. }
      rewrite P. apply Nat.eqb_refl.
    - destruct (place names d) as [j|] eqn:P; [|reflexivity]. apply place_key in P as (m & Nm & Lm & _). destruct (Nat.eqb_spec j i) as [->|]; [congruence|reflexivity].
  Qed.

  Lemma chosen_eq l : flat_map (fun h => if h_from_header h && negb (h_explicit h) then [LEnum (h_name h) [] None] else []) l = map (fun n => LEnum n [] None) (wanted l).
  Proof. unfold wanted. induction l as [|h l IH]; [reflexivity|]. cbn [flat_map filter]. destruct (h_from_header h && negb (h_explicit h)); cbn [map app]; rewrite IH; reflexivity. Qed.
  Lemma early_eq l : flat_map (fun h => if h_from_header h && h_explicit h then [ExplicitVariants (h_name h)] else []) l = [] <-> forall h, In h l -> h_from_header h = true -> h_explicit h = false.
  Proof.
    induction l as [|h l IH]; [split; [intros _ h []|reflexivity]|]. cbn [flat_map]. split.
    - intros H h' I F. apply app_eq_nil in H as (H1 & H2). destruct I as [<-|I]; [|exact (proj1 IH H2 h' I F)]. rewrite F in H1. destruct (h_explicit h); [discriminate H1|reflexivity].
    - intros H. assert (E : h_from_header h && h_explicit h = false). { destruct (h_from_header h) eqn:F; [|reflexivity]. cbn [andb]. apply H; [left; reflexivity|exact F]. }
      rewrite E. cbn [app]. apply IH. intros h' I. apply H. right. exact I.
  Qed.
  Lemma not_found_eq l : flat_map (fun e => match l_variants e with [] => [NotFound (l_name e)] | _ => [] end) l = [] <-> forall e, In e l -> l_variants e <> [].
  Proof.
    induction l as [|e l IH]; [split; [intros _ e []|reflexivity]|]. cbn [flat_map]. split.
    - intros H e' I. apply app_eq_nil in H as (H1 & H2). destruct I as [<-|I]; [|exact (proj1 IH H2 e' I)]. destruct (l_variants e); [discriminate H1|discriminate].
    - intros H. pose proof (H e (or_introl eq_refl)) as N. destruct (l_variants e); [contradiction|]. cbn [app]. apply IH. intros e' I. apply H. right. exact I.
  Qed.
  Lemma loadable_last ds : loadable any_ident ds -> forall before d, ds = before ++ [d] -> defines d /\ forall d', In d' ds -> defines d' -> d' = d.
  Proof.
    intros (before & d & vs & -> & Hb & Hd & _) before' d' E. apply app_inj_tail in E as (<- & <-). split; [exact Hd|]. intros d' I D.
    apply in_app_or in I as [I|[<-|[]]]; [|reflexivity]. destruct (Hb d' I) as (N & _). contradiction.
  Qed.

  Lemma exact root l : sane root ->
    exists errs es, load any_ident ident (Tree root) l = Ok (errs, es) /\ map l_name es = wanted l /\
      (errs = [] <-> (forall h, In h l -> h_from_header h = true -> h_explicit h = false) /\ NoDup (map key (wanted l)) /\
                     forall n, In n (wanted l) -> loadable any_ident (filter (looks_named n) (decls [] root))) /\
      (errs = [] -> forall e, In e es -> exists d, In d (decls [] root) /\ looks_named (l_name e) d = true /\ defines d /\ taken_from d e /\
          forall d', In d' (decls [] root) -> looks_named (l_name e) d' = true -> defines d' -> d' = d).
  Proof.
    intros Sa. unfold load. rewrite chosen_eq. set (early := flat_map _ l). assert (Ee := early_eq l). fold early in Ee.
    destruct (wanted l) as [|n0 names0] eqn:W.
    { cbn [map]. exists early, []. split; [reflexivity|]. split; [reflexivity|]. split.
      - rewrite Ee. split; [intros H; split; [exact H|]; split; [constructor|intros n []]|intros (H & _); exact H].
      - intros _ e []. }
    set (names := n0 :: names0) in *. set (s0 := St [] early (map (fun n => LEnum n [] None) names)).
    assert (G0 : good_st s0). { unfold good_st. cbn [es s0]. apply Forall_forall. intros e I. apply in_map_iff in I as (n & <- & _). constructor. }
    rewrite (traverse_ok any_ident ident root [] s0 Sa G0 eq_refl eq_refl). cbn [bind].
    change (match map (fun n => LEnum n [] None) names with [] => ?a | _ :: _ => ?b end) with b.
    set (ds := decls [] root). assert (P := sane_inner root [] Sa). fold ds in P.
    destruct (fold_facts any_ident ident ds s0 G0 P) as (_ & _ & Nm). destruct (projection ds s0 G0 P) as (Pr & Er). set (s := fold_left hstep ds s0) in *.
    assert (Nm0 : map l_name (es s0) = names) by (cbn [es s0]; rewrite map_map; apply map_id). rewrite Nm0 in Nm, Pr, Er.
    assert (F0 : forall i n, nth_error names i = Some n -> nth_error (es s0) i = Some (LEnum n [] None)) by (intros i n H; apply (map_nth_error (fun n => LEnum n [] None)), H).
    assert (F1 : forall i e, nth_error (es s0) i = Some e -> exists n, nth_error names i = Some n /\ e = LEnum n [] None).
    { intros i e H. cbn [es s0] in H. rewrite nth_error_map in H. destruct (nth_error names i) as [n|]; [|discriminate H]. injection H as <-. eauto. }
    assert (Len : List.length (es s) = List.length names) by (rewrite <- (map_length l_name), Nm; reflexivity).
    assert (Pf : forall i, Forall inner_ok (filter (at_place names i) ds)).
    { intros i. apply Forall_forall. intros d I. apply filter_In in I as (I & _). rewrite Forall_forall in P. exact (P d I). }
    assert (Some_ : (forall e, In e (es s) -> l_variants e <> []) -> NoDup (map key names)).
    { intros H. apply NoDup_nth_error. intros i j L E. rewrite map_length in L.
      destruct (nth_error names i) as [n|] eqn:Ni; [|apply nth_error_None in Ni; lia]. rewrite (map_nth_error key i names Ni) in E.
      rewrite nth_error_map in E. destruct (nth_error names j) as [m|] eqn:Nj; [|discriminate E]. cbn [option_map] in E. assert (E' : key n = key m) by congruence.
      assert (Em : forall a b x y, nth_error names a = Some x -> nth_error names b = Some y -> key x = key y -> a < b -> False).
      { intros a b x y Na Nb K Lt. assert (Z : filter (at_place names b) ds = []).
        { destruct (filter (at_place names b) ds) as [|d r] eqn:Fl; [reflexivity|]. exfalso. assert (I : In d (filter (at_place names b) ds)) by (rewrite Fl; left; reflexivity).
          apply filter_In in I as (_ & I). unfold at_place in I. destruct (place names d) as [j'|] eqn:Pl; [|discriminate I]. apply Nat.eqb_eq in I. subst j'.
          apply place_key in Pl as (y' & Ny & Ly & Fi). rewrite Nb in Ny. injection Ny as <-. specialize (Fi a x Lt Na). apply looks_key in Ly as (Hd & Ky).
          assert (looks_named x d = true) by (apply looks_key; split; [exact Hd|congruence]). congruence. }
        specialize (Pr b _ (F0 b y Nb)). rewrite Z in Pr. cbn [Load_Proofs.ds1 fst] in Pr. apply (H (LEnum y [] None)); [eapply nth_error_In; exact Pr|reflexivity]. }
      destruct (Nat.lt_trichotomy i j) as [Lt|[Eq|Gt]]; [exact (False_ind _ (Em i j n m Ni Nj E' Lt))|exact Eq|exact (False_ind _ (Em j i m n Nj Ni (eq_sym E') Gt))]. }
    eexists _, _. split; [reflexivity|]. split; [exact Nm|].
    assert (Main : errs s ++ flat_map (fun e => match l_variants e with [] => [NotFound (l_name e)] | _ :: _ => [] end) (es s) = [] <->
      (forall h, In h l -> h_from_header h = true -> h_explicit h = false) /\ NoDup (map key names) /\ forall n, In n names -> loadable any_ident (filter (looks_named n) ds)).
    { split.
      - intros H. apply app_eq_nil in H as (H1 & H2). rewrite Er in H1. destruct H1 as (H1 & H3). cbn [errs s0] in H1. rewrite not_found_eq in H2. pose proof (Some_ H2) as D.
        split; [apply Ee, H1|]. split; [exact D|]. intros n I. apply In_nth_error in I as (i & Ni). rewrite <- (place_distinct names i n ds D Ni).
        apply (ds1_exact any_ident ident (filter (at_place names i) ds) (LEnum n [] None) eq_refl (Pf i)). split; [apply H3, F0, Ni|].
        apply H2. eapply nth_error_In. apply Pr, F0, Ni.
      - intros (H1 & D & H2). assert (K : forall i n, nth_error names i = Some n -> snd (ds1 (LEnum n [] None) (filter (at_place names i) ds)) = [] /\ l_variants (fst (ds1 (LEnum n [] None) (filter (at_place names i) ds))) <> []).
        { intros i n Ni. apply (ds1_exact any_ident ident (filter (at_place names i) ds) (LEnum n [] None) eq_refl (Pf i)). rewrite (place_distinct names i n ds D Ni). apply H2. eapply nth_error_In. exact Ni. }
        assert (errs s = []) as ->. { apply Er. split; [apply Ee, H1|]. intros i e Ne. apply F1 in Ne as (n & Ni & ->). apply (K i n Ni). }
        cbn [app]. apply not_found_eq. intros e I. apply In_nth_error in I as (i & Ne).
        destruct (nth_error names i) as [n|] eqn:Ni; [|apply nth_error_None in Ni; assert (i < List.length (es s)) by (apply nth_error_Some; congruence); lia].
        rewrite (Pr i _ (F0 i n Ni)) in Ne. injection Ne as <-. apply (K i n Ni). }
    split; [exact Main|]. intros H e I. pose proof (proj1 Main H) as (_ & D & Ld). apply app_eq_nil in H as (H1 & H2). rewrite Er in H1. destruct H1 as (_ & H1). rewrite not_found_eq in H2.
    pose proof (H2 e I) as V. apply In_nth_error in I as (i & Ne).
    destruct (nth_error names i) as [n|] eqn:Ni; [|apply nth_error_None in Ni; assert (i < List.length (es s)) by (apply nth_error_Some; congruence); lia].
    rewrite (Pr i _ (F0 i n Ni)) in Ne. injection Ne as <-.
    destruct (ds1_exact any_ident ident (filter (at_place names i) ds) (LEnum n [] None) eq_refl (Pf i)) as (_ & X). specialize (X (H1 i _ (F0 i n Ni)) V) as (before & d & Eq & Tk & Nme).
    rewrite (place_distinct names i n ds D Ni) in *. cbn [l_name] in Nme. rewrite Nme.
    destruct (loadable_last _ (Ld n (nth_error_In _ _ Ni)) before d Eq) as (Df & U).
    assert (Id : In d (filter (looks_named n) ds)) by (rewrite Eq; apply in_or_app; right; left; reflexivity). apply filter_In in Id as (Id & Lk).
    exists d. split; [exact Id|]. split; [exact Lk|]. split; [exact Df|]. split; [exact Tk|]. intros d' Id' Lk' Df'. apply U; [|exact Df']. apply filter_In. auto.
  Qed.
End Whole.

(** The names on the Rust side *)
Definition numbered (ident : string -> bool) (e : lenum) : Prop := forall i v, nth_error (l_variants e) i = Some v ->
  lv_rust v = if ident (lv_cxx v) then lv_cxx v else ("__Variant" ++ decimal i)%string.
Section Numbered.
  Context (any_ident ident : string -> bool).
  Lemma push1_numbered e x d : numbered ident e -> numbered ident (push1 ident e x d).
  Proof.
    intros N i v. unfold push1. cbn [l_variants]. destruct (Nat.lt_ge_cases i (List.length (l_variants e))) as [L|L].
    - rewrite nth_error_app1 by exact L. apply N.
    - rewrite nth_error_app2 by exact L. destruct (i - List.length (l_variants e)) as [|k] eqn:K; [|destruct k; discriminate]. cbn [nth_error]. intros H. injection H as <-. cbn [lv_rust lv_cxx].
      assert (i = List.length (l_variants e)) as -> by lia. reflexivity.
  Qed.
  Lemma c1_numbered e c : numbered ident e -> numbered ident (fst (c1 any_ident ident e c)).
  Proof.
    intros N. destruct c as [x init]. unfold c1. destruct (any_ident x); [|exact N]. destruct (discriminant_value init); [apply push1_numbered, N| |apply push1_numbered, N].
    destruct (rev (l_variants e)); [apply push1_numbered, N|]. destruct (succ1 _); [apply push1_numbered, N|exact N].
  Qed.
  Lemma cs1_numbered l : forall e, numbered ident e -> numbered ident (fst (cs1 any_ident ident e l)).
  Proof.
    induction l as [|c l IH]; intros e N; [exact N|]. cbn [cs1]. pose proof (c1_numbered e c N) as N1. destruct (c1 any_ident ident e c) as [e1 er]. specialize (IH e1 N1). destruct (cs1 any_ident ident e1 l). exact IH.
  Qed.
  Lemma d1_numbered e d : numbered ident e -> numbered ident (fst (d1 any_ident ident e d)).
  Proof.
    intros N. unfold d1. destruct (l_variants e) as [|v vs] eqn:V; [|exact N]. destruct (d_fixed d) as [q|]; [|exact N].
    match goal with |- context [cs1 _ _ ?a ?b] => pose proof (cs1_numbered b a) as H; destruct (cs1 any_ident ident a b) as [e' er] end. cbn [fst]. apply H. intros [|i]; discriminate.
  Qed.
  Lemma fold_numbered ds : forall s, Forall (numbered ident) (es s) -> Forall (numbered ident) (es (fold_left (hstep any_ident ident) ds s)).
  Proof.
    induction ds as [|d ds IH]; intros s F; [exact F|]. cbn [fold_left]. apply IH. unfold hstep. destruct (place _ d) as [i|]; [|exact F]. destruct (nth_error (es s) i) as [e|] eqn:Ne; [|exact F]. cbn [es].
    apply put_Forall; [exact F|]. apply d1_numbered. rewrite Forall_forall in F. apply F. eapply nth_error_In. exact Ne.
  Qed.
End Numbered.

(** Reading the variants of the enums with #![variants_from_header] from a dump of the headers never panics.  It succeeds
    exactly if no such enum has variants of its own, no two of them have the same C++ name, and for each the header has
    something to offer ([loadable]) among the declarations of that name; then each gets the underlying type, the
    enumerators and the values of the one declaration that has enumerators. *)
Theorem C98_exact : forall any_ident ident root l, sane root ->
  exists errs es, load any_ident ident (Tree root) l = Ok (errs, es) /\ map l_name es = wanted l /\
    (errs = [] <-> (forall h, In h l -> h_from_header h = true -> h_explicit h = false) /\ NoDup (map (fun n => (p_ns n, p_cxx n)) (wanted l)) /\
                   forall n, In n (wanted l) -> loadable any_ident (filter (looks_named n) (decls [] root))) /\
    (errs = [] -> forall e, In e es -> exists d, In d (decls [] root) /\ looks_named (l_name e) d = true /\ defines d /\ taken_from d e /\
        forall d', In d' (decls [] root) -> looks_named (l_name e) d' = true -> defines d' -> d' = d).
Proof. exact exact. Qed.
Print Assumptions C98_exact.

(** Without a dump there is an error as soon as some enum needs it, and none otherwise. *)
Theorem C98_dump : forall any_ident ident d l errs es, d = Unset \/ d = Broken -> load any_ident ident d l = Ok (errs, es) ->
  (errs = [] <-> (forall h, In h l -> h_from_header h = false)).
Proof.
  intros any_ident ident d l errs es D H. assert (W : (forall h, In h l -> h_from_header h = false) <-> (forall h, In h l -> h_from_header h = true -> h_explicit h = false) /\ wanted l = []).
  { unfold wanted. split.
    - intros F. split; [intros h I T; rewrite (F h I) in T; discriminate T|]. induction l as [|h l IH]; [reflexivity|]. cbn [filter]. rewrite (F h (or_introl eq_refl)). cbn [andb]. apply IH.
      + cbn [load flat_map] in H. unfold load in H. cbn [flat_map] in H. rewrite (F h (or_introl eq_refl)) in H. cbn [andb app] in H. exact H.
      + intros h' I. apply F. right. exact I.
    - intros (E & N) h I. destruct (h_from_header h) eqn:T; [|reflexivity]. exfalso. apply map_eq_nil in N.
      assert (J : In h (filter (fun h => h_from_header h && negb (h_explicit h)) l)) by (apply filter_In; rewrite T, (E h I T); auto). rewrite N in J. exact J. }
  rewrite W. clear W. unfold load in H. rewrite chosen_eq in H. rewrite <- early_eq. set (early := flat_map _ l) in *. destruct (wanted l) as [|n r].
  - cbn [map] in H. injection H as <- _. tauto.
  - cbn [map] in H. destruct D as [-> | ->]; injection H as <- _; (split; [intros Z; destruct early; discriminate Z|intros (_ & Z); discriminate Z]).
Qed.
Print Assumptions C98_dump.

(** If classes and functions hide no enum of the name, the variants are those of the enum that has the qualified name in C++. *)
Theorem C98_qualified_partial : forall any_ident ident root l es, sane root -> load any_ident ident (Tree root) l = Ok ([], es) ->
  (forall n d, In n (wanted l) -> In d (decls [] root) -> looks_named n d = true -> ~ In Local (d_path d)) ->
  forall e, In e es -> exists d, In d (decls [] root) /\ named (l_name e) d /\ defines d /\ taken_from d e /\
    forall d', In d' (decls [] root) -> named (l_name e) d' -> defines d' -> d' = d.
Proof.
  intros any_ident ident root l es Sa H L e I. destruct (exact any_ident ident root l Sa) as (er & es' & E & Nm & _ & X). rewrite H in E. injection E as <- <-.
  specialize (X eq_refl e I) as (d & Id & Lk & Df & Tk & U). assert (In (l_name e) (wanted l)) as W by (rewrite <- Nm; apply in_map, I).
  assert (Nd : forall p names, existsb (fun s => match s with Anonymous => true | _ => false end) p = false -> namespaces p = names -> ~ In Local p -> p = map Namespace names).
  { induction p as [|s p IH]; intros names Hx <- Lo; [reflexivity|]. cbn [existsb] in Hx. apply orb_false_iff in Hx as (H1 & H2). destruct s; [|discriminate H1|exfalso; apply Lo; left; reflexivity].
    cbn [namespaces flat_map app map]. f_equal. apply IH; [exact H2|reflexivity|]. intros J. apply Lo. right. exact J. }
  assert (Nh : forall names, existsb (fun s => match s with Anonymous => true | _ => false end) (map Namespace names) = false /\ namespaces (map Namespace names) = names).
  { induction names as [|x names IH]; [auto|]. cbn [map existsb namespaces flat_map app]. destruct IH as (-> & Hn). split; [reflexivity|]. f_equal. exact Hn. }
  exists d. split; [exact Id|]. split.
  { pose proof (L _ d W Id Lk) as Lo. apply looks_key in Lk as (Hd & K). unfold key in K. injection K as K1 K2. split; [|congruence]. apply Nd; [exact Hd|congruence|exact Lo]. }
  split; [exact Df|]. split; [exact Tk|]. intros d' Id' (N1 & N2) Df'. apply U; [exact Id'| |exact Df']. apply looks_key. destruct (Nh (p_ns (l_name e))) as (A & B). unfold hidden, key. rewrite N1, A, B, N2. auto.
Qed.
Print Assumptions C98_qualified_partial.

(** The Rust name of a variant is the C++ one unless that is a keyword; the names are distinct unless a C++ enumerator has
    one of the names that stand in for keywords. *)
Theorem C98_names_partial : forall any_ident ident root l errs es, sane root -> load any_ident ident (Tree root) l = Ok (errs, es) ->
  forall e, In e es ->
    (forall v, In v (l_variants e) -> ident (lv_cxx v) = true -> lv_rust v = lv_cxx v) /\
    (NoDup (map lv_cxx (l_variants e)) -> (forall v i, In v (l_variants e) -> lv_cxx v <> ("__Variant" ++ decimal i)%string) -> NoDup (map lv_rust (l_variants e))).
Proof.
  intros any_ident ident root l errs es Sa H e I. assert (N : numbered ident e).
  { unfold load in H. rewrite chosen_eq in H. destruct (wanted l) as [|n0 names0] eqn:W; [cbn [map] in H; injection H as _ <-; destruct I|].
    set (names := n0 :: names0) in *. cbn [map] in H. change (LEnum n0 [] None :: map (fun n => LEnum n [] None) names0) with (map (fun n => LEnum n [] None) names) in H.
    match type of H with context [St [] ?early ?chosen] => set (s0 := St [] early chosen) in H end.
    assert (G0 : good_st s0). { unfold good_st. cbn [Load_Model.es s0]. apply Forall_forall. intros x J. apply in_map_iff in J as (n & <- & _). constructor. }
    rewrite (traverse_ok any_ident ident root [] s0 Sa G0 eq_refl eq_refl) in H. cbn [bind] in H. injection H as _ <-.
    assert (F : Forall (numbered ident) (Load_Model.es s0)). { cbn [Load_Model.es s0]. apply Forall_forall. intros x J. apply in_map_iff in J as (n & <- & _). intros [|i]; discriminate. }
    pose proof (fold_numbered any_ident ident (decls [] root) s0 F) as F'. rewrite Forall_forall in F'. exact (F' e I). }
  split.
  - intros v J T. apply In_nth_error in J as (i & Ni). rewrite (N i v Ni), T. reflexivity.
  - intros D Z. apply NoDup_nth_error. intros i j L E. rewrite map_length in L. rewrite !nth_error_map in E.
    destruct (nth_error (l_variants e) i) as [v|] eqn:Vi; [|apply nth_error_None in Vi; lia]. destruct (nth_error (l_variants e) j) as [w|] eqn:Vj; [|discriminate E].
    cbn [option_map] in E. assert (E' : lv_rust v = lv_rust w) by congruence. rewrite (N i v Vi), (N j w Vj) in E'.
    destruct (ident (lv_cxx v)), (ident (lv_cxx w)).
    + apply (proj1 (NoDup_nth_error _) D); [rewrite map_length; exact L|]. rewrite !nth_error_map, Vi, Vj. cbn [option_map]. congruence.
    + exfalso. exact (Z v j (nth_error_In _ _ Vi) E').
    + exfalso. exact (Z w i (nth_error_In _ _ Vj) (eq_sym E')).
    + apply arg_name_inj. unfold arg_name. cbn [append] in E' |- *. injection E' as E'. rewrite E'. reflexivity.
Qed.
Print Assumptions C98_names_partial.

(** * A header *)
Definition constant (x : string) (v : option string) : node := Node (EnumConstantDecl x) (match v with Some v => [Node ImplicitCastExpr [Node (ConstantExpr v) []]] | None => [] end).
Definition suit : node := Node (EnumDecl (Some "Suit") (Some (Qual "uint8_t" (Some "unsigned char")))) [constant "clubs" (Some "5"); constant "type" None; Node (Unknown Other) []; constant "hearts" (Some "-3"); constant "spades" None].
Definition forward : node := Node (EnumDecl (Some "Suit") (Some (Qual "unsigned char" None))) [].
Definition wrap (l : list node) : node := Node (Unknown Other) [Node (Unknown Other) []; Node (NamespaceDecl (Some "app")) l; Node (NamespaceDecl None) [suit]].
Definition header : node := wrap [forward; Node (Unknown Linkage) [suit]; Node (NamespaceDecl (Some "inner")) [suit]].
Definition asked : list henum := [HEnum (Pair ["app"] "Suit" "Suit") true false; HEnum (Pair [] "Other" "Other") false true].
Definition not_keyword (x : string) : bool := negb (String.eqb x "type").
Definition any_name (x : string) : bool := true.

Lemma plain_const z : plain (Node ImplicitCastExpr [Node (ConstantExpr (text_of z)) []]).
Proof. constructor; [exact I|exact I|]. constructor; [|constructor]. constructor; [exact I|exists z; reflexivity|constructor]. Qed.
Lemma plain_other : plain (Node (Unknown Other) []).
Proof. constructor; [exact I|exact I|constructor]. Qed.
Lemma plain_nil : Forall plain [].
Proof. constructor. Qed.
Ltac enumerator := right; eexists _, _; split; [reflexivity|first [exact plain_nil | constructor; [|exact plain_nil]; first [exact plain_other | exact (plain_const 5) | exact (plain_const (-3))]]].
Ltac enumerators := repeat apply Forall_cons; try apply Forall_nil; first [left; exact plain_other | enumerator].
Lemma suit_sane : sane suit.
Proof. apply sa_enum. enumerators. Qed.
Lemma forward_sane : sane forward.
Proof. apply sa_enum. constructor. Qed.
Ltac sanes := repeat first [exact suit_sane | exact forward_sane | assumption | apply Forall_nil | apply Forall_cons | apply sa_namespace | apply sa_unknown].
Lemma wrap_sane l : Forall sane l -> sane (wrap l).
Proof. intros H. unfold wrap. sanes. Qed.

Example C98_nonvacuous : sane header /\ load any_name not_keyword (Tree header) asked =
    Ok ([], [LEnum (Pair ["app"] "Suit" "Suit")
               [LVariant "clubs" "clubs" (Disc Positive 5); LVariant "type" "__Variant1" (Disc Positive 6); LVariant "hearts" "hearts" (Disc Negative 3); LVariant "spades" "spades" (Disc Negative 2)]
               (Some "c_uchar")]) /\
  (forall n d, In n (wanted asked) -> In d (decls [] header) -> looks_named n d = true -> ~ In Local (d_path d)) /\
  load any_name not_keyword Unset asked = Ok ([NoPath], [LEnum (Pair ["app"] "Suit" "Suit") [] None]).
Proof.
  split; [|split; [vm_compute; reflexivity|split; [|reflexivity]]].
  - apply wrap_sane. sanes.
  - intros n d I J _ L. revert d J L. cut (Forall (fun d => ~ In Local (d_path d)) (decls [] header)); [intros F d J; rewrite Forall_forall in F; exact (F d J)|].
    cbn. repeat constructor; cbn [d_path In]; intuition discriminate.
Qed.

(** * What is not so *)
(** An enum in a class is taken for one of the namespace around the class. *)
Theorem C98_class_refuted : exists any_ident ident root l es, sane root /\ load any_ident ident (Tree root) l = Ok ([], es) /\
  exists e, In e es /\ l_variants e <> [] /\ ~ (exists d, In d (decls [] root) /\ named (l_name e) d).
Proof.
  exists any_name, not_keyword, (wrap [Node (Unknown Record_) [suit]]), asked. eexists. split; [apply wrap_sane; sanes|]. split; [vm_compute; reflexivity|].
  eexists. split; [left; reflexivity|]. split; [discriminate|]. intros (d & I & P & _). cbn in I, P. destruct I as [<-|[<-|[]]]; discriminate P.
Qed.
Print Assumptions C98_class_refuted.

(** A header that C++ accepts, with one definition of the enum, is rejected if a class has an enum of the same name ... *)
Definition unique_definition (n : pair_name) (root : node) : Prop :=
  exists d vs t, In d (decls [] root) /\ named n d /\ defines d /\ (forall d', In d' (decls [] root) -> named n d' -> defines d' -> d' = d) /\
    based_on d t /\ enumerators None (constants (d_inner d)) vs /\ forall x z, In (x, z) vs -> (- 2 ^ 64 < z < 2 ^ 64)%Z.
Definition suit_decl (p : list scope) : decl := Decl p "Suit" (Some (Qual "uint8_t" (Some "unsigned char"))) [constant "clubs" (Some "5"); constant "type" None; Node (Unknown Other) []; constant "hearts" (Some "-3"); constant "spades" None].
Lemma suit_unique root : sane root -> In (suit_decl [Namespace "app"]) (decls [] root) ->
  (forall d', In d' (decls [] root) -> named (Pair ["app"] "Suit" "Suit") d' -> defines d' -> d' = suit_decl [Namespace "app"]) -> unique_definition (Pair ["app"] "Suit" "Suit") root.
Proof.
  intros _ I U. exists (suit_decl [Namespace "app"]), [("clubs", 5%Z); ("type", 6%Z); ("hearts", (-3)%Z); ("spades", (-2)%Z)], CUChar.
  split; [exact I|]. split; [split; reflexivity|]. split; [discriminate|]. split; [exact U|]. split; [eexists; split; [reflexivity|left; reflexivity]|]. split.
  - cbn. apply (en_given _ "clubs" _ 5); [apply gi_cast; exact (gi_value 5 [])|]. apply (en_next (Some 5%Z) "type"). apply (en_given _ "hearts" _ (-3)); [apply gi_cast; exact (gi_value (-3) [])|].
    apply (en_next (Some (-3)%Z) "spades"). constructor.
  - intros x z J. cbn [In] in J. destruct J as [J|[J|[J|[J|[]]]]]; injection J as <- <-; lia.
Qed.
Theorem C98_hidden_refuted : exists any_ident ident root l errs es, sane root /\ (forall x, any_ident x = true) /\
  (forall n, In n (wanted l) -> unique_definition n root) /\ load any_ident ident (Tree root) l = Ok (errs, es) /\ errs <> [].
Proof.
  set (root := wrap [Node (Unknown Record_) [suit]; suit]). assert (S : sane root) by (apply wrap_sane; sanes).
  exists any_name, not_keyword, root, asked. eexists _, _. split; [exact S|]. split; [reflexivity|]. split.
  - intros n [<-|[]]. apply suit_unique; [exact S|cbn; auto|]. intros d' J (P & _) _. cbn in J, P. destruct J as [<-|[<-|[<-|[]]]]; (discriminate P || reflexivity).
  - split; [vm_compute; reflexivity|discriminate].
Qed.
Print Assumptions C98_hidden_refuted.
(** ... or if the enum is declared again after its definition, which no class is needed for. *)
Theorem C98_redeclared_refuted : exists any_ident ident root l errs es, sane root /\ (forall x, any_ident x = true) /\
  (forall n, In n (wanted l) -> unique_definition n root) /\ (forall d, In d (decls [] root) -> ~ In Local (d_path d)) /\
  load any_ident ident (Tree root) l = Ok (errs, es) /\ errs <> [].
Proof.
  set (root := wrap [suit; forward]). assert (S : sane root) by (apply wrap_sane; sanes).
  exists any_name, not_keyword, root, asked. eexists _, _. split; [exact S|]. split; [reflexivity|]. split; [|split].
  - intros n [<-|[]]. apply suit_unique; [exact S|cbn; auto|]. intros d' J (P & _) D. cbn in J, P. destruct J as [<-|[<-|[<-|[]]]]; [reflexivity|elim D; reflexivity|discriminate P].
  - intros d J. cbn in J. destruct J as [<-|[<-|[<-|[]]]]; cbn; intuition discriminate.
  - split; [vm_compute; reflexivity|discriminate].
Qed.
Print Assumptions C98_redeclared_refuted.
(** A comment on an enumerator that has no value of its own makes loading fail. *)
Definition uncommented (c : node) : node :=
  match c with Node (EnumConstantDecl x) init => Node (EnumConstantDecl x) (filter (fun n => match n with Node (Unknown Other) [] => false | _ => true end) init) | _ => c end.
Theorem C98_comment_refuted : exists any_ident ident x fixed inner l errs es es',
  let root inner := Node (Unknown Other) [Node (EnumDecl (Some x) fixed) inner] in
  sane (root inner) /\ load any_ident ident (Tree (root (map uncommented inner))) l = Ok ([], es') /\ load any_ident ident (Tree (root inner)) l = Ok (errs, es) /\ errs <> [].
Proof.
  exists any_name, not_keyword, "Suit", (Some (Qual "int" None)), [Node (EnumConstantDecl "clubs") [Node (Unknown Other) []]], [HEnum (Pair [] "Suit" "Suit") true false]. eexists _, _, _. cbv zeta.
  split; [apply sa_unknown, Forall_cons; [|constructor]; apply sa_enum; enumerators|]. split; [vm_compute; reflexivity|]. split; [vm_compute; reflexivity|discriminate].
Qed.
Print Assumptions C98_comment_refuted.
(** Two variants get the same Rust name if a C++ enumerator has the name that stands in for a keyword. *)
Theorem C98_names_refuted : exists any_ident ident root l es e, sane root /\ load any_ident ident (Tree root) l = Ok ([], es) /\ In e es /\
  NoDup (map lv_cxx (l_variants e)) /\ ~ NoDup (map lv_rust (l_variants e)).
Proof.
  exists any_name, not_keyword, (Node (Unknown Other) [Node (EnumDecl (Some "Suit") (Some (Qual "int" None))) [constant "__Variant1" None; constant "type" None]]), [HEnum (Pair [] "Suit" "Suit") true false].
  eexists _, _. split; [apply sa_unknown, Forall_cons; [|constructor]; apply sa_enum; enumerators|]. split; [vm_compute; reflexivity|]. split; [left; reflexivity|]. cbn. split.
  - repeat constructor; cbn; intuition discriminate.
  - intros D. inversion D as [|? ? X]. apply X. left. reflexivity.
Qed.
Print Assumptions C98_names_refuted.
