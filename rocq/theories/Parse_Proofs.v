From Verif Require Import Base Syntax_Model Cfg_Model Cfg_Spec Discriminant_Model Names_Model Check_Model Check_Spec Check_Proofs Check_Props ParseTy_Model
  Attrs_Model Attrs_Spec Attrs_Proofs Parse_Model Parse_Spec.

Lemma bindR_ok {A B} (r : res (A * list string)) (f : A -> res (B * list string)) b :
  bindR r f = Ok (b, []) <-> exists a, r = Ok (a, []) /\ f a = Ok (b, []).
Proof.
  unfold bindR. split.
  - destruct r as [[a es]|m|m]; try discriminate. destruct (f a) as [[b' es']|m|m] eqn:F; try discriminate.
    intros E. injection E as -> E. apply app_eq_nil in E as [-> ->]. exists a. auto.
  - intros (a & -> & ->). reflexivity.
Qed.
Lemma ret_ok {A} (a b : A) : ret a = Ok (b, []) <-> a = b.
Proof. unfold ret. split; [congruence|intros ->; reflexivity]. Qed.
Lemma report_if_ok b e u : report_if b e = Ok (u, []) <-> b = false.
Proof. destruct b; cbn; split; try discriminate; auto. intros _. destruct u. reflexivity. Qed.
Lemma bindR_inv {A B} (r : res (A * list string)) (f : A -> res (B * list string)) b :
  bindR r f = Ok (b, []) -> exists a, r = Ok (a, []) /\ f a = Ok (b, []).
Proof. apply bindR_ok. Qed.
Lemma ret_inv {A} (a b : A) : ret a = Ok (b, []) -> a = b.
Proof. apply ret_ok. Qed.
Lemma report_if_inv b e u : report_if b e = Ok (u, []) -> b = false.
Proof. apply report_if_ok. Qed.
Lemma fail_inv {A} e (o : option A) : fail e = Ok (o, []) -> False.
Proof. discriminate. Qed.
Lemma mapR_ok {A B} (f : A -> res (B * list string)) l : forall bs, mapR f l = Ok (bs, []) <-> Forall2 (fun a b => f a = Ok (b, [])) l bs.
Proof.
  induction l as [|a l IH]; intros bs; cbn.
  - rewrite ret_ok. split; [intros <-; constructor|intros F; inversion F; reflexivity].
  - rewrite bindR_ok. split.
    + intros (b & E & E2). apply bindR_ok in E2 as (bs' & E2 & E3). apply ret_inv in E3; subst bs. constructor; [auto|apply IH; auto].
    + intros F. inversion F as [|? b ? bs' E F']; subst. exists b. split; [auto|]. apply bindR_ok. exists bs'. split; [apply IH; auto|reflexivity].
Qed.
Lemma try_ok {A B} (r : res A) (f : A -> res (option B * list string)) o :
  try r f = Ok (o, []) <-> exists a, r = Ok a /\ f a = Ok (o, []).
Proof.
  destruct r; cbn; split; try discriminate; try (intros (x & ? & ?); discriminate).
  - eauto.
  - intros (x & E & F). injection E as ->. exact F.
Qed.
Lemma bind_ok {A B} (r : res A) (f : A -> res B) b : bind r f = Ok b <-> exists a, r = Ok a /\ f a = Ok b.
Proof.
  destruct r; cbn; split; try discriminate; try (intros (x & ? & ?); discriminate).
  - eauto.
  - intros (x & E & F). injection E as ->. exact F.
Qed.
Lemma try_inv {A B} (r : res A) (f : A -> res (option B * list string)) o :
  try r f = Ok (o, []) -> exists a, r = Ok a /\ f a = Ok (o, []).
Proof. apply try_ok. Qed.
Lemma somes_map {A} (l : list A) : somes (map Some l) = l.
Proof. induction l; cbn; congruence. Qed.

Section Proofs.
  Variable lex : string -> option (list tok).
  Variable keyword : string -> bool.
  Variables experimental async_fn : bool.
  Hypothesis keyword_sep : keyword "::" = false.

  Notation attributes := (attributes lex keyword experimental).
  Notation attributes_mean := (attributes_mean lex keyword experimental).

  (** a parser with the slots of the place *)
  Definition fits_place (pl : place) (p : parser) : Prop := ps_ignore p = false /\ forall e, allowed p e <-> possible pl e = true.

  Lemma attributes_ok pl p attrs p' pass : fits_place pl p ->
    (attributes p attrs = Ok ((p', pass), []) <->
     exists effs, attributes_mean pl attrs effs /\ p' = Attrs_Proofs.final p effs /\ pass = kept (combine attrs effs)).
  Proof.
    intros [G P]. unfold Parse_Model.attributes. split.
    - destruct (attrs_parse lex keyword experimental p attrs) as [[q ps] es] eqn:E. intros H. injection H as -> -> ->.
      destruct (parse_sound _ _ _ keyword_sep _ _ _ _ G E) as (effs & F & A).
      rewrite (parse_complete _ _ _ keyword_sep _ _ F _ A) in E. injection E as <- <-.
      exists effs. split; [|auto]. split; [exact F|]. eapply Forall_impl; [|exact A]. intros e. apply P.
    - intros (effs & [F A] & -> & ->).
      rewrite (parse_complete _ _ _ keyword_sep _ _ F p); [reflexivity|]. eapply Forall_impl; [|exact A]. intros e. apply P.
  Qed.

  Lemma foreign_name_ok i x : foreign_name lex keyword i = Ok x <-> identifier lex keyword i x.
  Proof. apply foreign_name_spec. Qed.
  Lemma pair_ok ns i effs p n : ps_cxx_name p = Some (last (cxx_names effs) None) -> ps_rust_name p = Some (last (rust_names effs) None) ->
    pair lex keyword (last (namespaces effs) ns) i p = Ok (n, []) <-> name_is lex keyword ns i effs n.
  Proof.
    intros C Ru. unfold pair, name_is. rewrite C, Ru. cbv zeta.
    set (rust := match last (rust_names effs) None with Some x => x | None => i end). clearbody rust. clear C Ru.
    destruct (last (cxx_names effs) None) as [x|].
    - rewrite ret_ok. split; [intros <-; cbn; auto|]. intros (A & B & D). destruct n; cbn in *. congruence.
    - destruct (foreign_name lex keyword i) as [x|m|m] eqn:F.
      + apply foreign_name_ok in F as F'. rewrite ret_ok. split; [intros <-; cbn; auto|].
        intros (A & B & D). apply foreign_name_ok in B. destruct n; cbn in *. congruence.
      + split; [discriminate|]. intros (A & B & D). apply foreign_name_ok in B. congruence.
      + split; [discriminate|]. intros (A & B & D). apply foreign_name_ok in B. congruence.
  Qed.
  (** and whether there is a name does not depend on the rest *)
  Notation final := Attrs_Proofs.final (only parsing).
  Lemma final_cfg p e effs c : ps_cfg p = Some e -> holds c (cfg_of (final p effs)) = (holds c e && forallb (holds c) (cfgs effs))%bool.
  Proof.
    intros E. destruct (final_outcome effs p) as (_ & _ & _ & _ & _ & _ & _ & H). rewrite E in H. unfold cfg_of.
    destruct (ps_cfg (final p effs)); [apply H|contradiction].
  Qed.
  Lemma final_extra p effs pass : ps_doc p = Some ([], false) -> extra_of (final p effs) pass = Extra (docs effs, hidden effs) pass.
  Proof. intros E. destruct (final_outcome effs p) as (H & _). rewrite E in H. unfold extra_of. rewrite H. reflexivity. Qed.
  Lemma final_derived p effs : ps_derives p = Some [] -> derived (final p effs) = derives effs.
  Proof. intros E. destruct (final_outcome effs p) as (_ & H & _). rewrite E in H. unfold derived. rewrite H. reflexivity. Qed.
  Lemma final_namespace p ns effs : ps_namespace p = Some ns -> namespace_of (final p effs) = last (namespaces effs) ns.
  Proof. intros E. destruct (final_outcome effs p) as (_ & _ & _ & H & _). rewrite E in H. unfold namespace_of. rewrite H. reflexivity. Qed.
  Lemma final_cxx p effs : ps_cxx_name p = Some None -> ps_cxx_name (final p effs) = Some (last (cxx_names effs) None).
  Proof. intros E. destruct (final_outcome effs p) as (_ & _ & _ & _ & H & _). rewrite E in H. exact H. Qed.
  Lemma final_rust p effs : ps_rust_name p = Some None -> ps_rust_name (final p effs) = Some (last (rust_names effs) None).
  Proof. intros E. destruct (final_outcome effs p) as (_ & _ & _ & _ & _ & H & _). rewrite E in H. exact H. Qed.
  Lemma final_repr p effs : ps_repr p = Some None -> ps_repr (final p effs) = Some (last (reprs effs) None).
  Proof. intros E. destruct (final_outcome effs p) as (_ & _ & H & _). rewrite E in H. exact H. Qed.
  Lemma final_header p effs : ps_header p = Some false -> ps_header (final p effs) = Some (header effs).
  Proof. intros E. destruct (final_outcome effs p) as (_ & _ & _ & _ & _ & _ & H & _). rewrite E in H. exact H. Qed.

  Ltac place := split; [reflexivity|]; intros []; cbn; split; intros ?; try reflexivity; try discriminate; try exact I; congruence.
  Lemma place_field : fits_place PMember field_parser. Proof. place. Qed.
  Lemma place_struct ns : fits_place PStruct (struct_parser ns). Proof. place. Qed.
  Lemma place_enum ns : fits_place PEnum (enum_parser ns). Proof. place. Qed.
  Lemma place_type cfg ns : fits_place PType (item_parser cfg ns true). Proof. place. Qed.
  Lemma place_fn cfg ns : fits_place PFn (item_parser cfg ns false). Proof. place. Qed.
  Lemma place_block ns : fits_place PBlock (block_parser ns). Proof. place. Qed.
  Lemma place_impl : fits_place PImpl impl_parser. Proof. place. Qed.

  Lemma no_namespace attrs effs : attributes_mean PMember attrs effs -> namespaces effs = [].
  Proof. intros [_ F]. induction F as [|e effs P F IH]; [reflexivity|]. destruct e; try discriminate; exact IH. Qed.
  Lemma holds_unconditional c b : (holds c CUnconditional && b)%bool = b. Proof. reflexivity. Qed.

  (** * Generics *)
  Lemma lifetimes_ok l lts : lifetimes false l = (lts, []) <-> lifetimes_only l lts.
  Proof.
    unfold lifetimes_only. revert lts. induction l as [|g l IH]; intros lts; cbn.
    - split; [intros E; injection E as <-; reflexivity|]. destruct lts; [reflexivity|discriminate].
    - destruct g as [x b| |].
      + cbn. destruct b; cbn.
        * destruct (lifetimes true l). split; [discriminate|]. destruct lts; discriminate.
        * destruct (lifetimes false l) as [ls es]. split.
          -- intros E. injection E as <- ->. cbn. f_equal. apply IH. reflexivity.
          -- destruct lts as [|y lts]; [discriminate|]. cbn. intros E. injection E as <- E. apply IH in E. injection E as -> ->. reflexivity.
      + destruct (lifetimes true l). split; [discriminate|]. destruct lts; discriminate.
      + destruct (lifetimes true l). split; [discriminate|]. destruct lts; discriminate.
  Qed.
  Lemma impl_lts_ok l lts : impl_lts l = Ok lts <-> lifetimes_only l lts.
  Proof.
    unfold lifetimes_only. revert lts. induction l as [|g l IH]; intros lts; cbn.
    - split; [intros E; injection E as <-; reflexivity|]. destruct lts; [reflexivity|discriminate].
    - destruct g as [x [|]| |].
      + split; [discriminate|]. destruct lts; discriminate.
      + rewrite bind_ok. split.
        * intros (ls & E & F). injection F as <-. cbn. f_equal. apply IH. exact E.
        * destruct lts as [|y lts]; [discriminate|]. cbn. intros E. injection E as <- E. apply IH in E. eauto.
      + split; [discriminate|]. destruct lts; discriminate.
      + split; [discriminate|]. destruct lts; discriminate.
  Qed.
  Lemma fn_generics_ok l lts :
    (existsb (fun g => match g with GLt _ bounds => bounds | GTy | GConst => true end) l = false /\ lts = fn_lts l) <-> lifetimes_only l lts.
  Proof.
    unfold lifetimes_only. revert lts. induction l as [|g l IH]; intros lts; cbn.
    - split; [intros (_ & ->); reflexivity|]. destruct lts; [auto|discriminate].
    - destruct g as [x [|]| |]; cbn; try (split; [intros (? & _); discriminate|destruct lts; discriminate]).
      split.
      + intros (E & ->). cbn. f_equal. apply IH. split; auto.
      + destruct lts as [|y lts]; [discriminate|]. cbn. intros E. injection E as <- E. apply IH in E as [E1 E2]. split; [exact E1|rewrite E2; reflexivity].
  Qed.

  Ltac inv_R :=
    repeat match goal with
    | H : bindR _ _ = Ok (_, []) |- _ => apply bindR_inv in H; let x := fresh "x" in let E := fresh "E" in destruct H as (x & E & H)
    | H : try _ _ = Ok (_, []) |- _ => apply try_inv in H; let x := fresh "x" in let E := fresh "E" in destruct H as (x & E & H)
    | H : ret _ = Ok (_, []) |- _ => apply ret_inv in H
    | H : report_if _ _ = Ok (_, []) |- _ => apply report_if_inv in H
    | H : fail _ = Ok (_, []) |- _ => apply fail_inv in H; contradiction
    end.

  Lemma names_ok p ns attrs effs i n pl : attributes_mean pl attrs effs -> ps_cxx_name p = Some None -> ps_rust_name p = Some None -> ps_namespace p = Some ns ->
    pair lex keyword (namespace_of (final p effs)) i (final p effs) = Ok (n, []) <-> name_is lex keyword ns i effs n.
  Proof. intros _ A B C. rewrite (final_namespace _ _ _ C). apply pair_ok; [apply final_cxx|apply final_rust]; auto. Qed.
  Lemma member_names_ok attrs effs i n : attributes_mean PMember attrs effs ->
    pair lex keyword [] i (final field_parser effs) = Ok (n, []) <-> name_is lex keyword [] i effs n.
  Proof.
    intros A. rewrite <- (pair_ok [] i effs (final field_parser effs)) by (first [apply final_cxx|apply final_rust]; reflexivity).
    rewrite (no_namespace _ _ A). reflexivity.
  Qed.

  (** * Structs *)
  Lemma field_sound f o : parse_field lex keyword experimental f = Ok (o, []) ->
    exists v x, o = Some (v, x) /\ field_is lex keyword experimental f v x.
  Proof.
    unfold parse_field. intros H. inv_R. destruct x as [p pass]. apply (attributes_ok PMember) in E; [|apply place_field].
    destruct E as (effs & A & -> & ->). inv_R. apply (member_names_ok _ _ _ _ A) in E0. subst o. eexists _, _. split; [reflexivity|].
    exists effs. cbn. repeat match goal with |- _ /\ _ => split end; auto.
    - intros c. rewrite (final_cfg _ CUnconditional) by reflexivity. apply holds_unconditional.
    - rewrite final_extra by reflexivity. split; reflexivity.
  Qed.
  Lemma field_complete f v x : field_is lex keyword experimental f v x -> exists o, parse_field lex keyword experimental f = Ok (o, []).
  Proof.
    intros (effs & A & N & C & T & X). eexists. unfold parse_field. apply bindR_ok. exists (final field_parser effs, kept (combine (sf_attrs f) effs)).
    split; [apply (attributes_ok PMember); [apply place_field|eauto]|]. apply try_ok. exists (v_ty v). split; [exact T|].
    apply bindR_ok. exists (v_name v). split; [apply (member_names_ok _ _ _ _ A); exact N|]. reflexivity.
  Qed.

  Lemma combine_split_id {A B} (l : list (A * B)) : combine (map fst l) (map snd l) = l.
  Proof. induction l as [|[a b] l IH]; cbn; congruence. Qed.
  Lemma fields_sound fields vs : Forall2 (fun f o => parse_field lex keyword experimental f = Ok (o, [])) fields vs ->
    Forall2 (fun f vx => field_is lex keyword experimental f (fst vx) (snd vx)) fields (somes vs).
  Proof.
    induction 1 as [|f o fields vs H F IH]; [constructor|]. apply field_sound in H as (v & x & -> & H). cbn. constructor; auto.
  Qed.
  Lemma fields_complete fields vs : Forall2 (fun f vx => field_is lex keyword experimental f (fst vx) (snd vx)) fields vs ->
    exists os, mapR (parse_field lex keyword experimental) fields = Ok (os, []).
  Proof.
    induction 1 as [|f [v x] fields vs H F [os IH]]; [exists []; reflexivity|]. apply field_complete in H as [o H]. exists (o :: os).
    cbn. rewrite H, IH. reflexivity.
  Qed.
  Lemma Forall2_len {A B} (P : A -> B -> Prop) l m : Forall2 P l m -> List.length m = List.length l.
  Proof. induction 1; cbn; congruence. Qed.

  Ltac splits := repeat match goal with |- _ /\ _ => split end.
  Lemma condition_of p effs : ps_cfg p = Some CUnconditional -> condition effs (cfg_of (final p effs)).
  Proof. intros E c. rewrite (final_cfg _ CUnconditional) by exact E. apply holds_unconditional. Qed.
  Lemma extra_ok p inherited attrs effs : ps_doc p = Some ([], false) -> extra_is inherited attrs effs (extra_of (final p effs) (inherited ++ kept (combine attrs effs))).
  Proof. intros E. rewrite final_extra by exact E. split; reflexivity. Qed.

  Lemma struct_sound ns s o : parse_struct lex keyword experimental ns s = Ok (o, []) ->
    exists x, o = Some x /\ struct_is lex keyword experimental ns s x.
  Proof.
    unfold parse_struct. intros H. inv_R. destruct x as [p pass]. apply (attributes_ok PStruct) in E; [|apply place_struct].
    destruct E as (effs & A & -> & ->). destruct (ss_fields s) as [fields| |] eqn:Fs; inv_R.
    injection E as E. apply lifetimes_ok in E. apply mapR_ok, fields_sound in E1.
    apply (names_ok _ ns _ _ _ _ _ A) in E2; try reflexivity. eexists. split; [symmetry; exact H|].
    exists effs, fields. eexists. splits; [exact A|exact Fs|reflexivity|..]; cbn.
    - exact E2.
    - apply condition_of. reflexivity.
    - apply final_derived. reflexivity.
    - exact E.
    - exact E0.
    - apply (extra_ok _ []). reflexivity.
    - rewrite map_length. apply (Forall2_len _ _ _ E1).
    - rewrite map_length. apply (Forall2_len _ _ _ E1).
    - rewrite combine_split_id. exact E1.
  Qed.
  Lemma struct_complete ns s o : struct_is lex keyword experimental ns s o -> exists o', parse_struct lex keyword experimental ns s = Ok (o', []).
  Proof.
    intros (effs & fields & st & A & Fs & _ & N & _ & _ & L & W & _ & _ & _ & F). apply fields_complete in F as [os F].
    eexists. unfold parse_struct. apply bindR_ok. exists (final (struct_parser ns) effs, kept (combine (ss_attrs s) effs)).
    split; [apply (attributes_ok PStruct); [apply place_struct|eauto]|]. rewrite Fs.
    apply bindR_ok. exists (st_lts st). split; [f_equal; apply lifetimes_ok; exact L|].
    apply bindR_ok. exists tt. split; [apply report_if_ok; exact W|].
    apply bindR_ok. exists os. split; [exact F|].
    apply bindR_ok. exists (st_name st). split; [apply (names_ok _ ns _ _ _ _ _ A); auto|]. reflexivity.
  Qed.

  (** * Enums *)
  Definition rv (v : svariant) : rvariant := RVariant (sv_unit v) (sv_disc v).
  Lemma variants_sound l : forall s s' vs, parse_variants lex keyword experimental s l = Ok ((s', vs), []) ->
    exists ds, variants_loop s (map rv l) = (s', ds, [], false) /\ map (fun vx => vr_disc (fst vx)) vs = map disc_Z ds /\
      Forall2 (fun v wx => variant_is lex keyword experimental v (fst wx) (snd wx)) l vs.
  Proof.
    induction l as [|v l IH]; intros s s' vs H; cbn in H.
    - inv_R. injection H as <- <-. exists []. splits; constructor.
    - inv_R. destruct x as [s1 o]. inv_R. destruct x as [s2 vs']. inv_R. apply IH in E0 as (ds & E1 & E2 & E3).
      unfold parse_variant in E. inv_R. destruct x as [p pass]. apply (attributes_ok PMember) in E0; [|apply place_field].
      destruct E0 as (effs & A & -> & ->). cbn [map variants_loop]. fold (rv v) in E.
      destruct (variant_disc s (rv v)) as [s1' [d|m|m]]; [|injection E; intros; discriminate|discriminate]. inv_R. injection E as <- <-.
      apply (member_names_ok _ _ _ _ A) in E0. injection H as <- <-. rewrite E1. exists (d :: ds). splits.
      + reflexivity.
      + cbn. congruence.
      + constructor; [|exact E3]. exists effs. cbn. splits; auto.
        * apply condition_of. reflexivity.
        * apply (extra_ok _ []). reflexivity.
  Qed.
  Lemma variants_complete l : forall s s' ds vs, variants_loop s (map rv l) = (s', ds, [], false) ->
    Forall2 (fun v wx => variant_is lex keyword experimental v (fst wx) (snd wx)) l vs ->
    exists vs', parse_variants lex keyword experimental s l = Ok ((s', vs'), []).
  Proof.
    induction l as [|v l IH]; intros s s' ds vs E F; cbn in E.
    - injection E as <- _. exists []. reflexivity.
    - destruct (variant_disc s (rv v)) as [s1 [d|m|m]] eqn:D.
      + destruct (variants_loop s1 (map rv l)) as [[[s2 ds'] es] pn] eqn:E1. injection E as <- _ -> ->.
        inversion F as [|? [w x] ? vs1 V F1]; subst. destruct V as (effs & A & N & _). cbn in N.
        destruct (IH _ _ _ _ E1 F1) as [vs' R]. eexists. cbn. apply bindR_ok. eexists (s1, Some _). split.
        * unfold parse_variant. apply bindR_ok. exists (final field_parser effs, kept (combine (sv_attrs v) effs)).
          split; [apply (attributes_ok PMember); [apply place_field|eauto]|]. fold (rv v). rewrite D.
          apply bindR_ok. exists (vr_name w). split; [apply (member_names_ok _ _ _ _ A); exact N|reflexivity].
        * cbn. rewrite R. reflexivity.
      + destruct (variants_loop s1 (map rv l)) as [[[s2 ds'] es] pn]. discriminate.
      + discriminate.
  Qed.
  Lemma enum_repr_ok repr l ds r :
    Discriminant_Model.parse_enum repr (map rv l) = Ok (ds, r) <->
    exists s, variants_loop (dset_new repr) (map rv l) = (s, ds, [], false) /\ inferred_repr s = Ok r.
  Proof.
    unfold Discriminant_Model.parse_enum. destruct (variants_loop (dset_new repr) (map rv l)) as [[[s ds'] es] p]. split.
    - destruct p; [discriminate|]. destruct (inferred_repr s) as [r'|m|m] eqn:I; try discriminate. destruct es; [|discriminate].
      intros E. injection E as <- <-. eauto.
    - intros (s' & E & I). injection E as <- <- -> ->. rewrite I. reflexivity.
  Qed.

  Lemma enum_sound ns e o : parse_enum lex keyword experimental ns e = Ok (o, []) -> enum_is lex keyword experimental ns e o.
  Proof.
    unfold parse_enum. intros H. inv_R. destruct x as [p pass]. apply (attributes_ok PEnum) in E; [|apply place_enum].
    destruct E as (effs & A & -> & ->). inv_R. destruct x0 as [s vs]. inv_R. destruct x0 as [r vs']. inv_R. subst o.
    assert (G : se_generics e = SGenerics [] false).
    { destruct (se_generics e) as [[|g l] w]; cbn in E; [|discriminate]. apply report_if_inv in E as ->. reflexivity. }
    rewrite (final_repr _ effs) in * by reflexivity.
    apply variants_sound in E0 as (ds & V1 & V2 & V3).
    destruct (inferred_repr s) as [r'|m|m] eqn:I; try discriminate. apply ret_inv in E1. injection E1 as -> ->.
    apply (names_ok _ ns _ _ _ _ _ A) in E2; try reflexivity.
    exists effs. eexists. exists ds. splits; [exact A|reflexivity|..]; cbn [o_api o_extra o_subs en_name en_cfg en_derives en_lts en_from_header en_variants en_repr en_explicit_repr].
    - exact E2.
    - apply condition_of. reflexivity.
    - apply final_derived. reflexivity.
    - exact G.
    - reflexivity.
    - rewrite final_header by reflexivity. reflexivity.
    - apply (extra_ok _ []). reflexivity.
    - rewrite map_length. apply (Forall2_len _ _ _ V3).
    - rewrite map_length. apply (Forall2_len _ _ _ V3).
    - rewrite combine_split_id. exact V3.
    - apply enum_repr_ok. eauto.
    - rewrite map_map. exact V2.
    - reflexivity.
  Qed.
  Lemma enum_complete ns e o : enum_is lex keyword experimental ns e o -> exists o', parse_enum lex keyword experimental ns e = Ok (o', []).
  Proof.
    intros (effs & en & ds & A & _ & N & _ & _ & G & _ & _ & _ & _ & _ & F & P & _).
    apply enum_repr_ok in P as (s & V & I). destruct (variants_complete _ _ _ _ _ V F) as [vs P].
    eexists. unfold parse_enum. apply bindR_ok. exists (final (enum_parser ns) effs, kept (combine (se_attrs e) effs)).
    split; [apply (attributes_ok PEnum); [apply place_enum|eauto]|]. rewrite G. cbn [g_params g_where].
    rewrite (final_repr _ effs) by reflexivity.
    apply bindR_ok. exists tt. split; [reflexivity|].
    apply bindR_ok. exists (s, vs). split; [exact P|]. rewrite I.
    apply bindR_ok. eexists (_, vs). split; [reflexivity|].
    apply bindR_ok. exists (en_name en). split; [apply (names_ok _ ns _ _ _ _ _ A); auto|]. reflexivity.
  Qed.

  (** * Extern blocks *)
  Lemma last_app {A} (l m : list A) : forall d, last (l ++ m) d = last m (last l d).
  Proof.
    induction l as [|x l IH]; intros d; [reflexivity|]. change ((x :: l) ++ m) with (x :: (l ++ m)).
    rewrite !last_cons_default. apply IH.
  Qed.
  Lemma block_no_names battrs beffs : attributes_mean PBlock battrs beffs -> cxx_names beffs = [] /\ rust_names beffs = [].
  Proof.
    intros [_ F]. induction F as [|e effs P F [IH1 IH2]]; [split; reflexivity|]. destruct e; try discriminate; split; assumption.
  Qed.
  Section Item.
    Variables (battrs : list sattr) (beffs : list effect) (ns : list string).
    Hypothesis block : attributes_mean PBlock battrs beffs.
    Let cfg := cfg_of (final (block_parser ns) beffs).
    Let inner := namespace_of (final (block_parser ns) beffs).
    Let inherited := kept (combine battrs beffs).

    Lemma name_inner i effs n : name_is lex keyword inner i effs n <-> name_is lex keyword ns i (beffs ++ effs) n.
    Proof.
      unfold name_is, inner. rewrite (final_namespace _ ns) by reflexivity.
      unfold namespaces, cxx_names, rust_names. rewrite !flat_map_app.
      destruct (block_no_names _ _ block) as [C R]. unfold cxx_names, rust_names in *. rewrite C, R, last_app. reflexivity.
    Qed.
    Lemma condition_inner d effs : condition (beffs ++ effs) (cfg_of (final (item_parser cfg inner d) effs)).
    Proof.
      intros c. rewrite (final_cfg _ cfg) by reflexivity. unfold cfg, cfgs. rewrite (final_cfg _ CUnconditional), holds_unconditional by reflexivity.
      rewrite flat_map_app, forallb_app. reflexivity.
    Qed.
    Lemma item_names d pl attrs effs i n : attributes_mean pl attrs effs ->
      pair lex keyword (namespace_of (final (item_parser cfg inner d) effs)) i (final (item_parser cfg inner d) effs) = Ok (n, []) <->
      name_is lex keyword ns i (beffs ++ effs) n.
    Proof. intros A. rewrite <- name_inner. apply (names_ok _ inner _ _ _ _ _ A); reflexivity. Qed.

    Variables (l : lang) (trusted : bool).
    Lemma type_sound attrs ident lts bounds o :
      parse_extern_type lex keyword experimental l trusted cfg inner inherited attrs ident lts bounds = Ok (o, []) ->
      forall params rbounds, lifetimes_only params lts -> Forall2 (fun b t => exists x, b = Some x /\ In (x, t) derivable) rbounds bounds ->
      type_is lex keyword experimental l trusted ns beffs inherited attrs ident params rbounds o.
    Proof.
      unfold parse_extern_type. intros H params rbounds L B. inv_R. destruct x as [p pass]. apply (attributes_ok PType) in E; [|apply place_type].
      destruct E as (effs & A & -> & ->). inv_R. subst o. apply (item_names _ _ _ _ _ _ A) in E.
      exists effs. eexists. cbn. splits; [exact A|unfold type_api; destruct l; reflexivity|..]; cbn; auto.
      - apply condition_inner.
      - apply final_derived. reflexivity.
      - apply extra_ok. reflexivity.
    Qed.
    Lemma type_complete attrs ident params rbounds o lts bounds : type_is lex keyword experimental l trusted ns beffs inherited attrs ident params rbounds o ->
      exists o', parse_extern_type lex keyword experimental l trusted cfg inner inherited attrs ident lts bounds = Ok (o', []).
    Proof.
      intros (effs & et & A & _ & N & _). eexists. unfold parse_extern_type. apply bindR_ok.
      exists (final (item_parser cfg inner true) effs, kept (combine attrs effs)).
      split; [apply (attributes_ok PType); [apply place_type|eauto]|].
      apply bindR_ok. exists (et_name et). split; [apply (item_names _ _ _ _ _ _ A); exact N|]. reflexivity.
    Qed.
    Lemma bounds_ok rb bs : parse_bounds rb = (bs, []) <-> Forall2 (fun b t => exists x, b = Some x /\ In (x, t) derivable) rb bs.
    Proof.
      revert bs. induction rb as [|b rb IH]; intros bs; cbn.
      - split; [intros E; injection E as <-; constructor|intros F; inversion F; reflexivity].
      - destruct (parse_bounds rb) as [ts es]. split.
        + destruct b as [x|]; [destruct (derive_from x) as [t|] eqn:D|]; intros E; try discriminate. injection E as <- ->.
          constructor; [exists x; split; [reflexivity|apply derive_from_spec; exact D]|apply IH; reflexivity].
        + intros F. inversion F as [|? t ? ts' (x & -> & D) F']; subst. apply derive_from_spec in D. rewrite D. apply IH in F'. injection F' as -> ->. reflexivity.
    Qed.
    Lemma alias_sound attrs ident lts o :
      parse_type_alias lex keyword experimental l cfg inner inherited attrs ident lts = Ok (o, []) ->
      forall params, lifetimes_only params lts -> l = LCxx /\ exists x, o = Some x /\ alias_is lex keyword experimental ns beffs inherited attrs ident params x.
    Proof.
      unfold parse_type_alias. intros H params L. inv_R. destruct x as [p pass]. apply (attributes_ok PType) in E; [|apply place_type].
      destruct E as (effs & A & -> & ->). destruct l; [|inv_R]. inv_R. split; [reflexivity|]. subst o. eexists. split; [reflexivity|].
      apply (item_names _ _ _ _ _ _ A) in E.
      exists effs. eexists. cbn. splits; [exact A|reflexivity|..]; cbn; auto.
      - apply condition_inner.
      - apply final_derived. reflexivity.
      - apply extra_ok. reflexivity.
    Qed.
    Lemma alias_complete attrs ident params lts o : l = LCxx -> alias_is lex keyword experimental ns beffs inherited attrs ident params o ->
      exists o', parse_type_alias lex keyword experimental l cfg inner inherited attrs ident lts = Ok (o', []).
    Proof.
      intros -> (effs & ta & A & _ & N & _). eexists. unfold parse_type_alias. apply bindR_ok.
      exists (final (item_parser cfg inner true) effs, kept (combine attrs effs)).
      split; [apply (attributes_ok PType); [apply place_type|eauto]|].
      apply bindR_ok. exists (ta_name ta). split; [apply (item_names _ _ _ _ _ _ A); exact N|]. reflexivity.
    Qed.

    Lemma receiver_ok r rc : parse_receiver r = Ok rc <-> receiver_is r rc.
    Proof.
      destruct r as [lt m|t|]; cbn.
      - split; [intros E; injection E as <-; constructor|intros F; inversion F; reflexivity].
      - rewrite bind_ok. split.
        + intros (ty & E & F). destruct ty as [| | | | | |p m lt ty| | | | | | |]; try discriminate. destruct ty; try discriminate.
          injection F as <-. constructor. exact E.
        + intros F. inversion F; subst. eexists. split; [eassumption|]. reflexivity.
      - split; [discriminate|intros F; inversion F].
    Qed.
    Lemma args_ok rs : forall i args, parse_args lex keyword i rs = Ok args <-> args_are lex keyword i rs args.
    Proof.
      induction rs as [|[at_ pat r] rs IH]; intros i args; cbn.
      - split; [intros E; injection E as <-; constructor|intros F; inversion F; reflexivity].
      - split.
        + intros H. apply bind_ok in H as (x & X & H). apply bind_ok in H as (t & T & H). apply bind_ok in H as (y & Y & H).
          apply bind_ok in H as (as' & G & H). injection H as <-. apply IH in G.
          assert (Y' : identifier lex keyword x y). { apply foreign_name_ok. destruct (foreign_name lex keyword x); congruence. }
          destruct pat as [x0| |]; try discriminate.
          * assert (x0 = x) as -> by congruence. apply args_named with (x := x); assumption.
          * assert (x = arg_name i) as -> by (injection X; intros <-; reflexivity). apply args_wild; assumption.
        + intros F. apply bind_ok. inversion F as [|? ? x ? ? y t as' I T G|? ? ? ? y t as' I T G]; subst; [exists x|exists (arg_name i)]; (split; [reflexivity|]);
            (apply bind_ok; exists t; split; [exact T|]); apply foreign_name_ok in I; rewrite I; apply IH in G;
            (apply bind_ok; exists y; split; [reflexivity|]); apply bind_ok; exists as'; split; auto.
    Qed.
    Lemma unsupported_ok f : unsupported_fn async_fn f = None <->
      (g_where (sn_generics f) = false /\ existsb (fun g => match g with GLt _ bounds => bounds | GTy | GConst => true end) (g_params (sn_generics f)) = false /\
       sn_variadic f = false /\ sn_const f = false /\ sn_abi f = false /\ (sn_async f = true -> async_fn = true)).
    Proof.
      unfold unsupported_fn. destruct (g_where (sn_generics f)), (existsb _ (g_params (sn_generics f))), (sn_variadic f), (sn_async f), async_fn, (sn_const f), (sn_abi f); cbn; intuition congruence.
    Qed.
    Lemma fn_sound f o : parse_extern_fn lex keyword experimental async_fn l trusted cfg inner inherited f = Ok (o, []) ->
      exists x, o = Some x /\ fn_is lex keyword experimental async_fn l trusted ns beffs inherited f x.
    Proof.
      unfold parse_extern_fn. intros H. inv_R. destruct x as [p pass]. apply (attributes_ok PFn) in E; [|apply place_fn].
      destruct E as (effs & A & -> & ->). destruct (unsupported_fn async_fn f) eqn:U; [inv_R|]. inv_R. destruct x1 as [throws rt]. inv_R. subst o.
      apply unsupported_ok in U as (U1 & U2 & U3 & U4 & U5 & U6). apply (item_names _ _ _ _ _ _ A) in E2. apply args_ok in E0.
      eexists. split; [reflexivity|]. exists effs. eexists. cbn. splits; [exact A|unfold fn_api; destruct l; reflexivity|..]; cbn; auto.
      - apply condition_inner.
      - apply fn_generics_ok. auto.
      - destruct (sn_receiver f) as [[ra r]|].
        + apply bind_ok in E as (rc & E & F). injection F as <-. apply receiver_ok. exact E.
        + injection E as <-. exact I.
      - apply extra_ok. reflexivity.
    Qed.
    Lemma fn_complete f o : fn_is lex keyword experimental async_fn l trusted ns beffs inherited f o ->
      exists o', parse_extern_fn lex keyword experimental async_fn l trusted cfg inner inherited f = Ok (o', []).
    Proof.
      intros (effs & ef & A & _ & N & _ & _ & _ & _ & _ & L & W & U3 & U4 & U5 & U6 & R & As & Rt & _).
      apply fn_generics_ok in L as [L1 L2].
      eexists. unfold parse_extern_fn. apply bindR_ok.
      exists (final (item_parser cfg inner false) effs, kept (combine (sn_attrs f) effs)).
      split; [apply (attributes_ok PFn); [apply place_fn|eauto]|].
      rewrite (proj2 (unsupported_ok f)) by (splits; assumption).
      apply try_ok. exists (fn_receiver ef). split.
      { destruct (sn_receiver f) as [[ra r]|], (fn_receiver ef) as [rc|]; try contradiction; [|reflexivity]. apply receiver_ok in R. rewrite R. reflexivity. }
      apply try_ok. exists (fn_args ef). split; [apply args_ok; exact As|].
      apply try_ok. eexists. split; [exact Rt|]. cbn beta iota.
      apply bindR_ok. exists (fn_name ef). split; [apply (item_names _ _ _ _ _ _ A); exact N|]. reflexivity.
    Qed.

    Lemma concat_cons s r : String.concat "" (s :: r) = (s ++ String.concat "" r)%string.
    Proof. destruct r; cbn; [|reflexivity]. induction s; cbn; congruence. Qed.
    Lemma include_path_ok toks s rest : include_path toks = Ok (s, rest) <->
      exists body texts, toks = body ++ ITPunct ">" :: rest /\ Forall2 path_tok body texts /\ s = String.concat "" texts.
    Proof.
      revert s. induction toks as [|t toks IH]; intros s.
      - cbn. split; [discriminate|]. intros ([|] & ? & ? & _); discriminate.
      - assert (ST : forall x (P : path_tok t x), bind (include_path toks) (fun '(s, rest) => Ok ((x ++ s)%string, rest)) = Ok (s, rest) <->
            exists body texts, t :: toks = body ++ ITPunct ">" :: rest /\ Forall2 path_tok body texts /\ s = String.concat "" texts).
        { intros x P. rewrite bind_ok. split.
          - intros ([s' r'] & E & F). injection F as <- ->. apply IH in E as (body & texts & -> & F & ->).
            exists (t :: body), (x :: texts). splits; [reflexivity|constructor; auto|symmetry; apply concat_cons].
          - intros (body & texts & E & F & ->). destruct body as [|b body].
            { injection E as -> ->. exfalso. inversion P. congruence. }
            injection E as <- ->. inversion F as [|? x' ? texts' P' F']; subst.
            assert (x' = x) as -> by (inversion P; inversion P'; subst; congruence).
            exists (String.concat "" texts', rest). split; [apply IH; eauto|]. rewrite concat_cons. reflexivity. }
        assert (NO : (forall x, ~ path_tok t x) -> t <> ITPunct ">" ->
            ~ exists body texts, t :: toks = body ++ ITPunct ">" :: rest /\ Forall2 path_tok body texts /\ s = String.concat "" texts).
        { intros N N' (body & texts & E & F & _). destruct body as [|b body]; [injection E as -> _; congruence|].
          injection E as <- _. inversion F; subst. eapply N. eassumption. }
        destruct t as [x|x|x|c|]; cbn [include_path].
        + apply ST. constructor.
        + split; [discriminate|]. intros G. exfalso. revert G. apply NO; [intros y P; inversion P|discriminate].
        + destruct x as [|d x].
          * split; [discriminate|]. intros G. exfalso. revert G. apply NO; [intros y P; inversion P|discriminate].
          * destruct ((48 <=? nat_of_ascii d)%nat && (nat_of_ascii d <=? 57)%nat)%bool eqn:D.
            -- apply ST. constructor. apply andb_prop in D as [D1 D2]. apply Nat.leb_le in D1, D2. split; assumption.
            -- split; [discriminate|]. intros G. exfalso. revert G. apply NO; [|discriminate]. intros y P. inversion P as [|? ? G|]; subst.
               apply Bool.andb_false_iff in D as [D|D]; apply Nat.leb_gt in D; lia.
        + destruct (Ascii.eqb_spec c ">") as [->|N].
          * split.
            -- intros E. injection E as <- ->. exists [], []. splits; [reflexivity|constructor|reflexivity].
            -- intros (body & texts & E & F & ->). destruct body as [|b body].
               ++ injection E as ->. inversion F; subst. reflexivity.
               ++ injection E as <- _. inversion F as [|? ? ? ? P _]; subst. inversion P. congruence.
          * apply (ST (String c "")). constructor. exact N.
        + split; [discriminate|]. intros G. exfalso. revert G. apply NO; [intros y P; inversion P|discriminate].
    Qed.
    Lemma include_ok cf toks i : parse_include cf toks = Ok i <-> exists s b, include_is toks s b /\ i = Include_ cf s b.
    Proof.
      unfold parse_include. rewrite bind_ok. split.
      - intros ([[s b] rest] & E & F). destruct rest; [|discriminate]. injection F as <-. exists s, b. split; [|reflexivity].
        destruct toks as [|[x|x|x|c|] toks]; try discriminate.
        + injection E as <- <- ->. constructor.
        + assert (c = "<"%char) as -> by (destruct c as [[] [] [] [] [] [] [] []]; try discriminate; reflexivity).
          apply bind_ok in E as ([s' r'] & E & F). injection F as <- <- ->. apply include_path_ok in E as (body & texts & -> & F & ->). constructor. exact F.
      - intros (s & b & I & ->). inversion I as [x|body texts F]; subst.
        + exists (s, false, []). split; reflexivity.
        + eexists (_, true, []). split; [|reflexivity]. cbn. apply bind_ok. exists (String.concat "" texts, []). split; [|reflexivity].
          apply include_path_ok. eauto.
    Qed.

    Lemma foreign_sound i o : parse_foreign_item lex keyword experimental async_fn l trusted cfg inner inherited i = Ok (o, []) ->
      exists x, o = Some x /\ foreign_is lex keyword experimental async_fn l trusted ns beffs inherited i x.
    Proof.
      destruct i as [t|f|attrs toks|attrs ident params tail| | |]; cbn [parse_foreign_item]; intros H; inv_R.
      - injection E as E. apply lifetimes_ok in E. subst o. eexists. split; [reflexivity|]. apply fi_type.
        eapply type_sound; eauto.
      - apply fn_sound in H as (x & -> & H). exists x. split; [reflexivity|]. constructor. exact H.
      - apply include_ok in E as (s & b & E & ->). eexists. split; [symmetry; exact H|].
        eapply fi_include; [exact E| |reflexivity]. apply condition_of. reflexivity.
      - injection E as E. apply lifetimes_ok in E. destruct tail as [|bounds|]; inv_R.
        + destruct (alias_sound _ _ _ _ H _ E) as (L & x' & -> & A). eexists. split; [reflexivity|]. apply fi_alias; auto.
        + injection E0 as E0. apply bounds_ok in E0. subst o. eexists. split; [reflexivity|]. apply fi_bounded. eapply type_sound; eauto.
    Qed.
    Lemma foreign_complete i o : foreign_is lex keyword experimental async_fn l trusted ns beffs inherited i o ->
      exists o', parse_foreign_item lex keyword experimental async_fn l trusted cfg inner inherited i = Ok (o', []).
    Proof.
      destruct 1 as [t o T|attrs ident params bounds o T|attrs ident params o L T|f o T|attrs toks s b c o T _ _]; cbn [parse_foreign_item].
      - pose proof T as (effs & et & _ & _ & _ & _ & _ & L & _). destruct (type_complete _ _ _ _ _ (et_lts et) [] T) as [o' P].
        eexists. apply bindR_ok. exists (et_lts et). split; [f_equal; apply lifetimes_ok; exact L|]. rewrite P. reflexivity.
      - pose proof T as (effs & et & _ & _ & _ & _ & _ & L & _ & _ & B & _). destruct (type_complete _ _ _ _ _ (et_lts et) (et_bounds et) T) as [o' P].
        eexists. apply bindR_ok. exists (et_lts et). split; [f_equal; apply lifetimes_ok; exact L|].
        apply bindR_ok. exists (et_bounds et). split; [f_equal; apply bounds_ok; exact B|]. rewrite P. reflexivity.
      - pose proof T as (effs & ta & _ & _ & _ & _ & _ & Lt & _). destruct (alias_complete _ _ _ (ta_lts ta) _ L T) as [o' P].
        eexists. apply bindR_ok. exists (ta_lts ta). split; [f_equal; apply lifetimes_ok; exact Lt|]. exact P.
      - exact (fn_complete _ _ T).
      - eexists. apply try_ok. eexists. split; [apply include_ok; eauto|]. reflexivity.
    Qed.
  End Item.

  Lemma lang_ok abi l : parse_lang abi = Ok l <-> abi = Some (match l with LCxx => "C++" | LRust => "Rust" end).
  Proof.
    unfold parse_lang. destruct abi as [s|]; [|split; discriminate].
    destruct (String.eqb_spec s "C++") as [->|N1]; [|destruct (String.eqb_spec s "Rust") as [->|N2]].
    - split; [intros E; injection E as <-; reflexivity|]. destruct l; [reflexivity|discriminate].
    - split; [intros E; injection E as <-; reflexivity|]. destruct l; [discriminate|reflexivity].
    - split; [discriminate|]. intros E. injection E as ->. destruct l; congruence.
  Qed.
  Lemma mod_ok l un trusted items : snd (parse_foreign_mod l un trusted items) = [] <->
    ((l = LRust -> un = false) /\ (trusted = false -> un = false -> forall f, In (ACxxFunction f) items -> fn_unsafe f = true)).
  Proof.
    unfold parse_foreign_mod. cbn [snd]. rewrite app_nil, err_if_nil. split.
    - intros [H1 H2]. split; [intros ->; apply err_if_nil in H1; exact H1|]. intros -> -> f I. cbn in H2.
      destruct (fn_unsafe f) eqn:U; [reflexivity|]. rewrite <- H2. apply existsb_exists. exists (ACxxFunction f). rewrite U. auto.
    - intros [H1 H2]. split; [destruct l; [reflexivity|apply err_if_nil; auto]|]. destruct trusted, un; try reflexivity. cbn.
      destruct (existsb _ items) eqn:X; [|reflexivity]. apply existsb_exists in X as (a & I & U). destruct a; try discriminate.
      rewrite (H2 eq_refl eq_refl _ I) in U. discriminate.
  Qed.
  Lemma Forall2_in_l {A B} (P : A -> B -> Prop) l m a : Forall2 P l m -> In a l -> exists b, In b m /\ P a b.
  Proof. induction 1 as [|x y l m H F IH]; intros []; [subst; exists y; split; [left|]; auto|]. destruct IH as (b & I & Q); auto. exists b. split; [right|]; auto. Qed.
  Lemma Forall2_in_r {A B} (P : A -> B -> Prop) l m b : Forall2 P l m -> In b m -> exists a, In a l /\ P a b.
  Proof. induction 1 as [|x y l m H F IH]; intros []; [subst; exists x; split; [left|]; auto|]. destruct IH as (a & I & Q); auto. exists a. split; [right|]; auto. Qed.
  Lemma safe_fns l trusted ns beffs inherited items mids :
    Forall2 (foreign_is lex keyword experimental async_fn l trusted ns beffs inherited) items mids ->
    ((l = LCxx -> forall f, In (FFn f) items -> sn_unsafe f = true) <-> (forall f, In (ACxxFunction f) (map o_api mids) -> fn_unsafe f = true)).
  Proof.
    intros F. split.
    - intros H f I. apply in_map_iff in I as (o & E & I). destruct (Forall2_in_r _ _ _ _ F I) as (i & Ii & P).
      inversion P as [t o' T|attrs ident params bounds o' T|attrs ident params o' L T|g o' T|attrs toks s b c o' T _ Eo]; subst.
      + destruct T as (effs & et & _ & X & _). rewrite E in X. destruct l; discriminate.
      + destruct T as (effs & et & _ & X & _). rewrite E in X. destruct l; discriminate.
      + destruct T as (effs & et & _ & X & _). congruence.
      + destruct T as (effs & ef & _ & X & _ & _ & _ & _ & _ & U & _). rewrite E in X. destruct l; [|discriminate]. injection X as ->.
        rewrite U. apply H; auto.
      + discriminate.
    - intros H -> f I. destruct (Forall2_in_l _ _ _ _ F I) as (o & Io & P). inversion P as [| | |g o' T|]; subst.
      destruct T as (effs & ef & _ & X & _ & _ & _ & _ & _ & U & _). rewrite <- U. apply H. rewrite <- X. apply in_map. exact Io.
  Qed.
  Lemma map_with_api mids apis : List.length apis = List.length mids ->
    map o_api (map (fun '(o, a) => with_api o a) (combine mids apis)) = apis /\
    map o_extra (map (fun '(o, a) => with_api o a) (combine mids apis)) = map o_extra mids /\
    map o_subs (map (fun '(o, a) => with_api o a) (combine mids apis)) = map o_subs mids.
  Proof.
    revert apis. induction mids as [|o mids IH]; intros [|a apis] L; try discriminate; [auto|]. injection L as L. destruct (IH _ L) as (A & B & C).
    cbn. rewrite A, B, C. auto.
  Qed.
  Lemma foreigns_sound l trusted ns battrs beffs items os : attributes_mean PBlock battrs beffs ->
    Forall2 (fun i o => parse_foreign_item lex keyword experimental async_fn l trusted (cfg_of (final (block_parser ns) beffs)) (namespace_of (final (block_parser ns) beffs)) (kept (combine battrs beffs)) i = Ok (o, [])) items os ->
    Forall2 (foreign_is lex keyword experimental async_fn l trusted ns beffs (kept (combine battrs beffs))) items (somes os).
  Proof.
    intros A. induction 1 as [|i o items os H F IH]; [constructor|]. apply foreign_sound in H as (x & -> & H); [|exact A]. cbn. constructor; auto.
  Qed.
  Lemma foreigns_complete l trusted ns battrs beffs items mids : attributes_mean PBlock battrs beffs ->
    Forall2 (foreign_is lex keyword experimental async_fn l trusted ns beffs (kept (combine battrs beffs))) items mids ->
    exists os, mapR (parse_foreign_item lex keyword experimental async_fn l trusted (cfg_of (final (block_parser ns) beffs)) (namespace_of (final (block_parser ns) beffs)) (kept (combine battrs beffs))) items = Ok (os, []).
  Proof.
    intros A. induction 1 as [|i o items mids H F [os IH]]; [exists []; reflexivity|]. apply foreign_complete in H as [o' H]; [|exact A].
    exists (o' :: os). cbn. rewrite H, IH. reflexivity.
  Qed.
  Lemma block_sound trusted ns b outs : parse_block lex keyword experimental async_fn trusted ns b = Ok (outs, []) ->
    block_is lex keyword experimental async_fn trusted ns b outs.
  Proof.
    unfold parse_block. destruct (parse_lang (sb_abi b)) as [l|m|m] eqn:L; [|discriminate|discriminate]. apply lang_ok in L.
    intros H. inv_R. destruct x as [p pass]. apply (attributes_ok PBlock) in E; [|apply place_block].
    destruct E as (effs & A & -> & ->). inv_R. apply mapR_ok, foreigns_sound in E; [|exact A].
    assert (E1 : parse_foreign_mod l (sb_unsafe b) trusted (map o_api (somes x)) = (x0, [])) by congruence. clear E0. rename E1 into E0. apply C22_bare_self in E0 as B. pose proof (Forall2_len _ _ _ B) as Le.
    assert (S : snd (parse_foreign_mod l (sb_unsafe b) trusted (map o_api (somes x))) = []) by (rewrite E0; reflexivity). rewrite map_length in Le.
    apply mod_ok in S as [S1 S2]. destruct (map_with_api _ _ Le) as (M1 & M2 & M3). subst outs.
    exists l, effs, (somes x). splits; auto.
    - intros Lc T U. apply (proj2 (safe_fns _ _ _ _ _ _ _ E) (S2 T U) Lc).
    - rewrite M1. exact B.
  Qed.
  Lemma block_complete trusted ns b outs : block_is lex keyword experimental async_fn trusted ns b outs ->
    exists outs', parse_block lex keyword experimental async_fn trusted ns b = Ok (outs', []).
  Proof.
    intros (l & effs & mids & L & A & U1 & U2 & F & _). unfold parse_block. apply lang_ok in L. rewrite L.
    destruct (foreigns_complete _ _ _ _ _ _ _ A F) as [os P]. apply mapR_ok, foreigns_sound in P as Q; [|exact A].
    destruct (parse_foreign_mod l (sb_unsafe b) trusted (map o_api (somes os))) as [apis es] eqn:M.
    assert (S : snd (parse_foreign_mod l (sb_unsafe b) trusted (map o_api (somes os))) = []).
    { apply mod_ok. split; [exact U1|]. intros T U. apply (safe_fns _ _ _ _ _ _ _ Q). intros Lc. apply U2; auto. }
    rewrite M in S. cbn in S. subst es.
    eexists. apply bindR_ok. exists (final (block_parser ns) effs, kept (combine (sb_attrs b) effs)).
    split; [apply (attributes_ok PBlock); [apply place_block|eauto]|].
    apply bindR_ok. exists os. split; [apply mapR_ok; exact P|]. cbv zeta. rewrite M. apply bindR_ok. exists apis. split; reflexivity.
  Qed.

  (** * Everything *)
  Lemma impl_sound i o : parse_impl lex keyword experimental i = Ok (o, []) -> exists x, o = Some x /\ impl_is lex keyword experimental i x.
  Proof.
    unfold parse_impl. intros H. inv_R. destruct x as [p pass]. apply (attributes_ok PImpl) in E; [|apply place_impl].
    destruct E as (effs & A & -> & ->). destruct (si_empty i) eqn:S; cbn [negb] in H; [|inv_R]. destruct (si_trait i) eqn:T; [inv_R|].
    destruct (g_where (si_generics i)) eqn:W; [inv_R|]. inv_R. apply impl_lts_ok in E. subst o. eexists. split; [reflexivity|].
    exists effs. eexists. splits; [exact A|reflexivity|..]; cbn; auto. apply condition_of. reflexivity.
  Qed.
  Lemma impl_complete i o : impl_is lex keyword experimental i o -> exists o', parse_impl lex keyword experimental i = Ok (o', []).
  Proof.
    intros (effs & im & A & _ & _ & L & W & T & S & _ & Ty). eexists. unfold parse_impl. apply bindR_ok.
    exists (final impl_parser effs, kept (combine (si_attrs i) effs)). split; [apply (attributes_ok PImpl); [apply place_impl|eauto]|].
    rewrite S, T, W. cbn [negb]. apply try_ok. exists (im_lts im). split; [apply impl_lts_ok; exact L|]. rewrite Ty. reflexivity.
  Qed.
  Lemma item_sound trusted ns i outs : parse_item lex keyword experimental async_fn trusted ns i = Ok (outs, []) ->
    item_is lex keyword experimental async_fn trusted ns i outs.
  Proof.
    destruct i as [s|e|b|i| |]; cbn [parse_item]; intros H; try discriminate; cbv zeta in H.
    - inv_R. apply struct_sound in E as (o & -> & E). subst outs. constructor. exact E.
    - inv_R. apply enum_sound in E. subst outs. constructor. exact E.
    - constructor. apply block_sound. exact H.
    - inv_R. apply impl_sound in E as (o & -> & E). subst outs. constructor. exact E.
  Qed.
  Lemma item_complete trusted ns i outs : item_is lex keyword experimental async_fn trusted ns i outs ->
    exists outs', parse_item lex keyword experimental async_fn trusted ns i = Ok (outs', []).
  Proof.
    destruct 1 as [s o H|e o H|b outs H|i o H]; cbn [parse_item]; cbv zeta.
    - apply struct_complete in H as [o' H]. rewrite H. eexists. reflexivity.
    - apply enum_complete in H as [o' H]. rewrite H. eexists. reflexivity.
    - eapply block_complete. exact H.
    - apply impl_complete in H as [o' H]. rewrite H. eexists. reflexivity.
  Qed.
  Lemma items_sound trusted ns items outs : parse_items lex keyword experimental async_fn trusted ns items = Ok (outs, []) ->
    declares lex keyword experimental async_fn trusted ns items outs.
  Proof.
    unfold parse_items. intros H. inv_R. apply mapR_ok in E. exists x. split; [|symmetry; exact H].
    clear H. induction E; constructor; auto. apply item_sound. assumption.
  Qed.
  Lemma items_complete trusted ns items outs : declares lex keyword experimental async_fn trusted ns items outs ->
    exists outs', parse_items lex keyword experimental async_fn trusted ns items = Ok (outs', []).
  Proof.
    intros (outss & F & _). unfold parse_items. assert (G : exists os, mapR (parse_item lex keyword experimental async_fn trusted ns) items = Ok (os, [])).
    { induction F as [|i o items outss H F [os IH]]; [exists []; reflexivity|]. apply item_complete in H as [o' H]. exists (o' :: os). cbn. rewrite H, IH. reflexivity. }
    destruct G as [os ->]. eexists. reflexivity.
  Qed.
End Proofs.
