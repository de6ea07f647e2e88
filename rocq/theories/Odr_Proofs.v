(** Proofs about generated files read together. *)
From Verif Require Import Base StrLib Syntax_Model TypeEq_Model Toposort_Model Toposort_Spec Types_Model Types_Spec Types_Proofs Types_Proofs2
  Check_Model Check_Spec Check_Proofs Mangle_Model Mangle_Spec Mangle_Proofs Mangle_Proofs2 Mangle_Proofs3 Abi_Model Abi_Spec
  Nested_Model Derive_Model CxxExpr_Model CxxExpr_Spec Expr_Proofs2 Uses_Proofs3 Unit_Model Unit_Spec Unit_Proofs Unit_Proofs2 Unit_Proofs3 Unit_Proofs4
  Header_Text Ifndef_Model Builtin_Spec Odr_Spec.
From Verif Require Builtin_Model.
From Coq Require Import Lia.

Definition keyword (s : sort) : string := match s with Class => "STRUCT" | Enumeration => "ENUM" end.

(** The guard of a definition spells its kind and its name. *)
Definition spelled (x : placed_decl) (g : string) : Prop :=
  exists s ids i, type_defined x = Some (s, ids) /\ ids <> [] /\ Forall identifier ids /\ sym_join ids = Some i /\ g = ("CXXBRIDGE1_" ++ keyword s ++ "_" ++ i)%string.

Lemma data_spelled gen ord apis T data x g : accepted_bridge gen ord apis T -> wf_bridge apis -> data_structures T apis = Some data ->
  In x data -> guard (snd x) = Some g -> spelled x g.
Proof.
  intros H W E I G. unfold data_structures in E. apply option_map_inv in E as (ds & E & ->). apply in_concat in I as (c & Ic & I).
  destruct (otraverse_in _ _ _ _ E Ic) as (e & Ie & Ee). destruct (em_declared gen ord apis T H e Ie) as (a & Ia & Da).
  destruct (W (em_pair e) (decl_item _ a _ Ia Da)) as (W1 & W2 & _).
  assert (F : Forall identifier (p_ns (em_pair e) ++ [p_cxx (em_pair e)])) by (apply Forall_app; split; [exact W1|constructor; [exact W2|constructor]]).
  assert (N : p_ns (em_pair e) ++ [p_cxx (em_pair e)] <> []) by (destruct (p_ns (em_pair e)); discriminate).
  destruct e as [s|e|e|t]; cbn [data_decl em_pair] in *; unfold struct_decl, opaque_decl in *.
  - apply obind_inv in Ee as (g' & Eg & Ee). do 2 (apply obind_inv in Ee as (? & _ & Ee)). injection Ee as <-. destruct I as [<-|[]]. cbn in G. injection G as ->.
    unfold guard_of in Eg. apply option_map_inv in Eg as (i & Ei & ->). exists Class. do 2 eexists. split; [reflexivity|]. split; [exact N|]. split; [exact F|]. split; [exact Ei|reflexivity].
  - apply option_map_inv in Ee as (g' & Eg & ->). destruct I as [<-|[]]. cbn in G. injection G as ->.
    unfold guard_of in Eg. apply option_map_inv in Eg as (i & Ei & ->). exists Enumeration. do 2 eexists. split; [reflexivity|]. split; [exact N|]. split; [exact F|]. split; [exact Ei|reflexivity].
  - injection Ee as <-. destruct I as [<-|[]]. discriminate G.
  - apply obind_inv in Ee as (g' & Eg & Ee). apply obind_inv in Ee as (? & _ & Ee). injection Ee as <-. destruct I as [<-|[]]. cbn in G. injection G as ->.
    unfold guard_of in Eg. apply option_map_inv in Eg as (i & Ei & ->). exists Class. do 2 eexists. split; [reflexivity|]. split; [exact N|]. split; [exact F|]. split; [exact Ei|reflexivity].
Qed.

Lemma in_guards l x g : In x l -> guard (snd x) = Some g -> In g (guards l).
Proof. intros I G. unfold guards. apply in_flat_map. exists x. rewrite G. split; [exact I|left; reflexivity]. Qed.

(** Definitions are found among the data structures: the guarded declarations of the file
    are, in order, those of the data structures. *)
Definition guarded (l : list placed_decl) : list placed_decl := filter (fun x => match guard (snd x) with Some _ => true | None => false end) l.
Lemma guarded_none l : guards l = [] -> guarded l = [].
Proof.
  induction l as [|x l IH]; intros E; [reflexivity|]. unfold guards in E. cbn [flat_map] in E. unfold guarded. cbn [filter]. destruct (guard (snd x)); [discriminate E|]. apply IH, E.
Qed.
Lemma guards_length l : List.length (guards l) = List.length (guarded l).
Proof. induction l as [|x l IH]; [reflexivity|]. unfold guards, guarded in *. cbn [flat_map filter]. destruct (guard (snd x)); cbn [app List.length]; congruence. Qed.
Lemma guarded_app l l' : guarded (l ++ l') = guarded l ++ guarded l'.
Proof. apply filter_app. Qed.
Lemma guarded_nil l : guarded l = [] -> guards l = [].
Proof. intros E. destruct (guards l) eqn:G; [reflexivity|]. pose proof (guards_length l) as L. rewrite G, E in L. discriminate. Qed.
Lemma file_guarded apis T n header l : unit_decls n T apis header = Some l ->
  exists data, data_structures T apis = Some data /\ forall x g, In x l -> guard (snd x) = Some g -> In x data.
Proof.
  intros E. destruct (file_guards_data apis T n header l E) as (data & Ed & Eg). exists data. split; [exact Ed|]. intros x g I G.
  unfold unit_decls in E. apply obind_inv in E as (toks & _ & E). apply obind_inv in E as (data' & Ed' & E). assert (data' = data) as -> by congruence. apply obind_inv in E as (decls & _ & E).
  apply obind_inv in E as (defs & _ & E). apply obind_inv in E as (impls & _ & E). injection E as <-.
  rewrite !guards_app in Eg. assert (L : forall (a b c d e : list string), a ++ b ++ c ++ d ++ e = b -> a = [] /\ c = [] /\ d = [] /\ e = []).
  { intros a b c d e Q. apply (f_equal (@List.length _)) in Q. rewrite !app_length in Q. destruct a, c, d, e; cbn [List.length] in Q; try (exfalso; lia). auto. }
  apply L in Eg as (E1 & E2 & E3 & E4).
  assert (Z : forall l', guards l' = [] -> ~ In x l') by (intros l' Q J; pose proof (in_guards _ _ _ J G) as K; rewrite Q in K; destruct K).
  rewrite !in_app_iff in I. destruct I as [I|[I|[I|[I|I]]]]; [|exact I|..]; exfalso; refine (Z _ _ I); assumption.
Qed.
Lemma generated_spelled header apis l x g : generated header apis l -> In x l -> guard (snd x) = Some g -> spelled x g.
Proof.
  intros (gen & ord & T & n & H & W & E) I G. destruct (file_guarded _ _ _ _ _ E) as (data & Ed & D). eapply data_spelled; [exact H|exact W|exact Ed|eapply D; eassumption|exact G].
Qed.

Lemma keyword_inj s s' i i' : ("CXXBRIDGE1_" ++ keyword s ++ "_" ++ i = "CXXBRIDGE1_" ++ keyword s' ++ "_" ++ i')%string -> s = s' /\ i = i'.
Proof. destruct s, s'; cbn; intros E; try discriminate E; injection E as E; auto. Qed.
Lemma spelled_inj x y g h : spelled x g -> spelled y h -> (g = h <-> type_defined x = type_defined y).
Proof.
  intros (s & ids & i & Ex & N & F & J & ->) (s' & ids' & i' & Ey & N' & F' & J' & ->). rewrite Ex, Ey. split.
  - intros E. apply keyword_inj in E as (-> & ->). rewrite <- J' in J.
    assert (Z : forall l, Forall identifier l -> Forall (fun s => s <> ""%string) l) by (intros l Q; eapply Forall_impl; [|exact Q]; apply identifier_ne).
    rewrite !sym_join_segs in J by (assumption || apply Z; assumption). injection J as J. rewrite Forall_forall in F, F'. do 2 f_equal.
    apply (join_inj dollar); [exact N|exact N'| | |exact J]; intros t I; apply identifier_dollar; auto.
  - intros E. injection E as -> ->. rewrite J in J'. injection J' as ->. reflexivity.
Qed.

(** ** The preprocessor *)
Definition all_spelled (l : list placed_decl) : Prop := forall x g, In x l -> guard (snd x) = Some g -> spelled x g.
Lemma guard_type x : guard (snd x) = None <-> type_defined x = None.
Proof. destruct x as (ns & d). destruct d; cbn; split; congruence. Qed.
Lemma preprocess_incl l : forall defined x, In x (preprocess defined l) -> In x l.
Proof.
  induction l as [|(ns & d) l IH]; intros defined x I; [destruct I|]. cbn [preprocess] in I. destruct (guard d) as [g|].
  - destruct (in_dec string_dec g defined); [right; eapply IH, I|]. destruct I as [<-|I]; [left; reflexivity|right; eapply IH, I].
  - destruct I as [<-|I]; [left; reflexivity|right; eapply IH, I].
Qed.
Lemma preprocess_fresh l : forall defined x g, In x (preprocess defined l) -> guard (snd x) = Some g -> ~ In g defined.
Proof.
  induction l as [|(ns & d) l IH]; intros defined x g I G; [destruct I|]. cbn [preprocess] in I. destruct (guard d) as [h|] eqn:Gd.
  - destruct (in_dec string_dec h defined) as [D|D]; [eapply IH; eassumption|]. destruct I as [<-|I]; [cbn [snd] in G; congruence|].
    intros J. eapply (IH (h :: defined)); [exact I|exact G|right; exact J].
  - destruct I as [<-|I]; [cbn [snd] in G; congruence|eapply IH; eassumption].
Qed.
Lemma preprocess_nodup l : forall defined, NoDup (guards (preprocess defined l)).
Proof.
  induction l as [|(ns & d) l IH]; intros defined; [constructor|]. cbn [preprocess]. destruct (guard d) as [g|] eqn:G.
  - destruct (in_dec string_dec g defined); [apply IH|]. unfold guards. cbn [flat_map snd]. rewrite G. cbn [app]. constructor; [|apply IH].
    intros I. apply in_flat_map in I as (y & Iy & Jy). destruct (guard (snd y)) as [h|] eqn:Gy; [|destruct Jy]. destruct Jy as [->|[]]. eapply preprocess_fresh; [exact Iy|exact Gy|left; reflexivity].
  - unfold guards. cbn [flat_map snd]. rewrite G. cbn [app]. apply IH.
Qed.
Lemma preprocess_kept l : forall defined x, In x l ->
  match guard (snd x) with Some g => In g defined \/ In g (guards (preprocess defined l)) | None => In x (preprocess defined l) end.
Proof.
  induction l as [|(ns & d) l IH]; intros defined x I; [destruct I|]. cbn [preprocess]. destruct I as [<-|I].
  - cbn [snd]. destruct (guard d) as [g|] eqn:G; [|left; reflexivity]. destruct (in_dec string_dec g defined) as [D|D]; [left; exact D|]. right. unfold guards. cbn [flat_map snd]. rewrite G. left. reflexivity.
  - destruct (guard d) as [g|] eqn:G.
    + destruct (in_dec string_dec g defined) as [D|D]; [apply IH, I|]. specialize (IH (g :: defined) x I). destruct (guard (snd x)) as [h|]; [|right; exact IH].
      destruct IH as [[<-|J]|J]; [right|left; exact J|right]; unfold guards; cbn [flat_map snd]; rewrite G; cbn [app]; [left; reflexivity|right; exact J].
    + specialize (IH defined x I). destruct (guard (snd x)) as [h|]; [|right; exact IH]. destruct IH as [J|J]; [left; exact J|right]. unfold guards. cbn [flat_map snd]. rewrite G. exact J.
Qed.
Lemma types_nodup l : all_spelled l -> NoDup (guards l) -> NoDup (types_defined l).
Proof.
  induction l as [|x l IH]; intros S N; [constructor|]. unfold guards, types_defined in *. cbn [flat_map] in *.
  assert (S' : all_spelled l) by (intros y g I; apply S; right; exact I).
  destruct (guard (snd x)) as [g|] eqn:G.
  - cbn [app] in N. apply NoDup_cons_iff in N as (N1 & N2). specialize (IH S' N2). destruct (type_defined x) as [t|] eqn:Tx; [|exact IH]. cbn [app]. constructor; [|exact IH].
    intros I. apply in_flat_map in I as (y & Iy & Jy). destruct (type_defined y) as [t'|] eqn:Ty; [|destruct Jy]. destruct Jy as [->|[]].
    destruct (guard (snd y)) as [h|] eqn:Gy; [|apply guard_type in Gy; congruence].
    assert (g = h) as -> by (apply (spelled_inj x y g h (S x g (or_introl eq_refl) G) (S y h (or_intror Iy) Gy)); congruence). apply N1. exact (in_guards l y h Iy Gy).
  - apply guard_type in G. rewrite G. apply IH; [exact S'|exact N].
Qed.

(** ** The supporting macros *)
Lemma macros_other : forallb (fun m => negb (prefix "CXXBRIDGE1_STRUCT_" m) && negb (prefix "CXXBRIDGE1_ENUM_" m)) support_macros = true.
Proof. vm_compute. reflexivity. Qed.
Lemma prefix_app a b : prefix a (a ++ b) = true.
Proof. induction a as [|c a IH]; [destruct b; reflexivity|]. cbn [append prefix]. destruct (Ascii.ascii_dec c c); [exact IH|congruence]. Qed.
Lemma spelled_other x g : spelled x g -> ~ In g support_macros.
Proof.
  intros (s & ids & i & _ & _ & _ & _ & ->) I. pose proof macros_other as M. rewrite forallb_forall in M. specialize (M _ I). apply andb_prop in M as (M1 & M2).
  destruct s; [change ("CXXBRIDGE1_" ++ keyword Class ++ "_" ++ i)%string with ("CXXBRIDGE1_STRUCT_" ++ i)%string in M1; rewrite prefix_app in M1; discriminate M1
              |change ("CXXBRIDGE1_" ++ keyword Enumeration ++ "_" ++ i)%string with ("CXXBRIDGE1_ENUM_" ++ i)%string in M2; rewrite prefix_app in M2; discriminate M2].
Qed.

(** ** The header *)
Lemma fwd_plain toks : forall st x, In x (place_tokens st toks) -> ~ single (snd x).
Proof.
  induction toks as [|t toks IH]; intros st x I; [destruct I|]. destruct t; cbn [place_tokens] in I; try (eapply IH, I). apply in_app_iff in I as [I|I]; [|eapply IH, I].
  apply in_map_iff in I as (d & <- & J). cbn [snd]. destruct a; cbn in J; destruct J as [<-|[]] || destruct J; intros [[]|[]].
Qed.
Lemma header_plain apis T n l x : unit_decls n T apis true = Some l -> In x l -> single (snd x) -> guard (snd x) <> None /\ ~ external_definition (snd x).
Proof.
  unfold unit_decls. intros E I S. apply obind_inv in E as (toks & _ & E). apply obind_inv in E as (data & Ed & E). apply obind_inv in E as (decls & Ec & E). injection Ec as <-.
  apply obind_inv in E as (defs & Ef & E). apply obind_inv in E as (impls & Ei & E). injection Ei as <-. injection E as <-. cbn [app] in I. rewrite app_nil_r, !in_app_iff in I. destruct I as [I|[I|I]].
  - exfalso. exact (fwd_plain _ _ _ I S).
  - unfold data_structures in Ed. apply option_map_inv in Ed as (ds & E & ->). apply in_concat in I as (c & Ic & I). destruct (otraverse_in _ _ _ _ E Ic) as (e & Ie & Ee).
    destruct e as [s|e|e|t]; cbn [data_decl] in Ee; unfold struct_decl, opaque_decl in Ee.
    + apply obind_inv in Ee as (g' & Eg & Ee). do 2 (apply obind_inv in Ee as (? & _ & Ee)). injection Ee as <-. destruct I as [<-|[]]. cbn. split; [discriminate|tauto].
    + apply option_map_inv in Ee as (g' & Eg & ->). destruct I as [<-|[]]. cbn. split; [discriminate|tauto].
    + injection Ee as <-. destruct I as [<-|[]]. destruct S as [[]|[]].
    + apply obind_inv in Ee as (g' & Eg & Ee). apply obind_inv in Ee as (? & _ & Ee). injection Ee as <-. destruct I as [<-|[]]. cbn. split; [discriminate|tauto].
  - exfalso. apply in_concat in I as (c & Ic & I). destruct (otraverse_in _ _ _ _ Ef Ic) as (a & Ia & Ea). destruct a; cbn [function_def] in Ea; try (injection Ea as <-; destruct I).
    unfold rust_def in Ea. destruct (fn_receiver f); [injection Ea as <-; destruct I|]. apply option_map_inv in Ea as (? & _ & ->). destruct I as [<-|[]]. destruct S as [[]|[]].
Qed.

(** Where the definitions with external linkage come from. *)
Lemma definition_named gen ord apis T n header l x : accepted_bridge gen ord apis T -> unit_decls n T apis header = Some l -> In x l -> external_definition (snd x) ->
  names_in apis (definition_namespace x).
Proof.
  intros H E I D. assert (D' : ~ external_definition (snd x) -> names_in apis (definition_namespace x)) by (intros N; destruct (N D)).
  unfold unit_decls in E. apply obind_inv in E as (toks & _ & E). apply obind_inv in E as (data & Ed & E). apply obind_inv in E as (decls & Ec & E).
  apply obind_inv in E as (defs & Ef & E). apply obind_inv in E as (impls & Ei & E). injection E as <-. rewrite !in_app_iff in I. destruct I as [I|[I|[I|[I|I]]]].
  - destruct (fwd_plain _ _ _ I (or_introl D)).
  - apply D'. unfold data_structures in Ed. apply option_map_inv in Ed as (ds & E & ->). apply in_concat in I as (c & Ic & I). destruct (otraverse_in _ _ _ _ E Ic) as (e & Ie & Ee).
    destruct e as [s|e|e|t]; cbn [data_decl] in Ee; unfold struct_decl, opaque_decl in Ee.
    + do 3 (apply obind_inv in Ee as (? & _ & Ee)). injection Ee as <-. destruct I as [<-|[]]. cbn. tauto.
    + apply option_map_inv in Ee as (? & _ & ->). destruct I as [<-|[]]. cbn. tauto.
    + injection Ee as <-. destruct I as [<-|[]]. cbn. tauto.
    + do 2 (apply obind_inv in Ee as (? & _ & Ee)). injection Ee as <-. destruct I as [<-|[]]. cbn. tauto.
  - destruct header; [injection Ec as <-; destruct I|]. apply obind_inv in Ec as (ds & E1 & Ec). apply obind_inv in Ec as (hs & E2 & Ec). injection Ec as <-. rewrite !in_app_iff in I. destruct I as [I|[I|I]].
    + apply D'. unfold trivial_checks in I. apply in_flat_map in I as (a & _ & I). destruct a; try (destruct I; fail). destruct (has _ _); [destruct I as [<-|[]]; cbn; tauto|destruct I].
    + apply in_concat in I as (c & Ic & I). destruct (otraverse_in _ _ _ _ E1 Ic) as (a & Ia & Ea). destruct a; cbn [function_decl] in Ea; try (injection Ea as <-; destruct I).
      * apply D'. unfold operator_decl in Ea. apply obind_inv in Ea as (l1 & F1 & Ea). apply obind_inv in Ea as (l2 & F2 & Ea). injection Ea as <-.
        apply in_app_or in I as [I|I]; [destruct (otraverse_in _ _ _ _ F1 I) as (y & _ & Ey)|destruct (otraverse_in _ _ _ _ F2 I) as (y & _ & Ey)]; apply option_map_inv in Ey as (? & _ & ->); cbn; tauto.
      * unfold shim_decl in Ea. do 2 (apply obind_inv in Ea as (? & _ & Ea)). apply obind_inv in Ea as (ts & Et & Ea). injection Ea as <-.
        assert (N : names_in apis (p_ns (fn_name f))) by (apply ni_fn; left; exact Ia).
        destruct I as [<-|I]; [exact N|]. apply in_concat in I as (d & Id & I). destruct (otraverse_in _ _ _ _ Et Id) as (y & _ & Ey). unfold trampoline in Ey.
        destruct (snd y); try (injection Ey as <-; destruct I; fail). do 4 (apply obind_inv in Ey as (? & _ & Ey)). injection Ey as <-. destruct I as [<-|[<-|[]]]; exact N.
      * apply D'. unfold layout_decl in Ea. destruct (otraverse_in _ _ _ _ Ea I) as (y & _ & Ey). apply option_map_inv in Ey as (? & _ & ->). cbn. tauto.
      * apply D'. unfold rust_decl in Ea. do 2 (apply obind_inv in Ea as (? & _ & Ea)). injection Ea as <-. destruct I as [<-|[]]. cbn. tauto.
    + apply D'. apply in_concat in I as (c & Ic & I). destruct (otraverse_in _ _ _ _ E2 Ic) as (a & Ia & Ea). destruct a; cbn [hash_decl] in Ea; try (injection Ea as <-; destruct I).
      destruct (derives DHash (st_derives s)); [|injection Ea as <-; destruct I]. apply option_map_inv in Ea as (? & _ & ->). destruct I as [<-|[]]. cbn. tauto.
  - apply in_concat in I as (c & Ic & I). destruct (otraverse_in _ _ _ _ Ef Ic) as (a & Ia & Ea). destruct a; cbn [function_def] in Ea; try (injection Ea as <-; destruct I).
    + destruct header; [injection Ea as <-; destruct I|]. destruct (otraverse_in _ _ _ _ Ea I) as (y & _ & Ey). unfold operator_def in Ey.
      destruct (snd y); [apply option_map_inv in Ey as (? & _ & ->)|injection Ey as <-]; apply ni_struct; exact Ia.
    + destruct header; [injection Ea as <-; destruct I|]. unfold layout_def in Ea. destruct (otraverse_in _ _ _ _ Ea I) as (y & _ & Ey). apply option_map_inv in Ey as (? & _ & ->). apply ni_rust. exact Ia.
    + assert (N : names_in apis (p_ns (fn_name f))) by (apply ni_fn; right; exact Ia). unfold rust_def in Ea. destruct header.
      * destruct (fn_receiver f); [injection Ea as <-; destruct I|]. apply option_map_inv in Ea as (? & _ & ->). destruct I as [<-|[]]. exact N.
      * do 2 (apply obind_inv in Ea as (? & _ & Ea)). destruct (fn_receiver f); [apply option_map_inv in Ea as (? & _ & ->)|injection Ea as <-]; destruct I as [<-|[]]; exact N.
  - destruct header; [injection Ei as <-; destruct I|]. apply obind_inv in Ei as (es & E1 & Ei). apply obind_inv in Ei as (ms & E2 & Ei). injection Ei as <-.
    assert (K : forall k q p, In (k, q) (t_impls T) -> resolve_name T (snd k) = Some p -> names_in apis (p_ns p)).
    { intros (k, z) q p Ik R. apply (resolve_stands _ _ _ _ H) in R. eapply ni_instance; [|exact R]. apply (instantiates_key _ _ _ _ H k z). apply in_map_iff. exists ((k, z), q). auto. }
    apply in_app_or in I as [I|I]; apply in_concat in I as (c & Ic & I).
    + destruct (otraverse_in _ _ _ _ E1 Ic) as ((k, q) & Ik & Ek). cbn [fst] in Ek. unfold impl_extern in Ek. apply obind_inv in Ek as (p & R & Ek). destruct (specializes (fst k)).
      * apply D'. destruct (otraverse_in _ _ _ _ Ek I) as (y & _ & Ey). apply option_map_inv in Ey as (? & _ & ->). cbn. tauto.
      * injection Ek as <-. destruct I as [<-|[]]. exact (K _ _ _ Ik R).
    + destruct (otraverse_in _ _ _ _ E2 Ic) as ((k, q) & Ik & Ek). cbn [fst] in Ek. unfold impl_member in Ek. destruct (specializes (fst k)); [|injection Ek as <-; destruct I].
      apply obind_inv in Ek as (p & R & Ek). apply option_map_inv in Ek as (? & _ & ->). destruct I as [<-|[]]. exact (K _ _ _ Ik R).
Qed.
