(** Proofs about the generated C++ file: functions and generic instantiations. *)
From Verif Require Import Base StrLib Syntax_Model Types_Model Types_Spec Check_Spec Mangle_Model Mangle_Spec Abi_Model Nested_Model Derive_Model CxxExpr_Model CxxExpr_Spec
  Expr_Proofs2 CxxExpr_Proofs Unit_Model Unit_Spec Unit_Proofs.

Section Rest.
  Variables (apis : list api) (T : types) (fuel : nat) (K : fact -> Prop).
  Hypothesis Husers : forall f, users apis f -> K f.
  Hypothesis Hdecl : forall a p, In a apis -> decl_name a = Some p -> K (Declared (qualified p)).
  Hypothesis Hcomp : forall a p, In a apis -> decl_name a = Some p -> K (Complete (qualified p)).
  Hypothesis Hstands : forall x p, resolve_name T x = Some p -> stands_for apis x p.
  Hypothesis Hnamed : forall p, resolved T p -> K (Declared (qualified p)).
  Hypothesis Hvalue : forall p, resolved T p -> K (Complete (qualified p)).
  Hypothesis Hmember : forall f r p, all_functions apis f -> fn_receiver f = Some r -> stands_for apis (n_rust (rc_ty r)) p ->
    cxx_defined apis (qualified p) \/ exists m, method_decl T f = Some m /\
      K (Member (qualified p) (fst m) (ms_const (snd m)) (ms_ret (snd m)) (ms_params (snd m))) /\ K (Prototype (qualified p) (fst m) (snd m)).
  Hypothesis Hoperator : forall s o, In (AStruct s) apis -> In o (class_operators s) ->
    K (Member (qualified (st_name s)) (op_text o) true (CAtom ABool) [CRef true (CNamed (st_name s))]) /\ K (Prototype (qualified (st_name s)) (op_text o) (op_sig (st_name s))).
  Hypothesis Hlayout : forall t x, In (ARustType t) apis -> In x ["layout::size"; "layout::align"]%string -> K (Prototype (qualified (et_name t)) x layout_sig).
  Hypothesis Hhome : methods_at_home apis.

  Lemma named_met2 c : good T c -> forall n, In n (named c) -> meets K n.
  Proof. intros G n I. apply in_map_iff in I as (p & <- & I). cbn [meets]. apply Hnamed, G, I. Qed.
  Lemma nameds_met2 l : goods T l -> forall n, In n (flat_map named l) -> meets K n.
  Proof. intros G n I. apply in_flat_map in I as (c & J & I). exact (named_met2 c (G c J) n I). Qed.
  Lemma entire_in c p : In p (entire c) -> In p (names_in c).
  Proof. induction c; cbn; tauto. Qed.
  Lemma value_met2 c : good T c -> forall n, In n (value_needs c) -> meets K n.
  Proof.
    intros G n I. apply in_app_or in I as [I|I]; [exact (named_met2 c G n I)|].
    apply in_map_iff in I as (p & <- & I). cbn [meets]. apply Hvalue, G, entire_in, I.
  Qed.
  Lemma values_met2 l : goods T l -> forall n, In n (flat_map value_needs l) -> meets K n.
  Proof. intros G n I. apply in_flat_map in I as (c & J & I). exact (value_met2 c (G c J) n I). Qed.

  Lemma filter_none {A} (f : A -> bool) l : (forall x, In x l -> f x = false) -> filter f l = [].
  Proof. induction l as [|a l IH]; intros H; [reflexivity|]. cbn. rewrite (H a (or_introl eq_refl)). apply IH. intros x I. apply H. right. exact I. Qed.

  Lemma method_matches f r m ret ps : fn_receiver f = Some r -> method_decl T f = Some m ->
    return_type T (fn_ret f) = Some ret -> otraverse (fun a => cxx_type T (snd a)) (fn_args f) = Some ps ->
    m = (p_cxx (fn_name f), MSig (negb (rc_mutable r)) ret ps (negb (fn_throws f))).
  Proof.
    intros R M Er Ep. unfold method_decl, cxx_function_shim_decl in M. cbn [fn_sig sg_ret sg_args] in M. rewrite Ep in M. unfold return_type in Er.
    destruct (fn_ret f) as [t|]; [rewrite Er in M|injection Er as <-]; cbn [option_map obind fst snd when] in M; injection M as <-; rewrite R, app_nil_r; reflexivity.
  Qed.

  (** ** Functions of C++ *)
  Lemma shim_founded f l : In (ACxxFunction f) apis -> shim_decl fuel T f = Some l -> founded K l.
  Proof.
    intros I E. unfold shim_decl in E. apply obind_inv in E as (ln & _ & E). apply obind_inv in E as (g & Eg & E). apply obind_inv in E as (ts & Et & E). injection E as <-.
    change (founded K ([(p_ns (fn_name f), TDefine ln g)] ++ List.concat ts)). apply founded_app.
    - apply founded_all. intros ns d [J|[]] n Jn. injection J as <- <-. cbn [needs] in Jn. unfold fn_needs in Jn.
      destruct (cxx_shim_facts fuel T f g Eg) as (G & C & x & m & ret & ps & target & body & Eb & El & Nb & Em & Er & Ep & Etg).
      rewrite !in_app_iff in Jn. destruct Jn as [Jn|[Jn|Jn]].
      + exact (values_met2 _ G n Jn).
      + rewrite Eb in Jn. cbn [flat_map app] in Jn. destruct Jn as [<-|Jn].
        * unfold receiver_class in Em. cbn [fn_sig sg_receiver] in Em. destruct (fn_receiver f) as [r|] eqn:R.
          -- apply option_map_inv in Em as (p & Ers & ->). cbn [meets]. exists (p_cxx (fn_name f)). split; [rewrite Etg, full_name_ok; reflexivity|].
             destruct (Hmember f r p (or_introl I) R (Hstands _ _ Ers)) as [X|(mm & Emm & M & _)]; [apply Husers; constructor; exact X|].
             rewrite (method_matches f r mm ret ps R Emm Er Ep) in M. exact M.
          -- injection Em as <-. cbn [meets]. exists (qualified (fn_name f)). split; [rewrite Etg, full_name_ok; reflexivity|]. apply Husers. constructor; assumption.
        * exfalso. clear -Jn Nb. induction body as [|s body IH]; [destruct Jn|]. cbn [flat_map] in Jn. apply in_app_or in Jn as [Jn|Jn].
          -- pose proof (Nb s (or_introl eq_refl)) as F. destruct s; solve [destruct Jn] || solve [destruct F].
          -- apply IH; [exact Jn|intros s' J; apply Nb; right; exact J].
      + rewrite filter_none in Jn; [destruct Jn|]. intros y Iy. rewrite C in Iy. destruct (fn_receiver f); [destruct Iy|]. destruct (in_dec string_dec y (fn_locals g)); [reflexivity|contradiction].
    - eapply founded_mono; [intros q Kq; left; exact Kq|]. apply founded_concat. intros t J. destruct (otraverse_in _ _ _ _ Et J) as (a & _ & Ea).
      unfold trampoline in Ea. destruct (snd a); try (injection Ea as <-; apply founded_nil).
      apply obind_inv in Ea as (rn & _ & Ea). apply obind_inv in Ea as (cn & _ & Ea). apply obind_inv in Ea as (d & Ed & Ea). apply obind_inv in Ea as (h & Eh & Ea). injection Ea as <-.
      set (ns := p_ns (fn_name f)). change (founded K ([(ns, TDeclare rn (fst d) (snd d))] ++ [(ns, TDefine cn h)])). apply founded_app.
      + apply founded_all. intros ns' d' [Jd|[]] n Jn. injection Jd as <- <-. apply (nameds_met2 _ (cxx_function_decl_good _ _ _ _ _ Ed) n Jn).
      + apply founded_all. intros ns' d' [Jd|[]] n Jn. injection Jd as <- <-. cbn [needs] in Jn. unfold fn_needs in Jn.
        destruct (cxx_rust_shim_facts _ _ _ _ _ _ Eh) as (G & C & Nb & _). rewrite !in_app_iff in Jn. destruct Jn as [Jn|[Jn|Jn]].
        * eapply meets_mono; [intros q Kq; left; exact Kq|]. exact (values_met2 _ G n Jn).
        * exfalso. clear -Jn Nb. apply in_flat_map in Jn as (s & J & Jn). specialize (Nb s J). destruct s; solve [destruct Jn] || solve [destruct Nb].
        * rewrite C in Jn. apply in_map_iff in Jn as (y & <- & Jn). apply filter_In in Jn as ([<-|[]] & _).
          exists ns, []. split; [rewrite app_nil_r; reflexivity|]. right. exists ns, (TDeclare rn (fst d) (snd d)). split; [left; reflexivity|left; reflexivity].
  Qed.

  Lemma self_declared s : In (AStruct s) apis -> forall n, In n (flat_map named [CRef true (CNamed (st_name s))]) -> meets K n.
  Proof. intros I n [<-|[]]. cbn [meets]. eapply Hdecl; [exact I|reflexivity]. Qed.
  Lemma operator_decl_founded s l : In (AStruct s) apis -> operator_decl s = Some l -> founded K l.
  Proof.
    intros I E. unfold operator_decl in E. apply obind_inv in E as (l1 & E1 & E). apply obind_inv in E as (l2 & E2 & E). injection E as <-.
    apply founded_all. intros ns d J n Jn. apply in_app_or in J as [J|J];
      [destruct (otraverse_in _ _ _ _ E1 J) as (x & _ & Ex)|destruct (otraverse_in _ _ _ _ E2 J) as (x & _ & Ex)];
      apply option_map_inv in Ex as (ln & _ & Ex); injection Ex as -> ->; cbn [needs flat_map] in Jn.
    - apply (self_declared s I). destruct Jn as [<-|[<-|[]]]; left; reflexivity.
    - apply (self_declared s I). destruct Jn as [<-|[]]; left; reflexivity.
  Qed.
  Lemma function_decl_founded a l : In a apis -> function_decl fuel T a = Some l -> founded K l.
  Proof.
    intros I E. destruct a as [|s|e|t|f|t|f|a|i]; cbn [function_decl] in E; try (injection E as <-; apply founded_nil).
    - eapply operator_decl_founded; eassumption.
    - eapply shim_founded; eassumption.
    - unfold layout_decl in E. apply founded_all. intros ns d J n Jn. destruct (otraverse_in _ _ _ _ E J) as (x & _ & Ex).
      apply option_map_inv in Ex as (ln & _ & Ex). injection Ex as -> ->. destruct Jn.
    - unfold rust_decl in E. apply obind_inv in E as (ln & _ & E). apply obind_inv in E as (d & Ed & E). injection E as <-.
      apply founded_all. intros ns d' [J|[]] n Jn. injection J as <- <-. apply (nameds_met2 _ (cxx_function_decl_good _ _ _ _ _ Ed) n Jn).
  Qed.
  Lemma trivial_founded : founded K (trivial_checks T apis).
  Proof.
    apply founded_all. intros ns d J n Jn. unfold trivial_checks in J. apply in_flat_map in J as (a & I & J). destruct a; try destruct J.
    destruct (has _ _); [|destruct J]. destruct J as [J|[]]. injection J as <- <-. destruct Jn as [<-|[]]. cbn [meets]. eapply Hcomp; [exact I|reflexivity].
  Qed.

  Lemma operator_function s ln sym l : operator_decl s = Some l -> mangle_operator (st_name s) sym = Some ln ->
    In sym (operator_decls s ++ when (derives DHash (st_derives s)) ["hash"%string]) -> provided l (Function (p_ns (st_name s) ++ [ln])).
  Proof.
    intros E M I. unfold operator_decl in E. apply obind_inv in E as (l1 & E1 & E). apply obind_inv in E as (l2 & E2 & E). injection E as <-.
    apply provided_app. apply in_app_or in I as [I|I]; [left; destruct (otraverse_has _ _ _ _ E1 I) as (x & J & Ex)|right; destruct (otraverse_has _ _ _ _ E2 I) as (x & J & Ex)];
      rewrite M in Ex; injection Ex as <-; eexists _, _; (split; [exact J|left; reflexivity]).
  Qed.
  Lemma decls_provide a ds l f : otraverse (function_decl fuel T) apis = Some ds -> In a apis -> function_decl fuel T a = Some l -> provided l f -> provided (List.concat ds) f.
  Proof.
    intros E I Ea (ns & d & J & P). destruct (otraverse_has _ _ _ _ E I) as (l' & Jl & El). rewrite Ea in El. injection El as <-.
    exists ns, d. split; [apply in_concat; exists l; auto|exact P].
  Qed.
  Lemma decls_total a ds : otraverse (function_decl fuel T) apis = Some ds -> In a apis -> exists l, function_decl fuel T a = Some l.
  Proof. intros E I. destruct (otraverse_has _ _ _ _ E I) as (l & _ & El). eauto. Qed.

  Lemma decls_founded ds hs : otraverse (function_decl fuel T) apis = Some ds -> otraverse hash_decl apis = Some hs ->
    founded K (trivial_checks T apis ++ List.concat ds ++ List.concat hs).
  Proof.
    intros Ed Eh. apply founded_app; [exact trivial_founded|]. eapply founded_mono; [intros f Kf; left; exact Kf|]. apply founded_app.
    - apply founded_concat. intros l J. destruct (otraverse_in _ _ _ _ Ed J) as (a & I & Ea). eapply function_decl_founded; eassumption.
    - apply founded_concat. intros l J. destruct (otraverse_in _ _ _ _ Eh J) as (a & I & Ea). destruct a; cbn [hash_decl] in Ea; try (injection Ea as <-; apply founded_nil).
      destruct (derives DHash (st_derives s)) eqn:H; [|injection Ea as <-; apply founded_nil]. apply option_map_inv in Ea as (ln & El & ->).
      apply founded_all. intros ns d [J'|[]] n Jn. injection J' as <- <-. cbn [needs] in Jn. destruct Jn as [<-|[<-|[]]]; cbn [meets].
      + left. eapply Hdecl; [exact I|reflexivity].
      + right. destruct (decls_total _ _ Ed I) as (l & Eo). eapply decls_provide; [exact Ed|exact I|exact Eo|]. cbn [function_decl] in Eo.
        eapply operator_function; [exact Eo|exact El|]. rewrite H. apply in_or_app. right. left. reflexivity.
  Qed.

  (** ** Definitions *)
  Variable (decls : list placed_decl) (ds : list (list placed_decl)).
  Hypothesis Hds : otraverse (function_decl fuel T) apis = Some ds.
  Hypothesis Hin : forall f, provided (List.concat ds) f -> provided decls f.
  Notation K3 := (later K decls).
  Lemma lift3 n : meets K n -> meets K3 n.
  Proof. apply meets_mono. intros f Kf. left. exact Kf. Qed.
  Lemma called a ln : In a apis -> (forall l, function_decl fuel T a = Some l -> provided l (Function (api_namespace a ++ [ln]))) -> meets K3 (Callable (api_namespace a) ln).
  Proof.
    intros I H. destruct (decls_total _ _ Hds I) as (l & El). exists (api_namespace a), []. split; [rewrite app_nil_r; reflexivity|]. right. apply Hin.
    eapply decls_provide; [exact Hds|exact I|exact El|]. apply H, El.
  Qed.

  Lemma operator_defs_in s d : In d (operator_defs s) -> In (fst d) (class_operators s) /\
    match snd d with CCall sym => In sym (operator_decls s) | CNegate o => In o (class_operators s) end.
  Proof.
    unfold operator_defs, class_operators, operator_decls. intros I.
    destruct (derives DPartialEq (st_derives s)), (derives DPartialOrd (st_derives s)), (derives DEq (st_derives s)), (derives DOrd (st_derives s)); cbn in I |- *;
      repeat (destruct I as [<-|I]; [cbn; tauto|]); destruct I.
  Qed.
  Lemma operators_founded s l : In (AStruct s) apis -> otraverse (operator_def s) (operator_defs s) = Some l -> founded K3 l.
  Proof.
    intros I E. apply founded_all. intros ns d J n Jn. destruct (otraverse_in _ _ _ _ E J) as (o & Io & Eo). destruct (operator_defs_in s o Io) as (O1 & O2).
    destruct (Hoperator s _ I O1) as (M1 & M2).
    assert (G : exists calls uses, ns = p_ns (st_name s) /\ d = TOperator (p_cxx (st_name s)) (op_text (fst o)) (op_sig (st_name s)) calls uses /\
      (forall ln, In ln calls -> meets K3 (Callable ns ln)) /\ (forall u, In u uses -> K (Member (qualified (st_name s)) u true (CAtom ABool) [CRef true (CNamed (st_name s))]))).
    { unfold operator_def in Eo. destruct (snd o) as [sym|o'].
      - apply option_map_inv in Eo as (ln & El & Ex). injection Ex as -> ->. eexists _, _. split; [reflexivity|]. split; [reflexivity|]. split; [|intros u []].
        intros ln' [<-|[]]. apply (called (AStruct s) ln I). intros l' El'. eapply operator_function; [exact El'|exact El|]. apply in_or_app. left. exact O2.
      - injection Eo as <- <-. eexists _, _. split; [reflexivity|]. split; [reflexivity|]. split; [intros ln []|]. intros u [<-|[]]. apply (Hoperator s o' I O2). }
    destruct G as (calls & uses & -> & -> & Gc & Gu). cbn [needs op_sig ms_const ms_ret ms_params] in Jn. rewrite !in_app_iff in Jn.
    destruct Jn as [[<-|[<-|[]]]|[Jn|[Jn|Jn]]].
    - cbn [meets]. left. eapply (Hcomp (AStruct s)); [exact I|reflexivity].
    - cbn [meets]. left. exact M2.
    - apply lift3. cbn [flat_map value_needs named names_in entire map app] in Jn. destruct Jn as [<-|[]]. cbn [meets]. eapply (Hdecl (AStruct s)); [exact I|reflexivity].
    - apply in_map_iff in Jn as (ln & <- & Jn). apply Gc, Jn.
    - apply in_map_iff in Jn as (u & <- & Jn). cbn [meets]. left. apply Gu, Jn.
  Qed.
  Lemma layouts_founded t l : In (ARustType t) apis -> layout_def t = Some l -> founded K3 l.
  Proof.
    intros I E. apply founded_all. intros ns d J n Jn. unfold layout_def in E. destruct (otraverse_in _ _ _ _ E J) as ((x & sym) & Ix & Ex).
    apply option_map_inv in Ex as (ln & El & Ex). injection Ex as -> ->. cbn [fst snd] in *. cbn [needs layout_sig ms_const ms_ret ms_params flat_map value_needs named names_in entire map app] in Jn.
    destruct Jn as [<-|[<-|[<-|[]]]].
    - cbn [meets]. left. eapply (Hcomp (ARustType t)); [exact I|reflexivity].
    - cbn [meets]. left. apply Hlayout; [exact I|]. destruct Ix as [Ix|[Ix|[]]]; injection Ix as <- <-; cbn; auto.
    - apply (called (ARustType t) ln I). intros l' El'. cbn [function_decl] in El'. unfold layout_decl in El'.
      assert (Is : In sym ["sizeof"; "alignof"]%string) by (destruct Ix as [Ix|[Ix|[]]]; injection Ix as <- <-; cbn; auto).
      destruct (otraverse_has _ _ _ _ El' Is) as (y & Jy & Ey). rewrite El in Ey. injection Ey as <-. eexists _, _. split; [exact Jy|left; reflexivity].
  Qed.
  Lemma rust_def_founded f l : In (ARustFunction f) apis -> rust_def fuel T false f = Some l -> founded K3 l.
  Proof.
    intros I E. cbn [rust_def] in E. apply obind_inv in E as (ln & El & E). apply obind_inv in E as (g & Eg & E).
    destruct (cxx_rust_shim_facts _ _ _ _ _ _ Eg) as (G & C & Nb & Et & Er & En & cs & Ec & Ep).
    assert (F : forall n, In n (fn_needs (p_ns (fn_name f)) g) -> meets K3 n).
    { intros n Jn. unfold fn_needs in Jn. rewrite !in_app_iff in Jn. destruct Jn as [Jn|[Jn|Jn]].
      - apply lift3. exact (values_met2 _ G n Jn).
      - exfalso. clear -Jn Nb. apply in_flat_map in Jn as (s & J & Jn). specialize (Nb s J). destruct s; solve [destruct Jn] || solve [destruct Nb].
      - rewrite C in Jn. apply in_map_iff in Jn as (y & <- & Jn). apply filter_In in Jn as ([<-|[]] & _). apply (called (ARustFunction f) ln I).
        intros l' El'. cbn [function_decl] in El'. unfold rust_decl in El'. rewrite El in El'. cbn [obind] in El'. apply obind_inv in El' as (d & _ & El'). injection El' as <-.
        eexists _, _. split; [left; reflexivity|left; reflexivity]. }
    destruct (fn_receiver f) as [r|] eqn:R.
    - apply option_map_inv in E as (p & Ers & ->). apply founded_all. intros ns d [J|[]] n Jn. injection J as <- <-. cbn [needs] in Jn.
      pose proof (Hstands _ _ Ers) as S. pose proof (Hhome f r p I R S) as Hns. apply in_app_or in Jn as [Jn|Jn]; [|apply F, Jn].
      rewrite Hns in Jn. change (p_ns p ++ [p_cxx p]) with (qualified p) in Jn. destruct Jn as [<-|[<-|[]]]; cbn [meets]; left.
      + apply Hvalue. exists (n_rust (rc_ty r)). exact Ers.
      + destruct (Hmember f r p (or_intror I) R S) as [X|(m & Em & _ & M)]; [apply Husers; constructor; exact X|].
        rewrite (method_matches f r m (cf_ret g) cs R Em Er Ec) in M. cbn [fst snd] in M.
        unfold receiver_class in Et. cbn [fn_sig sg_receiver] in Et. rewrite R, Ers in Et. injection Et as <-. rewrite Ep, En. cbn [when fn_sig sg_throws]. rewrite app_nil_r. exact M.
    - injection E as <-. apply founded_all. intros ns d [J|[]] n Jn. injection J as <- <-. apply F, Jn.
  Qed.
  Lemma function_def_founded a l : In a apis -> function_def fuel T false a = Some l -> founded K3 l.
  Proof.
    intros I E. destruct a as [|s|e|t|f|t|f|a|i]; cbn [function_def] in E; try (injection E as <-; apply founded_nil).
    - eapply operators_founded; eassumption.
    - eapply layouts_founded; eassumption.
    - eapply rust_def_founded; eassumption.
  Qed.
  Lemma header_def_founded a l : In a apis -> function_def fuel T true a = Some l -> founded K l.
  Proof.
    intros I E. destruct a as [|s|e|t|f|t|f|a|i]; cbn [function_def] in E; try (injection E as <-; apply founded_nil).
    cbn [rust_def] in E. destruct (fn_receiver f); [injection E as <-; apply founded_nil|]. apply option_map_inv in E as (s & Es & ->).
    apply founded_all. intros ns d [J|[]] n Jn. injection J as <- <-. apply (nameds_met2 _ (cxx_function_shim_decl_good _ _ _ _ Es) n Jn).
  Qed.

  (** ** Generic instantiations *)
  Lemma calls_declared k : cxx_impl_calls T k = cxx_impl_decls T k.
  Proof. reflexivity. Qed.
  Lemma extern_founded k l : impl_extern T k = Some l -> founded K l.
  Proof.
    unfold impl_extern. intros E. apply obind_inv in E as (p & Ep & E). assert (R : resolved T p) by (exists (snd k); exact Ep). destruct (specializes (fst k)) eqn:Sp.
    - apply founded_all. intros ns d J n Jn. destruct (otraverse_in _ _ _ _ E J) as (o & _ & Eo). apply option_map_inv in Eo as (ln & _ & Eo). injection Eo as -> ->.
      assert (N : n = Fact (Declared (qualified p))) by (cbn [needs flat_map] in Jn; destruct (fst k); cbn in Jn; intuition).
      subst n. cbn [meets]. apply Hnamed, R.
    - injection E as <-. apply founded_all. intros ns d [J|[]] n Jn. injection J as <- <-. cbn [needs] in Jn. destruct Jn as [<-|[<-|Jn]]; [destruct (fst k); (reflexivity || discriminate Sp)|apply Hnamed, R|].
      assert (N : n = Fact (Complete (qualified p))) by (destruct (fst k); cbn in Jn; try (destruct (is_maybe_trivial T (snd k))); cbn in Jn; intuition).
      subst n. cbn [meets]. apply Hvalue, R.
  Qed.
  Lemma impls_founded (ks : list (impl_key * option impl_)) es ms : otraverse (fun k => impl_extern T (fst k)) ks = Some es -> otraverse (fun k => impl_member T (fst k)) ks = Some ms ->
    founded K (List.concat es ++ List.concat ms).
  Proof.
    intros Ee Em. apply founded_app.
    - apply founded_concat. intros l J. destruct (otraverse_in _ _ _ _ Ee J) as (k & _ & Ek). eapply extern_founded, Ek.
    - apply founded_concat. intros l J. destruct (otraverse_in _ _ _ _ Em J) as (k & Ik & Ek). unfold impl_member in Ek. destruct (specializes (fst (fst k))) eqn:Sp; [|injection Ek as <-; apply founded_nil].
      apply obind_inv in Ek as (p & Ep & Ek). apply option_map_inv in Ek as (ls & El & ->). apply founded_all. intros ns d [J'|[]] n Jn. injection J' as <- <-.
      cbn [needs] in Jn. destruct Jn as [<-|[<-|Jn]]; [cbn [meets]; destruct (fst (fst k)); (reflexivity || discriminate Sp)|left; apply Hnamed; exists (snd (fst k)); exact Ep|]. apply in_map_iff in Jn as (ln & <- & Jn).
      destruct (otraverse_in _ _ _ _ El Jn) as (o & Io & Eo). cbn beta in Eo. subst o. rewrite calls_declared in Io.
      destruct (otraverse_has _ _ _ _ Ee Ik) as (le & Je & Ele). unfold impl_extern in Ele. rewrite Ep, Sp in Ele. cbn [obind] in Ele.
      destruct (otraverse_has _ _ _ _ Ele Io) as (y & Jy & Ey). cbn [option_map] in Ey. injection Ey as <-.
      exists [], ["rust"; "cxxbridge1"]%string. split; [reflexivity|]. right. eexists _, _. split; [apply in_concat; exists le; split; [exact Je|exact Jy]|left; reflexivity].
  Qed.
End Rest.
