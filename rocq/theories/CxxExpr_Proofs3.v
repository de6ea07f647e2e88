(** Proofs for C85: the C++ functions that call a Rust function. *)
From Verif Require Import Base StrLib Syntax_Model Types_Model Types_Spec Check_Model Check_Spec Check_Proofs Check_Proofs2 Check_Props Mangle_Model Mangle_Spec Mangle_Proofs2
  Abi_Model Abi_Spec Abi_Proofs Expr_Proofs2 Expr_Proofs3 CxxExpr_Model CxxExpr_Spec CxxExpr_Proofs CxxExpr_Proofs2.

(** A symbol does not end in $. *)
Lemma pushes_app l : forall s l2 r, sym_pushes s (l ++ l2) = Some r -> exists m, sym_pushes s l = Some m /\ sym_pushes m l2 = Some r.
Proof.
  induction l as [|a l IH]; intros s l2 r E; [exists s; split; [reflexivity|exact E]|]. cbn [app sym_pushes] in *. destruct (sym_push s a); [|discriminate]. apply IH, E.
Qed.
Lemma push_longer s a r : sym_push s a = Some r -> r <> "".
Proof. unfold sym_push. destruct (Nat.ltb _ _) eqn:L; [|discriminate]. intros E ->. injection E as E. rewrite E in L. destruct s; discriminate L. Qed.
Lemma pushes_longer l : forall s r, (s <> "" \/ l <> []) -> sym_pushes s l = Some r -> r <> "".
Proof.
  induction l as [|a l IH]; intros s r H E; [cbn in E; injection E as <-; destruct H as [H|H]; [exact H|destruct (H eq_refl)]|].
  cbn [sym_pushes] in E. destruct (sym_push s a) as [m|] eqn:Em; [|discriminate]. apply (IH m r); [left; apply (push_longer _ _ _ Em)|exact E].
Qed.
Lemma join_last l s r : l <> [] -> sym_join (l ++ [s]) = Some r -> exists a, r = (a ++ "$" ++ s)%string.
Proof.
  intros H. unfold sym_join. destruct (sym_pushes "" (l ++ [s])) as [x|] eqn:E; [|discriminate]. destruct (String.eqb x ""); [discriminate|]. intros K. injection K as <-.
  apply pushes_app in E. destruct E as (m & E1 & E2). apply pushes_longer in E1; [|right; exact H]. cbn [sym_pushes] in E2. destruct (sym_push m s) as [y|] eqn:Ey; [|discriminate].
  injection E2 as <-. unfold sym_push in Ey. destruct (String.eqb_spec m ""); [contradiction|]. destruct (Nat.ltb _ _); [|discriminate]. injection Ey as <-. exists m. rewrite append_assoc. reflexivity.
Qed.
Fixpoint last_char (s : string) (d : Ascii.ascii) : Ascii.ascii := match s with EmptyString => d | String c s => last_char s c end.
Lemma last_char_app s t d : last_char (s ++ t) d = last_char t (last_char s d).
Proof. revert d. induction s; intros d; [reflexivity|]. apply IHs. Qed.
Lemma last_char_ne s : s <> "" -> forall d e, last_char s d = last_char s e.
Proof. destruct s; [congruence|reflexivity]. Qed.
Lemma last_char_in s : forall d, s <> "" -> has_char (last_char s d) s = true.
Proof.
  induction s as [|c s IH]; intros d H; [congruence|]. cbn [last_char has_char]. destruct s as [|c' s'].
  - cbn. rewrite Ascii.eqb_refl. reflexivity.
  - rewrite (IH c) by discriminate. apply orb_true_r.
Qed.
Lemma no_final_dollar a s y : s <> "" -> has_char "$" s = false -> (a ++ "$" ++ s)%string <> (y ++ "$")%string.
Proof.
  intros Hs Hd E. apply (f_equal (fun z => last_char z "a"%char)) in E. rewrite !last_char_app in E. cbn in E.
  pose proof (last_char_in s (last_char "$" (last_char a "a"%char)) Hs) as K. cbn in K. rewrite E in K. congruence.
Qed.
Lemma plain_has x : plain_name x -> has_char "$" x = false.
Proof.
  intros (H & _). destruct (has_char "$" x) eqn:E; [|reflexivity]. exfalso. clear -H E. revert H E. induction x as [|c x IH]; intros H E; [discriminate E|].
  cbn [has_char] in E. destruct (Ascii.eqb_spec c "$") as [->|N].
  - apply (H "" x). reflexivity.
  - apply IH; [|destruct (Ascii.eqb_spec "$" c); [congruence|exact E]]. intros a b ->. apply (H (String c a) b). reflexivity.
Qed.

Section Shim.
  Variables (gen : generator) (ord : nat -> list string -> list string) (apis : list api) (T : types) (n : nat).
  Hypothesis Hacc : accepted_bridge gen ord apis T.

  Lemma pair_combine {A B} (l : list (A * B)) : combine (map fst l) (map snd l) = l.
  Proof. induction l as [|[a b] l IH]; [reflexivity|]. cbn. rewrite IH. reflexivity. Qed.

  Lemma cxx_rust_shim_typed s invoke callback decl w :
    (forall x t u, In (x, t) (sg_args s) -> t <> TCxxVector u) ->
    NoDup (map fst (sg_args s)) -> (forall x, In x (map fst (sg_args s)) -> plain_name x) ->
    has_char "$" invoke = true -> (forall y, invoke <> (y ++ "$")%string) -> (callback = true -> sg_receiver s = None) ->
    cxx_rust_shim n T s invoke callback = Some w -> cxx_function_decl n T s callback = Some decl ->
    exists cs, documented apis (sg_receiver s) (sg_args s) (sg_ret s) (cf_this w) (cf_ret w) cs /\
      cf_params w = combine (map fst (sg_args s)) cs ++ when callback [("extern$"%string, CPtr false CVoid)] /\ cf_noexcept w = negb (sg_throws s) /\
      (cxx_fn_typed (passed_directly apis) [(invoke, decl)] [] w <-> ~ (sg_throws s = true /\ exists t, In ("error"%string, t) (sg_args s) /\ moved n T t)).
  Proof.
    intros NV N P I1 I2 Hcb E D. unfold cxx_rust_shim in E.
    apply obind_inv in E. destruct E as (m & Em & E). apply obind_inv in E. destruct E as (ret & Eret & E).
    apply obind_inv in E. destruct E as (params & Eparams & E). apply obind_inv in E. destruct E as (drops & Edrops & E).
    apply obind_inv in E. destruct E as (slot & Eslot & E). apply obind_inv in E. destruct E as (uninit & Euninit & E).
    apply obind_inv in E. destruct E as (args & Eargs & E).
    set (call := CxCall invoke _) in *. apply obind_inv in E. destruct E as (e & Ee & E). injection E as <-.
    unfold cxx_function_decl, cxx_signature in D.
    apply obind_inv in D. destruct D as (dret & Edret & D). apply obind_inv in D. destruct D as (self & Eself & D).
    apply obind_inv in D. destruct D as (dargs & Edargs & D). apply obind_inv in D. destruct D as (out & Eout & D). injection D as <-.
    destruct (trav_names _ _ _ Eparams) as (Pn & Pt). exists (map snd params). cbn [cf_this cf_ret cf_params cf_noexcept cf_body].
    assert (Hm : match sg_receiver s with None => m = None /\ self = [] | Some r => exists p, stands_for apis (n_rust (rc_ty r)) p /\ m = Some (negb (rc_mutable r), CNamed p) /\ self = [CRef (negb (rc_mutable r)) (CNamed p)] end).
    { unfold receiver_class in Em. unfold cxx_receivers, cxx_receiver in Eself. destruct (sg_receiver s) as [r|]; [|split; congruence].
      destruct (resolve_name T (n_rust (rc_ty r))) as [p|] eqn:R; [|discriminate]. exists p. split; [apply (resolve_stands _ _ _ _ Hacc), R|]. cbn in Em, Eself. split; congruence. }
    split; [|split; [rewrite <- Pn, pair_combine; reflexivity|split; [reflexivity|]]].
    { split; [|split].
      - destruct (sg_receiver s); [|apply Hm]. destruct Hm as (p & A & B & _). eauto.
      - unfold return_type in Eret. destruct (sg_ret s); [apply (denotes_ok _ _ _ _ Hacc), Eret|congruence].
      - apply (denotes_list _ _ _ _ Hacc), Pt. }
    set (ps := params ++ when callback [("extern$"%string, CPtr false CVoid)]).
    assert (Np : NoDup (map fst ps)).
    { unfold ps. rewrite map_app, Pn. destruct callback; cbn [when map]; [|rewrite app_nil_r; exact N]. apply NoDup_app_intro; [exact N|repeat constructor; intros []|].
      intros x I [<-|[]]. apply P in I. exact (plain_no_dollar _ "extern" I eq_refl). }
    assert (Nps : forall y, In y (map fst ps) -> In y (map fst (sg_args s)) \/ y = "extern$").
    { intros y I. unfold ps in I. rewrite map_app, Pn in I. apply in_app_or in I. destruct I as [I|I]; [left; exact I|]. destruct callback; cbn in I; [|destruct I]. destruct I as [<-|[]]. right. reflexivity. }
    assert (Dn : forall y, y <> "extern" -> find_name (y ++ "$") (params_env ps) = None).
    { intros y Hy. apply find_none. rewrite env_names. intros I. apply Nps in I. destruct I as [I|I]; [apply P in I; exact (plain_no_dollar _ y I eq_refl)|]. apply Hy. apply (dollar_inj _ "extern"). exact I. }
    unfold cxx_fn_typed. cbn [cf_this cf_ret cf_params cf_body]. fold ps. split.
    - intros (_ & B) (Th & t & It & Mv). destruct (manual_taken apis n T [(invoke, (dret, self ++ dargs ++ out ++ when callback [CPtr false CVoid]))] m [] ret (sg_args s) _ _ _ Edrops B) as (G' & B' & _ & Tk).
      specialize (Tk "error"%string t It Mv). rewrite Th in B'. destruct slot.
      + destruct (sg_ret s) as [r|]; [|discriminate]. destruct (cxx_decl_return_type T r); [|discriminate]. injection Euninit as <-. cbn [app] in B'. inversion B'; subst.
        match goal with H : cstmts _ _ _ _ _ _ (CsLet _ _ _ :: _) |- _ => inversion H; subst end. apply Tk. match goal with H : find_name "error$" _ = None |- _ => exact H end.
      + injection Euninit as <-. cbn [app] in B'. inversion B'; subst. apply Tk. match goal with H : find_name "error$" _ = None |- _ => exact H end.
    - intros Ne. split; [exact Np|].
      apply (manual_ok apis n T _ m [] ret (sg_args s) drops); [exact Edrops|exact N|exact P| | |].
      + intros x t I. destruct (trav_in _ _ _ Eparams x t I) as (c & Ec & Ic). exists c. split; [exact Ec|]. apply find_in; [rewrite env_names; exact Np|].
        apply env_in. unfold ps. apply in_or_app. left. exact Ic.
      + intros x I. apply Dn. apply P in I. intros ->. destruct I as (_ & I). apply I. cbn. auto.
      + intros G' HG HM.
        assert (Kr : find_name "return$" G' = None).
        { rewrite HG; [apply (Dn "return"); discriminate|]. intros x t I _ E. apply (dollar_inj "return") in E. subst x. apply (in_map fst) in I. apply P in I. destruct I as (_ & I). apply I. cbn. auto. }
        set (F := [(invoke, (dret, self ++ dargs ++ out ++ when callback [CPtr false CVoid]))]).
        (* in any later scope *)
        assert (Main : forall G, (forall y, y <> "return$" -> find_name y G = find_name y G') ->
          (forall c, out = [CPtr false c] -> find_name "return$" G = Some (LUninit c)) ->
          forall t v, returned dret t v -> ctyped (passed_directly apis) F m G call t v).
        { intros G H1 H2 t v R. unfold call. eapply ct_call; [|apply find_eq| |exact R].
          - rewrite H1 by apply (I2 "return"). rewrite HG by (intros; apply I2). apply find_none. rewrite env_names. intros I. apply Nps in I. destruct I as [I| ->]; [|exact (I2 "extern" eq_refl)].
            apply P in I. apply plain_has in I. congruence.
          - apply cinits_app; [|apply cinits_app; [|apply cinits_app]].
            + destruct (sg_receiver s) as [r|].
              * destruct Hm as (p & _ & -> & ->). cbn. constructor; [|constructor]. eapply ci_ref; [apply ct_this; reflexivity|auto].
              * destruct Hm as (-> & ->). constructor.
            + eapply (cinits_args _ _ _ _ (hand_arg n T) (cxx_extern_arg n T)); [exact Eargs|exact Edargs|]. intros x u e' d I Ee' Ed.
              destruct (trav_in _ _ _ Eparams x u I) as (c & Ec & Ic). pose proof (P x (in_map fst _ _ I)) as Px.
              apply (hand_arg_ok gen ord apis T n Hacc F m G x u e' d c); try assumption.
              * intros w'. apply (NV x); exact I.
              * rewrite H1 by (apply (plain_no_dollar _ "return"), Px). rewrite HG by (intros; apply plain_no_dollar, Px). apply find_in; [rewrite env_names; exact Np|].
                apply env_in. unfold ps. apply in_or_app. left. exact Ic.
              * intros Es Ei. rewrite H1; [apply (HM x u); [exact I|split; assumption|exact Ec]|]. intros E. apply (dollar_inj x "return") in E. subst x. destruct Px as (_ & Px). apply Px. cbn. auto.
            + destruct (outparam_cases T n _ _ _ Eout) as [(Es & r & c & _ & _ & ->)|(Es & ->)]; rewrite Eslot in Es; injection Es as ->; cbn [when]; [|constructor].
              constructor; [|constructor]. apply ci_move; [nr|]. apply ct_addr. apply ct_uninit. apply H2. reflexivity.
            + destruct callback; cbn [when]; [|constructor]. constructor; [|constructor]. apply (ci_copy _ _ _ _ _ _ false); [nr| |apply pd_ptr].
              apply ct_var; [|nr]. rewrite H1 by discriminate. rewrite HG.
              * apply find_in; [rewrite env_names; exact Np|]. apply env_in. unfold ps. apply in_or_app. right. left. reflexivity.
              * intros x t' I _ E. apply (dollar_inj "extern") in E. subst x. apply (in_map fst) in I. apply P in I. destruct I as (_ & I). apply I. cbn. auto. }
        assert (Ke : sg_throws s = true -> find_name "error$" G' = None).
        { intros Th. rewrite HG; [apply (Dn "error"); discriminate|]. intros x t I Mv E. apply (dollar_inj "error") in E. subst x. apply Ne. split; [exact Th|]. exists t. split; assumption. }
        unfold cxx_return in Edret. destruct (outparam_cases T n _ _ _ Eout) as [(Es & r & c & Er & Ec & Eo)|(Es & Eo)]; rewrite Eslot in Es; injection Es as ->; cbn [when] in *.
        * (* through a slot *)
          rewrite Er in *. rewrite Ec in Euninit. injection Euninit as <-. injection Ee as <-. cbn [app]. apply cb_uninit; [exact Kr|].
          set (G2 := ("return$"%string, LUninit c) :: G'). cbn [return_type] in Eret.
          assert (Done : forall G, find_name "return$" G = Some (LUninit c) ->
            cstmts (passed_directly apis) F m [] ret G match r with TRef _ _ _ _ => [CsReturn (CxDeref (CxValue "return$"))] | _ => [CsReturn (CxMove (CxValue "return$"))] end).
          { intros G L.
            assert (K : (forall p b l u, r <> TRef p b l u) -> cstmts (passed_directly apis) F m [] ret G [CsReturn (CxMove (CxValue "return$"))]).
            { intros Nr. assert (Ecr : cxx_decl_return_type T r = cxx_type T r) by (destruct r; try reflexivity; destruct (Nr _ _ _ _ eq_refl)). rewrite Ecr, Eret in Ec. injection Ec as <-.
              apply cb_return; [apply (not_void T r), Eret|]. apply ci_move; [apply (no_ref_type T r); assumption|]. apply ct_move, ct_uninit, L. }
            destruct r; try (apply K; discriminate). cbn [cxx_decl_return_type cxx_type] in Ec, Eret. destruct (cxx_type T r) as [cu|]; [|discriminate]. injection Ec as <-. injection Eret as <-.
            apply cb_return; [discriminate|]. eapply ci_ref; [eapply ct_deref, ct_uninit, L|auto]. }
          assert (Call : forall t v, returned dret t v -> ctyped (passed_directly apis) F m G2 call t v).
          { apply Main; [intros y Hy; apply find_ne, Hy|]. intros d Ed. rewrite Eo in Ed. injection Ed as <-. apply find_eq. }
          destruct (sg_throws s) eqn:Th.
          -- injection Edret as <-. cbn [app]. apply cb_let; [unfold G2; rewrite find_ne by discriminate; apply Ke; reflexivity|apply ci_move; [nr|]; apply Call; constructor; nr|].
             apply cb_throw_if; [apply find_eq|]. apply Done. rewrite find_ne by discriminate. apply find_eq.
          -- assert (Xr : dret = CVoid).
             { unfold indirect_return in Eslot. rewrite Er, Th in Eslot. unfold cxx_extern_return in Edret. destruct r; try discriminate Eslot; rewrite Eslot in Edret; cbn in Edret; congruence. }
             cbn [app]. eapply cb_do; [apply Call; exact (eq_ind_r (fun d => returned d CVoid None) (re_value CVoid ltac:(nr)) Xr)|]. apply Done. apply find_eq.
        * injection Euninit as <-. cbn [app]. rewrite app_nil_r.
          assert (Call : forall t v, returned dret t v -> ctyped (passed_directly apis) F m G' call t v).
          { apply Main; [reflexivity|]. intros d Ed. rewrite Eo in Ed. discriminate Ed. }
          unfold indirect_return in Eslot. destruct (sg_ret s) as [r|] eqn:Er.
          -- destruct (sg_throws s) eqn:Th; [discriminate Eslot|]. cbn [return_type] in Eret. apply cb_return; [apply (not_void T r), Eret|].
             apply (take_result_ok apis T n F m G' r call e ret dret); assumption.
          -- injection Ee as <-. injection Eret as <-. destruct (sg_throws s) eqn:Th.
             ++ injection Edret as <-. apply cb_let; [apply Ke; reflexivity|apply ci_move; [nr|]; apply Call; constructor; nr|]. apply cb_throw_if; [apply find_eq|]. apply cb_end. reflexivity.
             ++ cbn in Edret. injection Edret as <-. eapply cb_do; [apply Call; constructor; nr|]. apply cb_end. reflexivity.
  Qed.
End Shim.
