(** For C86: the run of the C++ function for a Rust function or callback. *)
From Verif Require Import Base StrLib Syntax_Model Types_Model Types_Spec Check_Model Check_Spec Check_Proofs Check_Proofs2 Check_Props Mangle_Model Mangle_Spec Mangle_Proofs2
  Abi_Model Abi_Spec Abi_Proofs Expr_Model Expr_Spec Expr_Proofs2 Expr_Proofs3 CxxExpr_Model CxxExpr_Spec CxxExpr_Proofs CxxExpr_Proofs2 CxxExpr_Proofs3 Call_Spec Call_Proofs Call_Proofs2 Call_Proofs3 Call_Proofs4 Call_Proofs5 Call_Proofs6.
From Coq Require Import Lia.

Lemma split_pairs {B C} (l : list (B * C)) : combine (map fst l) (map snd l) = l.
Proof. induction l as [|(b, c) l IH]; [reflexivity|]. cbn. rewrite IH. reflexivity. Qed.

Section Run.
  Context {D A F X : Type}.
  Notation val := (val D A F X). Notation event := (event D A F X). Notation reply := (reply D A F X). Notation state := (state D A F X).
  Notation M := (M D A F X).
  Variable world : list event -> event -> reply.
  Variables (n : nat) (T : types).

  Lemma params_fit : forall (args : list (string * ty)) (vs : list val) params, otraverse (fun a => option_map (pair (fst a)) (cxx_type T (snd a))) args = Some params ->
    Forall2 (fun a v => fits (snd a) v) args vs -> Forall2 (fun p w => forall c t, snd p = CRef c t -> exists a, w = Addr a) params vs /\ (forall q, ~ In (Addr (Local q)) vs).
  Proof.
    induction args as [|(x, t) args IH]; intros vs params E Hf; inversion Hf as [|? v ? vs' Fi Hf']; subst; [injection E as <-; split; [constructor|intros q []]|].
    apply otraverse_inv in E as (p & ps & Ep & Es & ->). destruct (IH _ _ Es Hf') as (P & Q). cbn [fst snd] in *. destruct (cxx_type T t) as [c|] eqn:Ec; [|discriminate Ep]. injection Ep as <-. split.
    - constructor; [|exact P]. cbn [snd]. intros b u ->. destruct t; try (exfalso; apply (value_type T) in Ec; [apply Ec; unfold is_ref; eauto|exact I]). inversion Fi; subst; [eauto|contradiction].
    - intros q [->|I]; [inversion Fi|exact (Q q I)].
  Qed.

  Lemma from_cxx (sg : signature) x callback c d recv (vs : list val) bs (fv : val) slot (ext : list val -> M val) s :
    cxx_rust_shim n T sg x callback = Some c -> cxx_function_decl n T sg callback = Some d -> indirect_return n T sg = Some slot ->
    NoDup (map fst (sg_args sg)) -> (forall y, In y (map fst (sg_args sg)) -> plain_name y) -> has_char "$" x = true -> (forall y, x <> (y ++ "$")%string) ->
    (callback = true -> sg_receiver sg = None) -> (forall q, fv <> Addr (Local q)) -> receiver_fits (sg_receiver sg) recv ->
    Forall2 (fun a b => needs_indirect_abi n T (snd a) = Some b) (sg_args sg) bs -> Forall2 (fun a v => fits (snd a) v) (sg_args sg) vs ->
    exists ws l nr s1, wires (mem s1) l bs vs ws /\ (forall q, In q l -> q < next s1) /\ ~ In nr l /\ (slot = true -> nr < next s1) /\ trace s1 = trace s /\
      let run := run_cxx world [(x, d)] (only x ext) (option_map Outer recv) c (vs ++ when callback [fv]) s in
      let all := map (fun a => Addr (Outer a)) (match recv with Some a => [a] | None => [] end) ++ ws ++ when slot [Addr (Local nr)] ++ when callback [fv] in
      (forall s2, ext all s1 = (Aborted, s2) -> run = (Aborted, s2)) /\
      (forall e s2, sg_throws sg = true -> ext all s1 = (Done (Reply (Some e)), s2) -> exists s3, trace s3 = trace s2 /\ run = (Thrown (Some e), s3)) /\
      (forall v s2, fits_ret (sg_ret sg) v -> (slot = true -> mem s2 nr = Some (lower v)) -> next s1 <= next s2 ->
         ext all s1 = (Done (if sg_throws sg then Reply None else if slot then Unit else lowered (sg_ret sg) v), s2) -> exists s3, trace s3 = trace s2 /\ run = (Done v, s3)).
  Proof.
    intros E Ed Eslot N P I1 I2 Hcb Nfv Rf Hb Hf. unfold cxx_rust_shim in E.
    apply obind_inv in E. destruct E as (m & Em & E). apply obind_inv in E. destruct E as (rty & Eret & E).
    apply obind_inv in E. destruct E as (params & Eparams & E). apply obind_inv in E. destruct E as (drops & Edrops & E).
    rewrite Eslot in E. cbn [obind] in E. apply obind_inv in E. destruct E as (uninit & Euninit & E).
    apply obind_inv in E. destruct E as (es & Ees & E).
    set (call := CxCall x _) in *. apply obind_inv in E. destruct E as (e & Ee & E). injection E as <-.
    unfold cxx_function_decl, cxx_signature in Ed.
    apply obind_inv in Ed. destruct Ed as (dret & Edret & Ed). apply obind_inv in Ed. destruct Ed as (self & Eself & Ed).
    apply obind_inv in Ed. destruct Ed as (dargs & Edargs & Ed). apply obind_inv in Ed. destruct Ed as (out & Eout & Ed). injection Ed as <-.
    pose proof (return_value _ _ _ _ Edret) as Ndret.
    set (d := (dret, self ++ dargs ++ out ++ when callback [CPtr false CVoid])).
    destruct (trav_names _ _ _ Eparams) as (Pn & Pt). destruct (params_fit _ _ _ Eparams Hf) as (Pf & Nl).
    set (ps := params ++ when callback [("extern$"%string, CPtr false CVoid)]). set (us := vs ++ when callback [fv]).
    assert (Np : NoDup (map fst ps)).
    { unfold ps. rewrite map_app, Pn. destruct callback; cbn [when map]; [|rewrite app_nil_r; exact N]. apply NoDup_app_intro; [exact N|repeat constructor; intros []|].
      intros y I [<-|[]]. apply P in I. exact (plain_no_dollar _ "extern" I eq_refl). }
    assert (Nps : forall y, In y (map fst ps) -> In y (map fst (sg_args sg)) \/ y = "extern$").
    { intros y I. unfold ps in I. rewrite map_app, Pn in I. apply in_app_or in I. destruct I as [I|I]; [left; exact I|]. destruct callback; cbn in I; [|destruct I]. destruct I as [<-|[]]. right. reflexivity. }
    assert (Nus : forall q, ~ In (Addr (Local q)) us).
    { intros q I. unfold us in I. apply in_app_or in I. destruct I as [I|I]; [exact (Nl q I)|]. destruct callback; cbn in I; [destruct I as [I|[]]; exact (Nfv q I)|destruct I]. }
    destruct (params_run ps us s Np) as (env & s0 & R0 & (F0 & Tr0 & K0) & B0 & O0).
    { unfold ps, us. apply Forall2_app; [exact Pf|]. destruct callback; cbn [when]; [|constructor]. constructor; [|constructor]. cbn. discriminate. }
    destruct (params_range _ _ _ _ _ R0 Nus) as (_ & Rg). pose proof (params_inj _ _ _ _ _ R0 Nus) as Inj.
    assert (B : Forall2 (fun p w => bound (mem s0) env (next s) (next s0) (fst p) (snd p) w) params vs /\ Forall2 (fun p w => bound (mem s0) env (next s) (next s0) (fst p) (snd p) w) (when callback [("extern$"%string, CPtr false CVoid)]) (when callback [fv])).
    { apply forall2_split; [exact (forall2_length _ _ _ Pf)|exact B0]. }
    destruct B as (B & Bx).
    set (this := option_map Outer recv). set (externs := only x ext).
    destruct (manual_run world n T [(x, d)] externs this rty (sg_args sg) bs vs (map snd params) drops env
      (uninit ++ (if sg_throws sg then [CsLet CPtrLen "error$" e; CsThrowIf "error$"] else if slot then [CsDo e] else match sg_ret sg with Some _ => [CsReturn e] | None => [CsDo e] end) ++
        (if slot then match sg_ret sg with Some (TRef _ _ _ _) => [CsReturn (CxDeref (CxValue "return$"))] | _ => [CsReturn (CxMove (CxValue "return$"))] end else []))
      s0 (next s) (next s0) Edrops Hb Hf Pt N P) as (env1 & s1 & ks & l & ws & R1 & H1 & Tr1 & Nn1 & Sl1 & Old1 & Oth1).
    { rewrite <- Pn, split_pairs. exact B. }
    { lia. }
    { intros y p _ Fy. exact (Rg y p Fy). }
    { intros y z p _ _. apply Inj. }
    (* names *)
    assert (Ix : find_name x env1 = None).
    { rewrite Oth1 by (intros; apply I2). apply O0. intros I. apply Nps in I. destruct I as [I| ->]; [|exact (I2 "extern" eq_refl)]. apply P in I. apply plain_has in I. congruence. }
    assert (Ext : callback = true -> exists pe, find_name "extern$" env1 = Some (BVar (Local pe)) /\ mem s1 pe = Some (fv) /\ ~ In pe ks /\ pe < next s0).
    { intros Ecb. rewrite Ecb in Bx. cbn [when] in Bx. inversion Bx as [|? ? ? ? Bx0 _]; subst. cbn [fst snd bound] in Bx0. destruct Bx0 as (pe & Lp & Fp & Mp). exists pe.
      assert (No : forall y, In y (map fst (sg_args sg)) -> find_name y env <> Some (BVar (Local pe))).
      { intros y I Fy. rewrite (Inj _ _ _ Fy Fp) in I. apply P in I. exact (plain_no_dollar _ "extern" I eq_refl). }
      split; [|split; [|split; [|lia]]].
      - rewrite Oth1; [exact Fp|]. intros y I E. apply (dollar_inj "extern") in E. subst y. apply P in I. destruct I as (_ & I). apply I. cbn. auto.
      - rewrite Old1; [exact Mp|lia|exact No].
      - intros I. apply Sl1 in I. destruct I as [I|(y & I & Fy)]; [lia|]. exact (No y I Fy). }
    assert (Lks : forall q, In q ks -> q < next s1) by (intros q I; apply Sl1 in I; destruct I as [I|(y & _ & Fy)]; [lia|apply Rg in Fy; lia]).
    (* the slot of the result *)
    assert (Slot : exists env2 s2 nr, crun world [(x, d)] externs this rty env1 (uninit ++ (if sg_throws sg then [CsLet CPtrLen "error$" e; CsThrowIf "error$"] else if slot then [CsDo e] else match sg_ret sg with Some _ => [CsReturn e] | None => [CsDo e] end) ++
        (if slot then match sg_ret sg with Some (TRef _ _ _ _) => [CsReturn (CxDeref (CxValue "return$"))] | _ => [CsReturn (CxMove (CxValue "return$"))] end else [])) s1 =
      crun world [(x, d)] externs this rty env2 ((if sg_throws sg then [CsLet CPtrLen "error$" e; CsThrowIf "error$"] else if slot then [CsDo e] else match sg_ret sg with Some _ => [CsReturn e] | None => [CsDo e] end) ++
        (if slot then match sg_ret sg with Some (TRef _ _ _ _) => [CsReturn (CxDeref (CxValue "return$"))] | _ => [CsReturn (CxMove (CxValue "return$"))] end else [])) s2 /\
      trace s2 = trace s1 /\ next s1 <= next s2 /\ ~ In nr ks /\ (slot = true -> nr < next s2) /\ (forall q, q < next s1 -> mem s2 q = mem s1 q) /\
      (slot = true -> mem s2 nr = None /\ exists t ct, sg_ret sg = Some t /\ cxx_decl_return_type T t = Some ct /\ out = [CPtr false ct] /\ find_name "return$" env2 = Some (BWrap ct (Local nr))) /\
      (forall y, y <> "return$" -> find_name y env2 = find_name y env1)).
    { destruct slot.
      - destruct (sg_ret sg) as [t|] eqn:Er; [|discriminate Euninit]. destruct (cxx_decl_return_type T t) as [ct|] eqn:Ect; [|discriminate Euninit]. injection Euninit as <-.
        destruct (alloc None s1) as ([q| | | |] & s2) eqn:Ea; try discriminate Ea. pose proof Ea as Ea'. apply mem_alloc in Ea' as (-> & Nn2 & Tr2 & Mq2 & Mo2).
        exists (("return$"%string, BWrap ct (Local (next s1))) :: env1), s2, (next s1). split; [cbn [app crun]; rewrite (bind_done _ _ _ _ _ Ea); reflexivity|].
        split; [exact Tr2|]. split; [lia|]. split; [intros I; apply Lks in I; lia|]. split; [lia|]. split; [intros q Lq; apply Mo2; lia|]. split.
        + intros _. split; [exact Mq2|]. exists t, ct. split; [reflexivity|]. split; [exact Ect|]. split; [|apply find_cons_same]. unfold cxx_outparam in Eout. rewrite Eslot, Er in Eout. cbn [obind] in Eout. rewrite Ect in Eout. cbn in Eout. congruence.
        + intros y Ny. apply find_cons_other, Ny.
      - injection Euninit as <-. exists env1, s1, (next s1). split; [reflexivity|]. split; [reflexivity|]. split; [lia|]. split; [intros I; apply Lks in I; lia|]. split; [discriminate|]. split; [reflexivity|]. split; [discriminate|reflexivity]. }
    destruct Slot as (env2 & s2 & nr & R2 & Tr2 & Nn2 & Nk2 & Ln2 & K2 & Sl2 & O2).
    assert (H2 : held (mem s2) env2 ks l (sg_args sg) bs vs ws).
    { eapply held_env; [eapply held_mem; [exact H1|]|].
      - intros q I. apply K2, Lks, I.
      - intros y t I. apply (in_map fst) in I. cbn in I. apply P in I. split; apply O2; [apply (plain_no_dollar _ "return"), I|]. intros E. apply (dollar_inj y "return") in E. subst y. destruct I as (_ & I). apply I. cbn. auto. }
    (* the arguments *)
    destruct (hand_evals world n T [(x, d)] externs this _ _ _ _ _ _ _ _ H2 es dargs s2 (fun q _ => eq_refl) Ees Edargs Hb Hf) as (s3 & R3 & Tr3 & Nn3 & K3).
    assert (W3 : wires (mem s3) l bs vs ws) by (eapply wires_frame; [eapply held_wires, H2|]; intros q I; apply K3; right; exact I).
    set (recvs := map (fun a => Addr (Outer a)) (match recv with Some a => [a] | None => [] end) : list val).
    assert (Args : cevals world [(x, d)] externs this env2 (when (is_some m) [CxThis] ++ es ++ when slot [CxAddr (CxValue "return$")] ++ when callback [CxVar "extern$"]) (self ++ dargs ++ out ++ when callback [CPtr false CVoid]) s2 =
      (Done (recvs ++ ws ++ when slot [Addr (Local nr)] ++ when callback [fv]), s3)).
    { apply cevals_app with (s1 := s2); [|apply cevals_app with (s1 := s3); [exact R3|apply cevals_app with (s1 := s3)]].
      - unfold receiver_class in Em. unfold cxx_receivers, cxx_receiver in Eself. unfold recvs, this. destruct (sg_receiver sg) as [r|]; destruct recv as [a|]; try destruct Rf.
        + destruct (resolve_name T (n_rust (rc_ty r))); [|discriminate Em]. cbn in Em, Eself. injection Em as <-. injection Eself as <-. reflexivity.
        + injection Em as <-. injection Eself as <-. reflexivity.
      - destruct slot.
        + destruct (Sl2 eq_refl) as (Mn & t & ct & _ & _ & -> & Fn). cbn [when]. apply cevals_one. apply ev_init; [intros (? & ? & ?); discriminate|]. apply ev_pure, ev_addr. cbn [ceval]. rewrite Fn. unfold view.
          rewrite K3 by (left; exact Nk2). rewrite Mn. destruct ct; reflexivity.
        + unfold cxx_outparam in Eout. rewrite Eslot in Eout. injection Eout as <-. reflexivity.
      - destruct callback; [|reflexivity]. destruct (Ext eq_refl) as (pe & Fp & Mp & Npe & Lpe). cbn [when]. apply cevals_one. apply ev_init; [intros (? & ? & ?); discriminate|]. apply ev_read with (p := pe).
        + apply ev_var. rewrite O2 by discriminate. exact Fp.
        + rewrite K3 by (left; exact Npe). rewrite K2 by lia. exact Mp. }
    assert (Call : ceval world [(x, d)] externs this env2 call s2 = bind (ext (recvs ++ ws ++ when slot [Addr (Local nr)] ++ when callback [fv])) (returned_as dret) s3).
    { unfold call. cbn [ceval]. rewrite O2 by (apply (I2 "return")). rewrite Ix. unfold d. rewrite find_cons_same. fold d. fold (cevals world [(x, d)] externs this env2). rewrite (bind_done _ _ _ _ _ Args). unfold externs, only. rewrite String.eqb_refl. reflexivity. }
    exists ws, l, nr, s3. split; [exact W3|]. split; [intros q I; rewrite Nn3; apply (held_sub _ _ _ _ _ _ _ _ H2), Lks in I; lia|]. split; [intros I; apply Nk2; eapply held_sub; eassumption|].
    split; [rewrite Nn3; exact Ln2|]. split; [congruence|]. cbn zeta. fold recvs. set (all := recvs ++ ws ++ when slot [Addr (Local nr)] ++ when callback [fv]) in *.
    set (tail := (if sg_throws sg then [CsLet CPtrLen "error$" e; CsThrowIf "error$"] else if slot then [CsDo e] else match sg_ret sg with Some _ => [CsReturn e] | None => [CsDo e] end) ++
        (if slot then match sg_ret sg with Some (TRef _ _ _ _) => [CsReturn (CxDeref (CxValue "return$"))] | _ => [CsReturn (CxMove (CxValue "return$"))] end else [])) in *.
    assert (Run : forall r s4, crun world [(x, d)] externs this rty env2 tail s2 = (r, s4) ->
      run_cxx world [(x, d)] externs this (CxxFn m rty ps (negb (sg_throws sg)) (drops ++ uninit ++ tail)) us s = match r with Thrown e => (if negb (sg_throws sg) then Aborted else Thrown e, s4) | r => (r, s4) end).
    { intros r s4 R. unfold run_cxx. cbn [cf_params cf_ret cf_body cf_noexcept]. rewrite (bind_done _ _ _ _ _ R0). unfold tail in R1. fold tail in R1. rewrite R1, R2, R. destruct r; reflexivity. }
    assert (Te : tail = (if sg_throws sg then [CsLet CPtrLen "error$" e; CsThrowIf "error$"] else if slot then [CsDo e] else match sg_ret sg with Some _ => [CsReturn e] | None => [CsDo e] end) ++
        (if slot then match sg_ret sg with Some (TRef _ _ _ _) => [CsReturn (CxDeref (CxValue "return$"))] | _ => [CsReturn (CxMove (CxValue "return$"))] end else [])) by reflexivity.
    assert (Ret : forall u s4, ext all s3 = (Done u, s4) -> ceval world [(x, d)] externs this env2 call s2 = (Done (PV u), s4)).
    { intros u s4 Eu. rewrite Call, (bind_done _ _ _ _ _ Eu). destruct dret; try reflexivity. exfalso. apply Ndret. unfold is_ref. eauto. }
    split; [|split].
    - (* abort *)
      intros s4 Ea. assert (Ca : ceval world [(x, d)] externs this env2 call s2 = (Aborted, s4)) by (rewrite Call; unfold bind; rewrite Ea; reflexivity).
      assert (Ca' : ceval world [(x, d)] externs this env2 e s2 = (Aborted, s4)).
      { destruct slot; [injection Ee as <-; exact Ca|]. eapply take_abort; [exact Ee|exact Ca]. }
      rewrite (Run Aborted s4); [reflexivity|]. rewrite Te. destruct (sg_throws sg); [|destruct slot; [|destruct (sg_ret sg)]]; cbn [app crun]; unfold bind; rewrite Ca'; reflexivity.
    - intros x0 s4 Th Eu. apply Ret in Eu. 
      assert (e = call) as -> by (destruct slot; [congruence|]; unfold indirect_return in Eslot; rewrite Th in Eslot; destruct (sg_ret sg); [discriminate Eslot|]; cbn in Ee; congruence).
      destruct (alloc (Some (Reply (Some x0))) s4) as ([q| | | |] & s5) eqn:Ea; try discriminate Ea. pose proof Ea as Ea'. apply mem_alloc in Ea' as (-> & Nn5 & Tr5 & Mq5 & Mo5).
      exists s5. split; [exact Tr5|]. rewrite (Run (Thrown (Some x0)) s5); [rewrite Th; reflexivity|]. rewrite Te, Th. cbn [app crun]. rewrite (bind_done _ _ _ (Reply (Some x0)) s4) by (rewrite (bind_done _ _ _ _ _ Eu); reflexivity).
      rewrite (bind_done _ _ _ _ _ Ea). rewrite find_cons_same. rewrite (bind_done _ _ _ _ _ (read_local _ _ _ Mq5)). reflexivity.
    - intros v s4 Fv Ms Ln Eu. apply Ret in Eu.
      (* the value in memory *)
      assert (Fin : forall env3 s5, slot = true -> find_name "return$" env3 = find_name "return$" env2 -> mem s5 nr = mem s4 nr -> 
        exists s6, crun world [(x, d)] externs this rty env3 (match sg_ret sg with Some (TRef _ _ _ _) => [CsReturn (CxDeref (CxValue "return$"))] | _ => [CsReturn (CxMove (CxValue "return$"))] end) s5 = (Done v, s6) /\ trace s6 = trace s5).
      { intros env3 s5 Es Ef Mr. destruct (Sl2 Es) as (_ & t & ct & Er & Ect & _ & Fn). rewrite Er in *. cbn [fits_ret] in Fv. cbn [return_type] in Eret. rewrite <- Ef in Fn. rewrite <- Mr in Ms.
        destruct (slot_eval world T [(x, d)] externs this t ct rty env3 nr v s5 Ect Eret Fv Fn (Ms Es)) as (s6 & R6 & Tr6). exists s6. split; [|exact Tr6]. destruct t; exact R6. }
      destruct (sg_throws sg) eqn:Th.
      + assert (e = call) as -> by (destruct slot; [congruence|]; unfold indirect_return in Eslot; rewrite Th in Eslot; destruct (sg_ret sg); [discriminate Eslot|]; cbn in Ee; congruence).
        destruct (alloc (Some (Reply None)) s4) as ([q| | | |] & s5) eqn:Ea; try discriminate Ea. pose proof Ea as Ea'. apply mem_alloc in Ea' as (-> & Nn5 & Tr5 & Mq5 & Mo5).
        assert (St : crun world [(x, d)] externs this rty env2 tail s2 = crun world [(x, d)] externs this rty (("error$"%string, BVar (Local (next s4))) :: env2) (if slot then match sg_ret sg with Some (TRef _ _ _ _) => [CsReturn (CxDeref (CxValue "return$"))] | _ => [CsReturn (CxMove (CxValue "return$"))] end else []) s5).
        { rewrite Te. cbn [app crun]. rewrite (bind_done _ _ _ (Reply None) s4) by (rewrite (bind_done _ _ _ _ _ Eu); reflexivity). rewrite (bind_done _ _ _ _ _ Ea). rewrite find_cons_same. rewrite (bind_done _ _ _ _ _ (read_local _ _ _ Mq5)). reflexivity. }
        destruct slot.
        * destruct (Fin (("error$"%string, BVar (Local (next s4))) :: env2) s5 eq_refl) as (s6 & R6 & Tr6); [apply find_cons_other; discriminate|apply Mo5; specialize (Ln2 eq_refl); lia|].
          exists s6. split; [congruence|]. rewrite (Run (Done v) s6); [reflexivity|]. rewrite St. exact R6.
        * unfold indirect_return in Eslot. rewrite Th in Eslot. destruct (sg_ret sg); [discriminate Eslot|]. cbn in Fv. subst v. exists s5. split; [exact Tr5|]. rewrite (Run (Done Unit) s5); [reflexivity|]. rewrite St. reflexivity.
      + destruct slot.
        * injection Ee as <-. destruct (Fin env2 s4 eq_refl eq_refl eq_refl) as (s6 & R6 & Tr6). exists s6. split; [exact Tr6|]. rewrite (Run (Done v) s6); [reflexivity|]. rewrite Te. cbn [app crun]. rewrite (bind_done _ _ _ _ _ Eu). exact R6.
        * exists s4. split; [reflexivity|]. rewrite (Run (Done v) s4); [reflexivity|]. rewrite Te, app_nil_r. destruct (sg_ret sg) as [t|].
          -- cbn [crun]. cbn [return_type] in Eret. cbn [fits_ret] in Fv. cbn [lowered] in Eu. exact (take_eval world T [(x, d)] externs this t e call env2 rty v s2 s4 Ee Eret Fv Eu).
          -- cbn in Fv. subst v. cbn in Ee. injection Ee as <-. cbn [crun]. rewrite (bind_done _ _ _ _ _ Eu). reflexivity.
  Qed.
End Run.
