(** For C86: the C++ function for a Rust function. *)
From Verif Require Import Base StrLib Syntax_Model Types_Model Types_Spec Check_Model Check_Spec Check_Proofs Check_Proofs2 Check_Props Mangle_Model Mangle_Spec Mangle_Proofs2
  Abi_Model Abi_Spec Abi_Proofs Expr_Model Expr_Spec Expr_Proofs2 Expr_Proofs3 CxxExpr_Model CxxExpr_Spec CxxExpr_Proofs CxxExpr_Proofs2 CxxExpr_Proofs3 Call_Spec Call_Proofs Call_Proofs2 Call_Proofs3 Call_Proofs4 Call_Proofs5.
From Coq Require Import Lia.

Section Shim.
  Context {D A F X : Type}.
  Notation val := (val D A F X). Notation event := (event D A F X). Notation reply := (reply D A F X). Notation state := (state D A F X).
  Notation M := (M D A F X).
  Lemma params_range : forall (l : list (string * cty)) (ws : list val) s env s', params l ws s = (Done env, s') ->
    (forall q, ~ In (Addr (Local q)) ws) -> next s <= next s' /\ forall x p, find_name x env = Some (BVar (Local p)) -> next s <= p < next s'.
  Proof.
    induction l as [|(z, t) l IH]; intros ws s env s' P Lw; [destruct ws; [|discriminate P]; injection P as <- <-; split; [lia|discriminate]|]. destruct ws as [|w ws]; [destruct t; discriminate P|].
    assert (Lw' : forall q, ~ In (Addr (Local q)) ws) by (intros q I; apply (Lw q); right; exact I).
    assert (V : bind (alloc (Some w)) (fun n => bind (params l ws) (fun env => ret ((z, BVar (Local n)) :: env))) s = (Done env, s') -> next s <= next s' /\ forall x p, find_name x env = Some (BVar (Local p)) -> next s <= p < next s').
    { unfold bind. destruct (alloc (Some w) s) as ([q| | | |] & s1) eqn:Ea; try discriminate. apply mem_alloc in Ea as (-> & Nn & _). destruct (params l ws s1) as ([e| | | |] & s2) eqn:E; try discriminate. intros Q. injection Q as <- <-.
      destruct (IH _ _ _ _ E Lw') as (U & R). split; [lia|]. intros x p Fx. destruct (String.eqb_spec x z) as [->|N]; [rewrite find_cons_same in Fx; injection Fx as <-; lia|]. rewrite find_cons_other in Fx by exact N. apply R in Fx. lia. }
    destruct t; try exact (V P). cbn [params] in P. destruct w; try discriminate P. unfold bind in P. destruct (params l ws s) as ([e| | | |] & s2) eqn:E; try discriminate P. injection P as <- <-.
    destruct (IH _ _ _ _ E Lw') as (U & R). split; [exact U|]. intros x p Fx. destruct (String.eqb_spec x z) as [->|N]; [rewrite find_cons_same in Fx; injection Fx as ->; exfalso; apply (Lw p); left; reflexivity|]. rewrite find_cons_other in Fx by exact N. exact (R _ _ Fx).
  Qed.
  Lemma params_inj : forall (l : list (string * cty)) (ws : list val) s env s', params l ws s = (Done env, s') ->
    (forall q, ~ In (Addr (Local q)) ws) -> forall x y p, find_name x env = Some (BVar (Local p)) -> find_name y env = Some (BVar (Local p)) -> x = y.
  Proof.
    induction l as [|(z, t) l IH]; intros ws s env s' P Lw x y p Fx Fy; [destruct ws; [|discriminate P]; injection P as <- _; discriminate Fx|]. destruct ws as [|w ws]; [destruct t; discriminate P|].
    assert (Lw' : forall q, ~ In (Addr (Local q)) ws) by (intros q I; apply (Lw q); right; exact I).
    assert (V : bind (alloc (Some w)) (fun n => bind (params l ws) (fun env => ret ((z, BVar (Local n)) :: env))) s = (Done env, s') -> x = y).
    { unfold bind. destruct (alloc (Some w) s) as ([q| | | |] & s1) eqn:Ea; try discriminate. apply mem_alloc in Ea as (-> & Nn & _). destruct (params l ws s1) as ([e| | | |] & s2) eqn:E; try discriminate. intros Q. injection Q as <- <-.
      destruct (params_range _ _ _ _ _ E Lw') as (_ & R).
      destruct (String.eqb_spec x z) as [->|Nx]; [rewrite find_cons_same in Fx; injection Fx as <-|rewrite find_cons_other in Fx by exact Nx];
        (destruct (String.eqb_spec y z) as [->|Ny]; [rewrite find_cons_same in Fy|rewrite find_cons_other in Fy by exact Ny]).
      - reflexivity.
      - apply R in Fy. lia.
      - injection Fy as <-. apply R in Fx. lia.
      - eapply IH; eassumption. }
    destruct t; try exact (V P). cbn [params] in P. destruct w; try discriminate P. unfold bind in P. destruct (params l ws s) as ([e| | | |] & s2) eqn:E; try discriminate P. injection P as <- <-.
    assert (No : a = Local p -> False) by (intros ->; apply (Lw p); left; reflexivity).
    destruct (String.eqb_spec x z) as [->|Nx]; [rewrite find_cons_same in Fx; injection Fx as Fx; destruct (No Fx)|rewrite find_cons_other in Fx by exact Nx].
    destruct (String.eqb_spec y z) as [->|Ny]; [rewrite find_cons_same in Fy; injection Fy as Fy; destruct (No Fy)|rewrite find_cons_other in Fy by exact Ny].
    eapply IH; eassumption.
  Qed.

  Variable world : list event -> event -> reply.
  Variables (n : nat) (T : types).
  Variables (decls : list (string * (cty * list cty))) (externs : string -> list val -> M val) (this : option (addr A)).

  (** The arguments after those that are handed over were moved. [ks]: the slots of all,
      [l]: of those passed in memory. *)
  Inductive held (m : nat -> option val) (env : list (string * binding)) : list nat -> list nat -> list (string * ty) -> list bool -> list val -> list val -> Prop :=
  | he_nil : held m env [] [] [] [] [] []
  | he_ref ks l x p mu lt t args bs a vs ws : find_name x env = Some (BVar a) -> held m env ks l args bs vs ws ->
      held m env ks l ((x, TRef p mu lt t) :: args) (false :: bs) (Addr a :: vs) (Addr a :: ws)
  | he_direct ks l x t args bs p v vs ws : match t with TRef _ _ _ _ => False | _ => True end -> find_name x env = Some (BVar (Local p)) -> m p = Some v -> ~ In p ks -> held m env ks l args bs vs ws ->
      held m env (p :: ks) l ((x, t) :: args) (false :: bs) (v :: vs) (lower v :: ws)
  | he_slot ks l x t args bs p v vs ws : (if is_rust_string t then find_name x env = Some (BVar (Local p)) else exists c, find_name (x ++ "$") env = Some (BWrap c (Local p))) ->
      m p = Some v -> (exists d, v = Data d) -> ~ In p ks -> held m env ks l args bs vs ws ->
      held m env (p :: ks) (p :: l) ((x, t) :: args) (true :: bs) (v :: vs) (Addr (Local p) :: ws).
  Lemma held_sub m env ks l args bs vs ws : held m env ks l args bs vs ws -> forall q, In q l -> In q ks.
  Proof. induction 1; intros q I; auto; try (right; auto; fail). destruct I as [->|I]; [left; reflexivity|right; auto]. Qed.
  Lemma held_mem m m' env ks l args bs vs ws : held m env ks l args bs vs ws -> (forall q, In q ks -> m' q = m q) -> held m' env ks l args bs vs ws.
  Proof.
    induction 1; intros K; econstructor; eauto; try (rewrite K; [assumption|left; reflexivity]); apply IHheld; intros q I; apply K; right; exact I.
  Qed.
  Lemma held_env m env env' ks l args bs vs ws : held m env ks l args bs vs ws -> (forall x t, In (x, t) args -> find_name x env' = find_name x env /\ find_name (x ++ "$") env' = find_name (x ++ "$") env) -> held m env' ks l args bs vs ws.
  Proof.
    induction 1; intros K; econstructor; eauto; try (rewrite (proj1 (K _ _ (or_introl eq_refl))); assumption); try (apply IHheld; intros y u I; apply (K y u); right; exact I).
    destruct (K _ _ (or_introl eq_refl)) as (K1 & K2). destruct (is_rust_string t); [rewrite K1|rewrite K2]; assumption.
  Qed.
  Lemma held_wires m env ks l args bs vs ws : held m env ks l args bs vs ws -> wires m l bs vs ws.
  Proof.
    induction 1; [constructor|apply (wi_direct m l bs vs ws (Addr a)); assumption|constructor; assumption|constructor; auto]. intros I. apply H2. eapply held_sub; eassumption.
  Qed.

  Lemma manual_run rty args : forall bs (vs : list val) cts drops env rest s lo hi, manual n T args = Some drops ->
    Forall2 (fun a b => needs_indirect_abi n T (snd a) = Some b) args bs -> Forall2 (fun a v => fits (snd a) v) args vs ->
    otraverse (fun a => cxx_type T (snd a)) args = Some cts -> NoDup (map fst args) -> (forall x, In x (map fst args) -> plain_name x) ->
    Forall2 (fun p w => bound (mem s) env lo hi (fst p) (snd p) w) (combine (map fst args) cts) vs ->
    hi <= next s -> (forall x p, In x (map fst args) -> find_name x env = Some (BVar (Local p)) -> lo <= p < hi) ->
    (forall x y p, In x (map fst args) -> In y (map fst args) -> find_name x env = Some (BVar (Local p)) -> find_name y env = Some (BVar (Local p)) -> x = y) ->
    exists env' s' ks l ws, crun world decls externs this rty env (drops ++ rest) s = crun world decls externs this rty env' rest s' /\
      held (mem s') env' ks l args bs vs ws /\ trace s' = trace s /\ next s <= next s' /\
      (forall q, In q ks -> next s <= q < next s' \/ exists x, In x (map fst args) /\ find_name x env = Some (BVar (Local q))) /\
      (forall q, q < next s -> (forall x, In x (map fst args) -> find_name x env <> Some (BVar (Local q))) -> mem s' q = mem s q) /\
      (forall y, (forall x, In x (map fst args) -> y <> (x ++ "$")%string) -> find_name y env' = find_name y env).
  Proof.
    induction args as [|(x, t) args IH]; intros bs vs cts drops env rest s lo hi Ed Hb Hf Ec N P B Lh Rg Inj.
    - inversion Hb; inversion Hf; subst. injection Ed as <-. exists env, s, [], [], []. split; [reflexivity|]. split; [constructor|]. split; [reflexivity|]. split; [lia|]. split; [intros q []|]. split; reflexivity.
    - inversion Hb as [|? b ? bs' Eb Hb']; inversion Hf as [|? v ? vs' Fi Hf']; subst. apply otraverse_inv in Ec as (c & cts' & Ec & Ecs & ->). cbn [fst snd] in *.
      cbn [map fst combine] in *. inversion B as [|? ? ? ? Bx B']; subst. cbn [fst snd] in Bx. inversion N as [|? ? Nx N']; subst.
      cbn [manual] in Ed. apply obind_inv in Ed. destruct Ed as (mv & Emv & Ed). apply obind_inv in Ed. destruct Ed as (l1 & El1 & Ed). destruct (manual n T args) as [drops'|] eqn:Ed'; [|discriminate Ed]. injection Ed as <-.
      assert (P' : forall x, In x (map fst args) -> plain_name x) by (intros y I; apply P; right; exact I).
      assert (Rg' : forall y p, In y (map fst args) -> find_name y env = Some (BVar (Local p)) -> lo <= p < hi) by (intros y p I; apply Rg; right; exact I).
      assert (Inj' : forall y z p, In y (map fst args) -> In z (map fst args) -> find_name y env = Some (BVar (Local p)) -> find_name z env = Some (BVar (Local p)) -> y = z) by (intros y z p I J; apply Inj; right; assumption).
      assert (Xd : forall y, In y (map fst args) -> x <> (y ++ "$")%string) by (intros y I; apply plain_no_dollar, P; left; reflexivity).
      assert (Own : forall p y, find_name x env = Some (BVar (Local p)) -> In y (map fst args) -> find_name y env <> Some (BVar (Local p))).
      { intros p y Fp I Fy. apply Nx. rewrite (Inj x y p); auto. left. reflexivity. right. exact I. }
      (* an argument that stays in its variable *)
      assert (Stay : l1 = [] -> (b = false \/ is_rust_string t = true) ->
        exists env' s' ks l ws, crun world decls externs this rty env ((l1 ++ drops') ++ rest) s = crun world decls externs this rty env' rest s' /\
          held (mem s') env' ks l ((x, t) :: args) (b :: bs') (v :: vs') ws /\ trace s' = trace s /\ next s <= next s' /\
          (forall q, In q ks -> next s <= q < next s' \/ exists y, In y (x :: map fst args) /\ find_name y env = Some (BVar (Local q))) /\
          (forall q, q < next s -> (forall y, In y (x :: map fst args) -> find_name y env <> Some (BVar (Local q))) -> mem s' q = mem s q) /\
          (forall y, (forall z, In z (x :: map fst args) -> y <> (z ++ "$")%string) -> find_name y env' = find_name y env)).
      { intros -> Hd. destruct (IH bs' vs' cts' drops' env rest s lo hi eq_refl Hb' Hf' Ecs N' P' B' Lh Rg' Inj') as (env' & s' & ks & l & ws & R & H & Tr & Nn & Sl & Old & Oth).
        assert (Fx : find_name x env' = find_name x env) by (apply Oth; exact Xd).
        assert (Rest : forall ks', (forall q, In q ks' -> In q ks \/ find_name x env = Some (BVar (Local q))) ->
          trace s' = trace s /\ next s <= next s' /\
          (forall q, In q ks' -> next s <= q < next s' \/ exists y, In y (x :: map fst args) /\ find_name y env = Some (BVar (Local q))) /\
          (forall q, q < next s -> (forall y, In y (x :: map fst args) -> find_name y env <> Some (BVar (Local q))) -> mem s' q = mem s q) /\
          (forall y, (forall z, In z (x :: map fst args) -> y <> (z ++ "$")%string) -> find_name y env' = find_name y env)).
        { intros ks' Hk. split; [exact Tr|]. split; [exact Nn|]. split; [|split].
          - intros q I. apply Hk in I. destruct I as [I|Fq]; [|right; exists x; split; [left; reflexivity|exact Fq]]. apply Sl in I. destruct I as [J|(y & J & K)]; [left; exact J|right; exists y; split; [right; exact J|exact K]].
          - intros q Lq Nq. apply Old; [exact Lq|]. intros y I. apply Nq. right. exact I.
          - intros y Ny. apply Oth. intros z I. apply Ny. right. exact I. }
        assert (Val : match t with TRef _ _ _ _ => False | _ => True end -> exists env' s' ks l ws, crun world decls externs this rty env (([] ++ drops') ++ rest) s = crun world decls externs this rty env' rest s' /\
          held (mem s') env' ks l ((x, t) :: args) (b :: bs') (v :: vs') ws /\ trace s' = trace s /\ next s <= next s' /\
          (forall q, In q ks -> next s <= q < next s' \/ exists y, In y (x :: map fst args) /\ find_name y env = Some (BVar (Local q))) /\
          (forall q, q < next s -> (forall y, In y (x :: map fst args) -> find_name y env <> Some (BVar (Local q))) -> mem s' q = mem s q) /\
          (forall y, (forall z, In z (x :: map fst args) -> y <> (z ++ "$")%string) -> find_name y env' = find_name y env)).
        { intros Nt. assert (Nr : ~ is_ref c) by (eapply value_type; [exact Ec|exact Nt]).
          apply (bound_value _ _ _ _ _ _ _ Nr) in Bx. destruct Bx as (p & Lp & Fp & Mp).
          assert (Mp' : mem s' p = Some v) by (rewrite Old; [exact Mp|lia|]; intros y I; apply (Own p y Fp I)).
          assert (Np : ~ In p ks) by (intros I; apply Sl in I; destruct I as [I|(y & I & Fy)]; [lia|]; exact (Own p y Fp I Fy)).
          exists env', s', (p :: ks). destruct b.
          - exists (p :: l), (Addr (Local p) :: ws). split; [exact R|]. split; [|apply Rest; intros q [<-|I]; auto].
            destruct (direct_not_data n T t true v Eb Fi eq_refl) as (d & ->).
            apply he_slot; [destruct Hd as [Hd|Hd]; [discriminate Hd|]; rewrite Hd; congruence|exact Mp'|eauto|exact Np|exact H].
          - exists l, (lower v :: ws). split; [exact R|]. split; [|apply Rest; intros q [<-|I]; auto]. apply he_direct; [exact Nt|congruence|exact Mp'|exact Np|exact H]. }
        destruct t; try exact (Val I).
        assert (b = false) by (cbn in Eb; congruence). subst b. cbn [cxx_type] in Ec. destruct (cxx_type T t) as [ct|]; [|discriminate Ec]. injection Ec as <-. destruct Bx as (a & -> & Fa).
        exists env', s', ks, l, (Addr a :: ws). split; [exact R|]. split; [apply he_ref; [congruence|exact H]|]. apply Rest; auto. }
      destruct (is_rust_string t) eqn:Es; [injection Emv as <-; injection El1 as <-; apply Stay; [reflexivity|right; reflexivity]|].
      rewrite Eb in Emv. injection Emv as <-. destruct b; [|injection El1 as <-; apply Stay; [reflexivity|left; reflexivity]]. clear Stay.
      rewrite Ec in El1. injection El1 as <-. destruct (direct_not_data n T t true v Eb Fi eq_refl) as (d & ->).
      assert (Nr : ~ is_ref c) by (eapply value_type; [exact Ec|]; destruct t; try exact I; discriminate Eb). apply (bound_value _ _ _ _ _ _ _ Nr) in Bx. destruct Bx as (p & Lp & Fp & Mp).
      set (s1 := set_mem p None s). destruct (alloc (Some (Data d)) s1) as ([q| | | |] & s2) eqn:Ea; try discriminate Ea. pose proof Ea as Ea'. apply mem_alloc in Ea' as (-> & Nn2 & Tr2 & Mq2 & Mo2). cbn in Nn2, Tr2.
      set (env1 := ((x ++ "$")%string, BWrap c (Local (next s1))) :: env).
      assert (F1 : forall y, In y (map fst args) -> find_name y env1 = find_name y env).
      { intros y I. unfold env1. apply find_cons_other. apply P' in I. apply (plain_no_dollar _ x I). }
      destruct (IH bs' vs' cts' drops' env1 rest s2 lo hi eq_refl Hb' Hf' Ecs N' P') as (env' & s' & ks & l & ws & R & H & Tr & Nn & Sl & Old & Oth).
      { eapply forall2_in; [|exact B']. intros (y, u) w I Hp. cbn [fst snd] in *. assert (Iy : In y (map fst args)) by (apply (in_combine_l _ _ _ _ I)). 
        eapply bound_env; [|apply F1; exact Iy]. destruct u; cbn [bound] in Hp |- *; try exact Hp; destruct Hp as (k & Lk & Fk & Mk); exists k; (split; [exact Lk|]); (split; [exact Fk|]);
          rewrite Mo2 by (cbn; lia); cbn; (destruct (Nat.eqb_spec k p) as [->|]; [exfalso; exact (Own p y Fp Iy Fk)|exact Mk]). }
      { lia. }
      { intros y k I Fy. rewrite F1 in Fy by exact I. exact (Rg' y k I Fy). }
      { intros y z k I J Fy Fz. rewrite F1 in Fy by exact I. rewrite F1 in Fz by exact J. exact (Inj' y z k I J Fy Fz). }
      assert (Nk : ~ In (next s1) ks).
      { intros I. apply Sl in I. change (next s1) with (next s) in I. destruct I as [I|(y & I & Fy)]; [lia|]. rewrite F1 in Fy by exact I. apply Rg' in Fy; [lia|exact I]. }
      exists env', s', (next s1 :: ks), (next s1 :: l), (Addr (Local (next s1)) :: ws). split; [|split; [|split; [congruence|split; [lia|split; [|split]]]]].
      + cbn [app crun]. rewrite Fp. rewrite (bind_done _ _ _ (Data d) s1) by (unfold take; rewrite Mp; reflexivity). rewrite (bind_done _ _ _ _ _ Ea). exact R.
      + apply he_slot; [rewrite Es| |eauto|exact Nk|exact H].
        * exists c. rewrite Oth; [apply find_cons_same|]. intros y I E. apply dollar_inj in E. subst y. exact (Nx I).
        * rewrite Old; [exact Mq2|cbn; lia|]. intros y I Fy. rewrite F1 in Fy by exact I. apply Rg' in Fy; [cbn in Fy; lia|exact I].
      + intros k [<-|I]; [left; cbn; lia|]. apply Sl in I. destruct I as [I|(y & I & Fy)]; [left; lia|]. rewrite F1 in Fy by exact I. right. exists y. split; [right; exact I|exact Fy].
      + intros k Lk Nk'. rewrite Old; [rewrite Mo2 by (cbn; lia)|lia|]. 
        * apply mem_set_other. intros ->. apply (Nk' x); [left; reflexivity|exact Fp].
        * intros y I Fy. rewrite F1 in Fy by exact I. apply (Nk' y); [right; exact I|exact Fy].
      + intros y Ny. rewrite Oth by (intros z I; apply Ny; right; exact I). unfold env1. apply find_cons_other. apply Ny. left. reflexivity.
  Qed.
  (** The run of the C++ function. *)
  Notation ceval := (ceval world decls externs this). Notation cevals := (cevals world decls externs this).
  Lemma extern_arg_ref t c u : cxx_extern_arg n T t = Some (CRef c u) -> exists p m l z, t = TRef p m l z.
  Proof.
    unfold cxx_extern_arg. intros G. apply obind_inv in G. destruct G as (z & Ez & G). apply obind_inv in G. destruct G as (b & Eb & G). destruct b; [discriminate G|]. injection G as ->.
    destruct t; eauto; try (exfalso; apply (value_type T) in Ez; [apply Ez; unfold is_ref; eauto|exact I]); destruct (cxx_type T t); discriminate Ez.
  Qed.
  Lemma hand_evals : forall m env ks l args bs (vs ws : list val), held m env ks l args bs vs ws -> forall es ds s, (forall q, In q ks -> mem s q = m q) ->
    otraverse (fun a => hand_arg n T (fst a) (snd a)) args = Some es -> otraverse (fun a => cxx_extern_arg n T (snd a)) args = Some ds ->
    Forall2 (fun a b => needs_indirect_abi n T (snd a) = Some b) args bs -> Forall2 (fun a v => fits (snd a) v) args vs ->
    exists s', cevals env es ds s = (Done ws, s') /\ trace s' = trace s /\ next s' = next s /\ (forall q, ~ In q ks \/ In q l -> mem s' q = mem s q).
  Proof.
    induction 1 as [|ks l x p mu lt t args bs a vs ws Fx H IH|ks l x t args bs p v vs ws Nt Fx Mp Np H IH|ks l x t args bs p v vs ws Fx Mp Hd Np H IH]; intros es ds s Hm E Ed Hb Hf.
    - injection E as <-. injection Ed as <-. exists s. repeat split; reflexivity.
    - apply otraverse_inv in E as (e & es' & Ee & Es & ->). apply otraverse_inv in Ed as (d & ds' & Ed & Eds & ->). inversion Hb as [|? ? ? ? Eb Hb']; inversion Hf as [|? ? ? ? Fi Hf']; subst. cbn [fst snd] in *.
      unfold hand_arg in Ee. rewrite Eb in Ee. cbn in Ee. injection Ee as <-. unfold cxx_extern_arg in Ed. rewrite Eb in Ed. cbn [cxx_type] in Ed. destruct (cxx_type T t); [|discriminate Ed]. cbn in Ed. injection Ed as <-.
      destruct (IH es' ds' s Hm Es Eds Hb' Hf') as (s' & R & Tr & Nn & K). exists s'. split; [|auto].
      cbn [Call_Spec.cevals]. rewrite (bind_done _ _ _ (Addr a) s) by (apply ev_init_ref, ev_var, Fx). fold (cevals env). rewrite (bind_done _ _ _ _ _ R). reflexivity.
    - rewrite <- Hm in Mp by (left; reflexivity). apply otraverse_inv in E as (e & es' & Ee & Es & ->). apply otraverse_inv in Ed as (d & ds' & Ed & Eds & ->). inversion Hb as [|? ? ? ? Eb Hb']; inversion Hf as [|? ? ? ? Fi Hf']; subst. cbn [fst snd] in *.
      assert (Nd : ~ is_ref d) by (intros (c & u & ->); apply extern_arg_ref in Ed as (? & ? & ? & ? & ->); contradiction).
      assert (One : exists s1, bind (ceval env e) (init d) s = (Done (lower v), s1) /\ trace s1 = trace s /\ next s1 = next s /\ forall q, q <> p -> mem s1 q = mem s q).
      { unfold hand_arg in Ee. rewrite Eb in Ee. cbn [obind] in Ee. rewrite Bool.andb_false_r in Ee.
        assert (Plain : e = CxVar x -> lower v = v -> exists s1, bind (ceval env e) (init d) s = (Done (lower v), s1) /\ trace s1 = trace s /\ next s1 = next s /\ forall q, q <> p -> mem s1 q = mem s q).
        { intros -> ->. exists s. split; [|auto]. apply ev_init; [exact Nd|]. eapply ev_read; [apply ev_var, Fx|exact Mp]. }
        destruct t; try (injection Ee as <-; apply Plain; [reflexivity|]; inversion Fi; subst; try contradiction; reflexivity); injection Ee as <-; inversion Fi; subst; try contradiction;
          exists (set_mem p None s); (split; [|split; [reflexivity|split; [reflexivity|]]; intros q Nq; apply mem_set_other, Nq]); apply ev_init; try exact Nd; apply ev_pure; [apply ev_into_raw|apply ev_release];
          rewrite (bind_done _ _ _ _ _ (ev_var _ _ _ _ _ _ _ _ Fx)); apply take_local, Mp. }
      destruct One as (s1 & R1 & Tr1 & Nn1 & K1).
      destruct (IH es' ds' s1) as (s' & R & Tr & Nn & K); try assumption.
      { intros q I. rewrite K1; [apply Hm; right; exact I|]. intros ->. exact (Np I). }
      exists s'. split; [|split; [congruence|split; [congruence|]]].
      + cbn [Call_Spec.cevals]. rewrite (bind_done _ _ _ _ _ R1). fold (cevals env). rewrite (bind_done _ _ _ _ _ R). reflexivity.
      + intros q Hq. rewrite K, K1; [reflexivity| |].
        * intros ->. destruct Hq as [Hq|Hq]; [apply Hq; left; reflexivity|]. apply Np. eapply held_sub; eassumption.
        * destruct Hq as [Hq|Hq]; [left; intros I; apply Hq; right; exact I|right; exact Hq].
    - rewrite <- Hm in Mp by (left; reflexivity). apply otraverse_inv in E as (e & es' & Ee & Es & ->). apply otraverse_inv in Ed as (d & ds' & Ed & Eds & ->). inversion Hb as [|? ? ? ? Eb Hb']; inversion Hf as [|? ? ? ? Fi Hf']; subst. cbn [fst snd] in *.
      destruct Hd as (d0 & ->).
      assert (Nd : ~ is_ref d) by (intros (c & u & ->); apply extern_arg_ref in Ed as (? & ? & ? & ? & ->); discriminate Eb).
      assert (One : bind (ceval env e) (init d) s = (Done (Addr (Local p)), s)).
      { apply ev_init; [exact Nd|]. apply ev_pure. unfold hand_arg in Ee. rewrite Eb in Ee. cbn [obind] in Ee.
        assert (Ee' : CxAddr (if negb (is_rust_string t) && true then CxValue (x ++ "$") else CxVar x) = e) by (destruct t; try discriminate Eb; injection Ee as <-; reflexivity).
        subst e. rewrite Bool.andb_true_r. apply ev_addr. destruct (is_rust_string t); cbn [negb].
        - apply ev_var, Fx.
        - destruct Fx as (c & Fx). cbn [Call_Spec.ceval]. rewrite Fx. unfold view. rewrite Mp. destruct c; reflexivity. }
      destruct (IH es' ds' s) as (s' & R & Tr & Nn & K); try assumption.
      { intros q I. apply Hm. right. exact I. }
      exists s'. split; [|split; [exact Tr|split; [exact Nn|]]].
      + cbn [Call_Spec.cevals]. rewrite (bind_done _ _ _ _ _ One). fold (cevals env). rewrite (bind_done _ _ _ _ _ R). reflexivity.
      + intros q Hq. apply K. destruct Hq as [Hq|[<-|Hq]]; [left; intros I; apply Hq; right; exact I|left; exact Np|right; exact Hq].
  Qed.

  Lemma cevals_app env : forall es1 ts1 es2 ts2 (us1 us2 : list val) s s1 s2, cevals env es1 ts1 s = (Done us1, s1) -> cevals env es2 ts2 s1 = (Done us2, s2) -> cevals env (es1 ++ es2) (ts1 ++ ts2) s = (Done (us1 ++ us2), s2).
  Proof.
    induction es1 as [|e es1 IH]; intros [|t ts1] es2 ts2 us1 us2 s s1 s2 E1 E2; try discriminate E1; [injection E1 as <- <-; exact E2|].
    cbn [app Call_Spec.cevals] in *. fold (cevals env) in *. unfold bind at 1 in E1. unfold bind at 1. destruct (bind (ceval env e) (init t) s) as ([v| | | |] & s3); try discriminate E1.
    unfold bind in E1. destruct (cevals env es1 ts1 s3) as ([us| | | |] & s4) eqn:E; try discriminate E1. injection E1 as <- <-. rewrite (bind_done _ _ _ _ _ (IH _ _ _ _ _ _ _ _ E E2)). reflexivity.
  Qed.
  Lemma cevals_one env e t (v : val) s s1 : bind (ceval env e) (init t) s = (Done v, s1) -> cevals env [e] [t] s = (Done [v], s1).
  Proof. intros E. cbn [Call_Spec.cevals]. rewrite (bind_done _ _ _ _ _ E). reflexivity. Qed.

  (** The result of the call. *)
  Lemma take_eval t e call env c (v : val) s s' : take_result T (Some t) call = Some e -> cxx_type T t = Some c -> fits t v -> ceval env call s = (Done (PV (lower v)), s') ->
    bind (ceval env e) (init c) s = (Done v, s').
  Proof.
    intros E Ec Fi H.
    assert (Nr : match t with TRef _ _ _ _ => False | _ => True end -> ~ is_ref c) by (apply (value_type T); exact Ec).
    destruct t; cbn [take_result] in E; try discriminate Ec;
      try (injection E as <-; apply ev_init; [apply Nr; exact I|]; apply ev_pure; rewrite H; inversion Fi; subst; try contradiction; reflexivity).
    - destruct (cxx_type T t); [|discriminate E]. injection E as <-. inversion Fi; subst; [|contradiction]. apply ev_init; [apply Nr; exact I|]. apply ev_pure, ev_from_raw, ev_pure, H.
    - destruct (cxx_type T t); [|discriminate E]. injection E as <-. inversion Fi; subst; [|contradiction]. apply ev_init; [apply Nr; exact I|]. apply ev_pure, ev_unique, ev_pure, H.
    - injection E as <-. cbn [cxx_type] in Ec. destruct (cxx_type T t); [|discriminate Ec]. injection Ec as <-. inversion Fi; subst; [|contradiction]. apply ev_init_ref, ev_deref, ev_pure, H.
    - injection E as <-. inversion Fi; subst. apply ev_init; [apply Nr; exact I|]. apply ev_pure. cbn [Call_Spec.ceval]. rewrite bind_assoc, (bind_done _ _ _ _ _ H). reflexivity.
    - destruct (cxx_type T (TSlice mutable lt t)); [|discriminate E]. injection E as <-. inversion Fi; subst. apply ev_init; [apply Nr; exact I|]. apply ev_pure. cbn [Call_Spec.ceval]. rewrite bind_assoc, (bind_done _ _ _ _ _ H). reflexivity.
  Qed.
  Lemma take_abort r e call env s s' : take_result T r call = Some e -> ceval env call s = (Aborted, s') -> ceval env e s = (Aborted, s').
  Proof.
    intros E H. destruct r as [t|]; [|injection E as <-; exact H]. destruct t; cbn [take_result] in E; try (injection E as <-; try exact H);
      try (match type of E with option_map _ ?o = _ => destruct o; [|discriminate E] end; injection E as <-); cbn [Call_Spec.ceval]; unfold bind; rewrite ?H; reflexivity.
  Qed.
  (** The result in memory. *)
  Lemma slot_eval t c rty env nr (v : val) s : cxx_decl_return_type T t = Some c -> cxx_type T t = Some rty -> fits t v -> find_name "return$" env = Some (BWrap c (Local nr)) -> mem s nr = Some (lower v) ->
    exists s', bind (ceval env (match t with TRef _ _ _ _ => CxDeref (CxValue "return$") | _ => CxMove (CxValue "return$") end)) (init rty) s = (Done v, s') /\ trace s' = trace s.
  Proof.
    intros Ec Er Fi Fn Mn.
    assert (Nr : match t with TRef _ _ _ _ => False | _ => True end -> ~ is_ref rty) by (apply (value_type T); exact Er).
    assert (Look : forall u s1, view c (Local nr) s = (Done (LV (Local nr)), s1) -> mem s1 nr = Some u -> ceval env (CxMove (CxValue "return$")) s = (Done (PV u), set_mem nr None s1)).
    { intros u s1 Ev Mu. apply ev_move with (p := nr); [|exact Mu]. cbn [Call_Spec.ceval]. rewrite Fn. exact Ev. }
    assert (Data' : forall u, lower u = u -> (match u with Addr _ => False | _ => True end) -> v = u -> ~ is_ref rty -> exists s', bind (ceval env (CxMove (CxValue "return$"))) (init rty) s = (Done v, s') /\ trace s' = trace s).
    { intros u Lu Nu -> Nrt. rewrite Lu in Mn. exists (set_mem nr None s). split; [|reflexivity]. apply ev_init; [exact Nrt|]. apply ev_pure. apply Look; [|exact Mn]. unfold view. rewrite Mn. destruct c; try reflexivity; destruct u; try reflexivity; contradiction. }
    destruct t; try discriminate Er; try (inversion Fi; subst; try contradiction; eapply Data'; [| |reflexivity|apply Nr; exact I]; [reflexivity|exact I]).
    - cbn [cxx_decl_return_type cxx_type] in Ec. destruct (cxx_type T t) as [u|]; [|discriminate Ec]. injection Ec as <-. inversion Fi; subst; [|contradiction]. cbn [lower] in Mn.
      eexists. split; [apply ev_init; [apply Nr; exact I|]; apply ev_pure; eapply Look; [unfold view; rewrite Mn; reflexivity|apply mem_set]|reflexivity].
    - cbn [cxx_decl_return_type cxx_type] in Ec. destruct (cxx_type T t) as [u|]; [|discriminate Ec]. injection Ec as <-. inversion Fi; subst; [|contradiction]. cbn [lower] in Mn.
      eexists. split; [apply ev_init; [apply Nr; exact I|]; apply ev_pure; eapply Look; [unfold view; rewrite Mn; reflexivity|apply mem_set]|reflexivity].
    - cbn [cxx_decl_return_type cxx_type] in Ec, Er. destruct (cxx_type T t) as [u|]; [|discriminate Ec]. injection Ec as <-. injection Er as <-. inversion Fi; subst; [|contradiction]. cbn [lower] in Mn.
      exists s. split; [|reflexivity]. apply ev_init_ref, ev_deref. apply ev_read with (p := nr); [|exact Mn]. cbn [Call_Spec.ceval]. rewrite Fn. reflexivity.
    - cbn [cxx_decl_return_type cxx_type] in Ec. destruct (cxx_type T t) as [u|]; [|discriminate Ec]. injection Ec as <-. inversion Fi; subst; [|contradiction]. cbn [lower] in Mn.
      exists (set_mem nr None s). split; [|reflexivity]. apply ev_init; [apply Nr; exact I|]. apply ev_pure. apply Look; [reflexivity|exact Mn].
  Qed.
End Shim.
