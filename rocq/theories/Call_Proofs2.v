(** Lemmas for C86: from Rust to C++. *)
From Verif Require Import Base StrLib Syntax_Model Types_Model Abi_Model Mangle_Model Expr_Model Expr_Spec CxxExpr_Model CxxExpr_Spec Call_Spec Call_Proofs.
From Coq Require Import Lia.

Section Out.
  Context {D A F X : Type}.
  Notation val := (val D A F X). Notation state := (state D A F X). Notation event := (event D A F X).
  Notation M := (M D A F X). Notation reply := (reply D A F X).
  Variable world : list event -> event -> reply.

  Lemma forall2_in {B C} (P Q : B -> C -> Prop) l l' : (forall a b, In a l -> P a b -> Q a b) -> Forall2 P l l' -> Forall2 Q l l'.
  Proof. intros H. induction 1; constructor; [apply H; [left; reflexivity|assumption]|]. apply IHForall2. intros a b I. apply H. right. exact I. Qed.

  Definition frame (s s' : state) : Prop := next s <= next s' /\ trace s' = trace s /\ forall n, n < next s -> mem s' n = mem s n.
  Lemma frame_refl s : frame s s.
  Proof. repeat split; auto. Qed.
  Lemma frame_trans a b c : frame a b -> frame b c -> frame a c.
  Proof. intros (P & Q & R) (P2 & Q2 & R2). split; [lia|]. split; [congruence|]. intros n L. rewrite R2 by lia. auto. Qed.
  Lemma frame_alloc (o : option val) s n s' : alloc o s = (Done n, s') -> frame s s'.
  Proof. intros E. apply mem_alloc in E as (-> & N & T & _ & K). split; [lia|]. split; [exact T|]. intros k L. apply K. lia. Qed.

  (** The arguments as variables of the wrapper, with the slots of those in memory. *)
  Inductive staged (m : nat -> option val) (env : list (string * val)) : list nat -> list string -> list bool -> list val -> Prop :=
  | sg_nil : staged m env [] [] [] []
  | sg_direct l x xs bs v vs : lookup x env = Some v -> staged m env l xs bs vs -> staged m env l (x :: xs) (false :: bs) (v :: vs)
  | sg_slot n l x xs bs v vs : lookup x env = Some (Uninit n) -> m n = Some v -> ~ In n l -> staged m env l xs bs vs -> staged m env (n :: l) (x :: xs) (true :: bs) (v :: vs).
  Lemma staged_env m env env' l xs bs vs : staged m env l xs bs vs -> (forall x, In x xs -> lookup x env' = lookup x env) -> staged m env' l xs bs vs.
  Proof.
    induction 1; intros H'; econstructor; eauto; try (rewrite H'; [assumption|left; reflexivity]); apply IHstaged; intros z I; apply H'; right; exact I.
  Qed.
  Lemma staged_mem m m' env l xs bs vs : staged m env l xs bs vs -> (forall n, In n l -> m' n = m n) -> staged m' env l xs bs vs.
  Proof.
    induction 1; intros H'; econstructor; eauto; try (rewrite H'; [assumption|left; reflexivity]). apply IHstaged; intros z I; apply H'; right; exact I.
  Qed.

  Section Wrapper.
    Variable calls : string -> list val -> M val.
    Variables (n : nat) (T : types).

    Lemma tramp_run args : forall (vs : list val) env rest value s, Forall2 (fun a v => fits (snd a) v /\ lookup (fst a) env = Some v) args vs ->
      NoDup (map fst args) -> ~ In "_" (map fst args) ->
      exists env', rrun world calls env (trampolines args ++ rest) value s = rrun world calls env' rest value s /\
        Forall2 (fun a v => lookup (fst a) env' = Some (in_cxx v)) args vs /\ (forall y, ~ In y (map fst args) -> lookup y env' = lookup y env).
    Proof.
      induction args as [|(x, t) args IH]; intros vs env rest value s H N U.
      - inversion H; subst. exists env. repeat split; auto.
      - inversion H as [|? v ? vs' (Fi & Lk) H']; subst. cbn [map fst] in N, U. inversion N as [|? ? Nx N']; subst. assert (Ux : x <> "_") by (intros ->; apply U; left; reflexivity).
        assert (Same : in_cxx v = v -> exists env', rrun world calls env (trampolines args ++ rest) value s = rrun world calls env' rest value s /\
            Forall2 (fun a v => lookup (fst a) env' = Some (in_cxx v)) ((x, t) :: args) (v :: vs') /\ (forall y, ~ In y (map fst ((x, t) :: args)) -> lookup y env' = lookup y env)).
        { intros Ev. destruct (IH vs' env rest value s H' N') as (env' & R & Fa & O); [intros I; apply U; right; exact I|]. exists env'. split; [exact R|]. split.
          - constructor; [|exact Fa]. cbn [fst]. rewrite (O x Nx), Ev. exact Lk.
          - intros y Ny. apply O. intros I. apply Ny. right. exact I. }
        cbn [fst snd] in Fi, Lk. destruct t; try (cbn [trampolines flat_map snd app]; apply Same; inversion Fi; subst; reflexivity). inversion Fi; subst; [|contradiction].
        cbn [trampolines flat_map snd app fst]. fold (trampolines args). cbn [rrun reval]. rewrite Lk. rewrite bind_assoc, bind_ret. cbn [convert]. rewrite bind_ret.
        destruct (IH vs' ((x, FatOf f) :: env) rest value s) as (env' & R & Fa & O); [| exact N' | intros I; apply U; right; exact I|].
        + eapply forall2_in; [|exact H']. intros (y, u) w I (P & Q). split; [exact P|]. rewrite lookup_cons_other; [exact Q|]. cbn [fst]. intros ->. apply Nx. apply (in_map fst) in I. exact I.
        + exists env'. split; [exact R|]. split.
          * constructor; [|exact Fa]. cbn [fst]. rewrite (O x Nx). apply lookup_cons_same. exact Ux.
          * intros y Ny. cbn [map fst] in Ny. rewrite O; [|intros I; apply Ny; right; exact I]. apply lookup_cons_other. intros ->. apply Ny. left. reflexivity.
    Qed.

    Lemma setup_run args : forall bs (vs : list val) env st rest value s, Forall2 (fun a b => needs_indirect_abi n T (snd a) = Some b) args bs -> setup n T args = Some st ->
      Forall2 (fun a v => lookup (fst a) env = Some v) args vs -> NoDup (map fst args) -> ~ In "_" (map fst args) ->
      exists env' s' l, rrun world calls env (st ++ rest) value s = rrun world calls env' rest value s' /\ frame s s' /\
        staged (mem s') env' l (map fst args) bs vs /\ (forall q, In q l -> next s <= q < next s') /\ (forall y, ~ In y (map fst args) -> lookup y env' = lookup y env).
    Proof.
      induction args as [|(x, t) args IH]; intros bs vs env st rest value s Hb E H N U.
      - inversion H; inversion Hb; subst. injection E as <-. exists env, s, []. split; [reflexivity|]. split; [apply frame_refl|]. split; [constructor|]. split; [intros q []|auto].
      - inversion H as [|? v ? vs' Lk H']; inversion Hb as [|? b ? bs' Eb Hb']; subst. cbn [snd fst] in Eb, Lk. cbn [setup] in E. rewrite Eb in E. cbn [obind] in E. destruct (setup n T args) as [st'|] eqn:Es; [|discriminate E]. injection E as <-.
        cbn [map fst] in N, U. inversion N as [|? ? Nx N']; subst. assert (Ux : x <> "_") by (intros ->; apply U; left; reflexivity). assert (U' : ~ In "_" (map fst args)) by (intros I; apply U; right; exact I).
        destruct b; cbn [when app].
        + cbn [rrun reval]. rewrite Lk. rewrite bind_assoc, bind_ret. cbn [convert]. rewrite bind_assoc.
          destruct (alloc (Some v) s) as ([q| | | |] & s1) eqn:Ea; try discriminate Ea. rewrite (bind_done _ _ _ _ _ Ea), bind_ret. pose proof (frame_alloc _ _ _ _ Ea) as Fr. apply mem_alloc in Ea as (-> & Nn & Tr & Mq & Mo).
          destruct (IH bs' vs' ((x, Uninit (next s)) :: env) st' rest value s1 Hb' eq_refl) as (env' & s' & l & R & F1 & St & In1 & O); auto.
          { eapply forall2_in; [|exact H']. intros (y, u) w I P. cbn [fst] in *. rewrite lookup_cons_other; [exact P|]. intros ->. apply Nx. apply (in_map fst) in I. exact I. }
          exists env', s', (next s :: l). split; [exact R|]. split; [eapply frame_trans; eassumption|]. split.
          * cbn [map fst]. apply sg_slot; [| | |exact St].
            -- rewrite (O x Nx). apply lookup_cons_same. exact Ux.
            -- destruct F1 as (_ & _ & F1). rewrite F1 by lia. exact Mq.
            -- intros I. apply In1 in I. lia.
          * split; [intros q [<-|I]; [destruct F1; lia|apply In1 in I; lia]|]. intros y Ny. cbn [map fst] in Ny. rewrite O; [|intros I; apply Ny; right; exact I]. apply lookup_cons_other. intros ->. apply Ny. left. reflexivity.
        + destruct (IH bs' vs' env st' rest value s Hb' eq_refl H' N' U') as (env' & s' & l & R & F1 & St & In1 & O).
          exists env', s', l. split; [exact R|]. split; [exact F1|]. split; [cbn [map fst]; constructor; [rewrite (O x Nx); exact Lk|exact St]|]. split; [exact In1|]. intros y Ny. apply O. intros I. apply Ny. right. exact I.
    Qed.

    Lemma direct_not_data t b v : needs_indirect_abi n T t = Some b -> fits (D := D) (A := A) (F := F) (X := X) t v -> b = true -> exists d, v = Data d.
    Proof. intros E H ->. inversion H; subst; try discriminate E. eauto. Qed.

    (** The arguments of the call. *)
    Lemma wrapper_eval x t e b v env s w : wrapper_arg n T x t = Some e -> needs_indirect_abi n T t = Some b -> fits t v ->
      (is_rust_string t = true \/ (exists u, t = TVec u) -> b = true) ->
      (if b then exists q, lookup x env = Some (Uninit q) /\ w = Addr (Local q) else lookup x env = Some (in_cxx v) /\ w = lower (in_cxx v)) ->
      reval world calls env e s = (Done w, s).
    Proof.
      intros E Eb Fi Sv H. unfold wrapper_arg in E. destruct (is_rust_string t) eqn:Es.
      - rewrite Sv in H by auto. destruct H as (q & L & ->). injection E as <-. cbn [reval]. rewrite L. reflexivity.
      - assert (Simple : option_map (fun b : bool => if b then EConv KMutPtr (EVar x) else EVar x) (Some b) = Some e -> lower (in_cxx v) = in_cxx v -> reval world calls env e s = (Done w, s)).
        { intros E' Lv. cbn in E'. injection E' as <-. destruct b.
          - destruct H as (q & L & ->). cbn [reval]. rewrite L. reflexivity.
          - destruct H as (L & ->). cbn [reval]. rewrite L, Lv. reflexivity. }
        destruct t; try (rewrite Eb in E; apply Simple; [exact E|inversion Fi; subst; try contradiction; reflexivity]);
          try (cbn [needs_indirect_abi] in Eb; injection Eb as <-; destruct H as (L & ->); injection E as <-; inversion Fi; subst; try contradiction; cbn [in_cxx lower] in * ).
        + destruct (is_considered_improper T t); cbn [reval]; rewrite L; reflexivity.
        + rewrite Sv in H by eauto. destruct H as (q & L & ->). injection E as <-. cbn [reval]. rewrite L. reflexivity.
        + destruct (is_considered_improper T t); cbn [reval]; rewrite L; reflexivity.
        + destruct (is_rust_string t); [cbn [reval]; rewrite L; reflexivity|].
          assert (R : reval world calls env (if is_considered_improper T t then EConv (KAsVoid mutable) (EConv (KAsPtr mutable (x_type t)) (if pinned then EConv KPinInner (EVar x) else EVar x)) else EVar x) s = (Done (Addr (Outer a)), s)).
          { destruct (is_considered_improper T t), pinned; cbn [reval]; rewrite L; reflexivity. }
          destruct t; try exact R. destruct (is_rust_string t); cbn [reval]; rewrite L; reflexivity.
        + destruct (is_considered_improper T t); cbn [reval]; rewrite L; reflexivity.
        + cbn [reval]; rewrite L; reflexivity.
        + cbn [reval]; rewrite L; reflexivity.
    Qed.

    Lemma wrapper_evals args : forall bs vs es l env s, otraverse (fun a => wrapper_arg n T (fst a) (snd a)) args = Some es ->
      Forall2 (fun a b => needs_indirect_abi n T (snd a) = Some b) args bs -> Forall2 (fun a v => fits (snd a) v) args vs ->
      (forall x t, In (x, t) args -> is_rust_string t = true \/ (exists u, t = TVec u) -> needs_indirect_abi n T t = Some true) ->
      staged (mem s) env l (map fst args) bs (map in_cxx vs) ->
      exists ws, revals world calls env es s = (Done ws, s) /\ wires (mem s) l bs (map in_cxx vs) ws.
    Proof.
      induction args as [|(x, t) args IH]; intros bs vs es l env s E Hb Hf Sv St.
      - inversion Hb; inversion Hf; subst. injection E as <-. cbn in St. inversion St; subst. exists []. split; [reflexivity|constructor].
      - inversion Hb as [|? b ? bs' Eb Hb']; inversion Hf as [|? v ? vs' Fi Hf']; subst. cbn [otraverse fst snd] in E, Eb, Fi.
        destruct (wrapper_arg n T x t) as [e|] eqn:Ee; [|discriminate E]. cbn [obind] in E. destruct (otraverse _ args) as [es'|] eqn:Es; [|discriminate E]. injection E as <-.
        assert (Sx : is_rust_string t = true \/ (exists u, t = TVec u) -> b = true) by (intros Q; apply (Sv x t) in Q; [congruence|left; reflexivity]).
        assert (Sv' : forall x t, In (x, t) args -> is_rust_string t = true \/ (exists u, t = TVec u) -> needs_indirect_abi n T t = Some true) by (intros y u I; apply (Sv y u); right; exact I).
        cbn [map fst] in St. inversion St as [|l0 x0 xs0 bs0 v0 vs0 Lk St'|q l0 x0 xs0 bs0 v0 vs0 Lk Mq Nq St']; subst.
        + destruct (IH bs' vs' es' l env s eq_refl Hb' Hf' Sv' St') as (ws & R & W). exists (lower (in_cxx v) :: ws). split; [|constructor; exact W].
          cbn [revals]. rewrite (bind_done _ _ _ _ _ (wrapper_eval x t e false v env s _ Ee Eb Fi Sx (conj Lk eq_refl))). fold (revals world calls env). rewrite (bind_done _ _ _ _ _ R). reflexivity.
        + destruct (IH bs' vs' es' l0 env s eq_refl Hb' Hf' Sv' St') as (ws & R & W). exists (Addr (Local q) :: ws). split; [|constructor; auto].
          cbn [revals]. rewrite (bind_done _ _ _ _ _ (wrapper_eval x t e true v env s (Addr (Local q)) Ee Eb Fi Sx (ex_intro _ q (conj Lk eq_refl)))). fold (revals world calls env). rewrite (bind_done _ _ _ _ _ R). reflexivity.
    Qed.
  End Wrapper.

  (** ** C++ *)
  Definition bound (m : nat -> option val) (env : list (string * binding)) (lo hi : nat) (x : string) (t : cty) (w : val) : Prop :=
    match t with
    | CRef _ _ => exists a, w = Addr a /\ find_name x env = Some (BVar a)
    | _ => exists p, lo <= p < hi /\ find_name x env = Some (BVar (Local p)) /\ m p = Some w
    end.
  Lemma bound_value (m : nat -> option val) env lo hi x t w : ~ is_ref t -> (bound m env lo hi x t w <-> exists p, lo <= p < hi /\ find_name x env = Some (BVar (Local p)) /\ m p = Some w).
  Proof. intros N. destruct t; try reflexivity. exfalso. apply N. unfold is_ref. eauto. Qed.
  Lemma bound_env m env env' lo hi x t w : bound m env lo hi x t w -> find_name x env' = find_name x env -> bound m env' lo hi x t w.
  Proof. unfold bound. intros H E. rewrite E. exact H. Qed.
  Lemma bound_mem (m m' : nat -> option val) env lo hi x t w : bound m env lo hi x t w -> (forall p, lo <= p < hi -> m' p = m p) -> bound m' env lo hi x t w.
  Proof.
    intros H E. destruct t; cbn in *; try exact H; destruct H as (k & L & R & Q); exists k; (split; [exact L|]); (split; [exact R|]); rewrite E; assumption.
  Qed.
  Lemma bound_lo (m : nat -> option val) env lo lo' hi x t w : bound m env lo hi x t w -> lo' <= lo -> bound m env lo' hi x t w.
  Proof.
    intros H E. destruct t; cbn in *; try exact H; destruct H as (k & L & R & Q); exists k; (split; [lia|]); (split; [exact R|]); assumption.
  Qed.

  Lemma params_run : forall (l : list (string * cty)) (ws : list val) s, NoDup (map fst l) ->
    Forall2 (fun p w => forall c t, snd p = CRef c t -> exists a, w = Addr a) l ws ->
    exists env s', params l ws s = (Done env, s') /\ frame s s' /\
      Forall2 (fun p w => bound (mem s') env (next s) (next s') (fst p) (snd p) w) l ws /\
      (forall y, ~ In y (map fst l) -> find_name y env = None).
  Proof.
    induction l as [|(x, t) l IH]; intros ws s N H.
    - inversion H; subst. exists [], s. split; [reflexivity|]. split; [apply frame_refl|]. split; [constructor|]. intros y _. reflexivity.
    - inversion H as [|? w ? ws' Hw H']; subst. cbn [map fst] in N. inversion N as [|? ? Nx N']; subst. cbn [snd] in Hw.
      assert (Val : (forall c u, t <> CRef c u) -> params ((x, t) :: l) (w :: ws') s = bind (alloc (Some w)) (fun n => bind (params l ws') (fun env => ret ((x, BVar (Local n)) :: env))) s ->
        exists env s', params ((x, t) :: l) (w :: ws') s = (Done env, s') /\ frame s s' /\
          Forall2 (fun p w => bound (mem s') env (next s) (next s') (fst p) (snd p) w) ((x, t) :: l) (w :: ws') /\
          (forall y, ~ In y (map fst ((x, t) :: l)) -> find_name y env = None)).
      { intros Nr ->. destruct (alloc (Some w) s) as ([q| | | |] & s1) eqn:Ea; try discriminate Ea. rewrite (bind_done _ _ _ _ _ Ea). pose proof (frame_alloc _ _ _ _ Ea) as Fr. apply mem_alloc in Ea as (-> & Nn & Tr & Mq & Mo).
        destruct (IH ws' s1 N' H') as (env & s' & P & F1 & B & O). rewrite (bind_done _ _ _ _ _ P). exists ((x, BVar (Local (next s))) :: env), s'. split; [reflexivity|].
        split; [eapply frame_trans; eassumption|]. split.
        - constructor.
          + cbn [fst snd]. apply bound_value; [intros (c & u & E); exact (Nr c u E)|]. exists (next s). destruct F1 as (F0 & _ & F1). split; [lia|]. split; [apply find_cons_same|]. rewrite F1 by lia. exact Mq.
          + eapply forall2_in; [|exact B]. intros (y, u) w0 I Hb. cbn [fst snd] in *. eapply bound_lo; [eapply bound_env; [exact Hb|]|lia]. apply find_cons_other. intros ->. apply Nx. apply (in_map fst) in I. exact I.
        - intros y Ny. cbn [map fst] in Ny. rewrite find_cons_other; [apply O; intros I; apply Ny; right; exact I|]. intros ->. apply Ny. left. reflexivity. }
      destruct t; try (apply Val; [discriminate|reflexivity]). destruct (Hw _ _ eq_refl) as (a & ->).
      destruct (IH ws' s N' H') as (env & s' & P & F1 & B & O). cbn [params]. rewrite (bind_done _ _ _ _ _ P). exists ((x, BVar a) :: env), s'. split; [reflexivity|]. split; [exact F1|]. split.
      + constructor; [cbn; exists a; split; [reflexivity|]; rewrite String.eqb_refl; reflexivity|]. eapply forall2_in; [|exact B]. intros (y, u) w0 I Hb. cbn [fst snd] in *. eapply bound_env; [exact Hb|]. apply find_cons_other. intros ->. apply Nx. apply (in_map fst) in I. exact I.
      + intros y Ny. cbn [map fst] in Ny. rewrite find_cons_other; [apply O; intros I; apply Ny; right; exact I|]. intros ->. apply Ny. left. reflexivity.
  Qed.

  Section Shim.
    Variables (n : nat) (T : types).
    Variables (decls : list (string * (cty * list cty))) (externs : string -> list val -> M val) (this : option (addr A)).
    Notation ceval := (ceval world decls externs this). Notation cevals := (cevals world decls externs this).

    Lemma value_type t c : cxx_type T t = Some c -> match t with TRef _ _ _ _ => False | _ => True end -> ~ is_ref c.
    Proof.
      intros E N (k & u & ->). destruct t; cbn [cxx_type] in E; try contradiction; try discriminate E; try (destruct (cxx_type T t); discriminate E).
      - destruct (atom_from_str _); [discriminate E|]. destruct (resolve_name _ _); discriminate E.
      - destruct (otraverse _ _); [|discriminate E]. cbn [obind] in E. destruct (match ret with Some r => option_map Some (cxx_type T r) | None => Some None end); discriminate E.
    Qed.
    Lemma init_value c cv (s : state) : ~ is_ref c -> init c cv s = rvalue cv s.
    Proof. intros N. destruct c; try reflexivity. exfalso. apply N. unfold is_ref. eauto. Qed.
    Lemma read_local p w (s : state) : mem s p = Some w -> read (Local p) s = (Done w, s).
    Proof. intros E. unfold read. rewrite E. reflexivity. Qed.
    Lemma take_local p w (s : state) : mem s p = Some w -> take (Local p) s = (Done w, set_mem p None s).
    Proof. intros E. unfold take. rewrite E. reflexivity. Qed.

    Lemma ev_var env x a s : find_name x env = Some (BVar a) -> ceval env (CxVar x) s = (Done (LV a), s).
    Proof. intros E. cbn [Call_Spec.ceval]. rewrite E. reflexivity. Qed.
    Lemma ev_read env e p w s s' : ceval env e s = (Done (LV (Local p)), s') -> mem s' p = Some w -> bind (ceval env e) rvalue s = (Done w, s').
    Proof. intros E H. rewrite (bind_done _ _ _ _ _ E). cbn [rvalue]. apply read_local. exact H. Qed.
    Lemma ev_pure env e w s s' : ceval env e s = (Done (PV w), s') -> bind (ceval env e) rvalue s = (Done w, s').
    Proof. intros E. rewrite (bind_done _ _ _ _ _ E). reflexivity. Qed.
    Lemma ev_deref env e a s s' : bind (ceval env e) rvalue s = (Done (Addr a), s') -> ceval env (CxDeref e) s = (Done (LV a), s').
    Proof. intros E. cbn [Call_Spec.ceval]. rewrite (bind_done _ _ _ _ _ E). reflexivity. Qed.
    Lemma ev_addr env e a s s' : ceval env e s = (Done (LV a), s') -> ceval env (CxAddr e) s = (Done (PV (Addr a)), s').
    Proof. intros E. cbn [Call_Spec.ceval]. rewrite (bind_done _ _ _ _ _ E). reflexivity. Qed.
    Lemma ev_move env e p w s s' : ceval env e s = (Done (LV (Local p)), s') -> mem s' p = Some w -> ceval env (CxMove e) s = (Done (PV w), set_mem p None s').
    Proof. intros E H. cbn [Call_Spec.ceval]. rewrite (bind_done _ _ _ _ _ E). cbn beta iota. rewrite (bind_done _ _ _ _ _ (take_local _ _ _ H)). reflexivity. Qed.
    Lemma ev_bitcopy env e t w s s' : bind (ceval env e) rvalue s = (Done w, s') -> ceval env (CxBitcopy t e) s = (Done (PV w), s').
    Proof. intros E. cbn [Call_Spec.ceval]. rewrite (bind_done _ _ _ _ _ E). reflexivity. Qed.
    Lemma ev_from_raw env e t a s s' : bind (ceval env e) rvalue s = (Done (Addr a), s') -> ceval env (CxFromRaw (CBox t) e) s = (Done (PV (BoxOf a)), s').
    Proof. intros E. cbn [Call_Spec.ceval]. rewrite (bind_done _ _ _ _ _ E). reflexivity. Qed.
    Lemma ev_unique env e t a s s' : bind (ceval env e) rvalue s = (Done (Addr a), s') -> ceval env (CxConstruct (CUnique t) e) s = (Done (PV (UniqueOf a)), s').
    Proof. intros E. cbn [Call_Spec.ceval]. rewrite (bind_done _ _ _ _ _ E). reflexivity. Qed.
    Lemma ev_into_raw env e a s s' : bind (ceval env e) taken s = (Done (BoxOf a), s') -> ceval env (CxIntoRaw e) s = (Done (PV (Addr a)), s').
    Proof. intros E. cbn [Call_Spec.ceval]. rewrite bind_assoc, (bind_done _ _ _ _ _ E). reflexivity. Qed.
    Lemma ev_release env e a s s' : bind (ceval env e) taken s = (Done (UniqueOf a), s') -> ceval env (CxRelease e) s = (Done (PV (Addr a)), s').
    Proof. intros E. cbn [Call_Spec.ceval]. rewrite bind_assoc, (bind_done _ _ _ _ _ E). reflexivity. Qed.
    Lemma ev_init env e c w s s' : ~ is_ref c -> bind (ceval env e) rvalue s = (Done w, s') -> bind (ceval env e) (init c) s = (Done w, s').
    Proof. intros N E. unfold bind in *. destruct (ceval env e s) as ([b| | | |] & s1); try discriminate E. rewrite init_value by exact N. exact E. Qed.
    Lemma ev_init_ref env e c u a s s' : ceval env e s = (Done (LV a), s') -> bind (ceval env e) (init (CRef c u)) s = (Done (Addr a), s').
    Proof. intros E. rewrite (bind_done _ _ _ _ _ E). reflexivity. Qed.

    Definition passed (b : bool) (w v : val) (s : state) (m : M val) : Prop :=
      exists s', m s = (Done v, s') /\ trace s' = trace s /\ next s' = next s /\ (forall q, (b = true -> w <> Addr (Local q)) -> mem s' q = mem s q).

    Lemma pass_eval x t e ct pt b v w env lo hi s : pass_arg n T x t = Some e -> cxx_type T t = Some ct -> cxx_shim_arg n T t = Some pt -> needs_indirect_abi n T t = Some b ->
      fits t v -> (is_rust_string t = true \/ (exists u, t = TVec u) -> b = true) -> (forall u, t <> TCxxVector u) ->
      bound (mem s) env lo hi x pt w ->
      (if b then exists q, w = Addr (Local q) /\ mem s q = Some (in_cxx v) else w = lower (in_cxx v)) ->
      passed b w (in_cxx v) s (bind (ceval env e) (init ct)).
    Proof.
      intros E Ec Ep Eb Fi Sv Nv B W.
      assert (Var : ~ is_ref pt -> bind (ceval env (CxVar x)) rvalue s = (Done w, s)).
      { intros N. apply (bound_value _ _ _ _ _ _ _ N) in B as (p & _ & Fn & Mp). exact (ev_read _ _ _ _ _ _ (ev_var _ _ _ _ Fn) Mp). }
      assert (Ptr : b = true -> ~ is_ref pt).
      { intros ->. unfold cxx_shim_arg in Ep. intros (k & u & ->). destruct (is_rust_string t); [destruct (cxx_type T t); discriminate Ep|].
        assert (G : cxx_extern_arg n T t = Some (CRef k u) -> False).
        { unfold cxx_extern_arg. match goal with |- obind ?o _ = _ -> _ => destruct o end; [|discriminate]. cbn [obind]. rewrite Eb. discriminate. }
        destruct t; try exact (G Ep). destruct (cxx_type T (TVec t)); discriminate Ep. }
      assert (Keep : forall m, m s = (Done (in_cxx v), s) -> passed b w (in_cxx v) s m) by (intros m Em; exists s; auto).
      assert (Nr : match t with TRef _ _ _ _ => False | _ => True end -> ~ is_ref ct) by (apply value_type; exact Ec).
      assert (Bit : forall t', b = true -> e = CxBitcopy t' (CxDeref (CxVar x)) -> ~ is_ref ct -> passed b w (in_cxx v) s (bind (ceval env e) (init ct))).
      { intros t' Et -> Nc. apply Keep. apply ev_init; [exact Nc|]. pose proof (Var (Ptr Et)) as Rd. rewrite Et in W. destruct W as (q & -> & Mq). apply ev_pure, ev_bitcopy. apply (ev_read _ _ q _ _ s); [|exact Mq]. apply ev_deref. exact Rd. }
      assert (Other : match t with TRef _ _ _ _ => False | _ => True end -> lower (in_cxx v) = in_cxx v -> (b = false -> ~ is_ref pt) ->
        option_map (fun b : bool => if b then CxMove (CxDeref (CxVar x)) else CxVar x) (Some b) = Some e -> passed b w (in_cxx v) s (bind (ceval env e) (init ct))).
      { intros Nt Lv Nd E'. cbn in E'. injection E' as <-. destruct b.
        - pose proof (Var (Ptr eq_refl)) as Rd. destruct W as (q & -> & Mq). exists (set_mem q None s). split.
          + apply ev_init; [exact (Nr Nt)|]. apply ev_pure. apply (ev_move _ _ q _ _ s); [|exact Mq]. apply ev_deref. exact Rd.
          + split; [reflexivity|]. split; [reflexivity|]. intros q' N. apply mem_set_other. intros ->. apply N; reflexivity.
        - apply Keep. apply ev_init; [exact (Nr Nt)|]. rewrite (Var (Nd eq_refl)). rewrite W, Lv. reflexivity. }
      assert (Shim : is_rust_string t = false -> match t with TVec _ | TBox _ | TUniquePtr _ | TCxxVector _ => False | _ => True end -> b = false -> pt = ct).
      { intros Es Nt ->. unfold cxx_shim_arg in Ep. rewrite Es in Ep. destruct t; try contradiction; unfold cxx_extern_arg in Ep; rewrite Eb, Ec in Ep; cbn in Ep; congruence. }
      unfold pass_arg in E. destruct t; try discriminate Ec; try (exfalso; eapply Nv; reflexivity);
        try (cbn [is_rust_string] in E; rewrite Eb in E; apply Other; [exact I|inversion Fi; reflexivity| |exact E]; intros Ef; rewrite (Shim eq_refl I Ef); apply Nr; exact I).
      - destruct (is_rust_string (TIdent n0)) eqn:Es.
        + injection E as <-. eapply Bit; [auto|reflexivity|apply Nr; exact I].
        + rewrite Eb in E. apply Other; [exact I|inversion Fi; reflexivity| |exact E]. intros Ef. rewrite (Shim eq_refl I Ef). apply Nr. exact I.
      - cbn [cxx_type] in Ec, E. destruct (cxx_type T t) as [c|] eqn:Ect; [|discriminate Ec]. injection Ec as <-. injection E as <-. injection Eb as <-. inversion Fi; subst; [|contradiction].
        unfold cxx_shim_arg, cxx_extern_arg in Ep. cbn [is_rust_string] in Ep. rewrite Ect in Ep. cbn in Ep. injection Ep as <-. apply Keep. apply ev_init; [apply Nr; exact I|]. apply ev_pure, ev_from_raw. apply Var. intros (? & ? & ?). discriminate.
      - cbn [is_rust_string] in E. destruct (cxx_type T (TVec t)) as [c|] eqn:Ect; [|discriminate Ec]. injection Ec as <-. injection E as <-. eapply Bit; [apply Sv; right; eauto|reflexivity|apply Nr; exact I].
      - cbn [cxx_type] in Ec, E. destruct (cxx_type T t) as [c|] eqn:Ect; [|discriminate Ec]. injection Ec as <-. injection E as <-. injection Eb as <-. inversion Fi; subst; [|contradiction].
        unfold cxx_shim_arg, cxx_extern_arg in Ep. cbn [is_rust_string] in Ep. rewrite Ect in Ep. cbn in Ep. injection Ep as <-. apply Keep. apply ev_init; [apply Nr; exact I|]. apply ev_pure, ev_unique. apply Var. intros (? & ? & ?). discriminate.
      - cbn [is_rust_string] in E. injection Eb as <-. cbn in E. injection E as <-. rewrite (Shim eq_refl I eq_refl) in B. inversion Fi; subst; [|contradiction]. cbn [cxx_type] in Ec. destruct (cxx_type T t); [|discriminate Ec]. injection Ec as <-.
        destruct B as (a0 & Ea & Fn). cbn in Ea. injection Ea as <-. apply Keep. apply ev_init_ref. apply ev_var. exact Fn.
    Qed.

    Lemma pass_evals args : forall bs vs ws es cts ps l env lo hi s,
      otraverse (fun a => pass_arg n T (fst a) (snd a)) args = Some es -> otraverse (fun a => cxx_type T (snd a)) args = Some cts ->
      otraverse (fun a => option_map (pair (fst a)) (cxx_shim_arg n T (snd a))) args = Some ps ->
      Forall2 (fun a b => needs_indirect_abi n T (snd a) = Some b) args bs -> Forall2 (fun a v => fits (snd a) v) args vs ->
      (forall x t, In (x, t) args -> is_rust_string t = true \/ (exists u, t = TVec u) -> needs_indirect_abi n T t = Some true) ->
      (forall x t u, In (x, t) args -> t <> TCxxVector u) ->
      wires (mem s) l bs (map in_cxx vs) ws -> Forall2 (fun p w => bound (mem s) env lo hi (fst p) (snd p) w) ps ws -> (forall q, In q l -> q < lo) ->
      exists s', cevals env es cts s = (Done (map in_cxx vs), s') /\ trace s' = trace s /\ next s' = next s /\ (forall q, ~ In q l -> mem s' q = mem s q).
    Proof.
      induction args as [|(x, t) args IH]; intros bs vs ws es cts ps l env lo hi s E Ec Ep Hb Hf Sv Nv W B L.
      - inversion Hb; inversion Hf; subst. injection E as <-. injection Ec as <-. exists s. repeat split; reflexivity.
      - inversion Hb as [|? b ? bs' Eb Hb']; inversion Hf as [|? v ? vs' Fi Hf']; subst. cbn [otraverse fst snd] in E, Ec, Ep, Eb, Fi.
        destruct (pass_arg n T x t) as [e|] eqn:Ee; [|discriminate E]. cbn [obind] in E. destruct (otraverse (fun a => pass_arg n T (fst a) (snd a)) args) as [es'|] eqn:Es; [|discriminate E]. injection E as <-.
        destruct (cxx_type T t) as [ct|] eqn:Ect; [|discriminate Ec]. cbn [obind] in Ec. destruct (otraverse (fun a => cxx_type T (snd a)) args) as [cts'|] eqn:Ects; [|discriminate Ec]. injection Ec as <-.
        destruct (cxx_shim_arg n T t) as [pt|] eqn:Ept; [|discriminate Ep]. cbn [obind option_map] in Ep. destruct (otraverse (fun a => option_map (pair (fst a)) (cxx_shim_arg n T (snd a))) args) as [ps'|] eqn:Eps; [|discriminate Ep]. injection Ep as <-.
        assert (Sx : is_rust_string t = true \/ (exists u, t = TVec u) -> b = true) by (intros Q; apply (Sv x t) in Q; [congruence|left; reflexivity]).
        assert (Sv' : forall x t, In (x, t) args -> is_rust_string t = true \/ (exists u, t = TVec u) -> needs_indirect_abi n T t = Some true) by (intros y u I; apply (Sv y u); right; exact I).
        assert (Nv' : forall y u z, In (y, u) args -> u <> TCxxVector z) by (intros y u z I; apply (Nv y u z); right; exact I).
        inversion B as [|p0 w ps0 ws' Bx B']; subst. cbn [fst snd] in Bx.
        assert (Wx : (if b then exists q, w = Addr (Local q) /\ mem s q = Some (in_cxx v) else w = lower (in_cxx v)) /\
          exists l', (forall q, In q l' -> In q l) /\ (forall q, b = true -> w = Addr (Local q) -> In q l /\ ~ In q l') /\ wires (mem s) l' bs' (map in_cxx vs') ws').
        { inversion W as [|l0 bs0 vs0 ws0 v0 W'|q l0 bs0 vs0 ws0 v0 Mq Nq W']; subst.
          - split; [reflexivity|]. exists l. repeat split; auto; discriminate.
          - split; [exists q; auto|]. exists l0. split; [intros z I; right; exact I|]. split; [|exact W']. intros z _ E. injection E as <-. split; [left; reflexivity|exact Nq]. }
        destruct Wx as (Wx & l' & Sub & Own & W').
        destruct (pass_eval x t e ct pt b v w env lo hi s Ee Ect Ept Eb Fi Sx (fun u => Nv x t u (or_introl eq_refl)) Bx Wx) as (s1 & R1 & T1 & N1 & K1).
        assert (Old : forall q, lo <= q -> mem s1 q = mem s q).
        { intros q Lq. apply K1. intros Et Ew. destruct (Own q Et Ew) as (I & _). apply L in I. lia. }
        destruct (IH bs' vs' ws' es' cts' ps' l' env lo hi s1 eq_refl eq_refl eq_refl Hb' Hf' Sv' Nv') as (s2 & R2 & T2 & N2 & K2).
        { eapply wires_frame; [exact W'|]. intros q I. apply K1. intros Et Ew. destruct (Own q Et Ew) as (_ & J). exact (J I). }
        { eapply forall2_in; [|exact B']. intros p w0 _ Hp. eapply bound_mem; [exact Hp|]; intros q0 (Lq & _); exact (Old q0 Lq). }
        { intros q I. apply L, Sub, I. }
        exists s2. split; [|split; [congruence|split; [congruence|]]].
        + cbn [Call_Spec.cevals map]. rewrite (bind_done _ _ _ _ _ R1). fold (cevals env). rewrite (bind_done _ _ _ _ _ R2). reflexivity.
        + intros q Nq. rewrite K2 by (intros I; apply Nq, Sub, I). apply K1. intros Et Ew. destruct (Own q Et Ew) as (I & _). exact (Nq I).
    Qed.

    (** The result of the call, on its way out. *)
    Lemma returned_ok t c (v : val) (s : state) : cxx_type T t = Some c -> fits t v -> returned_as c v s = (Done (match t, v with TRef _ _ _ _, Addr a => LV a | _, _ => PV v end), s).
    Proof.
      intros E Fi. destruct t; try (assert (N : ~ is_ref c) by (eapply value_type; [exact E|exact I]); destruct c; try reflexivity; exfalso; apply N; unfold is_ref; eauto).
      cbn [cxx_type] in E. destruct (cxx_type T t); [|discriminate E]. injection E as <-. inversion Fi; subst; [|contradiction]. reflexivity.
    Qed.
    (** [call] returned [v] *)
    Lemma result_eval slot t e call env v s s' : pass_result T slot (Some t) call = Some e -> fits t v ->
      ceval env call s = (Done (match t, v with TRef _ _ _ _, Addr a => LV a | _, _ => PV v end), s') -> ceval env e s = (Done (PV (lower v)), s').
    Proof.
      intros E Fi H. destruct t; cbn [pass_result] in E; try (injection E as <-; rewrite H; inversion Fi; subst; try contradiction; reflexivity).
      - injection E as <-. inversion Fi; subst; [|contradiction]. apply ev_into_raw. rewrite (bind_done _ _ _ _ _ H). reflexivity.
      - injection E as <-. inversion Fi; subst; [|contradiction]. apply ev_release. rewrite (bind_done _ _ _ _ _ H). reflexivity.
      - injection E as <-. inversion Fi; subst; [|contradiction]. apply ev_addr. exact H.
      - injection E as <-. inversion Fi; subst. destruct slot; [exact H|]. cbn [Call_Spec.ceval]. rewrite bind_assoc, (bind_done _ _ _ _ _ H). reflexivity.
      - destruct slot; [injection E as <-; inversion Fi; subst; exact H|]. destruct (cxx_type T (TSlice mutable lt t)); [|discriminate E]. injection E as <-. inversion Fi; subst. cbn [Call_Spec.ceval]. rewrite bind_assoc, (bind_done _ _ _ _ _ H). reflexivity.
    Qed.
    Lemma result_none slot e call : pass_result T slot None call = Some e -> e = call.
    Proof. cbn. congruence. Qed.
    (** A call that throws. *)
    Lemma result_thrown slot r e call env s s' o : pass_result T slot r call = Some e -> ceval env call s = (Thrown o, s') -> ceval env e s = (Thrown o, s').
    Proof.
      intros E H. destruct r as [t|]; [|injection E as <-; exact H]. destruct t; cbn [pass_result] in E; try (injection E as <-; exact H);
        try (injection E as <-; destruct slot; cbn [Call_Spec.ceval]; unfold bind; rewrite ?H; reflexivity).
      destruct slot; [injection E as <-; exact H|]. destruct (cxx_type T (TSlice mutable lt t)); [|discriminate E]. injection E as <-. cbn [Call_Spec.ceval]. unfold bind. rewrite H. reflexivity.
    Qed.
  End Shim.
End Out.
