(** Lemmas for C86: the C++ function for a C++ function. *)
From Verif Require Import Base StrLib Syntax_Model Types_Model Types_Spec Check_Model Check_Spec Check_Proofs Check_Proofs2 Check_Props Mangle_Model Mangle_Spec Mangle_Proofs2
  Abi_Model Abi_Spec Abi_Proofs Expr_Model Expr_Spec Expr_Proofs2 Expr_Proofs3 CxxExpr_Model CxxExpr_Spec CxxExpr_Proofs CxxExpr_Proofs2 Call_Spec Call_Proofs Call_Proofs2.
From Coq Require Import Lia.

Lemma forall2_split {B C} (R : B -> C -> Prop) l1 l1' l2 l2' : List.length l1 = List.length l1' -> Forall2 R (l1 ++ l2) (l1' ++ l2') -> Forall2 R l1 l1' /\ Forall2 R l2 l2'.
Proof.
  revert l1'. induction l1 as [|a l1 IH]; intros [|a' l1'] L H; try discriminate L; [split; [constructor|exact H]|].
  cbn [app] in H. inversion H; subst. destruct (IH l1') as (P & Q); [cbn in L; lia|assumption|]. split; [constructor; assumption|exact Q].
Qed.

Lemma forall2_length {B C} (R : B -> C -> Prop) l l' : Forall2 R l l' -> List.length l = List.length l'.
Proof. induction 1; cbn; congruence. Qed.

Section CxxSide.
  Context {D A F X : Type}.
  Notation val := (val D A F X). Notation state := (state D A F X). Notation event := (event D A F X).
  Notation M := (M D A F X). Notation reply := (reply D A F X).
  Variable world : list event -> event -> reply.
  Variables (apis : list api) (T : types) (n : nat).

  Lemma in_memory t b : needs_indirect_abi n T t = Some b -> is_rust_string t = true \/ (exists u, t = TVec u) -> b = true.
  Proof.
    intros E [S|(u & ->)].
    - destruct t; try discriminate S. cbn in S. apply String.eqb_eq in S. cbn [needs_indirect_abi] in E. destruct n; [discriminate E|]. cbn [is_guaranteed_pod] in E. rewrite S in E. cbn in E. congruence.
    - cbn [needs_indirect_abi] in E. destruct n; [discriminate E|]. cbn in E. congruence.
  Qed.
  Lemma shim_params_names (args : list (string * ty)) ps : otraverse (fun a => option_map (pair (fst a)) (cxx_shim_arg n T (snd a))) args = Some ps -> map fst ps = map fst args.
  Proof. intros E. destruct (trav_names _ _ _ E). assumption. Qed.

  Lemma shim_arg_ref t b c u : needs_indirect_abi n T t = Some b -> cxx_shim_arg n T t = Some (CRef c u) -> exists p m l z, t = TRef p m l z.
  Proof.
    intros Eb E. unfold cxx_shim_arg in E. destruct (is_rust_string t); [destruct (cxx_type T t); discriminate E|].
    assert (G : cxx_extern_arg n T t = Some (CRef c u) -> match t with TRef _ _ _ _ => False | _ => True end -> False).
    { unfold cxx_extern_arg. intros G Nr. rewrite Eb in G. apply obind_inv in G. destruct G as (z & Ez & G). cbn [obind] in G. destruct b; [discriminate G|]. injection G as ->.
      destruct t; try (apply (value_type T) in Ez; [apply Ez; unfold is_ref; eauto|exact I]); try contradiction; destruct (cxx_type T t); discriminate Ez. }
    destruct t; eauto; try (exfalso; exact (G E I)). destruct (cxx_type T (TVec t)); discriminate E.
  Qed.

  Lemma wires_compat (args : list (string * ty)) : forall bs (vs ws : list val) ps l m, otraverse (fun a => option_map (pair (fst a)) (cxx_shim_arg n T (snd a))) args = Some ps ->
    Forall2 (fun a b => needs_indirect_abi n T (snd a) = Some b) args bs -> Forall2 (fun a v => fits (snd a) v) args vs -> wires m l bs (map in_cxx vs) ws ->
    Forall2 (fun (p : string * cty) w => forall c t, snd p = CRef c t -> exists a, w = Addr a) ps ws.
  Proof.
    induction args as [|(x, t) args IH]; intros bs vs ws ps l m E Hb Hf W.
    - inversion Hb; inversion Hf; subst. injection E as <-. cbn in W. inversion W; subst. constructor.
    - inversion Hb as [|? b ? bs' Eb Hb']; inversion Hf as [|? v ? vs' Fi Hf']; subst. apply otraverse_inv in E as (p & ps' & Ep & Es & ->). cbn [fst snd] in *.
      destruct (cxx_shim_arg n T t) as [pt|] eqn:Ept; [|discriminate Ep]. injection Ep as <-. cbn [map] in W.
      inversion W as [|l0 bs0 vs0 ws0 v0 W'|q l0 bs0 vs0 ws0 v0 Mq Nq W']; subst; constructor; eauto.
      intros c u Ec. cbn in Ec. subst pt. destruct (shim_arg_ref _ _ _ _ Eb Ept) as (? & ? & ? & ? & ->). inversion Fi; subst; [|contradiction]. cbn. eauto.
  Qed.

  Lemma indirect_value t c : cxx_indirect_return_type T t = Some c -> ~ is_ref c.
  Proof.
    intros E. destruct t; cbn [cxx_indirect_return_type] in E; try (eapply value_type; [exact E|exact I]);
      destruct (cxx_type T t); try discriminate E; injection E as <-; intros (? & ? & ?); discriminate.
  Qed.
  Lemma return_value (s : signature) c : cxx_return n T s = Some c -> ~ is_ref c.
  Proof.
    unfold cxx_return. intros E. destruct (sg_throws s); [injection E as <-; intros (? & ? & ?); discriminate|].
    unfold cxx_extern_return in E. destruct (sg_ret s) as [t|]; [|injection E as <-; intros (? & ? & ?); discriminate].
    assert (V : forall u, match u with TRef _ _ _ _ => False | _ => True end -> obind (needs_indirect_abi n T u) (fun b : bool => if b then Some CVoid else cxx_type T u) = Some c -> ~ is_ref c).
    { intros u N E'. apply obind_inv in E'. destruct E' as (b & Eb & E'). destruct b; [injection E' as <-; intros (? & ? & ?); discriminate|]. eapply value_type; eassumption. }
    destruct t; try (eapply V; [|exact E]; exact I); cbn beta iota in E; try (destruct (cxx_type T t); cbn [option_map] in E; try discriminate E; injection E as <-; intros (? & ? & ?); discriminate); injection E as <-; intros (? & ? & ?); discriminate.
  Qed.

  (** What the user's function replied, as seen by the caller of the C++ function. *)
  Definition after (s : state) (ev : event) : state := State (mem s) (next s) (trace s ++ [ev]).
  Definition lowered (r : option ty) (v : val) : val := match r with Some _ => lower v | None => Unit end.

  Definition target_of (f : extern_fn) (g : string) : Prop :=
    match fn_receiver f with
    | None => g = qualified_name (fn_name f)
    | Some r => exists p, resolve_name T (n_rust (rc_ty r)) = Some p /\ g = (qualified_name p ++ "::" ++ p_cxx (fn_name f))%string
    end.
  Lemma cxx_side f c recv (vs ws : list val) bs l nr s : (forall g tr o us, target_of f g -> world tr (CallCxx g o us) <> Panics) ->
    (forall g tr o us v, target_of f g -> world tr (CallCxx g o us) = Returns v -> fits_ret (fn_ret f) v) ->
    NoDup (map fst (fn_args f)) -> (forall x, In x (map fst (fn_args f)) -> plain_name x) -> p_rust (fn_name f) <> "return" -> ~ (fn_throws f = true /\ p_rust (fn_name f) = "throw") ->
    (forall x t u, In (x, t) (fn_args f) -> t <> TCxxVector u) ->
    cxx_shim n T f = Some c -> receiver_fits (fn_receiver f) recv ->
    Forall2 (fun a b => needs_indirect_abi n T (snd a) = Some b) (fn_args f) bs -> Forall2 (fun a v => fits (snd a) v) (fn_args f) vs ->
    wires (mem s) l bs (map in_cxx vs) ws -> (forall q, In q l -> q < next s) -> ~ In nr l -> (indirect_return n T (fn_sig f) = Some true -> nr < next s) ->
    exists target slot s', indirect_return n T (fn_sig f) = Some slot /\
      target_of f target /\
      let ev := CallCxx target (option_map Outer recv) (map in_cxx vs) in
      trace s' = trace s ++ [ev] /\
      run_cxx world [] (fun _ _ => stuck) None c (map (fun a => Addr (Outer a)) (match recv with Some a => [a] | None => [] end) ++ ws ++ when slot [Addr (Local nr)]) s =
      match world (trace s) ev with
      | Returns v => (Done (if fn_throws f then Reply None else if slot then Unit else lowered (fn_ret f) v), s')
      | Throws (Some e) => (if fn_throws f then Done (Reply (Some e)) else Aborted, s')
      | _ => (Aborted, s')
      end /\
      (forall v, world (trace s) ev = Returns v -> slot = true -> mem s' nr = Some (lower v)).
  Proof.
    intros Wp Wf N P Nr Nt NV E Rf Hb Hf W Ll Nl Ln. unfold cxx_shim in E.
    apply obind_inv in E. destruct E as (ret & Eret & E). apply obind_inv in E. destruct E as (self & Eself & E).
    apply obind_inv in E. destruct E as (params & Eparams & E). apply obind_inv in E. destruct E as (out & Eout & E).
    apply obind_inv in E. destruct E as (m & Em & E). apply obind_inv in E. destruct E as (uret & Eur & E).
    apply obind_inv in E. destruct E as (uargs & Eua & E). apply obind_inv in E. destruct E as (args & Eargs & E).
    apply obind_inv in E. destruct E as (slot & Eslot & E).
    apply obind_inv in E. destruct E as (e1 & Ee1 & E). apply obind_inv in E. destruct E as (e2 & Ee2 & E).
    set (ptr := (p_rust (fn_name f) ++ "$")%string) in *.
    set (call := match m with None => CxCall _ _ | Some _ => _ end) in *. set (target := match m with None => qualified_name _ | Some _ => _ end) in *.
    injection E as <-. destruct (trav_names _ _ _ Eparams) as (Pn & Pt).
    assert (Hm : match fn_receiver f with None => m = None /\ self = [] | Some r => exists p, resolve_name T (n_rust (rc_ty r)) = Some p /\ m = Some (negb (rc_mutable r), CNamed p) /\ self = [CRef (negb (rc_mutable r)) (CNamed p)] end).
    { unfold receiver_class in Em. unfold cxx_receivers, cxx_receiver in Eself. cbn [sg_receiver fn_sig] in *. destruct (fn_receiver f) as [r|]; [|split; congruence].
      destruct (resolve_name T (n_rust (rc_ty r))) as [p|] eqn:R; [|discriminate]. exists p. split; [reflexivity|]. cbn in Em, Eself. split; congruence. }
    assert (Tg : target_of f target).
    { unfold target_of, target. destruct (fn_receiver f); [destruct Hm as (p & Hr & -> & _); eauto|destruct Hm as (-> & _); reflexivity]. }
    assert (Dp : has_char "$" ptr = true) by (unfold ptr; rewrite has_char_app; cbn; apply orb_true_r).
    assert (Pd : forall x, In x (map fst (fn_args f)) -> x <> ptr) by (intros x I; apply plain_no_dollar, P, I).
    assert (Rp : ptr <> "return$") by (intros E; apply Nr; apply (dollar_inj _ "return"); exact E).
    assert (Outs : out = [] /\ slot = false \/ exists r cr, fn_ret f = Some r /\ cxx_indirect_return_type T r = Some cr /\ out = [CPtr false cr] /\ slot = true).
    { destruct (outparam_cases _ _ _ _ _ Eout) as [(Q & r & cr & Er & Ec & ->)|(Q & ->)]; rewrite Q in Eslot; injection Eslot as <-; [right; eauto 8|left; auto]. }
    assert (Np : NoDup (map fst (map (pair "self"%string) self ++ params ++ map (pair "return$"%string) out))).
    { rewrite !map_app, Pn, !map_map. cbn [fst].
      assert (O1 : forall x, In x (map (fun _ : cty => "return$"%string) out) -> x = "return$"%string) by (intros x I; apply in_map_iff in I; destruct I as (? & <- & _); reflexivity).
      assert (S1 : forall x, In x (map (fun _ : cty => "self"%string) self) -> x = "self"%string) by (intros x I; apply in_map_iff in I; destruct I as (? & <- & _); reflexivity).
      assert (L1 : NoDup (map (fun _ : cty => "self"%string) self)).
      { destruct (fn_receiver f); [destruct Hm as (? & _ & _ & ->)|destruct Hm as (_ & ->)]; cbn; repeat constructor. intros []. }
      assert (L2 : NoDup (map (fun _ : cty => "return$"%string) out)).
      { destruct Outs as [(-> & _)|(? & ? & _ & _ & -> & _)]; cbn; repeat constructor. intros []. }
      apply NoDup_app_intro; [exact L1| |].
      - apply NoDup_app_intro; [exact N|exact L2|]. intros x I J. apply O1 in J. apply P in I. apply (plain_no_dollar _ "return") in I. contradiction.
      - intros x I J. apply S1 in I. subst x. apply in_app_or in J. destruct J as [J|J]; [apply P in J; destruct J as (_ & J); apply J; cbn; auto|apply O1 in J; discriminate J]. }
    assert (Lr : List.length (map (pair "self"%string) self) = List.length (map (fun a : A => Addr (D := D) (F := F) (X := X) (Outer a)) match recv with Some a => [a] | None => [] end)).
    { destruct (fn_receiver f), recv; try contradiction; [destruct Hm as (? & _ & _ & ->)|destruct Hm as (_ & ->)]; reflexivity. }
    pose proof (wires_compat (fn_args f) bs vs ws params l (mem s) Eparams Hb Hf W) as Wc.
    destruct (params_run (map (pair "self"%string) self ++ params ++ map (pair "return$"%string) out)
      (map (fun a => Addr (Outer a)) (match recv with Some a => [a] | None => [] end) ++ ws ++ when slot [Addr (Local nr)]) s Np) as (env & s1 & Pr & Fr & Bd & O).
    { apply Forall2_app.
      - destruct (fn_receiver f), recv; try contradiction; [destruct Hm as (? & _ & _ & ->)|destruct Hm as (_ & ->)]; cbn; repeat constructor. intros; eauto.
      - apply Forall2_app; [exact Wc|]. destruct Outs as [(-> & ->)|(? & ? & _ & _ & -> & ->)]; cbn; repeat constructor. intros c0 t0 E0. discriminate E0. }
    apply forall2_split in Bd; [|exact Lr]. destruct Bd as (Bs & Bd). apply forall2_split in Bd; [|eapply forall2_length, Wc]. destruct Bd as (Ba & Bo).
    assert (Fself : forall a, recv = Some a -> find_name "self" env = Some (BVar (Outer a))).
    { intros a ->. destruct (fn_receiver f); [|contradiction]. destruct Hm as (p & _ & _ & Es). rewrite Es in Bs. inversion Bs as [|? ? ? ? Q]; subst. destruct Q as (a0 & Ea & Q). injection Ea as <-. exact Q. }
    assert (Fret : slot = true -> exists k, next s <= k < next s1 /\ find_name "return$" env = Some (BVar (Local k)) /\ mem s1 k = Some (Addr (Local nr))).
    { intros ->. destruct Outs as [(_ & Q)|(? & ? & _ & _ & Eo & _)]; [discriminate Q|]. rewrite Eo in Bo. inversion Bo as [|? ? ? ? Q]; subst. exact Q. }
    assert (Fp : find_name ptr env = None).
    { apply O. rewrite !map_app, Pn, !map_map. cbn [fst]. intros I. apply in_app_or in I. destruct I as [I|I]; [|apply in_app_or in I; destruct I as [I|I]].
      - apply in_map_iff in I. destruct I as (? & I & _). rewrite <- I in Dp. discriminate Dp.
      - exact (Pd _ I eq_refl).
      - apply in_map_iff in I. destruct I as (? & I & _). exact (Rp (eq_sym I)). }
    set (ev := CallCxx target (option_map Outer recv) (map in_cxx vs)).
    assert (Ut : forall t, fn_ret f = Some t -> cxx_type T t = Some uret) by (intros t Et; unfold return_type in Eur; rewrite Et in Eur; exact Eur).
    assert (Uv : fn_ret f = None -> uret = CVoid) by (intros Et; unfold return_type in Eur; rewrite Et in Eur; congruence).
    (* the call, in any scope with these names *)
    assert (Main : forall G s2, (forall x, In x (map fst (fn_args f)) \/ x = "self" -> find_name x G = find_name x env) -> find_name ptr G = Some (BFn m uret uargs target) -> frame s1 s2 ->
      exists s3, trace s3 = trace s /\ next s3 = next s2 /\ (forall q, ~ In q l -> mem s3 q = mem s2 q) /\
        ceval world [] (fun _ _ => stuck) None G call s2 = bind (perform world ev) (returned_as uret) s3).
    { intros G s2 Sc Fptr Fr2. pose proof (frame_trans _ _ _ Fr Fr2) as Fr3.
      destruct (pass_evals world n T [] (fun _ _ => stuck) None (fn_args f) bs vs ws args uargs params l G (next s) (next s1) s2 Eargs Eua Eparams Hb Hf) as (s3 & R3 & T3 & N3 & K3).
      - intros x t I Q. assert (Eb : exists b, needs_indirect_abi n T t = Some b) by (clear - Hb I; induction Hb as [|a b l0 bs0 Q1 Q2 IH]; [destruct I|destruct I as [->|I]; [exists b; exact Q1|exact (IH I)]]).
        destruct Eb as (b & Eb). rewrite (in_memory t b Eb Q) in Eb. exact Eb.
      - exact NV.
      - eapply wires_frame; [exact W|]. intros q I. destruct Fr3 as (_ & _ & Fr3). apply Fr3, Ll, I.
      - eapply forall2_in; [|exact Ba]. intros (x, pt) w I Hp. cbn [fst snd] in *. eapply bound_env; [eapply bound_mem; [exact Hp|]|].
        + intros q (_ & Lq). destruct Fr2 as (_ & _ & Fr2). apply Fr2. exact Lq.
        + apply Sc. left. rewrite <- Pn. apply (in_map fst) in I. exact I.
      - exact Ll.
      - exists s3. split; [destruct Fr3 as (_ & Q & _); congruence|]. split; [exact N3|]. split; [exact K3|]. unfold call, ev. destruct (fn_receiver f), recv; try contradiction.
        + destruct Hm as (p & _ & Hm & _). rewrite Hm in Fptr |- *. cbn [ceval]. rewrite Fptr. rewrite (Sc "self") by auto. rewrite (Fself _ eq_refl). rewrite bind_ret. cbn beta iota. fold (cevals world [] (fun _ _ => stuck) None G).
          rewrite (bind_done _ _ _ _ _ R3). reflexivity.
        + destruct Hm as (Hm & _). rewrite Hm in Fptr |- *. cbn [ceval]. rewrite Fptr. fold (cevals world [] (fun _ _ => stuck) None G). rewrite (bind_done _ _ _ _ _ R3). reflexivity. }
    (* with the conversion of the result *)
    assert (Main2 : forall G s2, (forall x, In x (map fst (fn_args f)) \/ x = "self" -> find_name x G = find_name x env) -> find_name ptr G = Some (BFn m uret uargs target) -> frame s1 s2 ->
      exists s3, trace s3 = trace s ++ [ev] /\ next s3 = next s2 /\ (forall q, ~ In q l -> mem s3 q = mem s2 q) /\
        match world (trace s) ev with
        | Returns v => ceval world [] (fun _ _ => stuck) None G e1 s2 = (Done (PV (lowered (fn_ret f) v)), s3)
        | Throws e => ceval world [] (fun _ _ => stuck) None G e1 s2 = (Thrown e, s3)
        | Panics => False
        end).
    { intros G s2 Sc Fptr Fr2. destruct (Main G s2 Sc Fptr Fr2) as (s3 & T3 & N3 & K3 & R3). exists (after s3 ev). cbn [after trace next mem]. split; [congruence|]. split; [exact N3|]. split; [exact K3|].
      unfold bind, perform in R3. rewrite T3 in R3. destruct (world (trace s) ev) as [v|o|] eqn:Ew.
      - cbn [after] in *. rewrite <- T3 in R3. fold (after s3 ev) in R3. unfold lowered. destruct (fn_ret f) as [t|] eqn:Er.
        + pose proof (Wf _ _ _ _ _ Tg Ew) as Fv. cbn [fits_ret] in Fv. rewrite (returned_ok T _ _ _ _ (Ut _ eq_refl) Fv) in R3. eapply result_eval; [exact Ee1|exact Fv|]. rewrite R3. destruct t; reflexivity.
        + apply result_none in Ee1. subst e1. rewrite R3, (Uv eq_refl). cbn [returned_as]. pose proof (Wf _ _ _ _ _ Tg Ew) as Fv. cbn in Fv. subst v. reflexivity.
      - rewrite <- T3 in R3. eapply result_thrown; [exact Ee1|exact R3].
      - exact (Wp _ _ _ _ Tg Ew). }
    assert (Main3 : forall G s2, (forall x, In x (map fst (fn_args f)) \/ x = "self" \/ x = "return$" -> find_name x G = find_name x env) -> find_name ptr G = Some (BFn m uret uargs target) -> frame s1 s2 ->
      exists s3, trace s3 = trace s ++ [ev] /\ next s3 = next s2 /\
        match world (trace s) ev with
        | Returns v => exists c, ceval world [] (fun _ _ => stuck) None G e2 s2 = (Done c, s3) /\ (slot = false -> c = PV (lowered (fn_ret f) v)) /\ (slot = true -> mem s3 nr = Some (lower v))
        | Throws e => ceval world [] (fun _ _ => stuck) None G e2 s2 = (Thrown e, s3)
        | Panics => False
        end).
    { intros G s2 Sc Fptr Fr2. destruct slot.
      2: { injection Ee2 as <-. destruct (Main2 G s2) as (s3 & T3 & N3 & K3 & R3); [intros x [I| ->]; apply Sc; auto|exact Fptr|exact Fr2|]. exists s3. split; [exact T3|]. split; [exact N3|].
        destruct (world (trace s) ev); [|exact R3|exact R3]. eexists. split; [exact R3|]. split; [reflexivity|discriminate]. }
      destruct (fn_ret f) as [r|] eqn:Er; [|discriminate Ee2]. destruct (cxx_indirect_return_type T r) as [cr|] eqn:Ec; [|discriminate Ee2]. injection Ee2 as <-.
      destruct (Main2 G s2) as (s3 & T3 & N3 & K3 & R3); [intros x [I| ->]; apply Sc; auto|exact Fptr|exact Fr2|].
      destruct (Fret eq_refl) as (k & Lk & Fk & Mk).
      assert (Rd : forall B (h : val -> M B), bind (bind (ceval world [] (fun _ _ => stuck) None G (CxVar "return$")) rvalue) h s2 = h (Addr (Local nr)) s2).
      { intros B h. eapply bind_done. eapply ev_read; [apply ev_var; rewrite Sc by auto; exact Fk|]. destruct Fr2 as (_ & _ & Fr2). rewrite Fr2 by lia. exact Mk. }
      destruct (world (trace s) ev) as [v|o|] eqn:Ew; [| |contradiction].
      - exists (set_mem nr (Some (lower v)) s3). split; [exact T3|]. split; [exact N3|]. eexists. split.
        + cbn [ceval]. rewrite Rd. rewrite (bind_done _ _ _ (lower v) s3); [|eapply ev_init; [eapply indirect_value, Ec|apply ev_pure; exact R3]]. cbn [write_to write]. reflexivity.
        + split; [discriminate|]. intros _. cbn. rewrite Nat.eqb_refl. reflexivity.
      - exists s3. split; [exact T3|]. split; [exact N3|]. cbn [ceval]. rewrite Rd. unfold bind. rewrite R3. reflexivity. }
    assert (Sc1 : forall x, In x (map fst (fn_args f)) \/ x = "self" \/ x = "return$" -> find_name x ((ptr, BFn (A := A) m uret uargs target) :: env) = find_name x env).
    { intros x I. apply find_cons_other. intros E. destruct I as [I|[->| ->]]; [exact (Pd _ I E)|rewrite <- E in Dp; discriminate Dp|exact (Rp (eq_sym E))]. }
    exists target, slot.
    unfold run_cxx. cbn [cf_params cf_body cf_ret cf_noexcept]. destruct (fn_throws f) eqn:Th.
    - destruct (alloc None s1) as ([k| | | |] & s2) eqn:Ea; try discriminate Ea. pose proof (frame_alloc _ _ _ _ Ea) as Fa. pose proof Ea as Ea'. apply mem_alloc in Ea' as (-> & Nn & Tr & Mq & Mo).
      set (G := ("throw$"%string, BVar (Local (next s1))) :: (ptr, BFn (A := A) m uret uargs target) :: env).
      assert (Pt' : ptr <> "throw$") by (intros E; apply Nt; split; [reflexivity|]; apply (dollar_inj _ "throw"); exact E).
      destruct (Main3 G s2) as (s3 & T3 & N3 & R3).
      { intros x I. unfold G. rewrite find_cons_other; [apply Sc1, I|]. destruct I as [I|[->| ->]]; [|discriminate..]. apply P in I. apply (plain_no_dollar _ "throw") in I. exact I. }
      { unfold G. rewrite find_cons_other by congruence. apply find_cons_same. }
      { exact Fa. }
      assert (Lb : bind (Call_Spec.params (map (pair "self"%string) self ++ params ++ map (pair "return$"%string) out) (map (fun a => Addr (Outer a)) (match recv with Some a => [a] | None => [] end) ++ ws ++ when slot [Addr (Local nr)]))
          (fun env => crun world [] (fun _ _ => stuck) None ret env [CsFnPtr ptr m uret uargs target; CsDeclare CPtrLen "throw$"; CsTry e2 "throw$"; CsReturn (CxVar "throw$")]) s =
        bind (trycatch (ceval world [] (fun _ _ => stuck) None G e2)) (fun o => bind (write (Local (next s1)) (Reply o)) (fun _ => crun world [] (fun _ _ => stuck) None ret G [CsReturn (CxVar "throw$")])) s2).
      { rewrite (bind_done _ _ _ _ _ Pr). cbn [crun]. rewrite (bind_done _ _ _ _ _ Ea). fold G. unfold G at 1. rewrite find_cons_same. reflexivity. }
      rewrite Lb. clear Lb.
      assert (Nref : ~ is_ref ret) by (unfold cxx_return in Eret; cbn [sg_throws fn_sig] in Eret; rewrite Th in Eret; injection Eret as <-; intros (? & ? & ?); discriminate).
      assert (Fin : forall o, bind (write (Local (next s1)) (Reply o)) (fun _ => crun world [] (fun _ _ => stuck) None ret G [CsReturn (CxVar "throw$")]) s3 = (Done (Reply o), set_mem (next s1) (Some (Reply o)) s3)).
      { intros o. cbn [write bind crun]. unfold bind at 1. cbn [write]. eapply ev_init; [exact Nref|]. eapply ev_read; [apply ev_var; unfold G; apply find_cons_same|]. cbn. rewrite Nat.eqb_refl. reflexivity. }
      destruct (world (trace s) ev) as [v|o|] eqn:Ew; [| |contradiction].
      + destruct R3 as (c & R3 & Rv & Rs). exists (set_mem (next s1) (Some (Reply None)) s3). split; [exact Eslot|]. split; [exact Tg|]. split; [exact T3|].
        fold ev. rewrite Ew. split.
        * rewrite (bind_done _ _ _ None s3) by (unfold trycatch; rewrite R3; reflexivity). rewrite Fin. reflexivity.
        * intros v0 E0 Sl. injection E0 as <-. cbn. replace (Nat.eqb nr (next s1)) with false; [exact (Rs Sl)|]. symmetry. apply Nat.eqb_neq. rewrite Sl in Eslot. specialize (Ln Eslot). destruct Fr as (Fr & _). lia.
      + destruct o as [e|].
        * exists (set_mem (next s1) (Some (Reply (Some e))) s3). split; [exact Eslot|]. split; [exact Tg|]. split; [exact T3|]. fold ev. rewrite Ew. split; [|discriminate].
          rewrite (bind_done _ _ _ (Some e) s3) by (unfold trycatch; rewrite R3; reflexivity). rewrite Fin. reflexivity.
        * exists s3. split; [exact Eslot|]. split; [exact Tg|]. split; [exact T3|]. fold ev. rewrite Ew. split; [|discriminate]. unfold bind, trycatch. rewrite R3. reflexivity.
    - set (G := (ptr, BFn (A := A) m uret uargs target) :: env).
      destruct (Main3 G s1 Sc1 (find_cons_same _ _ _) (frame_refl _)) as (s3 & T3 & N3 & R3).
      exists s3. split; [exact Eslot|]. split; [exact Tg|]. split; [exact T3|]. fold ev.
      destruct (world (trace s) ev) as [v|o|] eqn:Ew; [| |contradiction].
      + destruct R3 as (c & R3 & Rv & Rs). split; [|intros v0 E0; injection E0 as <-; exact Rs].
        rewrite (bind_done _ _ _ _ _ Pr). destruct (fn_ret f) as [t|] eqn:Er.
        * destruct slot.
          -- cbn [crun]. fold G. rewrite (bind_done _ _ _ _ _ R3). reflexivity.
          -- rewrite (Rv eq_refl) in R3. cbn [crun]. fold G. rewrite (ev_init _ _ _ _ _ _ _ (lower v) _ s3 (return_value _ _ Eret) (ev_pure _ _ _ _ _ _ _ _ _ R3)). reflexivity.
        * destruct slot; [destruct Outs as [(_ & Q)|(? & ? & Q & _)]; discriminate Q|]. cbn [crun]. fold G. rewrite (bind_done _ _ _ _ _ R3). reflexivity.
      + split; [|discriminate]. assert (Q : bind (Call_Spec.params (map (pair "self"%string) self ++ params ++ map (pair "return$"%string) out) (map (fun a => Addr (Outer a)) (match recv with Some a => [a] | None => [] end) ++ ws ++ when slot [Addr (Local nr)]))
          (fun env => crun world [] (fun _ _ => stuck) None ret env (CsFnPtr ptr m uret uargs target :: match fn_ret f with Some _ => if slot then [CsDo e2] else [CsReturn e2] | None => [CsDo e2] end)) s = (Thrown o, s3)).
        { rewrite (bind_done _ _ _ _ _ Pr). cbn [crun]. fold G. destruct (fn_ret f); [destruct slot|]; cbn [crun]; unfold bind; rewrite R3; reflexivity. }
        rewrite Q. destruct o; reflexivity.
  Qed.
End CxxSide.
