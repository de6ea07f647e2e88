(** For C86: the run of the Rust wrapper of a C++ function. *)
From Verif Require Import Base StrLib Syntax_Model Types_Model Types_Spec Check_Model Check_Spec Check_Proofs Check_Proofs2 Check_Props Mangle_Model Mangle_Spec Mangle_Proofs2
  Abi_Model Abi_Spec Abi_Proofs Expr_Model Expr_Spec Expr_Proofs2 Expr_Proofs3 CxxExpr_Model CxxExpr_Spec CxxExpr_Proofs CxxExpr_Proofs2 Call_Spec Call_Proofs Call_Proofs2 Call_Proofs3.
From Coq Require Import Lia.

Section RustSide.
  Context {D A F X : Type}.
  Notation val := (val D A F X). Notation event := (event D A F X). Notation reply := (reply D A F X). Notation state := (state D A F X).
  Notation M := (M D A F X).
  Variable world : list event -> event -> reply.
  Variables (n : nat) (T : types).

  Lemma wrapper_ret_eval calls t call (v : val) env s s' : fits t v -> reval world calls env call s = (Done (lower v), s') ->
    reval world calls env (wrapper_ret T t call) s = (Done v, s').
  Proof.
    intros Fi R. assert (C : forall k w, convert k (lower v) s' = (Done w, s') -> reval world calls env (EConv k call) s = (Done w, s')).
    { intros k w Q. cbn [reval]. rewrite (bind_done _ _ _ _ _ R). exact Q. }
    assert (C2 : forall k k2 w u, convert k2 (lower v) s' = (Done w, s') -> convert k w s' = (Done u, s') -> reval world calls env (EConv k (EConv k2 call)) s = (Done u, s')).
    { intros k k2 w u Q1 Q2. cbn [reval]. rewrite bind_assoc, (bind_done _ _ _ _ _ R), (bind_done _ _ _ _ _ Q1). exact Q2. }
    unfold wrapper_ret. destruct (is_rust_string t) eqn:Es.
    - destruct t; try discriminate Es. inversion Fi; subst. apply C. reflexivity.
    - destruct t; try (rewrite R; inversion Fi; subst; try contradiction; reflexivity).
      + inversion Fi; subst; [|contradiction]. destruct (is_considered_improper T t); [eapply C2; reflexivity|apply C; reflexivity].
      + inversion Fi; subst. destruct (is_rust_string t); apply C; reflexivity.
      + inversion Fi; subst; [|contradiction]. destruct (is_considered_improper T t); [eapply C2; reflexivity|apply C; reflexivity].
      + inversion Fi; subst; [|contradiction]. destruct (is_rust_string t); [apply C; reflexivity|].
        assert (Q : reval world calls env (if is_considered_improper T t then let r := EConv (KReborrow mutable) (EConv KCast call) in if pinned then EConv KPinNew r else r else call) s = (Done (Addr (Outer a)), s')).
        { destruct (is_considered_improper T t); [|exact R]. cbn zeta. destruct pinned; [|eapply C2; reflexivity]. cbn [reval]. rewrite !bind_assoc, (bind_done _ _ _ _ _ R). reflexivity. }
        destruct t; try exact Q. destruct (is_rust_string t); apply C; reflexivity.
      + inversion Fi; subst; [|contradiction]. destruct (is_considered_improper T t); [apply C; reflexivity|exact R].
      + inversion Fi; subst. apply C; reflexivity.
      + inversion Fi; subst. apply C; reflexivity.
  Qed.

  Lemma wrapper_ret_abort calls t call env s s' : reval world calls env call s = (Aborted, s') -> reval world calls env (wrapper_ret T t call) s = (Aborted, s').
  Proof.
    intros R. assert (C : forall k e, reval world calls env e s = (Aborted, s') -> reval world calls env (EConv k e) s = (Aborted, s')) by (intros k e Q; cbn [reval]; unfold bind; rewrite Q; reflexivity).
    unfold wrapper_ret. repeat first [exact R|apply C|match goal with |- reval _ _ _ (match ?t with _ => _ end) _ = _ => destruct t end].
  Qed.
  Lemma revals_app calls (env : list (string * val)) l1 : forall l2 v1 v2 s s1 s2, revals world calls env l1 s = (Done v1, s1) -> revals world calls env l2 s1 = (Done v2, s2) -> revals world calls env (l1 ++ l2) s = (Done (v1 ++ v2), s2).
  Proof.
    induction l1 as [|e l1 IH]; intros l2 v1 v2 s s1 s2 R1 R2; [injection R1 as <- <-; exact R2|]. cbn [app revals] in *. fold (revals world calls env) in *. unfold bind in *.
    destruct (reval world calls env e s) as ([v| | | |] & s3) eqn:Ee; try discriminate R1. destruct (revals world calls env l1 s3) as ([v'| | | |] & s4) eqn:Ev; try discriminate R1.
    injection R1 as <- <-. rewrite (IH _ _ _ _ _ _ Ev R2). reflexivity.
  Qed.

  Lemma lookup_combine (xs : list string) : forall (vs : list val) x v, NoDup xs -> x <> "_" -> In (x, v) (combine xs vs) -> lookup x (combine xs vs) = Some v.
  Proof.
    induction xs as [|y xs IH]; intros [|w vs] x v N U I; try destruct I. 
    - injection H as -> ->. apply lookup_cons_same. exact U.
    - inversion N; subst. cbn [combine]. rewrite lookup_cons_other; [apply IH; assumption|]. intros ->. apply in_combine_l in H. contradiction.
  Qed.
  Lemma lookup_combine_none (xs : list string) : forall (vs : list val) x, ~ In x xs -> lookup x (combine xs vs) = None.
  Proof.
    induction xs as [|y xs IH]; intros [|w vs] x N; try reflexivity. cbn [combine]. rewrite lookup_cons_other; [apply IH; intros I; apply N; right; exact I|]. intros ->. apply N. left. reflexivity.
  Qed.
  Lemma forall2_combine {B} (R : string * B -> val -> Prop) : forall (args : list (string * B)) (vs : list val), Forall2 R args vs -> forall a v, In (a, v) (combine args vs) -> In (fst a, v) (combine (map fst args) vs).
  Proof. induction 1; cbn; intros a v I; [exact I|]. destruct I as [I|I]; [injection I as -> ->; left; reflexivity|right; auto]. Qed.
  Lemma forall2_pairs {B C} (R Q : B -> C -> Prop) l l' : Forall2 R l l' -> (forall a b, In (a, b) (combine l l') -> R a b -> Q a b) -> Forall2 Q l l'.
  Proof. induction 1; intros K; constructor; [apply K; [left; reflexivity|assumption]|]. apply IHForall2. intros a b I. apply K. right. exact I. Qed.

  Lemma rust_side f w recv (vs : list val) bs g s : well_named (map fst (fn_args f)) -> p_rust (fn_name f) <> "return" ->
    let local := ("__" ++ p_rust (fn_name f))%string in ~ In local (map fst (fn_args f)) -> ~ In "__return" (map fst (fn_args f)) ->
    cxx_wrapper n T f = Some w -> receiver_fits (fn_receiver f) recv ->
    Forall2 (fun a b => needs_indirect_abi n T (snd a) = Some b) (fn_args f) bs -> Forall2 (fun a v => fits (snd a) v) (fn_args f) vs ->
    (forall x t, In (x, t) (fn_args f) -> is_rust_string t = true \/ (exists u, t = TVec u) -> needs_indirect_abi n T t = Some true) ->
    exists ws l nr s1 slot, indirect_return n T (fn_sig f) = Some slot /\ trace s1 = trace s /\ wires (mem s1) l bs (map in_cxx vs) ws /\
      (forall q, In q l -> q < next s1) /\ ~ In nr l /\ (slot = true -> nr < next s1) /\
      let recvs := map (fun a => Addr (Outer a)) (match recv with Some a => [a] | None => [] end) in
      let run := run_rust world (only local g) w (recvs ++ vs) s in
      match g (recvs ++ ws ++ when slot [Addr (Local nr)]) s1 with
      | (Done r, s2) => forall v, fits_ret (fn_ret f) v -> (slot = true -> mem s2 nr = Some (lower v)) ->
          (fn_throws f = false -> r = (if slot then Unit else lowered (fn_ret f) v) -> run = (Done v, s2)) /\
          (fn_throws f = true -> r = Reply None -> run = (Done (Res (inl v)), s2))
      | _ => True
      end /\
      match g (recvs ++ ws ++ when slot [Addr (Local nr)]) s1 with
      | (Done r, s2) => fn_throws f = true -> forall e, r = Reply (Some e) -> run = (Done (Res (inr e)), s2)
      | (Aborted, s2) => run = (Aborted, s2)
      | _ => True
      end.
  Proof.
    intros (N & Ns & Nu) Nr local Nl Nret E Rf Hb Hf Sv. unfold cxx_wrapper in E.
    apply obind_inv in E. destruct E as (decl & _ & E). apply obind_inv in E. destruct E as (es & Ees & E).
    apply obind_inv in E. destruct E as (st & Est & E). apply obind_inv in E. destruct E as (slot & Eslot & E).
    fold local in E. set (vars := when (is_some (fn_receiver f)) [EVar "self"] ++ es) in *.
    set (recvs := map (fun a => Addr (Outer a)) (match recv with Some a => [a] | None => [] end)).
    set (names := map fst (x_receivers "self" (fn_sig f) ++ x_args (fn_sig f))).
    assert (En : names = when (is_some (fn_receiver f)) ["self"%string] ++ map fst (fn_args f)).
    { unfold names, x_receivers, x_args. rewrite map_app, map_map. cbn [fst sg_receiver sg_args fn_sig]. destruct (fn_receiver f); reflexivity. }
    assert (Nn : NoDup names) by (rewrite En; destruct (fn_receiver f); cbn; [constructor; assumption|exact N]).
    assert (Lv : List.length (map fst (fn_args f)) = List.length vs) by (rewrite map_length; eapply forall2_length, Hf).
    assert (Ec : combine names (recvs ++ vs) = combine (when (is_some (fn_receiver f)) ["self"%string]) recvs ++ combine (map fst (fn_args f)) vs).
    { rewrite En. unfold recvs. destruct (fn_receiver f), recv; try contradiction; reflexivity. }
    assert (H0 : Forall2 (fun a v => fits (snd a) v /\ lookup (fst a) (combine names (recvs ++ vs)) = Some v) (fn_args f) vs).
    { eapply forall2_pairs; [exact Hf|]. intros (x, t) v I Fi. split; [exact Fi|]. cbn [fst]. apply lookup_combine; [exact Nn|intros ->; apply Nu|].
      - apply in_combine_l in I. apply (in_map fst) in I. exact I.
      - rewrite Ec. apply in_or_app. right. apply (forall2_combine _ _ _ Hf (x, t) v I). }
    assert (Hlen : List.length (recvs ++ vs) = List.length (x_receivers "self" (fn_sig f) ++ x_args (fn_sig f))).
    { transitivity (List.length names); [|unfold names; apply map_length]. rewrite En. unfold recvs. destruct (fn_receiver f), recv; try contradiction; cbn; congruence. }
    assert (L0 : local <> "self" /\ local <> "__return" /\ local <> "_").
    { split; [discriminate|]. split; [|discriminate]. unfold local. cbn. intros Q. injection Q as Q. contradiction. }
    assert (Ll : lookup local (combine names (recvs ++ vs)) = None).
    { apply lookup_combine_none. rewrite En. destruct (fn_receiver f); cbn; [|exact Nl]. intros [Q|Q]; [exact (proj1 L0 (eq_sym Q))|exact (Nl Q)]. }
    match type of E with (let '(m, c) := ?X in _) = _ => destruct X as (more, call) eqn:Em end.
    set (value := match fn_ret f with None => call | Some r => _ end) in E. injection E as <-.
    destruct (tramp_run world (only local g) (fn_args f) vs (combine names (recvs ++ vs)) (st ++ more) value s H0 N Nu) as (env1 & R1 & F1 & O1).
    assert (F1' : Forall2 (fun a v => lookup (fst a) env1 = Some v) (fn_args f) (map in_cxx vs)) by (clear - F1; induction F1; constructor; assumption).
    destruct (setup_run world (only local g) n T (fn_args f) bs (map in_cxx vs) env1 st more value s Hb Est F1' N Nu) as (env2 & s1 & l & R2 & Fr & Sg & Lq & O2).
    set (nr := next s1).
    (* the call, with any scope with these names *)
    assert (Call : forall env2' s2 tail tailv, frame s1 s2 -> (forall x, In x (map fst (fn_args f)) \/ x = "self" \/ x = local -> lookup x env2' = lookup x env2) ->
      revals world (only local g) env2' tail s2 = (Done tailv, s2) ->
      exists ws, wires (mem s2) l bs (map in_cxx vs) ws /\ reval world (only local g) env2' (ECall local (vars ++ tail)) s2 = g (recvs ++ ws ++ tailv) s2).
    { intros env2' s2 tail tailv Fr2 Sc Rt.
      destruct (wrapper_evals world (only local g) n T (fn_args f) bs vs es l env2' s2 Ees Hb Hf Sv) as (ws & Rw & W).
      { eapply staged_env; [eapply staged_mem; [exact Sg|]|].
        - intros q I. destruct Fr2 as (_ & _ & Fr2). apply Fr2, Lq, I.
        - intros x I. apply Sc. left. exact I. }
      exists ws. split; [exact W|]. cbn [reval]. rewrite Sc by auto. rewrite (O2 local Nl), (O1 local Nl), Ll. fold (revals world (only local g) env2').
      unfold vars. rewrite <- app_assoc.
      erewrite bind_done; [|eapply revals_app; [|eapply revals_app; [exact Rw|exact Rt]]].
      - unfold only. rewrite String.eqb_refl. reflexivity.
      - unfold recvs. destruct (fn_receiver f), recv; try contradiction; [|reflexivity]. cbn [is_some when revals reval].
        rewrite Sc by auto. rewrite (O2 "self" Ns), (O1 "self" Ns), Ec. reflexivity. }
    assert (Run : run_rust world (only local g) (RustFn (x_receivers "self" (fn_sig f) ++ x_args (fn_sig f)) (if fn_throws f then XResult (x_ret (fn_ret f)) else x_ret (fn_ret f)) [(local, decl)] (trampolines (fn_args f) ++ st ++ more) value) (recvs ++ vs) s =
      rrun world (only local g) env2 more value s1).
    { unfold run_rust. cbn [rf_params rf_stmts rf_value]. rewrite Hlen, Nat.eqb_refl. fold names. rewrite R1, R2. reflexivity. }
    destruct slot.
    - destruct (fn_ret f) as [r|] eqn:Er; [|unfold indirect_return in Eslot; cbn [sg_ret fn_sig] in Eslot; rewrite Er in Eslot; discriminate Eslot].
      injection Em as <- <-. destruct (alloc None s1) as ([q| | | |] & s2) eqn:Ea; try discriminate Ea. pose proof (frame_alloc _ _ _ _ Ea) as Fa. pose proof Ea as Ea'. apply mem_alloc in Ea' as (-> & Nn2 & Tr & Mq & Mo).
      set (env3 := ("__return"%string, Uninit nr) :: env2).
      destruct (Call env3 s2 [EConv KMutPtr (EVar "__return")] [Addr (Local nr)] Fa) as (ws & W & Rc).
      { intros x I. unfold env3. apply lookup_cons_other. destruct I as [I|[->| ->]]; [intros ->; exact (Nret I)|discriminate|apply L0]. }
      { reflexivity. }
      exists ws, l, nr, s2, true. split; [exact Eslot|]. split; [destruct Fr as (_ & Fr & _); congruence|]. split; [exact W|]. split; [intros q I; apply Lq in I; lia|]. split; [intros I; apply Lq in I; unfold nr in I; lia|]. split; [intros _; unfold nr; lia|].
      cbn zeta. rewrite Run. clear Run. cbn [when].
      assert (Start : forall rest, rrun world (only local g) env2 (SLet "__return" (EUninit (x_extern T true r)) :: rest) value s1 = rrun world (only local g) env3 rest value s2).
      { intros rest. cbn [rrun reval]. rewrite bind_assoc, (bind_done _ _ _ _ _ Ea). reflexivity. }
      assert (Value : forall v s3, fits r v -> mem s3 nr = Some (lower v) -> reval world (only local g) env3 value s3 = (Done (if fn_throws f then Res (inl v) else v), s3)).
      { intros v s3 Fi Mv. assert (R : reval world (only local g) env3 (wrapper_ret T r (EConv KInit (EVar "__return"))) s3 = (Done v, s3)).
        { apply wrapper_ret_eval; [exact Fi|]. cbn [reval env3 lookup]. cbn. rewrite Mv. reflexivity. }
        unfold value. destruct (fn_throws f); [|exact R]. cbn [reval]. rewrite (bind_done _ _ _ _ _ R). reflexivity. }
      rewrite Start. set (call0 := ECall local (vars ++ [EConv KMutPtr (EVar "__return")])) in *.
      assert (Ex : reval world (only local g) env3 (EConv KException call0) s2 = bind (reval world (only local g) env3 call0) (convert KException) s2) by reflexivity.
      destruct (g (recvs ++ ws ++ [Addr (Local nr)]) s2) as ([x| | | |] & s3) eqn:Eg; destruct (fn_throws f) eqn:Th; cbn [rrun]; (split; [|]); try exact I; try (intros Q; discriminate Q).
      + intros v Fv Mv. split; [discriminate|]. intros _ ->. erewrite bind_done; [|rewrite Ex; erewrite bind_done; [|exact Rc]; reflexivity]. apply Value; auto.
      + intros _ e ->. erewrite bind_done; [|rewrite Ex; erewrite bind_done; [|exact Rc]; reflexivity]. reflexivity.
      + intros v Fv Mv. split; [|discriminate]. intros _ ->. rewrite (bind_done _ _ _ _ _ Rc). apply Value; auto.
      + unfold bind at 1. rewrite Ex. unfold bind. rewrite Rc. reflexivity.
      + unfold bind. rewrite Rc. reflexivity.
    - assert (Em' : more = [] /\ call = (if fn_throws f then EConv KException (ECall local (vars ++ [])) else ECall local (vars ++ []))) by (rewrite app_nil_r; destruct (fn_ret f); split; congruence).
      destruct Em' as (-> & Ec'). clear Em.
      destruct (Call env2 s1 [] [] (frame_refl _)) as (ws & W & Rc); [reflexivity|reflexivity|].
      exists ws, l, nr, s1, false. split; [exact Eslot|]. split; [apply Fr|]. split; [exact W|]. split; [intros q I; apply Lq in I; lia|]. split; [intros I; apply Lq in I; unfold nr in I; lia|]. split; [discriminate|].
      cbn zeta. rewrite Run. clear Run. cbn [when rrun]. set (call0 := ECall local (vars ++ [])) in *.
      assert (Ex : reval world (only local g) env2 (EConv KException call0) s1 = bind (reval world (only local g) env2 call0) (convert KException) s1) by reflexivity.
      assert (Tn : fn_throws f = true -> fn_ret f = None).
      { intros Th. unfold indirect_return in Eslot. cbn [sg_ret sg_throws fn_sig] in Eslot. rewrite Th in Eslot. destruct (fn_ret f); [discriminate Eslot|reflexivity]. }
      destruct (g (recvs ++ ws ++ []) s1) as ([x| | | |] & s3) eqn:Eg; try (split; exact I).
      + split.
        * intros v Fv _. split.
          -- intros Th ->. rewrite Th in Ec'. subst call. unfold value. rewrite Th. destruct (fn_ret f) as [t|]; cbn [fits_ret lowered] in *; [apply wrapper_ret_eval; assumption|]. subst v. exact Rc.
          -- intros Th ->. rewrite Th in Ec'. specialize (Tn Th). rewrite Tn in Fv. cbn in Fv. subst v call. unfold value. rewrite Tn, Ex, (bind_done _ _ _ _ _ Rc). reflexivity.
        * intros Th e ->. rewrite Th in Ec'. specialize (Tn Th). subst call. unfold value. rewrite Tn, Ex, (bind_done _ _ _ _ _ Rc). reflexivity.
      + split; [exact I|]. assert (Ab : reval world (only local g) env2 call s1 = (Aborted, s3)) by (subst call; destruct (fn_throws f); [rewrite Ex; unfold bind; rewrite Rc; reflexivity|exact Rc]).
        unfold value. destruct (fn_ret f) as [t|]; [|exact Ab]. destruct (fn_throws f); [discriminate (Tn eq_refl)|]. apply wrapper_ret_abort. exact Ab.
  Qed.
End RustSide.
