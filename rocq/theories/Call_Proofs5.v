(** For C86: the run of the exported Rust function, from C++. *)
From Verif Require Import Base StrLib Syntax_Model Types_Model Types_Spec Check_Model Check_Spec Check_Proofs Check_Proofs2 Check_Props Mangle_Model Mangle_Spec Mangle_Proofs2
  Abi_Model Abi_Spec Abi_Proofs Expr_Model Expr_Spec Expr_Proofs2 Expr_Proofs3 CxxExpr_Model CxxExpr_Spec CxxExpr_Proofs CxxExpr_Proofs2 Call_Spec Call_Proofs Call_Proofs2 Call_Proofs3 Call_Proofs4.
From Coq Require Import Lia.

Section Exported.
  Context {D A F X : Type}.
  Notation val := (val D A F X). Notation event := (event D A F X). Notation reply := (reply D A F X). Notation state := (state D A F X).
  Notation M := (M D A F X).
  Variable world : list event -> event -> reply.
  Variables (n : nat) (T : types).
  Variable calls : string -> list val -> M val.

  Definition no_fn (t : ty) : Prop := forall un th a r, t <> TFn un th a r.

  Lemma shim_eval x t e b v w env s : shim_var n T x t = Some e -> needs_indirect_abi n T t = Some b -> fits t v -> no_fn t ->
    (is_rust_string t = true \/ (exists u, t = TVec u) -> b = true) -> lookup x env = Some w ->
    (if b then exists q, w = Addr (Local q) /\ mem s q = Some v else w = lower v) ->
    passed b w v s (reval world calls env e).
  Proof.
    intros E Eb Fi Nf Sv L H. unfold shim_var in E.
    assert (Take : forall k, (forall a s, convert (D := D) (F := F) (X := X) k (Addr a) s = (Done (Addr (A := A) a), s)) -> b = true -> passed b w v s (reval world calls env (EConv KTake (EConv k (EConv KDeref (EVar x)))))).
    { intros k Hk ->. destruct H as (q & -> & Mq). exists (set_mem q None s). split; [|split; [reflexivity|split; [reflexivity|]]].
      - cbn [reval]. rewrite L. rewrite !bind_assoc, bind_ret. cbn [convert]. rewrite bind_ret. rewrite (bind_done _ _ _ _ _ (Hk _ _)). cbn [convert take]. rewrite Mq. reflexivity.
      - intros q' Nq. cbn. destruct (Nat.eqb_spec q' q) as [->|]; [exfalso; apply (Nq eq_refl eq_refl)|reflexivity]. }
    assert (Pure : forall e', b = false -> reval world calls env e' s = (Done v, s) -> passed b w v s (reval world calls env e')).
    { intros e' Hb R. exists s. split; [exact R|]. repeat split; reflexivity. }
    destruct (is_rust_string t) eqn:Es.
    - injection E as <-. apply Take; [reflexivity|]. apply Sv. left. reflexivity.
    - assert (Simple : option_map (fun b : bool => if b then EConv KRead (EVar x) else EVar x) (Some b) = Some e -> lower v = v -> passed b w v s (reval world calls env e)).
      { intros E' Lv. cbn in E'. injection E' as <-. exists s. split; [|repeat split; reflexivity]. destruct b.
        - destruct H as (q & -> & Mq). cbn [reval]. rewrite L, bind_ret. cbn [convert read]. rewrite Mq. reflexivity.
        - subst w. cbn [reval]. rewrite L, Lv. reflexivity. }
      destruct t; try (rewrite Eb in E; apply Simple; [exact E|inversion Fi; subst; try contradiction; reflexivity]);
        try (cbn [needs_indirect_abi] in Eb; injection Eb as <-; injection E as <-; inversion Fi; subst; try contradiction; apply Pure; [reflexivity|]; cbn [lower] in L; try (cbn [reval]; rewrite L; reflexivity)).
      + injection E as <-. assert (b = true) by (apply Sv; eauto). destruct (is_rust_string t); apply Take; auto.
      + destruct (is_rust_string t); [cbn [reval]; rewrite L; reflexivity|]. destruct t; try (destruct (is_rust_string t)); cbn [reval]; rewrite L; reflexivity.
  Qed.

  Lemma shim_evals args : forall bs (vs ws : list val) es l env s, otraverse (fun a => shim_var n T (fst a) (snd a)) args = Some es ->
    Forall2 (fun a b => needs_indirect_abi n T (snd a) = Some b) args bs -> Forall2 (fun a v => fits (snd a) v) args vs ->
    (forall x t, In (x, t) args -> no_fn t) ->
    (forall x t, In (x, t) args -> is_rust_string t = true \/ (exists u, t = TVec u) -> needs_indirect_abi n T t = Some true) ->
    wires (mem s) l bs vs ws -> Forall2 (fun a w => lookup (fst a) env = Some w) args ws ->
    exists s', revals world calls env es s = (Done vs, s') /\ trace s' = trace s /\ next s' = next s /\ (forall q, ~ In q l -> mem s' q = mem s q).
  Proof.
    induction args as [|(x, t) args IH]; intros bs vs ws es l env s E Hb Hf Nf Sv W Lk.
    - inversion Hb; inversion Hf; subst. injection E as <-. exists s. repeat split; reflexivity.
    - inversion Hb as [|? b ? bs' Eb Hb']; inversion Hf as [|? v ? vs' Fi Hf']; inversion Lk as [|? w ? ws' Lx Lk']; subst. apply otraverse_inv in E as (e & es' & Ee & Es & ->). cbn [fst snd] in *.
      assert (Sx : is_rust_string t = true \/ (exists u, t = TVec u) -> b = true) by (intros Q; apply (Sv x t) in Q; [congruence|left; reflexivity]).
      assert (Wx : (if b then exists q, w = Addr (Local q) /\ mem s q = Some v else w = lower v) /\
        exists l', (forall q, In q l' -> In q l) /\ (forall q, b = true -> w = Addr (Local q) -> In q l /\ ~ In q l') /\ wires (mem s) l' bs' vs' ws').
      { inversion W as [|l0 bs0 vs0 ws0 v0 W'|q l0 bs0 vs0 ws0 v0 Mq Nq W']; subst.
        - split; [reflexivity|]. exists l. repeat split; auto; discriminate.
        - split; [exists q; auto|]. exists l0. split; [intros z I; right; exact I|]. split; [|exact W']. intros z _ E. injection E as <-. split; [left; reflexivity|exact Nq]. }
      destruct Wx as (Wx & l' & Sub & Own & W').
      destruct (shim_eval x t e b v w env s Ee Eb Fi (Nf x t (or_introl eq_refl)) Sx Lx Wx) as (s1 & R1 & T1 & N1 & K1).
      destruct (IH bs' vs' ws' es' l' env s1 Es Hb' Hf') as (s2 & R2 & T2 & N2 & K2).
      { intros y u I. apply (Nf y u). right. exact I. }
      { intros y u I. apply (Sv y u). right. exact I. }
      { eapply wires_frame; [exact W'|]. intros q I. apply K1. intros Et Ew. destruct (Own q Et Ew) as (_ & J). exact (J I). }
      { exact Lk'. }
      exists s2. split; [|split; [congruence|split; [congruence|]]].
      + cbn [revals]. rewrite (bind_done _ _ _ _ _ R1). fold (revals world calls env). rewrite (bind_done _ _ _ _ _ R2). reflexivity.
      + intros q Nq. rewrite K2 by (intros I; apply Nq, Sub, I). apply K1. intros Et Ew. destruct (Own q Et Ew) as (I & _). exact (Nq I).
  Qed.

  (** The result of the user, on its way out. *)
  Lemma conv_ok t v (s : state) : fits t v -> match shim_conv t with Some k => convert k v s = (Done (lower v), s) | None => lower v = v end.
  Proof.
    intros Fi. unfold shim_conv. destruct (is_rust_string t) eqn:Es; [destruct t; try discriminate Es; inversion Fi; subst; reflexivity|].
    destruct t; try (inversion Fi; subst; try contradiction; reflexivity).
    - inversion Fi; subst. destruct (is_rust_string t); reflexivity.
    - inversion Fi; subst; [|contradiction]. destruct (is_rust_string t); [reflexivity|]. destruct t; try reflexivity. destruct (is_rust_string t); reflexivity.
  Qed.

  Lemma names_nodup (sg : signature) out ext : NoDup (map fst (sg_args sg)) -> (forall x, In x ["__self"; "__return"; "__extern"; "__fn"; "_"] -> ~ In x (map fst (sg_args sg))) ->
    (out = [] \/ out = ["__return"%string]) -> (ext = [] \/ ext = ["__extern"%string]) ->
    NoDup (when (is_some (sg_receiver sg)) ["__self"%string] ++ map fst (sg_args sg) ++ out ++ ext).
  Proof.
    intros N Nn Ho He.
    assert (No : NoDup (out ++ ext)) by (destruct Ho as [->| ->], He as [->| ->]; cbn; repeat constructor; cbn; intuition discriminate).
    assert (Ns : NoDup (map fst (sg_args sg) ++ out ++ ext)).
    { apply NoDup_app_intro; [exact N|exact No|]. intros x I J. apply in_app_or in J. destruct J as [J|J].
      - destruct Ho as [->| ->]; [destruct J|]. destruct J as [<-|[]]. apply (Nn "__return"); cbn; auto.
      - destruct He as [->| ->]; [destruct J|]. destruct J as [<-|[]]. apply (Nn "__extern"); cbn; auto. }
    destruct (sg_receiver sg); [|exact Ns]. cbn [is_some when app]. constructor; [|exact Ns]. intros I. apply in_app_or in I. destruct I as [I|I].
    - apply (Nn "__self"); cbn; auto.
    - destruct Ho as [->| ->], He as [->| ->]; cbn in I; intuition discriminate.
  Qed.

  Lemma export_side (sg : signature) (invoke : (string * bool) + xty) r recv (vs ws : list val) bs l nr (fv : val) s ev slot :
    rust_shim n T sg invoke = Some r -> NoDup (map fst (sg_args sg)) -> (forall x, In x ["__self"; "__return"; "__extern"; "__fn"; "_"] -> ~ In x (map fst (sg_args sg))) ->
    receiver_fits (sg_receiver sg) recv -> indirect_return n T sg = Some slot ->
    Forall2 (fun a b => needs_indirect_abi n T (snd a) = Some b) (sg_args sg) bs -> Forall2 (fun a v => fits (snd a) v) (sg_args sg) vs ->
    (forall x t, In (x, t) (sg_args sg) -> no_fn t) -> wires (mem s) l bs vs ws -> (forall q, In q l -> q < next s) -> (slot = true -> nr < next s) -> ~ In nr l ->
    let recvs := map (fun a => Addr (Outer a)) (match recv with Some a => [a] | None => [] end) in
    match invoke with
    | inl (local, _) => ~ In local (map fst (sg_args sg)) /\ ~ In local ["__self"; "__return"; "__fn"]%string /\ forall s', calls local (recvs ++ vs) s' = perform world ev s'
    | inr _ => exists fp, fv = Fun fp /\ ev = CallFn fp (recvs ++ vs)
    end ->
    let run := run_rust world calls r (recvs ++ ws ++ when slot [Addr (Local nr)] ++ match invoke with inl _ => [] | inr _ => [fv] end) s in
    match world (trace s) ev with
    | Returns u => forall o, answer (sg_throws sg) u = Some o -> (forall v, o = inl v -> fits_ret (sg_ret sg) v) ->
        exists s4, trace s4 = trace s ++ [ev] /\ next s <= next s4 /\
          run = (Done (match o with inl v => if sg_throws sg then Reply None else if slot then Unit else lowered (sg_ret sg) v | inr e => Reply (Some e) end), s4) /\
          (forall v, o = inl v -> slot = true -> mem s4 nr = Some (lower v))
    | Throws _ => True
    | Panics => exists s4, trace s4 = trace s ++ [ev] /\ run = (Aborted, s4)
    end.
  Proof.
    intros E N Nn Rf Eslot Hb Hf Nf W Ll Ln Nl recvs User. unfold rust_shim in E.
    apply obind_inv in E. destruct E as (ret & _ & E). apply obind_inv in E. destruct E as (params & Ep & E). apply obind_inv in E. destruct E as (es & Ees & E). apply obind_inv in E. destruct E as (out & Eout & E).
    set (vars := when (is_some (sg_receiver sg)) [EVar "__self"] ++ es) in *.
    set (call := match invoke with inl (local, _) => ECall local vars | inr t => ECallPtr (EConv (KTransmute t) (EVar "__extern")) vars end) in E. set (conversion := obind (sg_ret sg) shim_conv) in *.
    set (expr1 := match conversion with None => call | Some k => if sg_throws sg then EMap call k else EConv k call end) in E.
    set (expr2 := if sg_throws sg then ETry (match sg_ret sg with Some _ => EVar "__return" | None => EUnitSlot end) expr1 else match out with [] => expr1 | _ => EWrite (EVar "__return") expr1 end) in E.
    injection E as <-.
    set (exts := match invoke with inl _ => [] | inr _ => [("__extern"%string, XPtr false XUnit)] end).
    set (extv := match invoke with inl _ => [] | inr _ => [fv] end).
    destruct (trav_names _ _ _ Ep) as (Pn & _).
    assert (Outs : (slot = false /\ out = []) \/ (slot = true /\ exists x rt, out = [x] /\ sg_ret sg = Some rt)).
    { unfold x_outparam in Eout. rewrite Eslot in Eout. cbn [obind] in Eout. destruct slot; [|left; split; congruence]. destruct (sg_ret sg); [|discriminate Eout]. right. split; [reflexivity|]. injection Eout as <-. eauto. }
    set (names := map fst (x_receivers "__self" sg ++ params ++ map (pair "__return"%string) out ++ exts)).
    assert (En : names = when (is_some (sg_receiver sg)) ["__self"%string] ++ map fst (sg_args sg) ++ when slot ["__return"%string] ++ map fst exts).
    { unfold names. rewrite !map_app, Pn. unfold x_receivers. f_equal; [destruct (sg_receiver sg); reflexivity|]. f_equal. f_equal. destruct Outs as [(-> & ->)|(-> & ? & ? & -> & _)]; reflexivity. }
    assert (Nd : NoDup names).
    { rewrite En. apply names_nodup; [exact N|exact Nn|destruct slot; auto|]. unfold exts. destruct invoke; auto. }
    set (vals := recvs ++ ws ++ when slot [Addr (Local nr)] ++ extv).
    assert (Lw : List.length ws = List.length (map fst (sg_args sg))).
    { rewrite map_length. rewrite (forall2_length _ _ _ Hf). clear - W. induction W; cbn; congruence. }
    assert (Ec : combine names vals = combine (when (is_some (sg_receiver sg)) ["__self"%string]) recvs ++ combine (map fst (sg_args sg)) ws ++ combine (when slot ["__return"%string]) (when slot [Addr (Local nr)]) ++ combine (map fst exts) extv).
    { rewrite En. unfold vals. assert (App : forall (l1 l2 : list string) (k1 k2 : list val), List.length l1 = List.length k1 -> combine (l1 ++ l2) (k1 ++ k2) = combine l1 k1 ++ combine l2 k2).
      { clear. induction l1; intros l2 [|k k1] k2 L; try discriminate L; [reflexivity|]. cbn in *. f_equal. apply IHl1. congruence. }
      rewrite App, App, App; [reflexivity|destruct slot; reflexivity|congruence|]. unfold recvs. destruct (sg_receiver sg), recv; try contradiction; reflexivity. }
    set (env := ("__fn"%string, Unit) :: combine names vals).
    assert (Lk : forall x v, x <> "_" -> x <> "__fn" -> In (x, v) (combine names vals) -> lookup x env = Some v).
    { intros x v U Fn I. unfold env. rewrite lookup_cons_other by exact Fn. apply lookup_combine; assumption. }
    assert (Larg : Forall2 (fun a w => lookup (fst a) env = Some w) (sg_args sg) ws).
    { assert (Q : Forall2 (fun (a : string * ty) (w : val) => True) (sg_args sg) ws).
      { clear - Lw. rewrite map_length in Lw. revert ws Lw. induction (sg_args sg); intros [|w ws] L; try discriminate L; constructor; auto. }
      eapply forall2_pairs; [exact Q|]. intros (x, t) w I _. cbn [fst]. pose proof (in_combine_l _ _ _ _ I) as J. apply (in_map fst) in J. cbn [fst] in J.
      apply Lk; [intros ->; exact (Nn "_" (or_intror (or_intror (or_intror (or_intror (or_introl eq_refl))))) J)|intros ->; exact (Nn "__fn" (or_intror (or_intror (or_intror (or_introl eq_refl)))) J)|].
      rewrite Ec. apply in_or_app. right. apply in_or_app. left. exact (forall2_combine _ _ _ Q (x, t) w I). }
    assert (Sv : forall x t, In (x, t) (sg_args sg) -> is_rust_string t = true \/ (exists u, t = TVec u) -> needs_indirect_abi n T t = Some true).
    { intros x t I Q. assert (Eb : exists b, needs_indirect_abi n T t = Some b) by (clear - Hb I; induction Hb as [|a b l0 bs0 Q1 Q2 IH]; [destruct I|destruct I as [->|I]; [exists b; exact Q1|exact (IH I)]]).
      destruct Eb as (b & Eb). rewrite (in_memory T n t b Eb Q) in Eb. exact Eb. }
    (* the call *)
    assert (Vars : forall s', frame s s' -> exists s2, revals world calls env vars s' = (Done (recvs ++ vs), s2) /\ trace s2 = trace s /\ next s2 = next s' /\ (forall q, ~ In q l -> mem s2 q = mem s' q)).
    { intros s' Fr. destruct (shim_evals (sg_args sg) bs vs ws es l env s' Ees Hb Hf Nf Sv) as (s2 & R2 & T2 & N2 & K2).
      - eapply wires_frame; [exact W|]. intros q I. destruct Fr as (_ & _ & Fr). apply Fr, Ll, I.
      - exact Larg.
      - exists s2. split; [|split; [destruct Fr as (_ & Fr & _); congruence|split; assumption]]. unfold vars. eapply revals_app; [|exact R2]. unfold recvs in *. destruct (sg_receiver sg), recv; try contradiction; [|reflexivity].
        cbn [is_some when revals reval]. rewrite (Lk "__self" (Addr (Outer a))); [reflexivity|discriminate|discriminate|]. rewrite Ec. left. reflexivity. }
    assert (Call : forall s', frame s s' -> exists s2, reval world calls env call s' = perform world ev s2 /\ trace s2 = trace s /\ next s2 = next s' /\ (forall q, ~ In q l -> mem s2 q = mem s' q)).
    { intros s' Fr. destruct (Vars s' Fr) as (s2 & R2 & T2 & N2 & K2). exists s2. split; [|auto]. unfold call. destruct invoke as [(local, un)|t].
      - destruct User as (U1 & U2 & U3). cbn [reval]. replace (lookup local env) with (@None val).
        + fold (revals world calls env). rewrite (bind_done _ _ _ _ _ R2). apply U3.
        + symmetry. unfold env. rewrite lookup_cons_other; [|intros ->; apply U2; cbn; auto]. apply lookup_combine_none. rewrite En. unfold exts. intros I. apply in_app_or in I. destruct I as [I|I].
          * destruct (sg_receiver sg); [|destruct I]. destruct I as [<-|[]]. apply U2. cbn. auto.
          * apply in_app_or in I. destruct I as [I|I]; [exact (U1 I)|]. rewrite app_nil_r in I. destruct slot; [|destruct I]. destruct I as [<-|[]]. apply U2. cbn. auto.
      - destruct User as (fp & Efv & Eev). cbn [reval]. rewrite (Lk "__extern" (Fun fp)); [|discriminate|discriminate|].
        + rewrite bind_assoc, bind_ret. cbn [convert]. rewrite bind_ret. fold (revals world calls env). rewrite (bind_done _ _ _ _ _ R2). rewrite Eev. reflexivity.
        + rewrite Ec. apply in_or_app. right. apply in_or_app. right. apply in_or_app. right. left. rewrite <- Efv. reflexivity. }
    assert (Expr1 : forall s', frame s s' -> exists s2, trace s2 = trace s ++ [ev] /\ next s2 = next s' /\ (forall q, ~ In q l -> mem s2 q = mem s' q) /\
      match world (trace s) ev with
      | Returns u => forall o, answer (sg_throws sg) u = Some o -> (forall v, o = inl v -> fits_ret (sg_ret sg) v) ->
          reval world calls env expr1 s' = (Done (match o with inl v => if sg_throws sg then Res (inl (lowered (sg_ret sg) v)) else lowered (sg_ret sg) v | inr e => Res (inr e) end), s2)
      | Throws _ => True
      | Panics => reval world calls env expr1 s' = (Panicked, s2)
      end).
    { intros s' Fr. destruct (Call s' Fr) as (s2 & R2 & T2 & N2 & K2). exists (after s2 ev). cbn [after trace next mem]. split; [congruence|]. split; [exact N2|]. split; [exact K2|].
      unfold perform in R2. rewrite T2 in R2. destruct (world (trace s) ev) as [u|e|] eqn:Ew; [|exact I|].
      - rewrite <- T2 in R2. fold (after s2 ev) in R2. intros o Ao Fo. unfold answer in Ao. unfold expr1, conversion. destruct (sg_ret sg) as [t|]; cbn [obind fits_ret lowered] in *.
        + destruct (sg_throws sg).
          * destruct u; try discriminate Ao. injection Ao as <-. destruct r as [v|e].
            -- pose proof (conv_ok t v (after s2 ev) (Fo _ eq_refl)) as Cv. destruct (shim_conv t) as [k|]; [|rewrite Cv; exact R2]. cbn [reval]. rewrite (bind_done _ _ _ _ _ R2). cbn iota. rewrite (bind_done _ _ _ _ _ Cv). reflexivity.
            -- destruct (shim_conv t); [|exact R2]. cbn [reval]. rewrite (bind_done _ _ _ _ _ R2). reflexivity.
          * injection Ao as <-. pose proof (conv_ok t u (after s2 ev) (Fo _ eq_refl)) as Cv. destruct (shim_conv t) as [k|]; [|rewrite Cv; exact R2]. cbn [reval]. rewrite (bind_done _ _ _ _ _ R2). exact Cv.
        + rewrite R2. destruct (sg_throws sg).
          * destruct u; try discriminate Ao. injection Ao as <-. destruct r as [v|e]; [|reflexivity]. rewrite (Fo _ eq_refl). reflexivity.
          * injection Ao as <-. rewrite (Fo _ eq_refl). reflexivity.
      - rewrite <- T2 in R2. fold (after s2 ev) in R2. unfold expr1. destruct conversion as [k|]; [|exact R2]. destruct (sg_throws sg); cbn [reval]; unfold bind; rewrite R2; reflexivity. }
    assert (Ret : slot = true -> forall s', reval world calls env (EVar "__return") s' = (Done (Addr (Local nr)), s')).
    { intros -> s'. cbn [reval]. rewrite (Lk "__return" (Addr (Local nr))); [reflexivity|discriminate|discriminate|]. rewrite Ec. apply in_or_app. right. apply in_or_app. right. left. reflexivity. }
    assert (Val : run_rust world calls (RustFn (x_receivers "__self" sg ++ params ++ map (pair "__return"%string) out ++ exts) ret
        match invoke with inl (local, un) => [(local, FSig un (map snd (x_receivers "" sg ++ x_args sg)) (if sg_throws sg then XResult (x_ret (sg_ret sg)) else x_ret (sg_ret sg)))] | inr _ => [] end [SLabel]
        (if match invoke with inl (local, _) => negb (match vars with [] => true | _ => false end) || is_some conversion || sg_throws sg || match out with [] => false | _ => true end | inr _ => true end
         then EGuard expr2 else match invoke with inl (local, _) => EGuardFn local | inr _ => EGuard expr2 end)) vals s = guard (reval world calls env expr2) s).
    { unfold run_rust. cbn [rf_params rf_stmts rf_value]. replace (Nat.eqb _ _) with true; [|symmetry; apply Nat.eqb_eq; transitivity (List.length names); [rewrite En; unfold vals, exts, extv, recvs; rewrite !app_length, Lw; destruct (sg_receiver sg), recv; try contradiction; destruct slot, invoke; reflexivity|apply map_length]].
      fold names. cbn [rrun]. fold env. destruct invoke as [(local, un)|t]; [|reflexivity].
      destruct (negb (match vars with [] => true | _ => false end) || is_some conversion || sg_throws sg || match out with [] => false | _ => true end) eqn:Cl; [reflexivity|].
      apply orb_false_elim in Cl. destruct Cl as (Cl & C4). apply orb_false_elim in Cl. destruct Cl as (Cl & C3). apply orb_false_elim in Cl. destruct Cl as (C1 & C2).
      assert (Ev : vars = []) by (destruct vars; [reflexivity|discriminate C1]). unfold expr2. rewrite C3. destruct out; [|discriminate C4]. unfold expr1. destruct conversion; [discriminate C2|].
      unfold call. rewrite Ev. cbn [reval]. unfold guard. destruct (lookup local env); reflexivity. }
    cbn zeta. fold vals exts. rewrite Val. clear Val. unfold guard.
    destruct Outs as [(-> & ->)|(-> & ox & rt & -> & Ert)].
    - unfold expr2. destruct (sg_throws sg) eqn:Th.
      + assert (Er : sg_ret sg = None) by (unfold indirect_return in Eslot; rewrite Th in Eslot; destruct (sg_ret sg); [discriminate Eslot|reflexivity]). rewrite Er in *.
        destruct (alloc (Some Unit) s) as ([q| | | |] & s1) eqn:Ea; try discriminate Ea. pose proof (frame_alloc _ _ _ _ Ea) as Fa. pose proof Ea as Ea'. apply mem_alloc in Ea' as (-> & Nn2 & Tr & Mq & Mo).
        destruct (Expr1 s1 Fa) as (s2 & T2 & N2 & K2 & R2).
        assert (Out : forall h : val -> M val, bind (reval world calls env EUnitSlot) h s = h (Addr (Local (next s))) s1) by (intros h; cbn [reval]; rewrite bind_assoc, (bind_done _ _ _ _ _ Ea); reflexivity).
        destruct (world (trace s) ev) as [u|e|]; [|exact I|].
        * intros o Ao Fo. specialize (R2 o Ao Fo). destruct o as [v|e].
          -- exists (set_mem (next s) (Some Unit) s2). split; [exact T2|]. split; [cbn; lia|]. split; [|discriminate]. cbn [reval] in Out |- *. rewrite Out. rewrite (bind_done _ _ _ _ _ R2). reflexivity.
          -- exists s2. split; [exact T2|]. split; [lia|]. split; [|discriminate]. cbn [reval] in Out |- *. rewrite Out. rewrite (bind_done _ _ _ _ _ R2). reflexivity.
        * exists s2. split; [exact T2|]. cbn [reval] in Out |- *. rewrite Out. unfold bind. rewrite R2. reflexivity.
      + destruct (Expr1 s (frame_refl _)) as (s2 & T2 & N2 & K2 & R2). destruct (world (trace s) ev) as [u|e|]; [|exact I|].
        * intros o Ao Fo. exists s2. split; [exact T2|]. split; [lia|]. split; [|discriminate]. rewrite (R2 o Ao Fo). destruct o as [v|e]; [reflexivity|discriminate Ao].
        * exists s2. split; [exact T2|]. rewrite R2. reflexivity.
    - destruct (Expr1 s (frame_refl _)) as (s2 & T2 & N2 & K2 & R2). unfold expr2. rewrite Ert in *. destruct (sg_throws sg) eqn:Th.
      + destruct (world (trace s) ev) as [u|e|]; [|exact I|].
        * intros o Ao Fo. specialize (R2 o Ao Fo). destruct o as [v|e].
          -- exists (set_mem nr (Some (lower v)) s2). split; [exact T2|]. split; [cbn; lia|]. split.
             ++ cbn [reval]. fold (reval world calls env (EVar "__return")). rewrite (bind_done _ _ _ _ _ (Ret eq_refl s)). rewrite (bind_done _ _ _ _ _ R2). reflexivity.
             ++ intros v0 E0 _. injection E0 as <-. cbn. rewrite Nat.eqb_refl. reflexivity.
          -- exists s2. split; [exact T2|]. split; [lia|]. split; [|discriminate]. cbn [reval]. fold (reval world calls env (EVar "__return")). rewrite (bind_done _ _ _ _ _ (Ret eq_refl s)). rewrite (bind_done _ _ _ _ _ R2). reflexivity.
        * exists s2. split; [exact T2|]. cbn [reval]. fold (reval world calls env (EVar "__return")). rewrite (bind_done _ _ _ _ _ (Ret eq_refl s)). unfold bind. rewrite R2. reflexivity.
      + destruct (world (trace s) ev) as [u|e|]; [|exact I|].
        * intros o Ao Fo. specialize (R2 o Ao Fo). destruct o as [v|e]; [|discriminate Ao].
          exists (set_mem nr (Some (lower v)) s2). split; [exact T2|]. split; [cbn; lia|]. split.
          -- cbn [reval]. fold (reval world calls env (EVar "__return")). rewrite (bind_done _ _ _ _ _ (Ret eq_refl s)). rewrite (bind_done _ _ _ _ _ R2). reflexivity.
          -- intros v0 E0 _. injection E0 as <-. cbn. rewrite Nat.eqb_refl. reflexivity.
        * exists s2. split; [exact T2|]. cbn [reval]. fold (reval world calls env (EVar "__return")). rewrite (bind_done _ _ _ _ _ (Ret eq_refl s)). unfold bind. rewrite R2. reflexivity.
  Qed.
End Exported.
