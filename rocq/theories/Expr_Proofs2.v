From Verif Require Import Base StrLib Syntax_Model Toposort_Spec Types_Model Types_Spec Types_Props Check_Model Check_Spec Check_Proofs Check_Proofs2 Check_Props
  Mangle_Model Abi_Model Abi_Proofs Names_Model Expr_Model Expr_Spec Shim_Props Expr_Proofs.
From Coq Require Import Lia.

Lemma otraverse_inv {A B} (f : A -> option B) a l r : otraverse f (a :: l) = Some r ->
  exists b bs, f a = Some b /\ otraverse f l = Some bs /\ r = b :: bs.
Proof.
  change (otraverse f (a :: l)) with (obind (f a) (fun b => option_map (cons b) (otraverse f l))).
  destruct (f a) as [b|]; [|discriminate]. cbn [obind]. destruct (otraverse f l) as [bs|]; [|discriminate]. intros E. injection E as <-. eauto.
Qed.
Lemma obind_inv {A B} (o : option A) (f : A -> option B) r : obind o f = Some r -> exists a, o = Some a /\ f a = Some r.
Proof. destruct o; [eauto|discriminate]. Qed.

Lemma Forall2_app3 {A B} (R : A -> B -> Prop) a b c a' b' c' : List.length a = List.length a' -> List.length b = List.length b' ->
  Forall2 R (a ++ b ++ c) (a' ++ b' ++ c') <-> Forall2 R a a' /\ Forall2 R b b' /\ Forall2 R c c'.
Proof.
  assert (K : forall (x y : list A) (x' y' : list B), List.length x = List.length x' -> Forall2 R (x ++ y) (x' ++ y') <-> Forall2 R x x' /\ Forall2 R y y').
  { induction x as [|e x IH]; intros y [|e' x'] y' L; try discriminate L; cbn [app].
    - split; [intros H; split; [constructor|exact H]|tauto].
    - injection L as L. split.
      + intros H. inversion H; subst. apply IH in H5; [|exact L]. destruct H5. split; [constructor; assumption|assumption].
      + intros (H & H'). inversion H; subst. constructor; [assumption|]. apply IH; auto. }
  intros L1 L2. rewrite (K a (b ++ c) a' (b' ++ c') L1), (K b c b' c' L2). tauto.
Qed.

Definition base_type (t : ty) : xty := match t with TFn _ _ _ _ => XFat | _ => x_type t end.
Lemma var_base t : var_type false t = base_type t.
Proof. destruct t; reflexivity. Qed.

Section Wrapper.
  Variables (F : list (string * fsig)) (ret : xty).

  Lemma tramp_ok args : forall G, ~ In "_" (map fst args) -> NoDup (map fst args) -> (forall x t, In (x, t) args -> lookup x G = Some (x_type t)) ->
    (exists G', stmts_typed F ret G (trampolines args) G') /\
    forall G', stmts_typed F ret G (trampolines args) G' ->
      (forall x t, In (x, t) args -> lookup x G' = Some (base_type t)) /\ forall y, ~ In y (map fst args) -> lookup y G' = lookup y G.
  Proof.
    induction args as [|[x t] args IH]; intros G Us N H; cbn [map fst] in N, Us.
    { split; [exists G; constructor|]. intros G' K. inversion K; subst. split; [intros ? ? []|reflexivity]. }
    inversion N as [|? ? N1 N2]; subst. assert (Ux : x <> "_") by (intros ->; apply Us; left; reflexivity). assert (Ul : ~ In "_" (map fst args)) by (intros I; apply Us; right; exact I). pose proof (H x t (or_introl eq_refl)) as Hx.
    assert (Hl : forall y u, In (y, u) args -> y <> x).
    { intros y u Hy ->. apply N1. apply (in_map fst) in Hy. exact Hy. }
    assert (fnly : (exists un th a r, t = TFn un th a r) \/ (trampolines ((x, t) :: args) = trampolines args /\ base_type t = x_type t)).
    { destruct t; try (right; split; reflexivity). left. eauto. }
    destruct fnly as [(un & th & a & r & ->)|(E & Eb)].
    - cbn [trampolines flat_map snd fst app]. change (flat_map _ args) with (trampolines args).
      assert (H' : forall y u, In (y, u) args -> lookup y ((x, XFat) :: G) = Some (x_type u)).
      { intros y u Hy. rewrite lookup_cons_ne by exact (Hl y u Hy). apply H. right. exact Hy. }
      destruct (IH _ Ul N2 H') as ((G1 & K1) & U). split.
      + exists G1. econstructor; [|exact K1]. econstructor; [constructor; exact Hx|]. cbn [x_type]. constructor.
      + intros G' K. inversion K as [|? ? ? t0 ? ? K0 K2| | |]; subst.
        assert (t0 = XFat) as ->.
        { inversion K0; subst. match goal with C : converts KFat _ _ |- _ => inversion C; reflexivity end. }
        destruct (U _ K2) as (U1 & U2). split.
        * intros y u [Ey|Hy]; [injection Ey as <- <-; rewrite U2 by exact N1; apply lookup_cons_eq; exact Ux|apply U1, Hy].
        * intros y Ny. cbn [map fst] in Ny. rewrite U2 by (intros I; apply Ny; right; exact I). apply lookup_cons_ne. intros ->. apply Ny. left. reflexivity.
    - rewrite E. destruct (IH G Ul N2) as ((G1 & K1) & U); [intros y u Hy; apply H; right; exact Hy|]. split; [exists G1; exact K1|].
      intros G' K. destruct (U _ K) as (U1 & U2). split.
      + intros y u [Ey|Hy]; [injection Ey as <- <-; rewrite U2 by exact N1; rewrite Hx, Eb; reflexivity|apply U1, Hy].
      + intros y Ny. apply U2. intros I. apply Ny. right. exact I.
  Qed.

  Lemma setup_ok n T args : forall l G, setup n T args = Some l -> ~ In "_" (map fst args) -> NoDup (map fst args) -> (forall x t, In (x, t) args -> lookup x G = Some (base_type t)) ->
    (exists G', stmts_typed F ret G l G') /\
    forall G', stmts_typed F ret G l G' ->
      (forall x t, In (x, t) args -> exists b, needs_indirect_abi n T t = Some b /\ lookup x G' = Some (var_type b t)) /\ forall y, ~ In y (map fst args) -> lookup y G' = lookup y G.
  Proof.
    induction args as [|[x t] args IH]; intros l G E Us N H; cbn [map fst] in N, Us; cbn [setup] in E.
    { injection E as <-. split; [exists G; constructor|]. intros G' K. inversion K; subst. split; [intros ? ? []|reflexivity]. }
    inversion N as [|? ? N1 N2]; subst. assert (Ux : x <> "_") by (intros ->; apply Us; left; reflexivity). assert (Ul : ~ In "_" (map fst args)) by (intros I; apply Us; right; exact I). pose proof (H x t (or_introl eq_refl)) as Hx.
    assert (Hl : forall y u, In (y, u) args -> y <> x).
    { intros y u Hy ->. apply N1. apply (in_map fst) in Hy. exact Hy. }
    apply obind_inv in E. destruct E as (b & Eb & E). destruct (setup n T args) as [l'|] eqn:El; [|discriminate]. injection E as <-.
    destruct b; cbn [when app].
    - assert (Ht : base_type t = x_type t /\ var_type true t = XUninit (x_type t)) by (destruct t; try discriminate Eb; split; reflexivity). destruct Ht as (Ht & Hv).
      assert (H' : forall y u, In (y, u) args -> lookup y ((x, XUninit (x_type t)) :: G) = Some (base_type u)).
      { intros y u Hy. rewrite lookup_cons_ne by exact (Hl y u Hy). apply H. right. exact Hy. }
      destruct (IH l' _ eq_refl Ul N2 H') as ((G1 & K1) & U). split.
      + exists G1. econstructor; [|exact K1]. econstructor; [constructor; exact Hx|]. rewrite Ht. constructor.
      + intros G' K. inversion K as [|? ? ? t0 ? ? K0 K2| | |]; subst.
        assert (t0 = XUninit (x_type t)) as ->.
        { inversion K0 as [|? ? a ? J1 J2| | | | | | | | |]; subst. inversion J2; subst. apply (typed_var F G x _ _ Hx) in J1. congruence. }
        destruct (U _ K2) as (U1 & U2). split.
        * intros y u [Ey|Hy]; [injection Ey as <- <-; exists true; split; [exact Eb|]; rewrite U2 by exact N1; rewrite (lookup_cons_eq _ _ _ Ux), Hv; reflexivity|apply U1, Hy].
        * intros y Ny. cbn [map fst] in Ny. rewrite U2 by (intros I; apply Ny; right; exact I). apply lookup_cons_ne. intros ->. apply Ny. left. reflexivity.
    - destruct (IH l' G eq_refl Ul N2) as ((G1 & K1) & U); [intros y u Hy; apply H; right; exact Hy|]. split; [exists G1; exact K1|].
      intros G' K. destruct (U _ K) as (U1 & U2). split.
      + intros y u [Ey|Hy]; [injection Ey as <- <-; exists false; split; [exact Eb|]; rewrite U2 by exact N1; rewrite Hx; f_equal; symmetry; apply var_base|apply U1, Hy].
      + intros y Ny. apply U2. intros I. apply Ny. right. exact I.
  Qed.

  Lemma args_iff n T G args : forall es ds, otraverse (fun a => wrapper_arg n T (fst a) (snd a)) args = Some es ->
    otraverse (fun a => decl_arg n T (snd a)) args = Some ds ->
    (forall x t, In (x, t) args -> shape t /\ exists b, needs_indirect_abi n T t = Some b /\ lookup x G = Some (var_type b t)) ->
    List.length es = List.length ds /\ (Forall2 (typed F G) es ds <-> forall x t, In (x, t) args -> ~ no_conversion t).
  Proof.
    induction args as [|[x t] args IH]; intros es ds E1 E2 H.
    { cbn in E1, E2. injection E1 as <-. injection E2 as <-. split; [reflexivity|]. split; [intros _ ? ? []|constructor]. }
    apply otraverse_inv in E1, E2. destruct E1 as (e & es' & E1 & E1' & ->). destruct E2 as (d & ds' & E2 & E2' & ->). cbn [fst snd] in *.
    destruct (IH es' ds' E1' E2') as (L & J); [intros y u Hy; apply H; right; exact Hy|].
    destruct (H x t (or_introl eq_refl)) as (Hs & b & Hb & Hx).
    pose proof (wrapper_arg_ok F G T n x t b e d Hs Hb E1 E2 Hx) as A. split; [cbn; congruence|]. split.
    - intros K. inversion K; subst. intros y u [Ey|Hy]; [injection Ey as <- <-; apply A; assumption|apply (proj1 J) with (x := y); assumption].
    - intros K. constructor; [apply A; apply (K x); left; reflexivity|]. apply J. intros y u Hy. apply (K y). right. exact Hy.
  Qed.
End Wrapper.

Lemma call_iff F G f s es t : lookup f G = None -> lookup f F = Some s ->
  typed F G (ECall f es) t <-> t = fs_ret s /\ Forall2 (typed F G) es (fs_params s).
Proof.
  intros H1 H2. split.
  - intros K. inversion K; subst. assert (s0 = s) by congruence. subst. auto.
  - intros (-> & K). econstructor; eassumption.
Qed.

Lemma local_ne_self f : ("__" ++ f)%string <> "self".
Proof. discriminate. Qed.

Lemma x_args_names s : map fst (x_args s) = map fst (sg_args s).
Proof. unfold x_args. rewrite map_map. reflexivity. Qed.

(** [f]: no parameter is named like a generated name. *)
Lemma cxx_wrapper_typed n T f w : cxx_wrapper n T f = Some w ->
  (forall x t, In (x, t) (fn_args f) -> shape t) -> (forall t, fn_ret f = Some t -> shape t) ->
  NoDup (map fst (fn_args f)) -> ~ In "_" (map fst (fn_args f)) -> ~ In "self" (map fst (fn_args f)) -> ~ In "__return" (map fst (fn_args f)) ->
  ~ In ("__" ++ p_rust (fn_name f))%string (map fst (fn_args f)) -> p_rust (fn_name f) <> "return" ->
  (fn_typed w <-> (forall x t, In (x, t) (fn_args f) -> ~ no_conversion t) /\ (forall t, fn_ret f = Some t -> ~ no_conversion t /\ ~ vec_of_str t)).
Proof.
  intros E Ha Hr N Nu Nself Nret Nloc Nname. unfold cxx_wrapper in E.
  apply obind_inv in E. destruct E as (decl & Ed & E). apply obind_inv in E. destruct E as (es & Ees & E).
  apply obind_inv in E. destruct E as (st & Est & E). apply obind_inv in E. destruct E as (out & Eout & E).
  unfold cxx_decl in Ed. apply obind_inv in Ed. destruct Ed as (dret & Edr & Ed). apply obind_inv in Ed. destruct Ed as (ds & Eds & Ed).
  apply obind_inv in Ed. destruct Ed as (dout & Edo & Ed). injection Ed as <-.
  change (sg_args (fn_sig f)) with (fn_args f) in Eds.
  set (local := ("__" ++ p_rust (fn_name f))%string) in *.
  assert (Nlr : local <> "__return") by (unfold local; cbn; intros X; injection X; exact Nname).
  set (params := x_receivers "self" (fn_sig f) ++ x_args (fn_sig f)) in *.
  set (recv := when (is_some (fn_receiver f)) [EVar "self"]) in *.
  assert (Np : NoDup (map fst params) /\ (forall x t, In (x, t) (fn_args f) -> lookup x params = Some (x_type t)) /\
               lookup local params = None /\ (forall x t, In (x, t) (x_receivers "self" (fn_sig f)) -> lookup x params = Some t)).
  { assert (N' : NoDup (map fst params)).
    { unfold params. rewrite map_app, x_args_names. cbn [sg_args fn_sig]. unfold x_receivers. destruct (sg_receiver (fn_sig f)); [|exact N].
      cbn. constructor; assumption. }
    split; [exact N'|]. split; [|split].
    - intros x t I. apply lookup_in; [intros ->; apply Nu; apply (in_map fst) in I; exact I|exact N'|]. unfold params. apply in_or_app. right. unfold x_args.
      apply (in_map (fun a : string * ty => (fst a, x_type (snd a)))) in I. exact I.
    - apply lookup_none. unfold params. rewrite map_app, x_args_names. intros I. apply in_app_or in I. destruct I as [I|I]; [|exact (Nloc I)].
      unfold x_receivers in I. destruct (sg_receiver (fn_sig f)); [|exact I]. cbn in I. destruct I as [I|[]]. symmetry in I. exact (local_ne_self _ I).
    - intros x t I. apply lookup_in; [unfold x_receivers in I; destruct (sg_receiver (fn_sig f)); [destruct I as [I|[]]; injection I as <- _; discriminate|destruct I]|exact N'|]. apply in_or_app. left. exact I. }
  destruct Np as (Np & Hargs & Hloc & Hrecv).
  (* the environment after the trampolines and the setup *)
  assert (P : forall F ret, (exists G, stmts_typed F ret params (trampolines (fn_args f) ++ st) G) /\
    forall G, stmts_typed F ret params (trampolines (fn_args f) ++ st) G ->
      (forall x t, In (x, t) (fn_args f) -> exists b, needs_indirect_abi n T t = Some b /\ lookup x G = Some (var_type b t)) /\
      (forall y, ~ In y (map fst (fn_args f)) -> lookup y G = lookup y params)).
  { intros F ret. destruct (tramp_ok F ret (fn_args f) params Nu N Hargs) as ((G1 & K1) & U1). destruct (U1 _ K1) as (A1 & B1).
    destruct (setup_ok F ret n T (fn_args f) st G1 Est Nu N A1) as ((G2 & K2) & U2). split.
    - exists G2. apply stmts_app. eauto.
    - intros G K. apply stmts_app in K. destruct K as (G3 & K3 & K4). destruct (U1 _ K3) as (A3 & B3).
      destruct (setup_ok F ret n T (fn_args f) st G3 Est Nu N A3) as (_ & U4). destruct (U4 _ K4) as (A4 & B4).
      split; [exact A4|]. intros y Ny. rewrite B4, B3 by exact Ny. reflexivity. }
  (* the call *)
  assert (Q : forall F G outs outs', lookup local F = Some (FSig true (map snd (x_receivers "" (fn_sig f)) ++ ds ++ outs') dret) ->
    (forall x t, In (x, t) (fn_args f) -> exists b, needs_indirect_abi n T t = Some b /\ lookup x G = Some (var_type b t)) ->
    lookup local G = None -> (forall x t, In (x, t) (x_receivers "self" (fn_sig f)) -> lookup x G = Some t) -> Forall2 (typed F G) outs outs' ->
    forall t, typed F G (ECall local (recv ++ es ++ outs)) t <-> t = dret /\ forall x t, In (x, t) (fn_args f) -> ~ no_conversion t).
  { intros F G outs outs' HF HG HL HR HO t. rewrite (call_iff _ _ _ _ _ _ HL HF). cbn [fs_ret fs_params].
    destruct (args_iff F n T G (fn_args f) es ds Ees Eds) as (L & J).
    { intros x u I. split; [exact (Ha x u I)|exact (HG x u I)]. }
    assert (R : List.length recv = List.length (map snd (x_receivers "" (fn_sig f))) /\ Forall2 (typed F G) recv (map snd (x_receivers "" (fn_sig f)))).
    { unfold recv, x_receivers in *. cbn [sg_receiver fn_sig] in *. destruct (fn_receiver f) as [r|]; cbn; [|split; [reflexivity|constructor]].
      split; [reflexivity|]. constructor; [|constructor]. constructor. apply HR. left. reflexivity. }
    destruct R as (R1 & R2). rewrite (Forall2_app3 _ _ _ _ _ _ _ R1 L), J. tauto. }
  assert (Ap : forall F ret G x t, stmts_typed F ret params (trampolines (fn_args f) ++ st) G -> In (x, t) (x_receivers "self" (fn_sig f)) -> lookup x G = Some t).
  { intros F ret G x t K I. destruct (P F ret) as (_ & U). destruct (U _ K) as (_ & B). rewrite B; [apply Hrecv, I|].
    unfold x_receivers in I. destruct (sg_receiver (fn_sig f)); [|destruct I]. destruct I as [I|[]]. injection I as <- _. exact Nself. }
  assert (Al : forall F ret G, stmts_typed F ret params (trampolines (fn_args f) ++ st) G -> lookup local G = None).
  { intros F ret G K. destruct (P F ret) as (_ & U). destruct (U _ K) as (_ & B). rewrite B by exact Nloc. exact Hloc. }
  unfold indirect_return in Eout. cbn [sg_ret sg_throws fn_sig] in Eout. unfold x_outparam, indirect_return in Edo. cbn [sg_ret sg_throws fn_sig] in Edo.
  unfold x_extern_return in Edr. cbn [sg_ret sg_throws fn_sig] in Edr.
  destruct (fn_ret f) as [r|] eqn:Er.
  - assert (Hout : dout = when out [XPtr true (x_extern T true r)] /\ (fn_throws f = false -> needs_indirect_abi n T r = Some out) /\ (fn_throws f = true -> out = true)).
    { destruct (fn_throws f); [injection Eout as <-; cbn in Edo; injection Edo as <-; split; [reflexivity|]; split; [discriminate|reflexivity]|].
      rewrite Eout in Edo. cbn in Edo. split; [destruct out; injection Edo as <-; reflexivity|]. split; [auto|discriminate]. }
    destruct Hout as (-> & Hind & Hth). clear Edo.
    specialize (Hr r eq_refl).
    destruct out; cbn [when] in *.
    + injection E as <-. unfold fn_typed. cbn [rf_params rf_ret rf_callees rf_stmts rf_value].
      set (F := [(local, FSig true (map snd (x_receivers "" (fn_sig f)) ++ ds ++ [XPtr true (x_extern T true r)]) dret)]).
      set (rt := if fn_throws f then XResult (x_ret (Some r)) else x_ret (Some r)).
      set (call := ECall local ((recv ++ es) ++ [EConv KMutPtr (EVar "__return")])).
      set (e := wrapper_ret T r (EConv KInit (EVar "__return"))).
      assert (HF : lookup local F = Some (FSig true (map snd (x_receivers "" (fn_sig f)) ++ ds ++ [XPtr true (x_extern T true r)]) dret)) by (apply lookup_cons_eq; discriminate).
      assert (Body : forall G, stmts_typed F rt params (trampolines (fn_args f) ++ st) G ->
        let G' := ("__return", XUninit (x_extern T true r)) :: G in
        (forall t, typed F G' call t <-> t = dret /\ forall x t, In (x, t) (fn_args f) -> ~ no_conversion t) /\
        (typed F G' e (x_type r) <-> ~ no_conversion r /\ ~ vec_of_str r)).
      { intros G K G'. assert (Hl' : lookup "__return" G' = Some (XUninit (x_extern T true r))) by (apply lookup_cons_eq; discriminate). split.
        - intros t. unfold call. rewrite <- app_assoc. destruct (P F rt) as (_ & U). destruct (U _ K) as (A & B).
          apply (Q F G' _ [XPtr true (x_extern T true r)] HF).
          + intros x u I. destruct (A x u I) as (b & Hb & Hx). exists b. split; [exact Hb|]. unfold G'. rewrite lookup_cons_ne; [exact Hx|].
            intros ->. apply Nret. apply (in_map fst) in I. exact I.
          + unfold G'. rewrite lookup_cons_ne by exact Nlr. exact (Al F rt G K).
          + intros x u I. unfold G'. rewrite lookup_cons_ne; [exact (Ap F rt G x u K I)|].
            unfold x_receivers in I. destruct (sg_receiver (fn_sig f)); [|destruct I]. destruct I as [I|[]]. injection I as <- _. discriminate.
          + constructor; [|constructor]. econstructor; [constructor; exact Hl'|constructor].
        - unfold e. apply wrapper_ret_ok; [exact Hr|].
          apply (conv_only F G' KInit (EVar "__return") (XUninit (x_extern T true r))); [intros c; apply typed_var; exact Hl'|constructor|].
          intros b' C. inversion C. reflexivity. }
      assert (Hd : fn_throws f = false -> dret = XUnit).
      { intros Ef. rewrite Ef in Edr. rewrite (Hind Ef) in Edr. cbn in Edr. injection Edr as <-. reflexivity. }
      assert (Hd' : fn_throws f = true -> dret = XReply) by (intros Ef; rewrite Ef in Edr; injection Edr as <-; reflexivity).
      assert (M : forall G G', stmts_typed F rt G [SLet "__return" (EUninit (x_extern T true r)); if fn_throws f then SQuestion (EConv KException call) else SDo call] G' <->
        G' = ("__return", XUninit (x_extern T true r)) :: G /\ exists t, typed F G' call t /\ (fn_throws f = true -> t = XReply)).
      { intros G G'. split.
        - intros K. inversion K as [|? ? ? t0 ? ? K0 K1| | |]; subst. inversion K0; subst. destruct (fn_throws f) eqn:Ef.
          + inversion K1 as [| | | |? ? a r0 ? ? J1 J2 J3]; subst. inversion J3; subst. split; [reflexivity|].
            inversion J1 as [|? ? c ? I1 I2| | | | | | | | |]; subst. inversion I2; subst. exists XReply. auto.
          + inversion K1 as [| | |? ? t1 ? ? J1 J2|]; subst. inversion J2; subst. split; [reflexivity|]. exists t1. split; [exact J1|discriminate].
        - intros (-> & t & K & Kt). econstructor; [constructor|]. destruct (fn_throws f) eqn:Ef.
          + rewrite (Kt eq_refl) in K. econstructor; [econstructor; [exact K|constructor]|unfold rt; reflexivity|constructor].
          + econstructor; [exact K|constructor]. }
      rewrite (app_assoc (trampolines (fn_args f)) st _).
      assert (V : forall G, typed F G (if fn_throws f then EConv KOk e else e) rt <-> typed F G e (x_type r)).
      { intros G. unfold rt. cbn [x_ret]. destruct (fn_throws f); [|reflexivity]. split.
        - intros K. inversion K as [|? ? c ? I1 I2| | | | | | | | |]; subst. inversion I2; subst. exact I1.
        - intros K. econstructor; [exact K|constructor]. }
      split.
      * intros (_ & G & K & Kv). apply stmts_app in K. destruct K as (G1 & K1 & K2). apply M in K2. destruct K2 as (-> & t & K3 & _).
        destruct (Body G1 K1) as (B1 & B2). split; [apply (B1 t), K3|]. intros t' Et. injection Et as <-. apply B2. apply V. exact Kv.
      * intros (H1 & H2). split; [exact Np|]. destruct (P F rt) as ((G & K) & _). destruct (Body G K) as (B1 & B2).
        exists (("__return", XUninit (x_extern T true r)) :: G). split.
        -- apply stmts_app. exists G. split; [exact K|]. apply M. split; [reflexivity|]. exists dret. split; [apply B1; auto|exact Hd'].
        -- apply V. apply B2. apply H2. reflexivity.
    + assert (Ef : fn_throws f = false) by (destruct (fn_throws f); [specialize (Hth eq_refl); discriminate|reflexivity]).
      rewrite Ef in *. rewrite (Hind eq_refl) in Edr. cbn in Edr. injection Edr as <-. injection E as <-. rewrite app_nil_r in *.
      unfold fn_typed. cbn [rf_params rf_ret rf_callees rf_stmts rf_value]. rewrite app_nil_r.
      set (F := [(local, FSig true (map snd (x_receivers "" (fn_sig f)) ++ ds) (x_extern T true r))]).
      set (call := ECall local (recv ++ es)).
      assert (HF : lookup local F = Some (FSig true (map snd (x_receivers "" (fn_sig f)) ++ ds ++ []) (x_extern T true r))).
      { rewrite app_nil_r. apply lookup_cons_eq. discriminate. }
      assert (Body : forall G, stmts_typed F (x_ret (Some r)) params (trampolines (fn_args f) ++ st) G ->
        forall t, typed F G call t <-> t = x_extern T true r /\ forall x t, In (x, t) (fn_args f) -> ~ no_conversion t).
      { intros G K t. unfold call. rewrite <- (app_nil_r es). destruct (P F (x_ret (Some r))) as (_ & U). destruct (U _ K) as (A & B).
        apply (Q F G [] [] HF A (Al _ _ _ K)); [|constructor]. intros x u I. exact (Ap _ _ _ x u K I). }
      split.
      * intros (_ & G & K & Kv). pose proof (Body G K) as B. cbn [x_ret] in Kv.
        assert (Hargs' : forall x t, In (x, t) (fn_args f) -> ~ no_conversion t).
        { assert (Sub : forall t, typed F G (wrapper_ret T r call) t -> exists t', typed F G call t').
          { intros t Kt. assert (IC : forall k e t0, typed F G (EConv k e) t0 -> exists t', typed F G e t') by (intros k e t0 J; inversion J; subst; eauto).
            unfold wrapper_ret in Kt. repeat match type of Kt with
              | typed _ _ (if ?c then _ else _) _ => destruct c
              | typed _ _ (match ?x with _ => _ end) _ => destruct x
              | typed _ _ (let _ := _ in _) _ => cbv zeta in Kt
              | typed _ _ (EConv _ _) _ => apply IC in Kt; destruct Kt as (? & Kt)
              end; eauto. }
          destruct (Sub _ Kv) as (t' & K'). apply (B t'), K'. }
        split; [exact Hargs'|]. intros t Et. injection Et as <-.
        apply (wrapper_ret_ok F G T r call Hr); [|exact Kv]. intros c. rewrite B. split; [tauto|intros ->; auto].
      * intros (H1 & H2). split; [exact Np|]. destruct (P F (x_ret (Some r))) as ((G & K) & _). exists G. split; [exact K|]. cbn [x_ret].
        apply (wrapper_ret_ok F G T r call Hr); [|apply H2; reflexivity]. intros c. rewrite (Body G K). split; [tauto|intros ->; auto].
  - injection Eout as <-. cbn in Edo. injection Edo as <-. injection E as <-. rewrite app_nil_r in *.
    assert (dret = if fn_throws f then XReply else XUnit) as -> by (destruct (fn_throws f); injection Edr as <-; reflexivity).
    unfold fn_typed. cbn [rf_params rf_ret rf_callees rf_stmts rf_value]. rewrite app_nil_r.
    set (F := [(local, FSig true (map snd (x_receivers "" (fn_sig f)) ++ ds) (if fn_throws f then XReply else XUnit))]).
    set (rt := if fn_throws f then XResult (x_ret None) else x_ret None).
    set (call := ECall local (recv ++ es)).
    assert (HF : lookup local F = Some (FSig true (map snd (x_receivers "" (fn_sig f)) ++ ds ++ []) (if fn_throws f then XReply else XUnit))).
    { rewrite app_nil_r. apply lookup_cons_eq. discriminate. }
    assert (Body : forall G, stmts_typed F rt params (trampolines (fn_args f) ++ st) G ->
      forall t, typed F G call t <-> t = (if fn_throws f then XReply else XUnit) /\ forall x t, In (x, t) (fn_args f) -> ~ no_conversion t).
    { intros G K t. unfold call. rewrite <- (app_nil_r es). destruct (P F rt) as (_ & U). destruct (U _ K) as (A & B).
      apply (Q F G [] [] HF A (Al _ _ _ K)); [|constructor]. intros x u I. exact (Ap _ _ _ x u K I). }
    split.
    + intros (_ & G & K & Kv). pose proof (Body G K) as B. split; [|discriminate].
      destruct (fn_throws f); [inversion Kv as [|? ? c ? I1 I2| | | | | | | | |]; subst; exact (proj2 (proj1 (B c) I1))|exact (proj2 (proj1 (B _) Kv))].
    + intros (H1 & _). split; [exact Np|]. destruct (P F rt) as ((G & K) & _). exists G. split; [exact K|].
      pose proof (Body G K) as B. unfold rt. cbn [x_ret]. destruct (fn_throws f); [econstructor; [apply B; auto|constructor]|apply B; auto].
Qed.
