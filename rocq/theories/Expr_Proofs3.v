From Verif Require Import Base StrLib Syntax_Model Toposort_Spec Types_Model Types_Spec Types_Props Check_Model Check_Spec Check_Proofs Check_Proofs2 Check_Props
  Mangle_Model Abi_Model Abi_Proofs Names_Model Expr_Model Expr_Spec Shim_Props Expr_Proofs Expr_Proofs2.
From Coq Require Import Lia.

Lemma NoDup_app_intro {A} (l1 l2 : list A) : NoDup l1 -> NoDup l2 -> (forall x, In x l1 -> ~ In x l2) -> NoDup (l1 ++ l2).
Proof.
  induction l1 as [|a l IH]; intros H1 H2 H; [exact H2|]. inversion H1; subst. cbn. constructor.
  - intros I. apply in_app_or in I. destruct I as [I|I]; [contradiction|]. apply (H a); [left; reflexivity|exact I].
  - apply IH; auto. intros x I. apply H. right. exact I.
Qed.

Lemma params_in n T args : forall ps : list (string * xty), otraverse (fun a => option_map (pair (fst a)) (shim_arg n T (snd a))) args = Some ps ->
  map fst ps = map fst args /\ forall x t, In (x, t) args -> exists d, shim_arg n T t = Some d /\ In (x, d) ps.
Proof.
  induction args as [|[x t] args IH]; intros ps E.
  { cbn in E. injection E as <-. split; [reflexivity|intros ? ? []]. }
  apply otraverse_inv in E. destruct E as (p & ps' & E & E' & ->). cbn [fst snd] in E. destruct (shim_arg n T t) as [d|] eqn:Ed; [|discriminate]. injection E as <-.
  destruct (IH ps' E') as (A & B). split; [cbn; congruence|]. intros y u [Ey|Hy].
  - injection Ey as <- <-. exists d. split; [exact Ed|left; reflexivity].
  - destruct (B y u Hy) as (d' & D1 & D2). exists d'. split; [exact D1|right; exact D2].
Qed.

Lemma vars_iff F G n T args : forall es, otraverse (fun a => shim_var n T (fst a) (snd a)) args = Some es ->
  (forall x t, In (x, t) args -> shape t /\ exists d, shim_arg n T t = Some d /\ lookup x G = Some d) ->
  List.length es = List.length args /\
  (Forall2 (typed F G) es (map (fun a => x_type (snd a)) args) <-> forall x t, In (x, t) args -> ~ no_conversion t /\ ~ vec_of_str t).
Proof.
  induction args as [|[x t] args IH]; intros es E H.
  { cbn in E. injection E as <-. split; [reflexivity|]. split; [intros _ ? ? []|constructor]. }
  apply otraverse_inv in E. destruct E as (e & es' & E1 & E1' & ->). cbn [fst snd] in E1.
  destruct (IH es' E1') as (L & J); [intros y u Hy; apply H; right; exact Hy|].
  destruct (H x t (or_introl eq_refl)) as (Hs & d & Hd & Hx).
  assert (exists b, needs_indirect_abi n T t = Some b) as (b & Hb).
  { unfold shim_arg in Hd. destruct (needs_indirect_abi n T t); [eauto|discriminate]. }
  pose proof (shim_var_ok F G T n x t b e d Hs Hb E1 Hd Hx) as A. split; [cbn; congruence|]. cbn [map snd]. split.
  - intros K. inversion K; subst. intros y u [Ey|Hy]; [injection Ey as <- <-; apply A; assumption|apply (proj1 J) with (x := y); assumption].
  - intros K. constructor; [apply A; apply (K x); left; reflexivity|]. apply J. intros y u Hy. apply (K y). right. exact Hy.
Qed.

Lemma guard_iff F G e t : lookup "__fn" G = Some XStr -> (typed F G (EGuard e) t <-> typed F G e t).
Proof. intros H. split; [intros K; inversion K; subst; assumption|intros K; constructor; assumption]. Qed.

(** The result of the call, converted. *)
Definition wrap (th : bool) (t : xty) : xty := if th then XResult t else t.
Lemma wrap_inj th a b : wrap th a = wrap th b -> a = b.
Proof. destruct th; cbn; congruence. Qed.
Lemma expr_iff F G (A : Prop) T (th : bool) r call : shape r -> (forall c, typed F G call c <-> c = wrap th (x_type r) /\ A) ->
  (typed F G (match shim_conv r with None => call | Some k => if th then EMap call k else EConv k call end) (wrap th (x_extern T false r))
   <-> A /\ ~ no_conversion r /\ ~ vec_of_str r).
Proof.
  intros Hs V. rewrite <- (shim_conv_ok T r Hs). destruct (shim_conv r) as [k|].
  - destruct th; cbn [wrap] in *.
    + split.
      * intros K. inversion K; subst. match goal with C : typed F G call _ |- _ => apply V in C; destruct C as (C & Ha); injection C as -> end. auto.
      * intros (Ha & C). econstructor; [apply V; auto|exact C].
    + split.
      * intros K. inversion K; subst. match goal with C : typed F G call _ |- _ => apply V in C; destruct C as (-> & Ha) end. auto.
      * intros (Ha & C). econstructor; [apply V; auto|exact C].
  - rewrite V. split.
    + intros (E & Ha). apply wrap_inj in E. auto.
    + intros (Ha & E). rewrite E. auto.
Qed.

Lemma rust_shim_typed n T s invoke w : rust_shim n T s invoke = Some w ->
  (forall x t, In (x, t) (sg_args s) -> shape t) -> (forall t, sg_ret s = Some t -> shape t) ->
  NoDup (map fst (sg_args s)) -> (forall x, In x ["_"; "__self"; "__return"; "__extern"; "__fn"] -> ~ In x (map fst (sg_args s))) ->
  match invoke with
  | inl (local, _) => ~ In local (map fst (sg_args s)) /\ ~ In local ["_"; "__self"; "__return"; "__fn"]
  | inr t => sg_receiver s = None /\ exists un, t = XFn un (map (fun a => x_type (snd a)) (sg_args s)) (wrap (sg_throws s) (x_ret (sg_ret s)))
  end ->
  (fn_typed w <-> args_convert s /\ ret_converts s /\ match invoke with inl (_, un) => ~ (un = true /\ bare n T s) | inr _ => True end).
Proof.
  intros E Ha Hr N Nn Hi. unfold rust_shim in E.
  apply obind_inv in E. destruct E as (ret & Er & E). apply obind_inv in E. destruct E as (ps & Eps & E).
  apply obind_inv in E. destruct E as (es & Ees & E). apply obind_inv in E. destruct E as (out & Eout & E). cbv zeta in E. injection E as <-.
  destruct (params_in n T (sg_args s) ps Eps) as (Pn & Pd).
  unfold fn_typed. cbn [rf_params rf_ret rf_callees rf_stmts rf_value].
  set (extra := match invoke with inl _ => [] | inr _ => [("__extern", XPtr false XUnit)] end).
  set (params := x_receivers "__self" s ++ ps ++ map (pair "__return") out ++ extra).
  set (F := match invoke with inl (local, un) => _ | inr _ => [] end).
  assert (Lo : out = [] \/ exists r, sg_ret s = Some r /\ out = [XPtr true (x_extern T false r)]).
  { unfold x_outparam in Eout. apply obind_inv in Eout. destruct Eout as (b & _ & Eb). destruct b; [|injection Eb as <-; auto].
    destruct (sg_ret s) as [r|]; [|discriminate]. injection Eb as <-. right. eauto. }
  assert (Nx : forall x y, In x ["_"; "__self"; "__return"; "__extern"; "__fn"] -> In y (map fst (sg_args s)) -> y <> x).
  { intros x y Ix Iy ->. exact (Nn x Ix Iy). }
  assert (Np : NoDup (map fst params)).
  { unfold params. rewrite !map_app, Pn.
    assert (K : NoDup (map fst (sg_args s) ++ map fst (map (pair "__return") out) ++ map fst extra)).
    { apply NoDup_app_intro; [exact N| |].
      - destruct Lo as [->|(r & _ & ->)]; unfold extra; destruct invoke; cbn; repeat constructor; cbn; intuition discriminate.
      - intros x I1 I2. apply in_app_or in I2. destruct I2 as [I2|I2].
        + apply (Nx "__return" x); [cbn; auto|exact I1|]. destruct Lo as [->|(r & _ & ->)]; cbn in I2; intuition congruence.
        + apply (Nx "__extern" x); [cbn; auto 6|exact I1|]. unfold extra in I2. destruct invoke; cbn in I2; intuition congruence. }
    unfold x_receivers. destruct (sg_receiver s); [|exact K]. cbn [map fst app]. constructor; [|exact K].
    intros I. apply in_app_or in I. destruct I as [I|I]; [exact (Nx "__self" _ (or_intror (or_introl eq_refl)) I eq_refl)|].
    apply in_app_or in I. destruct I as [I|I].
    - destruct Lo as [->|(r' & _ & ->)]; cbn in I; intuition discriminate.
    - unfold extra in I. destruct invoke; cbn in I; intuition discriminate. }
  set (G := ("__fn", XStr) :: params).
  assert (St : forall G', stmts_typed F ret params [SLabel] G' <-> G' = G).
  { intros G'. split; [intros K; inversion K as [| |? ? ? K'| |]; subst; inversion K'; reflexivity|intros ->; constructor; constructor]. }
  assert (Gfn : lookup "__fn" G = Some XStr) by (apply lookup_cons_eq; discriminate).
  assert (Gp : forall x t, In (x, t) params -> x <> "__fn" -> x <> "_" -> lookup x G = Some t).
  { intros x t I N1 N2. unfold G. rewrite lookup_cons_ne by exact N1. apply lookup_in; assumption. }
  assert (Gret : forall r, sg_ret s = Some r -> out <> [] -> lookup "__return" G = Some (XPtr true (x_extern T false r))).
  { intros r E Ne. destruct Lo as [->|(r' & E' & ->)]; [contradiction|]. assert (r' = r) by congruence. subst. apply Gp; [|discriminate|discriminate].
    unfold params. apply in_or_app. right. apply in_or_app. right. left. reflexivity. }
  destruct (vars_iff F G n T (sg_args s) es Ees) as (Lv & Vi).
  { intros x t I. split; [exact (Ha x t I)|]. destruct (Pd x t I) as (d & D1 & D2). exists d. split; [exact D1|].
    pose proof (in_map fst _ _ I) as Ix. cbn in Ix. apply Gp; [|apply (Nx "__fn"); [cbn; auto 6|exact Ix]|apply (Nx "_"); [cbn; auto|exact Ix]].
    unfold params. apply in_or_app. right. apply in_or_app. left. exact D2. }
  fold (args_convert s) in Vi.
  set (recv := when (is_some (sg_receiver s)) [EVar "__self"]).
  set (call := match invoke with inl (local, _) => ECall local (recv ++ es) | inr t => _ end).
  assert (Rc : List.length recv = List.length (map snd (x_receivers "" s)) /\ Forall2 (typed F G) recv (map snd (x_receivers "" s))).
  { unfold recv, x_receivers. destruct (sg_receiver s) as [r|] eqn:Es; cbn; [|split; [reflexivity|constructor]].
    split; [reflexivity|]. constructor; [|constructor]. constructor. apply Gp; [|discriminate|discriminate].
    unfold params, x_receivers. rewrite Es. left. reflexivity. }
  destruct Rc as (Rc1 & Rc2).
  assert (Cl : forall c, typed F G call c <-> c = wrap (sg_throws s) (x_ret (sg_ret s)) /\ args_convert s).
  { intros c. unfold call. destruct invoke as [[local un]|t].
    - assert (HL : lookup local G = None).
      { destruct Hi as (Hl1 & Hl2). unfold G. rewrite lookup_cons_ne by (intros ->; apply Hl2; cbn; auto). apply lookup_none.
        unfold params. rewrite !map_app, Pn. intros I. apply in_app_or in I. destruct I as [I|I].
        - unfold x_receivers in I. destruct (sg_receiver s); [|exact I]. destruct I as [<-|[]]. apply Hl2. cbn. auto.
        - apply in_app_or in I. destruct I as [I|I]; [exact (Hl1 I)|]. unfold extra in I. cbn [map] in I. rewrite app_nil_r in I.
          destruct Lo as [->|(r & _ & ->)]; [exact I|]. destruct I as [<-|[]]. apply Hl2. cbn. auto. }
      assert (HF : lookup local F = Some (FSig un (map snd (x_receivers "" s ++ x_args s)) (wrap (sg_throws s) (x_ret (sg_ret s))))).
      { unfold F. apply lookup_cons_eq. intros ->. apply (proj2 Hi). cbn. auto. }
      rewrite (call_iff _ _ _ _ _ _ HL HF). cbn [fs_ret fs_params]. rewrite map_app.
      assert (map snd (x_args s) = map (fun a => x_type (snd a)) (sg_args s)) as -> by (unfold x_args; rewrite map_map; reflexivity).
      rewrite <- Vi. rewrite <- (app_nil_r es) at 1. rewrite <- (app_nil_r (map (fun a => x_type (snd a)) (sg_args s))) at 1.
      rewrite (Forall2_app3 _ _ _ _ _ _ _ Rc1) by (rewrite map_length; exact Lv). intuition constructor.
    - destruct Hi as (Hr0 & un & ->). unfold recv. rewrite Hr0. cbn [is_some when app].
      assert (Fx : lookup "__extern" G = Some (XPtr false XUnit)).
      { apply Gp; [|discriminate|discriminate]. unfold params. repeat (apply in_or_app; right). left. reflexivity. }
      split.
      + intros K. inversion K as [| | | | |? un' ts r args K1 K2| | | | |]; subst. inversion K1 as [|? ? a ? J1 J2| | | | | | | | |]; subst. inversion J2; subst. split; [reflexivity|]. apply Vi. assumption.
      + intros (-> & K). econstructor; [|apply Vi; exact K]. econstructor; [constructor; exact Fx|constructor]. }
  set (expr0 := match obind (sg_ret s) shim_conv with None => call | Some k => if sg_throws s then EMap call k else EConv k call end).
  set (expr := if sg_throws s then ETry _ expr0 else _).
  assert (Ex : typed F G expr ret <-> args_convert s /\ ret_converts s).
  { unfold expr, x_extern_return, x_outparam, indirect_return in *. destruct (sg_ret s) as [r|] eqn:Esr.
    - specialize (Hr r eq_refl). cbn [obind x_ret] in *. pose proof (expr_iff F G (args_convert s) T (sg_throws s) r call Hr Cl) as X. fold expr0 in X.
      assert (Rq : ret_converts s <-> ~ no_conversion r /\ ~ vec_of_str r).
      { unfold ret_converts. rewrite Esr. split; [intros H; exact (H r eq_refl)|intros H t Et; injection Et as <-; exact H]. }
      rewrite Rq, <- X. destruct (sg_throws s); cbn [wrap] in *.
      + injection Er as <-. injection Eout as <-. specialize (Gret r eq_refl ltac:(discriminate)). split.
        * intros K. inversion K; subst.
          match goal with C : typed F G (EVar _) _ |- _ => apply (typed_var F G _ _ _ Gret) in C; injection C as -> end. assumption.
        * intros K. econstructor; [constructor; exact Gret|exact K].
      + destruct (needs_indirect_abi n T r) as [b|]; [|discriminate]. cbn [obind option_map] in *. destruct b; injection Er as <-; injection Eout as <-.
        * specialize (Gret r eq_refl ltac:(discriminate)). split.
          -- intros K. inversion K; subst.
             match goal with C : typed F G (EVar _) _ |- _ => apply (typed_var F G _ _ _ Gret) in C; injection C as -> end. assumption.
          -- intros K. econstructor; [constructor; exact Gret|exact K].
        * reflexivity.
    - assert (Rq : ret_converts s) by (unfold ret_converts; rewrite Esr; discriminate). cbn [obind x_ret] in *.
      assert (Eo : out = []) by (destruct (sg_throws s); injection Eout as <-; reflexivity). rewrite Eo.
      unfold expr0. destruct (sg_throws s); cbn [wrap] in *; injection Er as <-.
      + split.
        * intros K. inversion K as [| | | | | | |? ? a K1 K2| | |]; subst. inversion K1; subst. apply Cl in K2. tauto.
        * intros (K & _). econstructor; [constructor|]. apply Cl. auto.
      + rewrite Cl. tauto. }
  (* with a closure or not *)
  assert (W : forall v, (exists G0, stmts_typed F ret params [SLabel] G0 /\ typed F G0 v ret) <-> typed F G v ret).
  { intros v. split; [intros (G0 & K & Kv); apply St in K; subst; exact Kv|intros K; exists G; split; [apply St; reflexivity|exact K]]. }
  rewrite W. clear W.
  assert (Fin : forall v (Q : Prop), (typed F G v ret <-> args_convert s /\ ret_converts s /\ Q) -> (NoDup (map fst params) /\ typed F G v ret <-> args_convert s /\ ret_converts s /\ Q)).
  { intros v Q ->. tauto. }
  apply Fin. clear Fin.
  destruct invoke as [[local un]|t].
  2: { rewrite (guard_iff _ _ _ _ Gfn), Ex. tauto. }
  set (closure := negb _ || _ || _ || _). destruct closure eqn:Ec.
  { rewrite (guard_iff _ _ _ _ Gfn), Ex. assert (B : ~ bare n T s); [|tauto].
    intros (B1 & B2 & B3 & B4). unfold closure in Ec. rewrite B2 in Ees. cbn in Ees. injection Ees as <-. unfold recv in Ec. rewrite B1, B3 in Ec. cbn [is_some when app negb orb] in Ec.
    unfold x_outparam, indirect_return in Eout. rewrite B3 in Eout. destruct (sg_ret s) as [r|] eqn:Esr; cbn in Eout.
    - destruct (B4 r eq_refl) as (B5 & B6). rewrite B6 in Eout. cbn in Eout. injection Eout as <-. rewrite orb_false_r in Ec. cbn [obind] in Ec.
      destruct (shim_conv r) as [k|] eqn:Ek; [|discriminate Ec].
      (* a conversion changes the type *)
      unfold shim_conv in Ek. clear - Ek B5.
      destruct (is_rust_string r) eqn:Es.
      { destruct r; try discriminate Es. cbn [is_rust_string] in Es. cbn [x_extern x_type] in B5. rewrite Es in B5. discriminate B5. }
      destruct r as [m|u|u|u|u|u|p m l u|m u|l|u|? ? ? ?| |m l u|u len]; try discriminate Ek; try (cbn in B5; discriminate B5).
      cbn [x_type] in B5. destruct (is_rust_string u) eqn:Eu.
      { destruct u; try discriminate Eu. cbn [x_extern is_rust_string] in B5, Eu. rewrite Eu in B5. destruct p; cbn in B5; discriminate B5. }
      destruct u; try discriminate Ek. destruct p; cbn [x_extern x_type x_ref] in B5; discriminate B5.
    - injection Eout as <-. discriminate Ec. }
  (* the function itself is passed *)
  unfold closure in Ec. apply orb_false_elim in Ec. destruct Ec as (Ec & Ec4). apply orb_false_elim in Ec. destruct Ec as (Ec & Ec3). apply orb_false_elim in Ec. destruct Ec as (Ec1 & Ec2).
  assert (out = []) as -> by (destruct out; [reflexivity|discriminate]).
  assert (recv = [] /\ es = []) as (Er0 & Ee0).
  { destruct (recv ++ es) eqn:El; [|discriminate]. apply app_eq_nil in El. exact El. }
  assert (B1 : sg_receiver s = None) by (unfold recv in Er0; destruct (sg_receiver s); [discriminate|reflexivity]).
  assert (B2 : sg_args s = []) by (rewrite Ee0 in Lv; destruct (sg_args s); [reflexivity|discriminate]).
  assert (Eret : ret = x_ret (sg_ret s) <-> ret_converts s).
  { unfold x_extern_return, x_outparam, indirect_return, ret_converts in *. rewrite Ec3 in *. destruct (sg_ret s) as [r|] eqn:Esr.
    - cbn [obind x_ret] in *. destruct (needs_indirect_abi n T r) as [b|]; [|discriminate]. cbn [obind option_map] in *. destruct b; [discriminate|]. injection Er as <-.
      pose proof (shim_conv_ok T r (Hr r eq_refl)) as X. destruct (shim_conv r); [discriminate|]. split.
      + intros Ee t Et. injection Et as <-. apply X. congruence.
      + intros H. symmetry. apply X. apply H. reflexivity.
    - injection Er as <-. split; [discriminate|reflexivity]. }
  assert (Bb : ret_converts s -> bare n T s).
  { intros Rq. split; [exact B1|]. split; [exact B2|]. split; [exact Ec3|]. intros r Esr.
    unfold x_outparam, indirect_return in Eout. rewrite Ec3, Esr in Eout. destruct (needs_indirect_abi n T r) as [b|] eqn:Eb; [|discriminate]. cbn [obind] in Eout. destruct b; [discriminate|].
    split; [|reflexivity]. pose proof (shim_conv_ok T r (Hr r Esr)) as X. rewrite Esr in Ec2. cbn [obind] in Ec2. destruct (shim_conv r); [discriminate|]. apply X. exact (Rq r Esr). }
  assert (HF : lookup local F = Some (FSig un [] (x_ret (sg_ret s)))).
  { unfold F, x_receivers, x_args. rewrite B1, B2, Ec3. cbn [app map]. apply lookup_cons_eq. intros ->. apply (proj2 Hi). cbn. auto. }
  assert (HL : lookup local G = None).
  { destruct Hi as (Hl1 & Hl2). unfold G. rewrite lookup_cons_ne by (intros ->; apply Hl2; cbn; auto). apply lookup_none.
    unfold params, x_receivers, extra. rewrite B1. cbn [app map]. rewrite app_nil_r, Pn. exact Hl1. }
  assert (Ac : args_convert s) by (unfold args_convert; rewrite B2; intros ? ? []). split.
  - intros K. inversion K; subst. match goal with H : lookup local F = Some (FSig false _ _) |- _ => rewrite HF in H; injection H as -> <- end.
    split; [exact Ac|]. split; [apply Eret; reflexivity|]. intros (? & _). discriminate.
  - intros (_ & Rq & Nb). destruct un; [exfalso; apply Nb; split; [reflexivity|apply Bb, Rq]|].
    rewrite (proj2 Eret Rq). constructor; assumption.
Qed.
