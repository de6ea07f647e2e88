(** Proofs for C85: the functions as a whole. *)
From Verif Require Import Base StrLib Syntax_Model Types_Model Types_Spec Check_Model Check_Spec Check_Proofs Check_Proofs2 Check_Props Mangle_Model Mangle_Spec Mangle_Proofs2
  Abi_Model Abi_Spec Abi_Proofs Expr_Proofs2 Expr_Proofs3 CxxExpr_Model CxxExpr_Spec CxxExpr_Proofs.

(** An argument that is moved into a ManuallyDrop. *)
Definition moved (n : nat) (T : types) (t : ty) : Prop := is_rust_string t = false /\ needs_indirect_abi n T t = Some true.

Lemma trav_names {B} (f : ty -> option B) l : forall r, otraverse (fun a : string * ty => option_map (pair (fst a)) (f (snd a))) l = Some r ->
  map fst r = map fst l /\ otraverse (fun a => f (snd a)) l = Some (map snd r).
Proof.
  induction l as [|[x t] l IH]; intros r E; [injection E as <-; split; reflexivity|]. apply otraverse_inv in E. destruct E as (b & bs & E1 & E2 & ->).
  destruct (IH bs E2) as (I1 & I2). cbn [fst snd] in E1. destruct (f t) as [c|] eqn:Ef; [|discriminate]. injection E1 as <-. cbn [map fst snd]. split; [congruence|].
  apply otraverse_cons; assumption.
Qed.
Lemma trav_in {B} (f : ty -> option B) l : forall r, otraverse (fun a : string * ty => option_map (pair (fst a)) (f (snd a))) l = Some r ->
  forall x t, In (x, t) l -> exists b, f t = Some b /\ In (x, b) r.
Proof.
  induction l as [|[y u] l IH]; intros r E x t I; [destruct I|]. apply otraverse_inv in E. destruct E as (b & bs & E1 & E2 & ->).
  cbn [fst snd] in E1. destruct (f u) as [c|] eqn:Ef; [|discriminate]. injection E1 as <-. destruct I as [I|I].
  - injection I as -> ->. exists c. split; [exact Ef|left; reflexivity].
  - destruct (IH bs E2 x t I) as (d & Ed & Id). exists d. split; [exact Ed|right; exact Id].
Qed.

Section Inits.
  Variables (copyable : cty -> Prop) (F : list (string * (cty * list cty))) (this : member) (G : list (string * local_kind)).
  Lemma cinits_app l1 : forall p1 l2 p2, cinits copyable F this G l1 p1 -> cinits copyable F this G l2 p2 -> cinits copyable F this G (l1 ++ l2) (p1 ++ p2).
  Proof. induction l1 as [|e l IH]; intros p1 l2 p2 A B; inversion A; subst; [exact B|]. cbn. constructor; [assumption|]. apply IH; assumption. Qed.
  Lemma cinits_args (fe : string -> ty -> option cexp) (fp : ty -> option cty) args : forall es ps,
    otraverse (fun a => fe (fst a) (snd a)) args = Some es -> otraverse (fun a : string * ty => fp (snd a)) args = Some ps ->
    (forall x t e p, In (x, t) args -> fe x t = Some e -> fp t = Some p -> cinit copyable F this G e p) -> cinits copyable F this G es ps.
  Proof.
    induction args as [|[x t] args IH]; intros es ps Ee Ep H; [injection Ee as <-; injection Ep as <-; constructor|].
    apply otraverse_inv in Ee. destruct Ee as (e & es' & E1 & E2 & ->). apply otraverse_inv in Ep. destruct Ep as (p & ps' & P1 & P2 & ->).
    constructor; [apply (H x t); [left; reflexivity|exact E1|exact P1]|]. apply IH; [assumption|assumption|]. intros y u e' p' I. apply H. right. exact I.
  Qed.
End Inits.

Section Manual.
  Variables (apis : list api) (n : nat) (T : types) (F : list (string * (cty * list cty))) (this : member) (U : list (string * (member * cty * list cty))) (ret : cty).
  Notation body_ok := (cstmts (passed_directly apis) F this U ret).

  Lemma manual_ok args : forall drops G k, manual n T args = Some drops -> NoDup (map fst args) -> (forall x, In x (map fst args) -> plain_name x) ->
    (forall x t, In (x, t) args -> exists c, cxx_type T t = Some c /\ find_name x G = Some (LVar c)) ->
    (forall x, In x (map fst args) -> find_name (x ++ "$") G = None) ->
    (forall G', (forall y, (forall x t, In (x, t) args -> moved n T t -> y <> (x ++ "$")%string) -> find_name y G' = find_name y G) ->
      (forall x t c, In (x, t) args -> moved n T t -> cxx_type T t = Some c -> find_name (x ++ "$") G' = Some (LManual c)) -> body_ok G' k) ->
    body_ok G (drops ++ k).
  Proof.
    induction args as [|[x t] args IH]; intros drops G k E N P V Fr K.
    - injection E as <-. apply K; [reflexivity|intros ? ? ? []].
    - cbn [manual] in E. apply obind_inv in E. destruct E as (b & Eb & E). apply obind_inv in E. destruct E as (l & El & E).
      destruct (manual n T args) as [drops'|] eqn:Em; [|discriminate]. injection E as <-. cbn in N. inversion N as [|? ? N1 N2]; subst.
      destruct (V x t (or_introl eq_refl)) as (c & Ec & Lx). rewrite <- app_assoc. destruct b.
      + assert (Mv : moved n T t) by (unfold moved; destruct (is_rust_string t); [discriminate|auto]).
        rewrite Ec in El. injection El as <-. cbn [app]. assert (Nr : ~ is_ref c).
        { apply (no_ref_type T t); [|exact Ec]. intros q m lt u ->. destruct Mv as (_ & Mv). discriminate Mv. }
        constructor; [apply Fr; left; reflexivity|apply ct_move, ct_var; assumption|].
        apply (IH drops'); [reflexivity|exact N2|intros y I; apply P; right; exact I| | |].
        * intros y u I. destruct (V y u (or_intror I)) as (d & Ed & Ly). exists d. split; [exact Ed|]. rewrite find_ne; [exact Ly|].
          apply plain_no_dollar. apply P. right. apply (in_map fst) in I. exact I.
        * intros y I. rewrite find_ne; [apply Fr; right; exact I|]. intros E. apply dollar_inj in E. subst y. exact (N1 I).
        * intros G' H1 H2. apply K.
          -- intros y Hy. rewrite H1; [|intros z u I; apply Hy; right; exact I]. apply find_ne. apply (Hy x t); [left; reflexivity|exact Mv].
          -- intros y u d [I|I] M' Ed; [|apply (H2 y u); assumption]. injection I as <- <-. rewrite H1.
             ++ rewrite find_eq. congruence.
             ++ intros z u I _ E. apply dollar_inj in E. subst z. apply N1. apply (in_map fst) in I. exact I.
      + injection El as <-. cbn [app]. assert (Mv : ~ moved n T t). { intros (M1 & M2). rewrite M1, M2 in Eb. discriminate. }
        apply (IH drops'); [reflexivity|exact N2|intros y I; apply P; right; exact I|intros y u I; apply V; right; exact I|intros y I; apply Fr; right; exact I|].
        intros G' H1 H2. apply K.
        * intros y Hy. apply H1. intros z u I. apply Hy. right. exact I.
        * intros y u d [I|I] M' Ed; [|apply (H2 y u); assumption]. injection I as <- <-. contradiction.
  Qed.
  (** The names of the variables are taken. *)
  Lemma manual_taken args : forall drops G k, manual n T args = Some drops -> body_ok G (drops ++ k) ->
    exists G', body_ok G' k /\ (forall y, find_name y G <> None -> find_name y G' <> None) /\ (forall x t, In (x, t) args -> moved n T t -> find_name (x ++ "$") G' <> None).
  Proof.
    induction args as [|[x t] args IH]; intros drops G k E B; [injection E as <-; exists G; repeat split; auto|].
    cbn [manual] in E. apply obind_inv in E. destruct E as (b & Eb & E). apply obind_inv in E. destruct E as (l & El & E).
    destruct (manual n T args) as [drops'|] eqn:Em; [|discriminate]. injection E as <-. rewrite <- app_assoc in B. destruct b.
    - destruct (cxx_type T t) as [c|]; [|discriminate]. injection El as <-. cbn [app] in B. inversion B; subst. clear B.
      match goal with H : cstmts _ _ _ _ _ _ _ |- _ => destruct (IH _ _ _ eq_refl H) as (G' & B' & Ha & Hb) end. exists G'. split; [exact B'|]. split.
      + intros y Hy. apply Ha. cbn. destruct (String.eqb y (x ++ "$")); [discriminate|exact Hy].
      + intros y u [I|I] M; [injection I as <- <-|apply (Hb y u); assumption]. apply Ha. rewrite find_eq. discriminate.
    - injection El as <-. destruct (IH _ _ _ eq_refl B) as (G' & B' & Ha & Hb). exists G'. split; [exact B'|]. split; [exact Ha|].
      intros y u [I|I] M; [|apply (Hb y u); assumption]. injection I as <- <-. destruct M as (M1 & M2). rewrite M1, M2 in Eb. discriminate.
  Qed.
End Manual.

Section Fns.
  Variables (gen : generator) (ord : nat -> list string -> list string) (apis : list api) (T : types) (n : nat).
  Hypothesis Hacc : accepted_bridge gen ord apis T.

  Lemma outparam_cases pointee s out : cxx_outparam n T pointee s = Some out ->
    (indirect_return n T s = Some true /\ exists r c, sg_ret s = Some r /\ pointee r = Some c /\ out = [CPtr false c]) \/
    (indirect_return n T s = Some false /\ out = []).
  Proof.
    unfold cxx_outparam. intros E. apply obind_inv in E. destruct E as (b & Eb & E). destruct b; [left|right; split; [exact Eb|congruence]].
    split; [exact Eb|]. destruct (sg_ret s) as [r|]; [|discriminate]. destruct (pointee r) as [c|] eqn:Ec; [|discriminate]. injection E as <-. eauto 6.
  Qed.

  (** A C++ function *)
  Lemma cxx_shim_typed f w : In (ACxxFunction f) apis ->
    NoDup (map fst (fn_args f)) -> (forall x, In x (map fst (fn_args f)) -> plain_name x) -> p_rust (fn_name f) <> "return" ->
    cxx_shim n T f = Some w ->
    exists m r ps x, documented apis (fn_receiver f) (fn_args f) (fn_ret f) m r ps /\ user_name apis f x /\
      cxx_function_shim n T f = Some (cf_ret w, map snd (cf_params w)) /\ cf_this w = None /\ cf_noexcept w = true /\
      (cxx_fn_typed (passed_directly apis) [] [(x, (m, r, ps))] w <-> ~ (fn_throws f = true /\ p_rust (fn_name f) = "throw")).
  Proof.
    intros Hf N P Nr E. unfold cxx_shim in E.
    apply obind_inv in E. destruct E as (ret & Eret & E). apply obind_inv in E. destruct E as (self & Eself & E).
    apply obind_inv in E. destruct E as (params & Eparams & E). apply obind_inv in E. destruct E as (out & Eout & E).
    apply obind_inv in E. destruct E as (m & Em & E). apply obind_inv in E. destruct E as (uret & Eur & E).
    apply obind_inv in E. destruct E as (uargs & Eua & E). apply obind_inv in E. destruct E as (args & Eargs & E).
    apply obind_inv in E. destruct E as (slot & Eslot & E).
    apply obind_inv in E. destruct E as (e1 & Ee1 & E). apply obind_inv in E. destruct E as (e2 & Ee2 & E).
    set (ptr := (p_rust (fn_name f) ++ "$")%string) in *.
    set (call := match m with None => CxCall _ _ | Some _ => _ end) in *. set (target := match m with None => qualified_name _ | Some _ => _ end) in *.
    injection E as <-. destruct (trav_names _ _ _ Eparams) as (Pn & Pt).
    exists m, uret, uargs, target. cbn [cf_ret cf_params cf_this cf_noexcept].
    assert (Hm : match fn_receiver f with None => m = None /\ self = [] | Some r => exists p, stands_for apis (n_rust (rc_ty r)) p /\ m = Some (negb (rc_mutable r), CNamed p) /\ self = [CRef (negb (rc_mutable r)) (CNamed p)] end).
    { unfold receiver_class in Em. unfold cxx_receivers, cxx_receiver in Eself. cbn [sg_receiver fn_sig] in *. destruct (fn_receiver f) as [r|]; [|split; congruence].
      destruct (resolve_name T (n_rust (rc_ty r))) as [p|] eqn:R; [|discriminate]. exists p. split; [apply (resolve_stands _ _ _ _ Hacc), R|]. cbn in Em, Eself. split; congruence. }
    split; [|split; [|split; [|split; [reflexivity|split; [reflexivity|]]]]].
    - split; [|split].
      + destruct (fn_receiver f); [|apply Hm]. destruct Hm as (p & A & B & _). eauto.
      + unfold return_type in Eur. destruct (fn_ret f); [apply (denotes_ok _ _ _ _ Hacc), Eur|congruence].
      + apply (denotes_list _ _ _ _ Hacc), Eua.
    - unfold user_name, target. destruct (fn_receiver f).
      + destruct Hm as (p & A & -> & _). exists p. split; [exact A|]. rewrite full_name_ok. reflexivity.
      + destruct Hm as (-> & _). apply full_name_ok.
    - unfold cxx_function_shim, cxx_signature. rewrite Eret, Eself. cbn [obind sg_args fn_sig]. rewrite Pt. cbn [obind]. rewrite Eout. cbn [obind].
      do 2 f_equal. rewrite !map_app, !map_map, !map_id. cbn [when]. rewrite app_nil_r. reflexivity.
    - set (G0 := params_env (map (pair "self"%string) self ++ params ++ map (pair "return$"%string) out)). set (G1 := (ptr, LFnPtr m uret uargs) :: G0).
      assert (Dp : has_char "$" ptr = true) by (unfold ptr; rewrite has_char_app; cbn; apply orb_true_r).
      assert (Pd : forall x, In x (map fst (fn_args f)) -> x <> ptr) by (intros x I; apply plain_no_dollar, P, I).
      assert (Rp : ptr <> "return$") by (intros E; apply Nr; apply (dollar_inj _ "return"); exact E).
      assert (Np : NoDup (map fst (map (pair "self"%string) self ++ params ++ map (pair "return$"%string) out))).
      { rewrite !map_app, Pn, !map_map. cbn [fst].
        assert (O1 : forall x, In x (map (fun _ : cty => "return$"%string) out) -> x = "return$"%string) by (intros x I; apply in_map_iff in I; destruct I as (? & <- & _); reflexivity).
        assert (S1 : forall x, In x (map (fun _ : cty => "self"%string) self) -> x = "self"%string) by (intros x I; apply in_map_iff in I; destruct I as (? & <- & _); reflexivity).
        assert (L1 : NoDup (map (fun _ : cty => "self"%string) self)).
        { destruct (fn_receiver f); [destruct Hm as (? & _ & _ & ->)|destruct Hm as (_ & ->)]; cbn; repeat constructor. intros []. }
        assert (L2 : NoDup (map (fun _ : cty => "return$"%string) out)).
        { destruct (outparam_cases _ _ _ Eout) as [(_ & ? & ? & _ & _ & ->)|(_ & ->)]; cbn; repeat constructor. intros []. }
        apply NoDup_app_intro; [exact L1| |].
        - apply NoDup_app_intro; [exact N|exact L2|]. intros x I J. apply O1 in J. apply P in I. apply (plain_no_dollar _ "return") in I. contradiction.
        - intros x I J. apply S1 in I. subst x. apply in_app_or in J. destruct J as [J|J]; [apply P in J; destruct J as (_ & J); apply J; cbn; auto|apply O1 in J; discriminate J]. }
      assert (Fp : find_name ptr G0 = None).
      { apply find_none. unfold G0. rewrite env_names, !map_app, Pn, !map_map. cbn [fst]. intros I. apply in_app_or in I. destruct I as [I|I]; [|apply in_app_or in I; destruct I as [I|I]].
        - apply in_map_iff in I. destruct I as (? & I & _). rewrite <- I in Dp. discriminate Dp.
        - exact (Pd _ I eq_refl).
        - apply in_map_iff in I. destruct I as (? & I & _). exact (Rp (eq_sym I)). }
      assert (Fa : forall x t p, In (x, t) (fn_args f) -> cxx_shim_arg n T t = Some p -> find_name x G0 = Some (LVar p)).
      { intros x t p I Ep. unfold G0. apply find_in; [rewrite env_names; exact Np|]. apply env_in. apply in_or_app. right. apply in_or_app. left.
        destruct (trav_in _ _ _ Eparams x t I) as (q & Eq & Iq). congruence. }
      assert (Fo : forall c, out = [CPtr false c] -> find_name "return$" G0 = Some (LVar (CPtr false c))).
      { intros c ->. unfold G0. apply find_in; [rewrite env_names; exact Np|]. apply env_in. apply in_or_app. right. apply in_or_app. right. left. reflexivity. }
      (* in any scope with these names *)
      assert (Main : forall G, (forall x, In x (map fst (fn_args f)) \/ x = "self" \/ x = "return$" -> find_name x G = find_name x G0) -> find_name ptr G = Some (LFnPtr m uret uargs) ->
        (slot = true -> exists t, ctyped (passed_directly apis) [] None G e2 t None) /\
        (slot = false -> match fn_ret f with
                         | None => exists t, ctyped (passed_directly apis) [] None G e2 t None
                         | Some r => fn_throws f = false -> cinit (passed_directly apis) [] None G e2 ret /\ ret <> CVoid
                         end)).
      { intros G HG Hp.
        assert (Cargs : cinits (passed_directly apis) [] None G args uargs).
        { eapply (cinits_args _ _ _ _ (pass_arg n T) (cxx_type T)); [exact Eargs|exact Eua|]. intros x t e c I Ee Ec.
          destruct (trav_in _ _ _ Eparams x t I) as (p & Ep & _). apply (pass_arg_ok gen ord apis T n Hacc [] None G x t e p c); try assumption.
          - destruct (fn_arg_ok _ _ _ _ Hacc f x t (or_introl Hf) I) as (_ & _ & NV & _). exact NV.
          - rewrite HG; [eapply Fa; eassumption|]. left. apply (in_map fst) in I. exact I. }
        assert (Rc : forall t v, returned uret t v -> ctyped (passed_directly apis) [] None G call t v).
        { intros t v R. unfold call. destruct (fn_receiver f) as [r|].
          - destruct Hm as (p & _ & -> & Es). eapply ct_member; [exact Hp| |intros X; exact X|exact Cargs|exact R].
            apply ct_ref. rewrite HG; [|auto]. unfold G0. apply find_in; [rewrite env_names; exact Np|]. apply env_in. rewrite Es. left. reflexivity.
          - destruct Hm as (-> & _). eapply ct_call_ptr; [exact Hp|exact Cargs|exact R]. }
        assert (Ro : result_of apis T [] None G (fn_ret f) call) by (intros c Ec; rewrite Eur in Ec; injection Ec as <-; exact Rc).
        pose proof (outparam_cases _ _ _ Eout) as Oc. rewrite Eslot in Oc. split; intros ->.
        - destruct Oc as [(_ & r & c & Er & Ec & Eo)|(Ef & _)]; [|discriminate Ef]. cbn [sg_ret fn_sig] in Er. rewrite Er in *. cbn [option_map] in Ee2. rewrite Ec in Ee2. cbn in Ee2. injection Ee2 as <-.
          destruct (pass_result_slot apis T [] None G r call e1 c Ec Ro Ee1) as (Ci & Nc). eexists. eapply ct_new; [|exact Ci].
          apply ct_var; [rewrite HG; [|auto]; apply Fo, Eo|nr].
        - injection Ee2 as <-. destruct (fn_ret f) as [r|] eqn:Er.
          + intros Th. apply (pass_result_direct apis T n [] None G r call e1 ret); try assumption.
            * unfold indirect_return in Eslot. cbn [sg_ret sg_throws fn_sig] in Eslot. rewrite Er, Th in Eslot. exact Eslot.
            * unfold cxx_return in Eret. cbn [sg_ret sg_throws fn_sig] in Eret. rewrite Th, Er in Eret. exact Eret.
          + injection Ee1 as <-. injection Eur as <-. eexists. apply Rc. constructor. nr. }
      unfold cxx_fn_typed. cbn [cf_params cf_this cf_ret cf_body]. fold G0. split.
      + intros (_ & B) (Th & En). rewrite Th in B. inversion B; subst. match goal with H : cstmts _ _ _ _ _ _ (CsDeclare _ _ :: _) |- _ => inversion H; subst end.
        match goal with H : find_name "throw$" _ = None |- _ => unfold ptr in H; rewrite En in H; discriminate H end.
      + intros Nt. split; [exact Np|]. apply cb_fn_ptr; [exact Fp|apply find_eq|]. fold G1.
        assert (HG1 : forall x, In x (map fst (fn_args f)) \/ x = "self" \/ x = "return$" -> find_name x G1 = find_name x G0).
        { intros x Hx. apply find_ne. intros ->. destruct Hx as [I|[Ex|Ex]]; [exact (Pd _ I eq_refl)|rewrite Ex in Dp; discriminate Dp|exact (Rp Ex)]. }
        destruct (fn_throws f) eqn:Th.
        * assert (Tp : ptr <> "throw$") by (intros E; apply Nt; split; [reflexivity|]; apply (dollar_inj _ "throw"); exact E).
          assert (Fn : find_name "throw$" G1 = None).
          { unfold G1. rewrite find_ne by (intros E; apply Tp; symmetry; exact E). apply find_none. unfold G0. rewrite env_names, !map_app, Pn, !map_map. cbn [fst]. intros I.
            apply in_app_or in I. destruct I as [I|I]; [|apply in_app_or in I; destruct I as [I|I]].
            - apply in_map_iff in I. destruct I as (? & I & _). discriminate I.
            - apply P in I. exact (plain_no_dollar _ "throw" I eq_refl).
            - apply in_map_iff in I. destruct I as (? & I & _). discriminate I. }
          assert (Er : ret = CPtrLen) by (unfold cxx_return in Eret; cbn [sg_throws fn_sig] in Eret; rewrite Th in Eret; congruence).
          apply cb_declare; [exact Fn|]. set (G2 := ("throw$"%string, LVar CPtrLen) :: G1).
          destruct (Main G2) as (M1 & M2).
          { intros x Hx. unfold G2. rewrite find_ne; [apply HG1, Hx|]. intros ->. destruct Hx as [I|[Ex|Ex]]; try discriminate Ex. apply P in I. exact (plain_no_dollar _ "throw" I eq_refl). }
          { unfold G2. rewrite find_ne by exact Tp. apply find_eq. }
          assert (X : exists t, ctyped (passed_directly apis) [] None G2 e2 t None).
          { destruct slot; [apply M1; reflexivity|]. specialize (M2 eq_refl). destruct (fn_ret f) as [r|] eqn:Efr; [|exact M2].
            unfold indirect_return in Eslot. cbn [sg_ret sg_throws fn_sig] in Eslot. rewrite Efr, Th in Eslot. discriminate Eslot. }
          destruct X as (t & X). eapply cb_try; [exact X|apply find_eq|]. apply cb_return; [rewrite Er; discriminate|]. rewrite Er.
          apply (ci_copy _ _ _ _ _ _ false); [nr|apply ct_var; [apply find_eq|nr]|apply pd_words; auto].
        * destruct (Main G1 HG1 (find_eq _ _ _)) as (M1 & M2).
          unfold cxx_return in Eret. unfold indirect_return in Eslot. cbn [sg_throws sg_ret fn_sig] in Eret, Eslot. rewrite Th in Eret, Eslot.
          destruct (fn_ret f) as [r|] eqn:Efr.
          -- destruct slot.
             ++ destruct (M1 eq_refl) as (t & X). eapply cb_do; [exact X|]. apply cb_end.
                unfold cxx_extern_return in Eret. destruct r; try discriminate Eslot; rewrite Eslot in Eret; cbn in Eret; congruence.
             ++ destruct (M2 eq_refl eq_refl) as (X & Y). apply cb_return; assumption.
          -- injection Eslot as <-. destruct (M2 eq_refl) as (t & X). eapply cb_do; [exact X|]. apply cb_end. cbn in Eret. congruence.
  Qed.
End Fns.
