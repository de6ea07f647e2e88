(** Proofs about the generated C++ file: the types in it, and lists of declarations. *)
From Verif Require Import Base Syntax_Model Toposort_Model Types_Model Mangle_Model Abi_Model Derive_Model CxxExpr_Model CxxExpr_Spec
  Expr_Proofs2 Unit_Model Unit_Spec.

(** * Lists of declarations *)
Definition later (K : fact -> Prop) (l : list placed_decl) : fact -> Prop := fun f => K f \/ provided l f.
Definition founded (K : fact -> Prop) (l : list placed_decl) : Prop :=
  forall before ns d after, l = before ++ (ns, d) :: after -> forall n, In n (needs ns d) -> meets (later K before) n.

Lemma meets_mono (K K' : fact -> Prop) n : (forall f, K f -> K' f) -> meets K n -> meets K' n.
Proof.
  intros H. destruct n as [f|ns x|x m ret ps|own k]; cbn [meets]; [apply H|..|auto].
  - intros (o & i & E & M). eauto.
  - destruct m as [[c t]|].
    + destruct t; try tauto. intros (y & E & M). eauto.
    + intros (q & E & M). eauto.
Qed.
Lemma provided_app l l' f : provided (l ++ l') f <-> provided l f \/ provided l' f.
Proof.
  split.
  - intros (ns & d & I & J). apply in_app_or in I as [I|I]; [left|right]; exists ns, d; auto.
  - intros [(ns & d & I & J)|(ns & d & I & J)]; exists ns, d; (split; [|exact J]); apply in_or_app; auto.
Qed.
Lemma later_app K l l' f : later (later K l) l' f <-> later K (l ++ l') f.
Proof. unfold later. rewrite provided_app. tauto. Qed.
Lemma founded_app K l l' : founded K l -> founded (later K l) l' -> founded K (l ++ l').
Proof.
  intros H H' before ns d after E n I.
  assert (C : (exists l2, l = before ++ (ns, d) :: l2) \/ exists l1, before = l ++ l1 /\ l' = l1 ++ (ns, d) :: after).
  { clear -E. revert before E. induction l as [|x l IH]; intros before E; [right; exists before; auto|].
    destruct before as [|y before]; cbn in E; injection E as -> E.
    - left. exists l. reflexivity.
    - destruct (IH before E) as [[l2 E']|(l1 & -> & E')]; [left; exists l2; rewrite E'; reflexivity|right; exists l1; auto]. }
  destruct C as [[l2 E']|(l1 & -> & E')].
  - eapply H; [exact E'|exact I].
  - eapply meets_mono; [|eapply H'; [exact E'|exact I]]. intros f. apply later_app.
Qed.
Lemma founded_nil K : founded K [].
Proof. intros before ns d after E. destruct before; discriminate. Qed.
Lemma founded_all K l : (forall ns d, In (ns, d) l -> forall n, In n (needs ns d) -> meets K n) -> founded K l.
Proof.
  intros H before ns d after E n I. eapply meets_mono; [|eapply H; [|exact I]]; [intros f Kf; left; exact Kf|].
  rewrite E. apply in_or_app. right. left. reflexivity.
Qed.
Lemma founded_mono (K K' : fact -> Prop) l : (forall f, K f -> K' f) -> founded K l -> founded K' l.
Proof.
  intros H F before ns d after E n I. eapply meets_mono; [|eapply F; [exact E|exact I]]. intros f [Kf|P]; [left; auto|right; exact P].
Qed.
Lemma founded_concat K ls : (forall l, In l ls -> founded K l) -> founded K (List.concat ls).
Proof.
  induction ls as [|l ls IH]; intros H; [apply founded_nil|]. cbn [List.concat]. apply founded_app; [apply H; left; reflexivity|].
  eapply founded_mono; [|apply IH; intros l' I; apply H; right; exact I]. intros f Kf. left. exact Kf.
Qed.
Lemma founded_file apis l : founded (users apis) l -> well_founded_file apis l.
Proof. intros H before ns d after E n I. eapply meets_mono; [|eapply H; [exact E|exact I]]. intros f [U|P]; auto. Qed.

Lemma otraverse_in {A B} (f : A -> option B) l r b : otraverse f l = Some r -> In b r -> exists a, In a l /\ f a = Some b.
Proof.
  revert r. induction l as [|a l IH]; intros r E I.
  - injection E as <-. destruct I.
  - apply otraverse_inv in E as (b' & bs & Ea & El & ->). destruct I as [<-|I]; [exists a; split; [left; reflexivity|exact Ea]|].
    destruct (IH _ El I) as (a' & J & E'). exists a'. split; [right; exact J|exact E'].
Qed.
Lemma otraverse_has {A B} (f : A -> option B) l r a : otraverse f l = Some r -> In a l -> exists b, In b r /\ f a = Some b.
Proof.
  revert r. induction l as [|a' l IH]; intros r E I; [destruct I|].
  apply otraverse_inv in E as (b' & bs & Ea & El & ->). destruct I as [->|I]; [exists b'; split; [left; reflexivity|exact Ea]|].
  destruct (IH _ El I) as (b & J & E'). exists b. split; [right; exact J|exact E'].
Qed.
Lemma otraverse_app {A B} (f : A -> option B) l l' r : otraverse f (l ++ l') = Some r ->
  exists r1 r2, otraverse f l = Some r1 /\ otraverse f l' = Some r2 /\ r = r1 ++ r2.
Proof.
  revert r. induction l as [|a l IH]; intros r E; [exists [], r; auto|]. cbn [app] in E.
  apply otraverse_inv in E as (b & bs & Ea & El & ->). destruct (IH _ El) as (r1 & r2 & E1 & E2 & ->).
  exists (b :: r1), r2. split; [|auto].
  change (obind (f a) (fun b => option_map (cons b) (otraverse f l)) = Some (b :: r1)). rewrite Ea, E1. reflexivity.
Qed.
Lemma option_map_inv {A B} (f : A -> B) o r : option_map f o = Some r -> exists a, o = Some a /\ r = f a.
Proof. destruct o; [|discriminate]. intros E. injection E as <-. eauto. Qed.

(** * The types of the generated functions *)
Section Good.
  Context (fuel : nat) (T : types).
  Definition resolved (p : pair_name) : Prop := exists x, resolve_name T x = Some p.
  Definition good (c : cty) : Prop := forall p, In p (names_in c) -> resolved p.
  Definition goods (l : list cty) : Prop := forall c, In c l -> good c.

  Lemma cxx_type_good t : forall c, cxx_type T t = Some c -> good c.
  Proof.
    induction t using ty_ind'; intros c E; cbn [cxx_type] in E;
      try (apply option_map_inv in E as (c' & E & ->); intros q I; cbn [names_in] in I; eapply IHt; [exact E|exact I]).
    - destruct (atom_from_str _); [injection E as <-; intros q []|]. apply option_map_inv in E as (p & E & ->).
      intros q [<-|[]]. exists (n_rust n). exact E.
    - injection E as <-. intros q [].
    - apply obind_inv in E as (cs & E1 & E). apply option_map_inv in E as (r & E2 & ->).
      intros q I. cbn [names_in] in I. apply in_app_or in I as [I|I].
      + assert (G : forall c, In c cs -> good c).
        { intros c I'. destruct (otraverse_in _ _ _ _ E1 I') as (a & J & Ea). rewrite Forall_forall in H. exact (H a J c Ea). }
        clear -I G. induction cs as [|c cs IH]; [destruct I|]. apply in_app_or in I as [I|I]; [eapply G; [left; reflexivity|exact I]|].
        apply IH; [exact I|]. intros c' J. apply G. right. exact J.
      + destruct ret as [r'|]; [|injection E2 as <-; destruct I]. apply option_map_inv in E2 as (c & E2 & ->). eapply H0; [reflexivity|exact E2|exact I].
    - discriminate.
  Qed.
  Lemma good_ptr b c : good c -> good (CPtr b c).
  Proof. intros H. exact H. Qed.
  Lemma good_ref b c : good c -> good (CRef b c).
  Proof. intros H. exact H. Qed.
  Lemma good_box c : good c -> good (CBox c).
  Proof. intros H. exact H. Qed.
  Lemma good_unique c : good c -> good (CUnique c).
  Proof. intros H. exact H. Qed.
  Lemma good_none c : names_in c = [] -> good c.
  Proof. intros H p. rewrite H. intros []. Qed.
  Lemma good_named p x : resolve_name T x = Some p -> good (CNamed p).
  Proof. intros E q [<-|[]]. exists x. exact E. Qed.

  Ltac ob H := match type of H with
    | obind _ _ = Some _ => let a := fresh "a" in let E := fresh "E" in apply obind_inv in H as (a & E & H)
    | option_map _ _ = Some _ => let a := fresh "a" in let E := fresh "E" in apply option_map_inv in H as (a & E & ->)
    | Some _ = Some _ => injection H as <-
    | None = Some _ => discriminate H
    end.
  Ltac gd := try (apply good_none; reflexivity); eauto using good_ptr, good_ref, good_box, good_unique, good_named, cxx_type_good.

  Lemma cxx_extern_return_good r c : cxx_extern_return fuel T r = Some c -> good c.
  Proof.
    unfold cxx_extern_return. intros E. destruct r as [t|]; [|ob E; gd].
    destruct t; try ob E; gd; destruct a; try ob E; gd.
  Qed.
  Lemma cxx_return_good s c : cxx_return fuel T s = Some c -> good c.
  Proof. unfold cxx_return. destruct (sg_throws s); intros E; [ob E; gd|eapply cxx_extern_return_good, E]. Qed.
  Lemma cxx_extern_arg_good t c : cxx_extern_arg fuel T t = Some c -> good c.
  Proof.
    unfold cxx_extern_arg. intros E. ob E. ob E. ob E. assert (G : good a) by (destruct t; try ob E0; gd). destruct a0; gd.
  Qed.
  Lemma cxx_receivers_good s l : cxx_receivers T s = Some l -> goods l.
  Proof.
    unfold cxx_receivers, cxx_receiver. destruct (sg_receiver s); intros E; [|ob E; intros c []]. ob E. ob E0. intros c [<-|[]]. gd.
  Qed.
  Lemma cxx_shim_arg_good t c : cxx_shim_arg fuel T t = Some c -> good c.
  Proof.
    unfold cxx_shim_arg. destruct (is_rust_string t); intros E; [ob E; gd|]. destruct t; try ob E; try (eapply cxx_extern_arg_good; eassumption); gd.
  Qed.
  Lemma cxx_indirect_return_type_good t c : cxx_indirect_return_type T t = Some c -> good c.
  Proof. unfold cxx_indirect_return_type. intros E. destruct t; try ob E; gd. Qed.
  Lemma cxx_decl_return_type_good t c : cxx_decl_return_type T t = Some c -> good c.
  Proof. unfold cxx_decl_return_type. intros E. destruct t; try ob E; gd. Qed.
  Lemma cxx_outparam_good (pointee : ty -> option cty) s l : (forall t c, pointee t = Some c -> good c) -> cxx_outparam fuel T pointee s = Some l -> goods l.
  Proof.
    unfold cxx_outparam. intros H E. ob E. destruct a; [|ob E; intros c []]. destruct (sg_ret s); [|discriminate]. ob E.
    intros c [<-|[]]. apply good_ptr. eapply H, E1.
  Qed.
  Lemma return_type_good r c : return_type T r = Some c -> good c.
  Proof. unfold return_type. destruct r; intros E; [gd|ob E; gd]. Qed.
  Lemma types_good (l : list (string * ty)) cs : otraverse (fun a => cxx_type T (snd a)) l = Some cs -> goods cs.
  Proof. intros E c I. destruct (otraverse_in _ _ _ _ E I) as (a & _ & Ea). gd. Qed.
  Lemma cxx_function_decl_good s b d : cxx_function_decl fuel T s b = Some d -> goods (fst d :: snd d).
  Proof.
    unfold cxx_function_decl, cxx_signature. intros E. ob E. ob E. ob E. ob E. ob E. cbn [fst snd].
    intros c [<-|I]; [eapply cxx_return_good; eassumption|]. rewrite !in_app_iff in I. destruct I as [I|[I|[I|I]]].
    - eapply cxx_receivers_good; eassumption.
    - destruct (otraverse_in _ _ _ _ E2 I) as (x & _ & Ea). eapply cxx_extern_arg_good, Ea.
    - eapply cxx_outparam_good; [|exact E3|exact I]. apply cxx_decl_return_type_good.
    - destruct b; [|destruct I]. destruct I as [<-|[]]. gd.
  Qed.
  Lemma cxx_function_shim_decl_good s b d : cxx_function_shim_decl T s b = Some d -> goods (match fst d with Some c => c | None => CVoid end :: snd d).
  Proof.
    unfold cxx_function_shim_decl. intros E. ob E. ob E. ob E. cbn [fst snd]. intros c [<-|I].
    - destruct (sg_ret s); ob E0; gd.
    - apply in_app_or in I as [I|I]; [eapply types_good; eassumption|]. destruct b; [|destruct I]. destruct I as [<-|[]]. gd.
  Qed.

  (** ** Expressions *)
  Definition egood (e : cexp) : Prop := goods (exp_types e).
  Lemma goods_nil : goods [].
  Proof. intros c []. Qed.
  Lemma goods_cons c l : good c -> goods l -> goods (c :: l).
  Proof. intros H H' x [<-|I]; auto. Qed.
  Lemma goods_app l l' : goods l -> goods l' -> goods (l ++ l').
  Proof. intros H H' x I. apply in_app_or in I as [I|I]; auto. Qed.
  Lemma exp_types_args l : (fix go l := match l with [] => [] | a :: l => exp_types a ++ go l end) l = flat_map exp_types l.
  Proof. induction l as [|a l IH]; cbn; [reflexivity|]. rewrite IH. reflexivity. Qed.
  Lemma exp_calls_args l : (fix go l := match l with [] => [] | a :: l => exp_calls a ++ go l end) l = flat_map exp_calls l.
  Proof. induction l as [|a l IH]; cbn; [reflexivity|]. rewrite IH. reflexivity. Qed.

  Lemma pass_arg_good x t e : pass_arg fuel T x t = Some e -> egood e /\ exp_calls e = [].
  Proof.
    unfold pass_arg. intros E.
    destruct t; try ob E; try (split; [apply goods_cons; [|apply goods_nil]; gd|reflexivity]);
    (destruct (is_rust_string _); [ob E; split; [apply goods_cons; [|apply goods_nil]; gd|reflexivity]|]);
    try (ob E; destruct a; split; try reflexivity; apply goods_nil);
    ob E; (split; [apply goods_cons; [|apply goods_nil]; gd|reflexivity]).
  Qed.
  Lemma pass_result_good slot ret call e : pass_result T slot ret call = Some e -> egood call -> egood e /\ exp_calls e = exp_calls call.
  Proof.
    unfold pass_result. intros E G. destruct ret as [t|]; [|ob E; split; [exact G|reflexivity]].
    destruct t; try (ob E; split; [exact G|reflexivity]); destruct slot; ob E; (split; [|reflexivity]); try exact G.
    apply goods_cons; [|exact G]. eapply cxx_type_good. exact E0.
  Qed.
  Lemma hand_arg_good x t e : hand_arg fuel T x t = Some e -> egood e /\ exp_calls e = [].
  Proof.
    unfold hand_arg. intros E. ob E. ob E.
    destruct t, a; cbn [negb andb]; try (split; [apply goods_nil|reflexivity]);
    destruct (is_rust_string _); cbn [negb andb]; (split; [apply goods_nil|reflexivity]).
  Qed.
  Lemma take_result_good ret call e : take_result T ret call = Some e -> egood call -> egood e /\ exp_calls e = exp_calls call.
  Proof.
    unfold take_result. intros E G. destruct ret as [t|]; [|ob E; split; [exact G|reflexivity]].
    destruct t; try ob E; (split; [|reflexivity]); try exact G; (apply goods_cons; [|exact G]); gd.
  Qed.
  Lemma manual_good args : forall l, manual fuel T args = Some l -> goods (flat_map stmt_types l) /\ flat_map stmt_exp l = [] /\
    (forall s, In s l -> match s with CsFnPtr _ _ _ _ _ => False | _ => True end).
  Proof.
    induction args as [|[x t] args IH]; intros l E; cbn [manual] in E.
    - ob E. split; [apply goods_nil|]. split; [reflexivity|intros s []].
    - ob E. ob E. ob E. destruct (IH _ E2) as (G & X & N). rewrite !flat_map_app. destruct a; ob E1.
      + cbn [flat_map stmt_types stmt_exp app]. split; [apply goods_cons; [gd|exact G]|]. split; [exact X|]. intros s [<-|I]; [exact I|apply N, I].
      + cbn [flat_map app]. auto.
  Qed.

  (** ** The functions *)
  Lemma cxx_shim_facts f g : cxx_shim fuel T f = Some g -> goods (fn_types g) /\ flat_map exp_calls (flat_map stmt_exp (cf_body g)) = match fn_receiver f with None => fn_locals g | Some _ => [] end /\
    exists x m ret ps target body, cf_body g = CsFnPtr x m ret ps target :: body /\ fn_locals g = [x] /\
      (forall s, In s body -> match s with CsFnPtr _ _ _ _ _ => False | _ => True end) /\
      receiver_class T (fn_sig f) = Some m /\ return_type T (fn_ret f) = Some ret /\ otraverse (fun a => cxx_type T (snd a)) (fn_args f) = Some ps /\
      target = match m with None => qualified_name (fn_name f) | Some (_, CNamed p) => (qualified_name p ++ "::" ++ p_cxx (fn_name f))%string | Some _ => ""%string end.
  Proof.
    unfold cxx_shim. intros E. do 9 ob E. apply obind_inv in E as (e & Ee & E). apply obind_inv in E as (e' & Ee' & E). injection E as <-.
    rename a3 into m, a4 into uret, a5 into uargs, a6 into args, a7 into slot.
    assert (Ga : goods (flat_map exp_types args) /\ flat_map exp_calls args = []).
    { assert (A : forall e, In e args -> egood e /\ exp_calls e = []).
      { intros x I. destruct (otraverse_in _ _ _ _ E7 I) as (y & _ & Ey). eapply pass_arg_good, Ey. }
      clear -A. induction args as [|a args IH]; [split; [apply goods_nil|reflexivity]|]. destruct (A a (or_introl eq_refl)) as (A1 & A2).
      destruct IH as (H1 & H2); [intros e I; apply A; right; exact I|]. cbn [flat_map]. rewrite A2, H2. split; [apply goods_app; assumption|reflexivity]. }
    destruct Ga as (Ga & Ca).
    set (call := match m with None => CxCall (p_rust (fn_name f) ++ "$") args | Some _ => CxMember (CxVar "self") (p_rust (fn_name f) ++ "$") args end) in *.
    assert (Gc : egood call) by (unfold call, egood; destruct m; cbn [exp_types app]; rewrite exp_types_args; exact Ga).
    assert (Cc : exp_calls call = match m with None => [(p_rust (fn_name f) ++ "$")%string] | Some _ => [] end)
      by (unfold call; destruct m; cbn [exp_calls app]; rewrite exp_calls_args, Ca; reflexivity).
    destruct (pass_result_good _ _ _ _ Ee Gc) as (Ge & Ce).
    assert (Ge' : egood e' /\ exp_calls e' = exp_calls e).
    { destruct slot; [|injection Ee' as <-; auto]. destruct (fn_ret f); [|discriminate]. ob Ee'. split; [|reflexivity].
      apply goods_cons; [eapply cxx_indirect_return_type_good; eassumption|exact Ge]. }
    destruct Ge' as (Ge' & Ce'). rewrite Ce, Cc in Ce'.
    set (body := if fn_throws f then _ else _).
    assert (B : goods (flat_map stmt_types body) /\ goods (flat_map exp_types (flat_map stmt_exp body)) /\ flat_map exp_calls (flat_map stmt_exp body) = exp_calls e' /\
                (forall s, In s body -> match s with CsFnPtr _ _ _ _ _ => False | _ => True end)).
    { unfold body. destruct (fn_throws f); [|destruct (fn_ret f); [destruct slot|]]; cbn [flat_map stmt_types stmt_exp app exp_types exp_calls]; rewrite !app_nil_r;
        repeat split; try apply goods_nil; try exact Ge'; try (apply goods_cons; [apply good_none; reflexivity|apply goods_nil]);
        intros s I; repeat (destruct I as [<-|I]; [exact Logic.I|]); destruct I. }
    clearbody body. destruct B as (B1 & B2 & B3 & B4).
    assert (Lo : flat_map (fun s => match s with CsFnPtr x _ _ _ _ => [x] | _ => [] end) body = []).
    { clear -B4. induction body as [|s body IH]; [reflexivity|]. cbn [flat_map]. pose proof (B4 s (or_introl eq_refl)) as F. rewrite IH by (intros s' I; apply B4; right; exact I).
      destruct s; (reflexivity || destruct F). }
    cbn [cf_ret cf_params cf_body]. split; [|split].
    - unfold fn_types. cbn [cf_ret cf_params cf_body flat_map stmt_types stmt_exp app]. apply goods_cons; [eapply cxx_return_good; eassumption|].
      rewrite !map_app. repeat apply goods_app; try assumption.
      + intros c I. rewrite map_map in I. cbn [snd] in I. rewrite map_id in I. eapply cxx_receivers_good; eassumption.
      + intros c I. apply in_map_iff in I as (y & <- & I). destruct (otraverse_in _ _ _ _ E2 I) as (z & _ & Ez). apply option_map_inv in Ez as (c & Ez & ->).
        eapply cxx_shim_arg_good, Ez.
      + intros c I. rewrite map_map in I. cbn [snd] in I. rewrite map_id in I. eapply cxx_outparam_good; [|exact E3|exact I]. apply cxx_indirect_return_type_good.
      + apply goods_cons; [eapply return_type_good; eassumption|apply goods_app; [apply goods_app; [eapply types_good; eassumption|exact B1]|exact B2]].
    - unfold fn_locals. cbn [cf_body flat_map stmt_exp app]. rewrite B3, Lo, Ce'. unfold receiver_class in E4. cbn [fn_sig sg_receiver] in E4.
      destruct (fn_receiver f); [|injection E4 as <-; reflexivity]. ob E4. reflexivity.
    - eexists _, _, _, _, _, _. split; [reflexivity|]. split; [unfold fn_locals; cbn [cf_body flat_map app]; rewrite Lo; reflexivity|]. auto 8.
  Qed.

  Lemma cxx_rust_shim_facts s invoke cb g : cxx_rust_shim fuel T s invoke cb = Some g -> goods (fn_types g) /\
    flat_map exp_calls (flat_map stmt_exp (cf_body g)) = [invoke] /\
    (forall st, In st (cf_body g) -> match st with CsFnPtr _ _ _ _ _ => False | _ => True end) /\
    receiver_class T s = Some (cf_this g) /\ return_type T (sg_ret s) = Some (cf_ret g) /\ cf_noexcept g = negb (sg_throws s) /\
    exists cs, otraverse (fun a => cxx_type T (snd a)) (sg_args s) = Some cs /\ map snd (cf_params g) = cs ++ when cb [CPtr false CVoid].
  Proof.
    unfold cxx_rust_shim. intros E. do 7 ob E. apply obind_inv in E as (e & Ee & E). injection E as <-.
    rename a into m, a0 into ret, a1 into params, a2 into drops, a3 into slot, a4 into uninit, a5 into args.
    assert (Ga : goods (flat_map exp_types args) /\ flat_map exp_calls args = []).
    { assert (A : forall e, In e args -> egood e /\ exp_calls e = []).
      { intros x I. destruct (otraverse_in _ _ _ _ E6 I) as (y & _ & Ey). eapply hand_arg_good, Ey. }
      clear -A. induction args as [|a args IH]; [split; [apply goods_nil|reflexivity]|]. destruct (A a (or_introl eq_refl)) as (A1 & A2).
      destruct IH as (H1 & H2); [intros e I; apply A; right; exact I|]. cbn [flat_map]. rewrite A2, H2. split; [apply goods_app; assumption|reflexivity]. }
    destruct Ga as (Ga & Ca).
    match type of Ee with (if slot then Some ?c else _) = _ => set (call := c) in * end.
    assert (Gc : egood call /\ exp_calls call = [invoke]).
    { unfold call, egood. cbn [exp_types exp_calls]. rewrite exp_types_args, exp_calls_args, !flat_map_app, Ca.
      assert (Z : forall b (x : cexp), exp_types x = [] -> exp_calls x = [] -> flat_map exp_types (when b [x]) = [] /\ flat_map exp_calls (when b [x]) = [])
        by (intros b x H1 H2; destruct b; cbn [when flat_map app]; rewrite ?H1, ?H2; auto).
      destruct (Z (is_some m) CxThis eq_refl eq_refl) as (-> & ->). destruct (Z slot (CxAddr (CxValue "return$")) eq_refl eq_refl) as (-> & ->).
      destruct (Z cb (CxVar "extern$") eq_refl eq_refl) as (-> & ->). cbn [app]. rewrite !app_nil_r. auto. }
    destruct Gc as (Gc & Cc).
    assert (Ge : egood e /\ exp_calls e = [invoke]).
    { destruct slot; [injection Ee as <-; auto|]. destruct (take_result_good _ _ _ Ee Gc) as (G & C). rewrite C. auto. }
    destruct Ge as (Ge & Ce). destruct (manual_good _ _ E3) as (D1 & D2 & D3).
    assert (U : goods (flat_map stmt_types uninit) /\ flat_map stmt_exp uninit = [] /\ (forall s, In s uninit -> match s with CsFnPtr _ _ _ _ _ => False | _ => True end)).
    { destruct slot; [|injection E5 as <-; split; [apply goods_nil|split; [reflexivity|intros s' []]]]. destruct (sg_ret s); [|discriminate]. ob E5.
      split; [apply goods_cons; [eapply cxx_decl_return_type_good; eassumption|apply goods_nil]|]. split; [reflexivity|]. intros s' [<-|[]]. exact I. }
    destruct U as (U1 & U2 & U3).
    set (run := if sg_throws s then _ else _). set (result := if slot then _ else []).
    assert (B : goods (flat_map stmt_types run) /\ goods (flat_map exp_types (flat_map stmt_exp run)) /\ flat_map exp_calls (flat_map stmt_exp run) = [invoke] /\
                (forall s, In s run -> match s with CsFnPtr _ _ _ _ _ => False | _ => True end)).
    { unfold run. destruct (sg_throws s); [|destruct slot; [|destruct (sg_ret s)]]; cbn [flat_map stmt_types stmt_exp app exp_types exp_calls]; rewrite ?app_nil_r;
        repeat split; try apply goods_nil; try exact Ge; try exact Ce; try (apply goods_cons; [apply good_none; reflexivity|apply goods_nil]);
        intros s' I; repeat (destruct I as [<-|I]; [exact Logic.I|]); destruct I. }
    assert (R : goods (flat_map stmt_types result) /\ goods (flat_map exp_types (flat_map stmt_exp result)) /\ flat_map exp_calls (flat_map stmt_exp result) = [] /\
                (forall s, In s result -> match s with CsFnPtr _ _ _ _ _ => False | _ => True end)).
    { unfold result. destruct slot; [|repeat split; try apply goods_nil; intros s' []]. destruct (sg_ret s) as [t|]; [destruct t|];
        repeat split; try apply goods_nil; intros s' [<-|[]]; exact I. }
    clearbody run result. destruct B as (B1 & B2 & B3 & B4), R as (R1 & R2 & R3 & R4).
    cbn [cf_ret cf_params cf_body cf_this cf_noexcept]. split; [|split; [|split; [|split; [|split; [|split]]]]].
    - unfold fn_types. cbn [cf_ret cf_params cf_body]. apply goods_cons; [eapply return_type_good; eassumption|].
      rewrite !flat_map_app, !map_app, D2, U2. repeat apply goods_app; try assumption; try apply goods_nil.
      + intros c I. apply in_map_iff in I as (y & <- & I). destruct (otraverse_in _ _ _ _ E2 I) as (z & _ & Ez). apply option_map_inv in Ez as (c & Ez & ->).
        eapply cxx_type_good, Ez.
      + destruct cb; [apply goods_cons; [apply good_none; reflexivity|apply goods_nil]|apply goods_nil].
    - rewrite !flat_map_app, D2, U2. cbn [app flat_map]. rewrite B3, R3. reflexivity.
    - intros st I. rewrite !in_app_iff in I. destruct I as [I|[I|[I|I]]]; [exact (D3 _ I)|exact (U3 _ I)|exact (B4 _ I)|exact (R4 _ I)].
    - exact E0.
    - exact E1.
    - reflexivity.
    - assert (M : forall (args : list (string * ty)) ps, otraverse (fun a => option_map (pair (fst a)) (cxx_type T (snd a))) args = Some ps -> otraverse (fun a => cxx_type T (snd a)) args = Some (map snd ps)).
      { clear. induction args as [|a args IH]; intros ps E; [injection E as <-; reflexivity|]. apply otraverse_inv in E as (b & bs & Ea & El & ->).
        apply option_map_inv in Ea as (c & Ea & ->). change (obind (cxx_type T (snd a)) (fun b => option_map (cons b) (otraverse (fun a => cxx_type T (snd a)) args)) = Some (c :: map snd bs)).
        rewrite Ea, (IH _ El). reflexivity. }
      exists (map snd params). split; [apply M; exact E2|]. rewrite map_app. f_equal. destruct cb; reflexivity.
  Qed.
End Good.
