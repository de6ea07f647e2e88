(** C85: the generated C++ functions are well typed. *)
From Verif Require Import Base StrLib Syntax_Model Toposort_Spec Toposort_Model Types_Model Types_Spec Types_Props Check_Model Check_Spec Check_Proofs Check_Proofs2 Check_Props
  Mangle_Model Mangle_Spec Mangle_Proofs2 Abi_Model Abi_Spec Abi_Proofs Abi_Props Expr_Proofs2 Expr_Proofs3 Shim_Props Expr_Props CxxExpr_Model CxxExpr_Spec CxxExpr_Proofs CxxExpr_Proofs2 CxxExpr_Proofs3.
From Coq Require Import Lia.

(** The function generated for a C++ function is well typed, given the function of the
    user with the documented signature, but for one name. *)
Theorem C85_call : forall gen ord apis T f n w, accepted_bridge gen ord apis T -> In (ACxxFunction f) apis ->
  NoDup (map fst (fn_args f)) -> (forall x, In x (map fst (fn_args f)) -> plain_name x) -> p_rust (fn_name f) <> "return" ->
  cxx_shim n T f = Some w ->
  exists m r ps x, documented apis (fn_receiver f) (fn_args f) (fn_ret f) m r ps /\ user_name apis f x /\
    cxx_function_shim n T f = Some (cf_ret w, map snd (cf_params w)) /\ cf_this w = None /\ cf_noexcept w = true /\
    (cxx_fn_typed (passed_directly apis) [] [(x, (m, r, ps))] w <-> ~ (fn_throws f = true /\ p_rust (fn_name f) = "throw")).
Proof. intros gen ord apis T f n w H. apply (cxx_shim_typed gen ord apis T n H). Qed.
Print Assumptions C85_call.

Lemma moved_spec gen ord apis T n t b : accepted_bridge gen ord apis T -> needs_indirect_abi n T t = Some b ->
  (moved n T t <-> ~ goes_direct apis t /\ is_rust_string t = false).
Proof.
  intros H E. pose proof (indirect_exact gen ord apis T n t b H E) as X. unfold moved. rewrite E. destruct b; split.
  - intros (A & _). split; [|exact A]. rewrite <- X. discriminate.
  - intros (_ & A). auto.
  - intros (_ & A). discriminate A.
  - intros (A & _). exfalso. apply A, X. reflexivity.
Qed.
Lemma manual_decided n T args : forall l, manual n T args = Some l -> forall x t, In (x, t) args -> is_rust_string t = false -> exists b, needs_indirect_abi n T t = Some b.
Proof.
  induction args as [|[y u] args IH]; intros l E x t I Es; [destruct I|]. cbn [manual] in E. apply obind_inv in E. destruct E as (b & Eb & E). apply obind_inv in E. destruct E as (l' & _ & E).
  destruct (manual n T args); [|discriminate]. destruct I as [I|I]; [injection I as -> ->; rewrite Es in Eb; eauto|]. apply (IH _ eq_refl x t I Es).
Qed.
Lemma clash_spec gen ord apis T n s invoke cb w : accepted_bridge gen ord apis T -> cxx_rust_shim n T s invoke cb = Some w ->
  ((exists t, In ("error"%string, t) (sg_args s) /\ moved n T t) <-> (exists t, In ("error"%string, t) (sg_args s) /\ ~ goes_direct apis t /\ is_rust_string t = false)).
Proof.
  intros H E. unfold cxx_rust_shim in E. apply obind_inv in E. destruct E as (m & _ & E). apply obind_inv in E. destruct E as (r & _ & E).
  apply obind_inv in E. destruct E as (ps & _ & E). apply obind_inv in E. destruct E as (drops & Ed & _).
  assert (K : forall t, In ("error"%string, t) (sg_args s) -> (moved n T t <-> ~ goes_direct apis t /\ is_rust_string t = false)).
  { intros t I. destruct (is_rust_string t) eqn:Es; [unfold moved; rewrite Es; split; intros (A & B); discriminate|].
    destruct (manual_decided n T _ _ Ed _ _ I Es) as (b & Eb). pose proof (moved_spec gen ord apis T n t b H Eb) as X. rewrite Es in X. exact X. }
  split; intros (t & I & M); exists t; (split; [exact I|]); apply (K t I), M.
Qed.

(** The C++ function generated for a Rust function has the documented signature, and is
    well typed, but for one name. *)
Theorem C85_exported : forall gen ord apis T f n invoke decl w, accepted_bridge gen ord apis T -> In (ARustFunction f) apis -> fn_lang f = LRust ->
  NoDup (map fst (fn_args f)) -> (forall x, In x (map fst (fn_args f)) -> plain_name x) -> plain_name (p_rust (fn_name f)) ->
  mangle_extern_fn T f = Some invoke -> cxx_rust_shim n T (fn_sig f) invoke false = Some w -> cxx_function_decl n T (fn_sig f) false = Some decl ->
  exists cs, documented apis (fn_receiver f) (fn_args f) (fn_ret f) (cf_this w) (cf_ret w) cs /\
    cf_params w = combine (map fst (fn_args f)) cs /\ cf_noexcept w = negb (fn_throws f) /\
    (cxx_fn_typed (passed_directly apis) [(invoke, decl)] [] w <->
     ~ (fn_throws f = true /\ exists t, In ("error"%string, t) (fn_args f) /\ ~ goes_direct apis t /\ is_rust_string t = false)).
Proof.
  intros gen ord apis T f n invoke decl w H Hf L N P Pn Ei E D.
  assert (Hi : exists a, invoke = (a ++ "$" ++ p_rust (fn_name f))%string).
  { unfold mangle_extern_fn in Ei. destruct (fn_receiver f) as [r|].
    - destruct (resolve_name T (n_rust (rc_ty r))) as [p|]; [|discriminate]. apply (join_last (p_ns (fn_name f) ++ [CXXBRIDGE; p_cxx p])); [destruct (p_ns (fn_name f)); discriminate|].
      rewrite <- app_assoc. exact Ei.
    - apply (join_last (p_ns (fn_name f) ++ [CXXBRIDGE])); [destruct (p_ns (fn_name f)); discriminate|]. rewrite <- app_assoc. exact Ei. }
  destruct Hi as (a & ->).
  destruct (cxx_rust_shim_typed gen ord apis T n H (fn_sig f) (a ++ "$" ++ p_rust (fn_name f)) false decl w) as (cs & A & B & C & K); try assumption.
  - intros x t u I. destruct (fn_arg_ok gen ord apis T H f x t (or_intror Hf) I) as (_ & _ & X & _). apply X.
  - rewrite !has_char_app. cbn. apply orb_true_r.
  - intros y. apply no_final_dollar; [|apply plain_has, Pn]. intros E0. destruct Pn as (_ & Pn). apply Pn. rewrite E0. cbn. auto.
  - discriminate.
  - exists cs. split; [exact A|]. split; [rewrite B; cbn; apply app_nil_r|]. split; [exact C|]. rewrite K, (clash_spec gen ord apis T n _ _ _ _ H E). reflexivity.
Qed.
Print Assumptions C85_exported.

(** The function that a C++ function is given for a function pointer is well typed. *)
Theorem C85_callback : forall gen ord apis T f x un th args ret n invoke decl w, accepted_bridge gen ord apis T -> In (ACxxFunction f) apis -> In (x, TFn un th args ret) (fn_args f) ->
  NoDup (map fst args) -> (forall y, In y (map fst args) -> plain_name y) -> (forall y t u, In (y, t) args -> t <> TCxxVector u) ->
  mangle_r_trampoline T f x = Some invoke -> cxx_rust_shim n T (ptr_sig th args ret) invoke true = Some w -> cxx_function_decl n T (ptr_sig th args ret) true = Some decl ->
  exists cs, documented apis None args ret None (cf_ret w) cs /\ cf_this w = None /\
    cf_params w = combine (map fst args) cs ++ [("extern$"%string, CPtr false CVoid)] /\ cf_noexcept w = true /\
    cxx_fn_typed (passed_directly apis) [(invoke, decl)] [] w.
Proof.
  intros gen ord apis T f x un th args ret n invoke decl w H Hf Ix N P NV Ei E D.
  assert (Th : th = false).
  { assert (M : mentioned apis (TFn un th args ret)) by (eapply me_arg; [left; exact Hf|exact Ix|constructor]).
    pose proof (mentioned_checked _ _ _ _ H _ M) as C. cbn [check_type] in C. destruct th; [discriminate C|reflexivity]. }
  subst th.
  assert (Hi : exists a, invoke = (a ++ "$" ++ "1")%string).
  { unfold mangle_r_trampoline in Ei. destruct (mangle_extern_fn T f) as [s|]; [|discriminate]. apply (join_last [s; x]); [discriminate|exact Ei]. }
  destruct Hi as (a & ->).
  destruct (cxx_rust_shim_typed gen ord apis T n H (ptr_sig false args ret) (a ++ "$" ++ "1") true decl w) as (cs & A & B & C & K); try assumption.
  - rewrite !has_char_app. cbn. apply orb_true_r.
  - intros y. apply no_final_dollar; [discriminate|reflexivity].
  - reflexivity.
  - exists cs. assert (Et : cf_this w = None) by apply A. split; [rewrite <- Et; exact A|]. split; [exact Et|]. split; [exact B|]. split; [exact C|].
    apply K. intros (X & _). discriminate X.
Qed.
Print Assumptions C85_callback.

(** The functions are generated: every type can be written and the search through the
    fields of structs ends. *)
Lemma arg_types gen ord apis T f : accepted_bridge gen ord apis T -> simple_callbacks apis -> all_functions apis f ->
  (forall x t, In (x, t) (fn_args f) -> exists c, cxx_type T t = Some c) /\ (forall t, fn_ret f = Some t -> exists c, cxx_type T t = Some c).
Proof.
  intros H Cb Hf. split.
  - intros x t I. destruct (fn_arg_ok gen ord apis T H f x t Hf I) as (M & Nv & _ & _). destruct (top_plain t) eqn:P.
    + apply (cxx_type_plain gen ord apis T H t M). apply (mentioned_plain gen ord apis T H t M P).
    + destruct t; try discriminate P; [|congruence]. destruct (callback_type gen ord apis T H _ _ _ _ Cb M) as (cs & cr & _ & _ & E). eauto.
  - intros t E. destruct (fn_ret_ok gen ord apis T H f Hf t E) as (M & P). apply (cxx_type_plain gen ord apis T H t M). apply (mentioned_plain gen ord apis T H t M P).
Qed.
Lemma ptr_types gen ord apis T un th args ret : accepted_bridge gen ord apis T -> simple_callbacks apis -> mentioned apis (TFn un th args ret) ->
  (forall x t, In (x, t) args -> exists c, cxx_type T t = Some c) /\ (forall t, ret = Some t -> exists c, cxx_type T t = Some c).
Proof.
  intros H Cb M. destruct (callback_type gen ord apis T H _ _ _ _ Cb M) as (cs & cr & E1 & E2 & _). split.
  - clear -E1. revert cs E1. induction args as [|[y u] args IH]; intros cs E x t I; [destruct I|]. apply otraverse_inv in E. destruct E as (b & bs & Eb & Ebs & ->).
    destruct I as [I|I]; [injection I as -> ->; eauto|]. apply (IH bs Ebs x t I).
  - intros t ->. destruct (cxx_type T t); [eauto|discriminate].
Qed.
Section Total.
  Variables (n : nat) (T : types) (s : signature).
  Hypothesis Hty : (forall x t, In (x, t) (sg_args s) -> exists c, cxx_type T t = Some c) /\ (forall t, sg_ret s = Some t -> exists c, cxx_type T t = Some c).
  Hypothesis Hind : forall t, (exists x, In (x, t) (sg_args s)) \/ sg_ret s = Some t -> exists b, needs_indirect_abi n T t = Some b.
  Hypothesis Hrecv : forall r, sg_receiver s = Some r -> exists p, resolve_name T (n_rust (rc_ty r)) = Some p.
  Lemma inner_type t u c : (t = TBox u \/ t = TUniquePtr u \/ t = TCxxVector u) \/ (exists p m l, t = TRef p m l u) -> cxx_type T t = Some c -> exists d, cxx_type T u = Some d.
  Proof. intros [[-> | [-> | ->]] | (p & m & l & ->)] E; cbn [cxx_type] in E; destruct (cxx_type T u); try discriminate; eauto. Qed.
  Ltac inner u c Ec d := match type of Ec with cxx_type _ ?X = _ => destruct (inner_type X u c ltac:(eauto 6) Ec) as (d & Ed) end.
  Lemma total_extern_arg x t : In (x, t) (sg_args s) -> exists c, cxx_extern_arg n T t = Some c.
  Proof.
    intros I. destruct (proj1 Hty x t I) as (c & Ec). destruct (Hind t (or_introl (ex_intro _ x I))) as (b & Eb). unfold cxx_extern_arg. rewrite Eb.
    destruct t; try (inner t c Ec d; rewrite Ed; cbn; eauto; fail); rewrite Ec; cbn; eauto.
  Qed.
  Lemma total_shim_arg x t : In (x, t) (sg_args s) -> exists c, cxx_shim_arg n T t = Some c.
  Proof.
    intros I. destruct (proj1 Hty x t I) as (c & Ec). pose proof (total_extern_arg x t I) as K. unfold cxx_shim_arg. rewrite Ec. cbn. destruct (is_rust_string t); [eauto|]. destruct t; eauto.
  Qed.
  Lemma total_return : exists c, cxx_return n T s = Some c.
  Proof.
    unfold cxx_return. destruct (sg_throws s); [eauto|]. unfold cxx_extern_return. destruct (sg_ret s) as [t|] eqn:Er; [|eauto].
    destruct (proj2 Hty t eq_refl) as (c & Ec). destruct (Hind t (or_intror eq_refl)) as (b & Eb).
    destruct t; try (rewrite Eb; cbn [obind]; destruct b; eauto; fail); try (inner t c Ec d; rewrite Ed; cbn; eauto; fail); eauto.
  Qed.
  Lemma total_indirect_return : exists b, indirect_return n T s = Some b /\ (b = true -> exists r, sg_ret s = Some r).
  Proof.
    unfold indirect_return. destruct (sg_ret s) as [r|]; [|exists false; split; [reflexivity|discriminate]]. destruct (sg_throws s); [exists true; eauto|].
    destruct (Hind r (or_intror eq_refl)) as (b & ->). exists b. eauto.
  Qed.
  Lemma total_pointee r : sg_ret s = Some r -> (exists c, cxx_indirect_return_type T r = Some c) /\ (exists c, cxx_decl_return_type T r = Some c).
  Proof.
    intros E. destruct (proj2 Hty r E) as (c & Ec). split; destruct r; try (exists c; exact Ec);
      (match goal with r : ty |- _ => inner r c Ec d end; cbn [cxx_indirect_return_type cxx_decl_return_type]; rewrite Ed; cbn; eauto).
  Qed.
  Lemma total_outparam pointee : (forall r, sg_ret s = Some r -> exists c, pointee r = Some c) -> exists o, cxx_outparam n T pointee s = Some o.
  Proof.
    intros Hp. unfold cxx_outparam. destruct total_indirect_return as (b & -> & Hb). cbn [obind]. destruct b; [|eauto]. destruct (Hb eq_refl) as (r & Er). rewrite Er.
    destruct (Hp r Er) as (c & ->). cbn. eauto.
  Qed.
  Lemma total_receivers : exists l, cxx_receivers T s = Some l.
  Proof. unfold cxx_receivers, cxx_receiver. destruct (sg_receiver s) as [r|]; [|eauto]. destruct (Hrecv r eq_refl) as (p & ->). cbn. eauto. Qed.
  Lemma total_class : exists m, receiver_class T s = Some m.
  Proof. unfold receiver_class. destruct (sg_receiver s) as [r|]; [|eauto]. destruct (Hrecv r eq_refl) as (p & ->). cbn. eauto. Qed.
  Lemma total_ret_type : exists c, return_type T (sg_ret s) = Some c.
  Proof. unfold return_type. destruct (sg_ret s) as [r|]; [|eauto]. apply (proj2 Hty r eq_refl). Qed.
  Lemma total_decl cb : exists d, cxx_function_decl n T s cb = Some d.
  Proof.
    unfold cxx_function_decl, cxx_signature. destruct total_return as (r & ->). cbn [obind]. destruct total_receivers as (l & ->). cbn [obind].
    destruct (otraverse_total (fun a => cxx_extern_arg n T (snd a)) (sg_args s)) as (ds & ->); [intros (x, t) I; apply (total_extern_arg x), I|]. cbn [obind].
    destruct (total_outparam (cxx_decl_return_type T)) as (o & ->); [intros q E; apply (total_pointee q E)|]. cbn. eauto.
  Qed.
  Lemma total_manual args : (forall x t, In (x, t) args -> In (x, t) (sg_args s)) -> exists l, manual n T args = Some l.
  Proof.
    induction args as [|[x t] args IH]; intros K; [exists []; reflexivity|]. cbn [manual]. pose proof (K x t (or_introl eq_refl)) as I.
    destruct (Hind t (or_introl (ex_intro _ x I))) as (b & ->). destruct (proj1 Hty x t I) as (c & ->).
    destruct IH as (l & ->); [intros y u J; apply K; right; exact J|]. destruct (is_rust_string t); [cbn; eauto|]. destruct b; cbn; eauto.
  Qed.
  Lemma total_rust_shim invoke cb : exists w, cxx_rust_shim n T s invoke cb = Some w.
  Proof.
    unfold cxx_rust_shim. destruct total_class as (m & ->). cbn [obind]. destruct total_ret_type as (ret & ->). cbn [obind].
    destruct (otraverse_total (fun a => option_map (pair (fst a)) (cxx_type T (snd a))) (sg_args s)) as (ps & ->).
    { intros (x, t) I. cbn [fst snd]. destruct (proj1 Hty x t I) as (c & ->). cbn. eauto. }
    cbn [obind]. destruct (total_manual (sg_args s) (fun _ _ I => I)) as (l & ->). cbn [obind]. destruct total_indirect_return as (b & Ei & Hb). rewrite Ei. cbn [obind].
    assert (Eu : exists u, (if b then match sg_ret s with Some r => option_map (fun c => [CsUninit c "return$"]) (cxx_decl_return_type T r) | None => None end else Some []) = Some u).
    { destruct b; [|eauto]. destruct (Hb eq_refl) as (r & Er). rewrite Er. destruct (proj2 (total_pointee r Er)) as (c & ->). cbn. eauto. }
    destruct Eu as (u & ->). cbn [obind].
    destruct (otraverse_total (fun a => hand_arg n T (fst a) (snd a)) (sg_args s)) as (es & ->).
    { intros (x, t) I. cbn [fst snd]. unfold hand_arg. destruct (Hind t (or_introl (ex_intro _ x I))) as (c & ->). cbn. eauto. }
    cbn [obind]. set (call := CxCall _ _).
    assert (Ee : exists e, (if b then Some call else take_result T (sg_ret s) call) = Some e).
    { destruct b; [eauto|]. unfold take_result. destruct (sg_ret s) as [r|] eqn:Er; [|eauto]. destruct (proj2 Hty r eq_refl) as (c & Ec).
      destruct r; eauto; try (inner r c Ec d; rewrite Ed; cbn; eauto; fail). rewrite Ec. cbn. eauto. }
    destruct Ee as (e & ->). cbn. eauto.
  Qed.
End Total.

Theorem C85_generated : forall gen ord apis T f, accepted_bridge gen ord apis T -> ~ has_cycle contains (structs_of apis) -> simple_callbacks apis -> all_functions apis f ->
  exists N, forall n, N <= n -> (exists w, cxx_shim n T f = Some w) /\
    (forall invoke, (exists w, cxx_rust_shim n T (fn_sig f) invoke false = Some w) /\ (exists d, cxx_function_decl n T (fn_sig f) false = Some d)) /\
    (forall x un th args ret invoke, In (x, TFn un th args ret) (fn_args f) ->
       (exists w, cxx_rust_shim n T (ptr_sig th args ret) invoke true = Some w) /\ (exists d, cxx_function_decl n T (ptr_sig th args ret) true = Some d)).
Proof.
  intros gen ord apis T f H C Cb Hf.
  set (opt := fun r : option ty => match r with Some r => [r] | None => [] end).
  set (inner := fun t => match t with TFn _ _ args ret => map snd args ++ opt ret | _ => [] end).
  destruct (decided_all gen ord apis T (map snd (fn_args f) ++ opt (fn_ret f) ++ flat_map inner (map snd (fn_args f))) H C) as (N & K).
  assert (Ty := arg_types gen ord apis T f H Cb Hf).
  assert (Rc : forall r, fn_receiver f = Some r -> exists p, resolve_name T (n_rust (rc_ty r)) = Some p).
  { intros r E. destruct (receiver_resolves _ _ _ _ H f r Hf E) as (p & lts & R). exists p. unfold resolve_name. rewrite R. reflexivity. }
  exists N. intros n L.
  assert (Kf : forall t, (exists x, In (x, t) (fn_args f)) \/ fn_ret f = Some t -> exists b, needs_indirect_abi n T t = Some b).
  { intros t [(x & I)|E]; apply K; try exact L; apply in_or_app; [left; apply (in_map snd) in I; exact I|right; apply in_or_app; left; rewrite E; left; reflexivity]. }
  split; [|split].
  - pose proof (total_return n T (fn_sig f) Ty Kf) as X1. pose proof (total_receivers T (fn_sig f) Rc) as X2. pose proof (total_class T (fn_sig f) Rc) as X3.
    pose proof (total_ret_type n T (fn_sig f) Ty Kf) as X4. pose proof (total_indirect_return n T (fn_sig f) Ty Kf) as X5.
    pose proof (total_outparam n T (fn_sig f) Ty Kf (cxx_indirect_return_type T) (fun r E => proj1 (total_pointee T (fn_sig f) Ty r E))) as X6.
    unfold cxx_shim. destruct X1 as (r & ->). cbn [obind]. destruct X2 as (self & ->). cbn [obind].
    destruct (otraverse_total (fun a => option_map (pair (fst a)) (cxx_shim_arg n T (snd a))) (fn_args f)) as (ps & ->).
    { intros (x, t) I. cbn [fst snd]. destruct (total_shim_arg n T (fn_sig f) Ty Kf x t I) as (c & ->). cbn. eauto. }
    cbn [obind]. destruct X6 as (o & ->). cbn [obind]. destruct X3 as (m & ->). cbn [obind]. destruct X4 as (ur & X4). cbn [sg_ret fn_sig] in X4. rewrite X4. cbn [obind].
    destruct (otraverse_total (fun a => cxx_type T (snd a)) (fn_args f)) as (us & ->); [intros (x, t) I; apply (proj1 Ty x t I)|]. cbn [obind].
    destruct (otraverse_total (fun a => pass_arg n T (fst a) (snd a)) (fn_args f)) as (es & ->).
    { intros (x, t) I. cbn [fst snd]. unfold pass_arg. destruct (proj1 Ty x t I) as (c & ->). destruct (Kf t (or_introl (ex_intro _ x I))) as (b & ->). cbn [option_map].
      destruct t; eauto; destruct (is_rust_string _); eauto. }
    cbn [obind]. destruct X5 as (b & -> & Hb). cbn [obind].
    match goal with |- exists w, obind (pass_result T b (fn_ret f) ?c) _ = _ => set (call := c) end.
    assert (Ee : exists e, pass_result T b (fn_ret f) call = Some e).
    { unfold pass_result. destruct (fn_ret f) as [q|] eqn:Eq; [|eauto]. destruct q; eauto. destruct b; [eauto|]. destruct (proj2 Ty _ eq_refl) as (c & ->). cbn. eauto. }
    destruct Ee as (e & ->). cbn [obind]. destruct b; [|cbn; eauto]. destruct (Hb eq_refl) as (q & Eq). cbn [sg_ret fn_sig] in Eq. rewrite Eq.
    destruct (proj1 (total_pointee T (fn_sig f) Ty q Eq)) as (c & ->). cbn. eauto.
  - intros invoke. split; [apply total_rust_shim|apply total_decl]; assumption.
  - intros x un th args ret invoke I.
    assert (M : mentioned apis (TFn un th args ret)) by (eapply me_arg; [exact Hf|exact I|constructor]).
    pose proof (ptr_types gen ord apis T un th args ret H Cb M) as Ty'.
    assert (Kp : forall t, (exists y, In (y, t) args) \/ ret = Some t -> exists b, needs_indirect_abi n T t = Some b).
    { intros t X. apply K; [exact L|]. apply in_or_app. right. apply in_or_app. right. apply in_flat_map. exists (TFn un th args ret). split; [apply (in_map snd) in I; exact I|].
      cbn [inner]. apply in_or_app. destruct X as [(y & J)|E]; [left; apply (in_map snd) in J; exact J|right; rewrite E; left; reflexivity]. }
    assert (Rp : forall r, sg_receiver (ptr_sig th args ret) = Some r -> exists p, resolve_name T (n_rust (rc_ty r)) = Some p) by (intros r E; discriminate E).
    split; [apply (total_rust_shim n T (ptr_sig th args ret))|apply (total_decl n T (ptr_sig th args ret))]; assumption.
Qed.
Print Assumptions C85_generated.

Definition plain_nameb (x : string) : bool := negb (has_char "$" x) && negb (existsb (String.eqb x) ["return"; "extern"; "self"; ""]).
Lemma plain_nameb_ok x : plain_nameb x = true -> plain_name x.
Proof.
  unfold plain_nameb. rewrite andb_true_iff, !negb_true_iff. intros (A & B). split.
  - intros a b ->. rewrite !has_char_app in A. cbn in A. rewrite orb_true_r in A. discriminate A.
  - intros I. assert (C : existsb (String.eqb x) ["return"; "extern"; "self"; ""] = true) by (apply existsb_exists; exists x; split; [exact I|apply String.eqb_refl]). congruence.
Qed.
Lemma plain_all l : forallb plain_nameb l = true -> forall x, In x l -> plain_name x.
Proof. rewrite forallb_forall. intros H x I. apply plain_nameb_ok, H, I. Qed.

Local Definition nm (a : string) : pair_name := Pair [] a a.
Local Definition I_ (a : string) : ty := TIdent (Named a []).
Local Definition fn_ (l : lang) (x : string) (recv : option string) (args : list (string * ty)) (ret : option ty) (th : bool) : extern_fn :=
  ExternFn CUnconditional l (Pair [] (x ++ "_") x) false false [] (option_map (fun t => Receiver false None false (Named t []) false) recv) args ret th true.
Local Definition C_ (a : string) : api := ACxxType (ExternType CUnconditional LCxx [] (nm a) [] [] true).
Local Definition R_ (a : string) : api := ARustType (ExternType CUnconditional LRust [] (nm a) [] [] true).
Local Definition S_ (a : string) (fs : list ty) : api := AStruct (Struct_ CUnconditional [] (nm a) [] (map (fun t => Var CUnconditional (nm "f") t) fs)).

(** What is accepted and generated, but is not C++. *)
(** extern "Rust" fn f(error: Q) -> Result<()>, for a struct Q with a String:
    `error$` is both the ManuallyDrop of the argument and the error. *)
Theorem C85_error_refuted : exists gen ord apis T f invoke w, accepted_bridge gen ord apis T /\ In (ARustFunction f) apis /\
  fn_args f = [("error", I_ "Q")] /\ fn_ret f = None /\ fn_throws f = true /\ mangle_extern_fn T f = Some invoke /\
  cxx_rust_shim 3 T (fn_sig f) invoke false = Some w /\ forall copyable F U, ~ cxx_fn_typed copyable F U w.
Proof.
  set (f := fn_ LRust "f" None [("error", I_ "Q")] None true). set (apis := [S_ "Q" [I_ "String"]; ARustFunction f]).
  destruct (accepts_ok GBuild apis eq_refl) as (T & HT). pose proof HT as ((_ & Hc) & _). vm_compute in Hc. injection Hc as Hc.
  exists GBuild, id_order, apis, T, f. eexists. eexists. split; [exact HT|]. split; [right; left; reflexivity|]. do 3 (split; [reflexivity|]). split; [reflexivity|].
  split; [rewrite <- Hc; reflexivity|]. intros copyable F U (_ & B). cbn in B. inversion B; subst. match goal with H : cstmts _ _ _ _ _ _ (CsLet _ _ _ :: _) |- _ => inversion H; subst end.
  match goal with H : find_name "error$" _ = None |- _ => discriminate H end.
Qed.
Print Assumptions C85_error_refuted.

(** extern "C++" fn throw() -> Result<()>, with another name in C++: `throw$` is both
    the pointer to the function and the error. *)
Theorem C85_throw_refuted : exists gen ord apis T f w, accepted_bridge gen ord apis T /\ In (ACxxFunction f) apis /\
  fn_name f = Pair [] "throw_" "throw" /\ fn_args f = [] /\ fn_ret f = None /\ fn_throws f = true /\
  cxx_shim 3 T f = Some w /\ forall copyable F U, ~ cxx_fn_typed copyable F U w.
Proof.
  set (f := fn_ LCxx "throw" None [] None true). set (apis := [ACxxFunction f]).
  destruct (accepts_ok GBuild apis eq_refl) as (T & HT).
  exists GBuild, id_order, apis, T, f. eexists. split; [exact HT|]. split; [left; reflexivity|]. do 4 (split; [reflexivity|]). split; [reflexivity|].
  intros copyable F U (_ & B). cbn in B. inversion B; subst. match goal with H : cstmts _ _ _ _ _ _ (CsDeclare _ _ :: _) |- _ => inversion H; subst end.
  match goal with H : find_name "throw$" _ = None |- _ => discriminate H end.
Qed.
Print Assumptions C85_throw_refuted.

(** A callback that takes a C++ vector by value: the address of the vector is passed to a
    parameter that is a pointer to a pointer. *)
Theorem C85_vector_refuted : exists gen ord apis T args invoke decl w, accepted_bridge gen ord apis T /\ mentioned apis (TFn false false args None) /\
  args = [("v", TCxxVector (I_ "u8"))] /\ cxx_function_decl 3 T (ptr_sig false args None) true = Some decl /\
  cxx_rust_shim 3 T (ptr_sig false args None) invoke true = Some w /\ forall copyable U, ~ cxx_fn_typed copyable [(invoke, decl)] U w.
Proof.
  set (args := [("v", TCxxVector (I_ "u8"))]). set (f := fn_ LCxx "f" None [("cb", TFn false false args None)] None false). set (apis := [ACxxFunction f]).
  destruct (accepts_ok GBuild apis eq_refl) as (T & HT). pose proof HT as ((_ & Hc) & _). vm_compute in Hc. injection Hc as Hc.
  exists GBuild, id_order, apis, T, args, "cxxbridge1$f$cb$1"%string. eexists. eexists. split; [exact HT|]. split; [eapply (me_arg _ _ f); [left; left; reflexivity|left; reflexivity|constructor]|].
  split; [reflexivity|]. split; [rewrite <- Hc; reflexivity|]. split; [rewrite <- Hc; reflexivity|].
  intros copyable U (_ & B). cbn in B. inversion B; subst. match goal with H : cstmts _ _ _ _ _ _ (CsDo _ :: _) |- _ => inversion H; subst end.
  match goal with H : ctyped _ _ _ _ (CxCall _ _) _ _ |- _ => inversion H; subst; [|match goal with K : find_name _ _ = Some (LFnPtr _ _ _) |- _ => discriminate K end] end.
  match goal with H : find_name _ [(_, _)] = Some _ |- _ => cbn in H; injection H as <- <- end.
  match goal with H : cinits _ _ _ _ (CxAddr _ :: _) _ |- _ => inversion H; subst end.
  match goal with H : cinit _ _ _ _ (CxAddr _) _ |- _ => inversion H; subst end;
    match goal with H : ctyped _ _ _ _ (CxAddr _) _ _ |- _ => inversion H; subst end;
    match goal with H : ctyped _ _ _ _ (CxValue _) _ _ |- _ => inversion H; subst end;
    match goal with H : find_name _ _ = Some _ |- _ => cbn in H; discriminate H end.
Qed.
Print Assumptions C85_vector_refuted.

(** A bridge with all conversions, for which all hypotheses hold and the functions are
    well typed. *)
Example C85_nonvacuous :
  let args := [("x", TStr None); ("q", I_ "Q")] in
  let cb := TFn false false args (Some (TBox (I_ "R"))) in
  let f := fn_ LCxx "f" (Some "C") [("a", I_ "P"); ("b", I_ "Q"); ("c", TUniquePtr (I_ "C")); ("s", I_ "String"); ("v", TVec (I_ "u8"));
              ("p", TRef true true None (I_ "C")); ("k", TBox (I_ "R")); ("l", TSlice true None (I_ "u8")); ("e", TSharedPtr (I_ "C")); ("cb", cb)]
              (Some (TVec (I_ "String"))) true in
  let g := fn_ LRust "g" (Some "R") [("k", TBox (I_ "R")); ("q", I_ "Q"); ("s", I_ "String"); ("v", TVec (I_ "String")); ("t", TRef false false None (I_ "String")); ("y", TStr None)]
              (Some (TRef false false None (I_ "Q"))) true in
  let apis := [C_ "C"; R_ "R"; S_ "P" [I_ "i32"]; S_ "Q" [I_ "String"]; ACxxFunction f; ARustFunction g] in
  exists T wf wg wcb ig icb dg dcb U, accepted_bridge GBuild id_order apis T /\ ~ has_cycle contains (structs_of apis) /\ simple_callbacks apis /\
  cxx_shim 3 T f = Some wf /\ mangle_extern_fn T g = Some ig /\ cxx_rust_shim 3 T (fn_sig g) ig false = Some wg /\ cxx_function_decl 3 T (fn_sig g) false = Some dg /\
  mangle_r_trampoline T f "cb" = Some icb /\ cxx_rust_shim 3 T (ptr_sig false args (Some (TBox (I_ "R")))) icb true = Some wcb /\ cxx_function_decl 3 T (ptr_sig false args (Some (TBox (I_ "R")))) true = Some dcb /\
  cxx_fn_typed (passed_directly apis) [] U wf /\ cxx_fn_typed (passed_directly apis) [(ig, dg)] [] wg /\ cxx_fn_typed (passed_directly apis) [(icb, dcb)] [] wcb /\
  List.length (cf_params wf) = 12%nat /\ List.length (cf_body wg) = 6%nat.
Proof.
  cbv zeta. match goal with |- exists T wf wg wcb ig icb dg dcb U, accepted_bridge _ _ ?l T /\ _ /\ _ /\ cxx_shim _ _ ?x = _ /\ mangle_extern_fn _ ?y = _ /\ _ =>
    set (apis := l); set (f := x) in *; set (g := y) in *; destruct (accepts_ok GBuild l eq_refl) as (T & HT) end.
  set (args := [("x", TStr None); ("q", I_ "Q")]).
  pose proof HT as ((_ & Hc) & _). vm_compute in Hc. injection Hc as Hc.
  destruct (cxx_shim 3 T f) as [wf|] eqn:Ef; [|rewrite <- Hc in Ef; vm_compute in Ef; discriminate Ef].
  destruct (mangle_extern_fn T g) as [ig|] eqn:Eig; [|rewrite <- Hc in Eig; vm_compute in Eig; discriminate Eig].
  destruct (mangle_r_trampoline T f "cb") as [icb|] eqn:Eicb; [|rewrite <- Hc in Eicb; vm_compute in Eicb; discriminate Eicb].
  destruct (cxx_rust_shim 3 T (fn_sig g) ig false) as [wg|] eqn:Eg; [|rewrite <- Hc in Eg; vm_compute in Eg; discriminate Eg].
  destruct (cxx_function_decl 3 T (fn_sig g) false) as [dg|] eqn:Edg; [|rewrite <- Hc in Edg; vm_compute in Edg; discriminate Edg].
  destruct (cxx_rust_shim 3 T (ptr_sig false args (Some (TBox (I_ "R")))) icb true) as [wcb|] eqn:Ecb; [|rewrite <- Hc in Ecb; vm_compute in Ecb; discriminate Ecb].
  destruct (cxx_function_decl 3 T (ptr_sig false args (Some (TBox (I_ "R")))) true) as [dcb|] eqn:Edcb; [|rewrite <- Hc in Edcb; vm_compute in Edcb; discriminate Edcb].
  assert (If : In (ACxxFunction f) apis) by (do 4 right; left; reflexivity). assert (Ig : In (ARustFunction g) apis) by (do 5 right; left; reflexivity).
  destruct (C85_call GBuild id_order apis T f 3%nat wf HT If) as (m & r & ps & x & _ & _ & _ & _ & _ & K1); [repeat constructor; cbn; intuition discriminate|apply plain_all; reflexivity|discriminate|exact Ef|].
  destruct (C85_exported GBuild id_order apis T g 3%nat ig dg wg HT Ig) as (cs & _ & _ & _ & K2); [reflexivity|repeat constructor; cbn; intuition discriminate|apply plain_all; reflexivity|apply plain_nameb_ok; reflexivity|exact Eig|exact Eg|exact Edg|].
  destruct (C85_callback GBuild id_order apis T f "cb" false false args (Some (TBox (I_ "R"))) 3%nat icb dcb wcb HT If) as (cs' & _ & _ & _ & _ & K3);
    [do 9 right; left; reflexivity|repeat constructor; cbn; intuition discriminate|apply plain_all; reflexivity|intros y t u [E|[E|[]]]; injection E as <- <-; discriminate|exact Eicb|exact Ecb|exact Edcb|].
  exists T, wf, wg, wcb, ig, icb, dg, dcb, [(x, (m, r, ps))].
  split; [exact HT|]. split; [eapply accepted_acyclic; [exact HT|apply array_freeb_ok; reflexivity]|]. split; [apply simple_callbacksb_ok; reflexivity|]. do 7 (split; [reflexivity || assumption|]).
  split; [apply K1; intros (_ & E); discriminate E|].
  split; [apply K2; intros (_ & t & I & _); repeat (destruct I as [I|I]; [discriminate I|]); destruct I|].
  split; [exact K3|].
  rewrite <- Hc in Ef, Eg. vm_compute in Ef, Eg. split; [injection Ef as <-; reflexivity|injection Eg as <-; reflexivity].
Qed.
