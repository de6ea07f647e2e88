(** C84: the generated Rust functions type check. *)
From Verif Require Import Base StrLib Syntax_Model Toposort_Spec Toposort_Model Types_Model Types_Spec Types_Props Check_Model Check_Spec Check_Proofs Check_Proofs2 Check_Props
  Mangle_Model Mangle_Proofs2 Abi_Model Abi_Spec Abi_Proofs Abi_Props Names_Model Names_Props Expr_Model Expr_Spec Shim_Props Expr_Proofs Expr_Proofs2 Expr_Proofs3.
From Coq Require Import Lia.

Lemma fn_shapes gen ord apis T f : accepted_bridge gen ord apis T -> all_functions apis f ->
  (forall x t, In (x, t) (fn_args f) -> shape t) /\ (forall t, fn_ret f = Some t -> shape t).
Proof.
  intros H Hf. split.
  - intros x t I. apply (mentioned_shape gen ord apis T t H). eapply me_arg; [exact Hf|exact I|constructor].
  - intros t E. apply (mentioned_shape gen ord apis T t H). eapply me_ret; [exact Hf|exact E|constructor].
Qed.
Lemma no_dunder gen ord apis T f x : accepted_bridge gen ord apis T -> all_functions apis f -> ~ In ("__" ++ x)%string (map fst (fn_args f)).
Proof.
  intros H Hf I. apply in_map_iff in I. destruct I as ((y, t) & Ey & Hy). cbn in Ey. subst y.
  destruct (C23_reserved_identifiers gen ord apis T (Pair [] _ _) H (in_arg _ _ _ _ Hf Hy)) as (K & _).
  destruct (K _ (or_intror eq_refl)) as (_ & K2). apply K2. exists "", x. reflexivity.
Qed.

(** The wrapper generated for a C++ function type checks, for every function of every
    bridge that is accepted, except for arguments and results for which there is no
    conversion.  Then the body has the declared type, every call has the number and the
    types of the arguments of the declaration, and no name is unbound. *)
Theorem C84_wrapper : forall gen ord apis T f n w, accepted_bridge gen ord apis T -> In (ACxxFunction f) apis ->
  well_named (map fst (fn_args f)) -> p_rust (fn_name f) <> "return" -> cxx_wrapper n T f = Some w ->
  (fn_typed w <-> (forall x t, In (x, t) (fn_args f) -> ~ no_conversion t) /\ (forall t, fn_ret f = Some t -> ~ no_conversion t /\ ~ vec_of_str t)).
Proof.
  intros gen ord apis T f n w H Hf (W1 & W2 & W3) Hn E. destruct (fn_shapes gen ord apis T f H (or_introl Hf)) as (S1 & S2).
  apply (cxx_wrapper_typed n T f w E S1 S2 W1 W3 W2); [|eapply no_dunder; [exact H|left; exact Hf]|exact Hn].
  apply (no_dunder gen ord apis T f "return" H). left. exact Hf.
Qed.
Print Assumptions C84_wrapper.

(** The function exported for a Rust function. *)
Theorem C84_exported : forall gen ord apis T f n w, accepted_bridge gen ord apis T -> In (ARustFunction f) apis ->
  well_named (map fst (fn_args f)) -> ~ In (p_rust (fn_name f)) ["self"; "return"; "fn"] -> rust_fn_shim n T f = Some w ->
  (fn_typed w <-> args_convert (fn_sig f) /\ ret_converts (fn_sig f) /\ ~ (fn_unsafe f = true /\ bare n T (fn_sig f))).
Proof.
  intros gen ord apis T f n w H Hf (W1 & W2 & W3) Hn E. destruct (fn_shapes gen ord apis T f H (or_intror Hf)) as (S1 & S2).
  pose proof (fun x => no_dunder gen ord apis T f x H (or_intror Hf)) as D.
  apply (rust_shim_typed n T (fn_sig f) (inl (rust_local_name f, fn_unsafe f)) w E S1 S2 W1).
  - intros x [<-|[<-|[<-|[<-|[<-|[]]]]]]; [exact W3|exact (D "self")|exact (D "return")|exact (D "extern")|exact (D "fn")].
  - unfold rust_local_name. destruct (fn_receiver f) as [r|].
    + split; [apply D|]. intros [E2|[E2|[E2|[E2|[]]]]]; [discriminate E2| | |]; injection E2 as E2; symmetry in E2; apply (f_equal (has_char "_")) in E2;
        rewrite !has_char_app in E2; cbn in E2; rewrite orb_true_r in E2; discriminate E2.
    + split; [apply D|]. intros [E2|[E2|[E2|[E2|[]]]]]; [discriminate E2| | |]; injection E2 as E2; rewrite <- E2 in Hn; apply Hn; cbn; auto.
Qed.
Print Assumptions C84_exported.

(** The function through which C++ calls a function pointer. *)
Theorem C84_callback : forall gen ord apis T un th args ret n w, accepted_bridge gen ord apis T -> mentioned apis (TFn un th args ret) ->
  NoDup (map fst args) -> (forall x, In x ["_"; "__self"; "__return"; "__extern"; "__fn"] -> ~ In x (map fst args)) ->
  trampoline_shim n T un th args ret = Some w ->
  (fn_typed w <-> args_convert (ptr_sig th args ret) /\ ret_converts (ptr_sig th args ret)).
Proof.
  intros gen ord apis T un th args ret n w H M N Nn E.
  pose proof (rust_shim_typed n T (ptr_sig th args ret) (inr (x_type (TFn un th args ret))) w E) as X. cbn [sg_args sg_ret sg_throws sg_receiver ptr_sig] in X.
  rewrite X; [tauto| | |exact N|exact Nn|].
  - intros x t I. apply (mentioned_shape gen ord apis T t H). eapply mentioned_occurs; [exact M|]. eapply oc_arg; [exact I|constructor].
  - intros t ->. apply (mentioned_shape gen ord apis T t H). eapply mentioned_occurs; [exact M|]. constructor. constructor.
  - split; [reflexivity|]. exists un. cbn [x_type]. destruct th, ret; reflexivity.
Qed.
Print Assumptions C84_callback.

(** The function that calls the function of the user checks the signature the user
    wrote in the bridge; it type checks. *)
Theorem C84_super : forall gen ord apis T f, accepted_bridge gen ord apis T -> In (ARustFunction f) apis ->
  well_named (map fst (fn_args f)) -> (forall x, In x (map fst (fn_args f)) -> ~ has_infix "::" x) -> fn_typed (rust_super f).
Proof.
  intros gen ord apis T f H Hf (W1 & W2 & W3) Hc. pose proof (no_dunder gen ord apis T f "self" H (or_intror Hf)) as D. unfold fn_typed, rust_super.
  cbn [rf_params rf_ret rf_callees rf_stmts rf_value].
  set (params := x_receivers "__self" (fn_sig f) ++ x_args (fn_sig f)).
  assert (N : NoDup (map fst params)).
  { unfold params. rewrite map_app, x_args_names. cbn [sg_args fn_sig]. unfold x_receivers. destruct (sg_receiver (fn_sig f)); [|exact W1]. cbn. constructor; assumption. }
  split; [exact N|]. exists params. split; [constructor|].
  set (invoke := match fn_receiver f with None => _ | Some r => _ end). set (s := FSig _ _ _).
  assert (I : has_infix "::" invoke).
  { unfold invoke. destruct (fn_receiver f) as [r|]; [exists (n_rust (rc_ty r)), (p_rust (fn_name f)); reflexivity|exists "super", (p_rust (fn_name f)); reflexivity]. }
  assert (Ns : invoke <> "__self" /\ invoke <> "_").
  { split; intros E; rewrite E in I; apply contains_str_spec in I; discriminate I. }
  apply (ty_call _ _ invoke s); [|apply lookup_cons_eq, Ns|].
  - apply lookup_none. unfold params. rewrite map_app, x_args_names. intros J. apply in_app_or in J. destruct J as [J|J]; [|exact (Hc _ J I)].
    unfold x_receivers in J. destruct (sg_receiver (fn_sig f)); [|exact J]. destruct J as [J|[]]. exact (proj1 Ns (eq_sym J)).
  - cbn [fs_params s].
    assert (K : forall vars l, incl l params -> map fst l = vars -> (forall x, In x vars -> x <> "_") ->
      Forall2 (typed [(invoke, s)] params) (map EVar vars) (map snd l)).
    { intros vars l. revert vars. induction l as [|[x t] l IH]; intros vars Il <- Hv; cbn [map fst snd]; [constructor|]. constructor.
      - constructor. apply lookup_in; [apply Hv; left; reflexivity|exact N|apply Il; left; reflexivity].
      - apply IH; [intros y Hy; apply Il; right; exact Hy|reflexivity|intros y Hy; apply Hv; right; exact Hy]. }
    assert (E : when (is_some (fn_receiver f)) [EVar "__self"] ++ map (fun a => EVar (fst a)) (fn_args f) = map EVar (map fst params)).
    { unfold params. rewrite !map_app, x_args_names. cbn [sg_args fn_sig]. rewrite (map_map fst EVar (fn_args f)). unfold x_receivers. cbn [sg_receiver fn_sig]. destruct (fn_receiver f); reflexivity. }
    rewrite E. apply K; [intros y Hy; exact Hy|reflexivity|]. intros x J E'. subst x. unfold params in J. rewrite map_app, x_args_names in J. apply in_app_or in J.
    destruct J as [J|J]; [|exact (W3 J)]. unfold x_receivers in J. destruct (sg_receiver (fn_sig f)); [|exact J]. destruct J as [J|[]]. discriminate J.
Qed.
Print Assumptions C84_super.

(** The functions are generated: the search through the fields of structs ends. *)
Lemma decided_all gen ord apis T l : accepted_bridge gen ord apis T -> ~ has_cycle contains (structs_of apis) ->
  exists N, forall n t, N <= n -> In t l -> exists b, needs_indirect_abi n T t = Some b.
Proof.
  intros H C. induction l as [|t l (N & IH)]; [exists 0%nat; intros ? ? _ []|].
  destruct (indirect_decided gen ord apis T H C t) as (b & F & K & _). exists (Nat.max N F). intros n u L [<-|I].
  - exists b. apply K. lia.
  - apply IH; [lia|exact I].
Qed.
Lemma otraverse_total {A B} (f : A -> option B) l : (forall a, In a l -> exists b, f a = Some b) -> exists r, otraverse f l = Some r.
Proof.
  induction l as [|a l IH]; intros H; [exists []; reflexivity|]. destruct (H a (or_introl eq_refl)) as (b & Eb). destruct IH as (r & Er); [intros x I; apply H; right; exact I|].
  exists (b :: r). apply otraverse_cons; assumption.
Qed.
Lemma setup_total n T args : (forall x t, In (x, t) args -> exists b, needs_indirect_abi n T t = Some b) -> exists l, setup n T args = Some l.
Proof.
  induction args as [|[x t] args IH]; intros H; [exists []; reflexivity|]. cbn [setup]. destruct (H x t (or_introl eq_refl)) as (b & ->).
  destruct IH as (l & ->); [intros y u I; apply (H y); right; exact I|]. eexists. reflexivity.
Qed.
Theorem C84_generated : forall gen ord apis T f, accepted_bridge gen ord apis T -> ~ has_cycle contains (structs_of apis) ->
  exists N, forall n, N <= n -> (exists w, cxx_wrapper n T f = Some w) /\ (exists w, rust_fn_shim n T f = Some w).
Proof.
  intros gen ord apis T f H C.
  destruct (decided_all gen ord apis T (map snd (fn_args f) ++ match fn_ret f with Some r => [r] | None => [] end) H C) as (N & K).
  exists N. intros n L.
  assert (Ka : forall x t, In (x, t) (fn_args f) -> exists b, needs_indirect_abi n T t = Some b).
  { intros x t I. apply K; [exact L|]. apply in_or_app. left. apply (in_map snd) in I. exact I. }
  assert (Kr : forall r, fn_ret f = Some r -> exists b, needs_indirect_abi n T r = Some b).
  { intros r E. apply K; [exact L|]. apply in_or_app. right. rewrite E. left. reflexivity. }
  assert (Er : forall p, exists r, x_extern_return n T p (fn_sig f) = Some r).
  { intros p. unfold x_extern_return. cbn [sg_throws sg_ret fn_sig]. destruct (fn_throws f); [eauto|]. destruct (fn_ret f) as [r|]; [|eauto]. destruct (Kr r eq_refl) as (b & ->). cbn. eauto. }
  assert (Ei : exists b, indirect_return n T (fn_sig f) = Some b /\ (b = true -> exists r, fn_ret f = Some r)).
  { unfold indirect_return. cbn [sg_throws sg_ret fn_sig]. destruct (fn_ret f) as [r|]; [|exists false; split; [reflexivity|discriminate]].
    destruct (fn_throws f); cbn [orb]; [exists true; eauto|]. destruct (Kr r eq_refl) as (b & ->). exists b. eauto. }
  destruct Ei as (b & Ei & Hb).
  assert (Eo : forall p, exists o, x_outparam n T p (fn_sig f) = Some o).
  { intros p. unfold x_outparam. rewrite Ei. cbn [obind]. destruct b; [|eauto]. destruct (Hb eq_refl) as (r & E). cbn [sg_ret fn_sig]. rewrite E. eauto. }
  split.
  - unfold cxx_wrapper, cxx_decl. destruct (Er true) as (r & ->). cbn [obind].
    destruct (otraverse_total (fun a => decl_arg n T (snd a)) (fn_args f)) as (ds & Ed).
    { intros (x, t) I. destruct (Ka x t I) as (c & Ec). cbn [snd]. unfold decl_arg. rewrite Ec. cbn. destruct (is_rust_string t); [eauto|]. destruct t; eauto. }
    cbn [sg_args fn_sig]. rewrite Ed. cbn [obind]. destruct (Eo true) as (o & ->). cbn [obind].
    destruct (otraverse_total (fun a => wrapper_arg n T (fst a) (snd a)) (fn_args f)) as (es & ->).
    { intros (x, t) I. destruct (Ka x t I) as (c & Ec). cbn [fst snd]. unfold wrapper_arg. rewrite Ec. cbn. destruct (is_rust_string t); [eauto|]. destruct t; eauto. }
    cbn [obind]. destruct (setup_total n T (fn_args f) Ka) as (st & ->). cbn [obind]. rewrite Ei. cbn [obind].
    match goal with |- exists w, (let '(_, _) := ?p in _) = _ => destruct p end. eauto.
  - unfold rust_fn_shim, rust_shim. destruct (Er false) as (r & ->). cbn [obind sg_args fn_sig].
    destruct (otraverse_total (fun a => option_map (pair (fst a)) (shim_arg n T (snd a))) (fn_args f)) as (ds & ->).
    { intros (x, t) I. destruct (Ka x t I) as (c & Ec). cbn [fst snd]. unfold shim_arg. rewrite Ec. cbn. eauto. }
    cbn [obind]. destruct (otraverse_total (fun a => shim_var n T (fst a) (snd a)) (fn_args f)) as (es & ->).
    { intros (x, t) I. destruct (Ka x t I) as (c & Ec). cbn [fst snd]. unfold shim_var. rewrite Ec. cbn. destruct (is_rust_string t); [eauto|]. destruct t; eauto. }
    cbn [obind]. destruct (Eo false) as (o & ->). cbn [obind]. eauto.
Qed.
Print Assumptions C84_generated.

Local Definition nm (a : string) : pair_name := Pair [] a a.
Local Definition I_ (a : string) : ty := TIdent (Named a []).
Local Definition fn_ (l : lang) (x : string) (un : bool) (recv : option string) (args : list (string * ty)) (ret : option ty) (th : bool) : extern_fn :=
  ExternFn CUnconditional l (nm x) false un [] (option_map (fun t => Receiver false None false (Named t []) false) recv) args ret th true.
Local Definition C_ (a : string) : api := ACxxType (ExternType CUnconditional LCxx [] (nm a) [] [] true).
Local Definition R_ (a : string) : api := ARustType (ExternType CUnconditional LRust [] (nm a) [] [] true).
Local Definition S_ (a : string) (fs : list ty) : api := AStruct (Struct_ CUnconditional [] (nm a) [] (map (fun t => Var CUnconditional (nm "f") t) fs)).

(** What is accepted and generated, but does not type check. *)
(** extern "C++" fn f(s: Pin<&mut String>): the argument is passed as
    RustString::from_mut(s), which takes a &mut String. *)
Theorem C84_pinned_refuted : exists gen ord apis T f w, accepted_bridge gen ord apis T /\ In (ACxxFunction f) apis /\
  fn_args f = [("s", TRef true true None (I_ "String"))] /\ cxx_wrapper 1 T f = Some w /\ ~ fn_typed w.
Proof.
  set (f := fn_ LCxx "f" false None [("s", TRef true true None (I_ "String"))] None false).
  destruct (accepts_ok GMacro [ACxxFunction f] eq_refl) as (T & HT).
  exists GMacro, id_order, [ACxxFunction f], T, f. eexists. split; [exact HT|]. split; [left; reflexivity|]. split; [reflexivity|]. split; [reflexivity|].
  rewrite (C84_wrapper _ _ _ _ f 1%nat _ HT (or_introl eq_refl)); [|repeat constructor; cbn; intuition discriminate|discriminate|reflexivity].
  intros (H & _). apply (H "s" _ (or_introl eq_refl)). left. exists true, None, (Named "String" []). auto.
Qed.
Print Assumptions C84_pinned_refuted.

(** extern "C++" fn f() -> Vec<&str>: the result is a Vec<RustStr>. *)
Theorem C84_vec_str_refuted : exists gen ord apis T f w, accepted_bridge gen ord apis T /\ In (ACxxFunction f) apis /\
  fn_ret f = Some (TVec (TStr (Some "a"))) /\ cxx_wrapper 1 T f = Some w /\ ~ fn_typed w.
Proof.
  set (f := fn_ LCxx "f" false None [("s", TStr (Some "a"))] (Some (TVec (TStr (Some "a")))) false).
  destruct (accepts_ok GMacro [ACxxFunction f] eq_refl) as (T & HT).
  exists GMacro, id_order, [ACxxFunction f], T, f. eexists. split; [exact HT|]. split; [left; reflexivity|]. split; [reflexivity|]. split; [reflexivity|].
  rewrite (C84_wrapper _ _ _ _ f 1%nat _ HT (or_introl eq_refl)); [|repeat constructor; cbn; intuition discriminate|discriminate|reflexivity].
  intros (_ & H). apply (H _ eq_refl). exists (Some "a"). reflexivity.
Qed.
Print Assumptions C84_vec_str_refuted.

(** extern "Rust" unsafe fn f(): the unsafe function is passed to a function that takes
    a closure, which an unsafe function is not. *)
Theorem C84_unsafe_refuted : exists gen ord apis T f w, accepted_bridge gen ord apis T /\ In (ARustFunction f) apis /\
  fn_unsafe f = true /\ fn_args f = [] /\ fn_ret f = None /\ rust_fn_shim 1 T f = Some w /\ ~ fn_typed w.
Proof.
  set (f := fn_ LRust "f" true None [] None false).
  destruct (accepts_ok GMacro [ARustFunction f] eq_refl) as (T & HT).
  exists GMacro, id_order, [ARustFunction f], T, f. eexists. split; [exact HT|]. split; [left; reflexivity|]. do 3 (split; [reflexivity|]). split; [reflexivity|].
  rewrite (C84_exported _ _ _ _ f 1%nat _ HT (or_introl eq_refl)); [|repeat constructor; cbn; intuition discriminate|cbn; intuition discriminate|reflexivity].
  intros (_ & _ & H). apply H. repeat split; cbn; discriminate.
Qed.
Print Assumptions C84_unsafe_refuted.

(** extern "C++" fn f(cb: fn(_: i32)): the parameter _ is used as a variable. *)
Theorem C84_callback_refuted : exists gen ord apis T args w, accepted_bridge gen ord apis T /\ mentioned apis (TFn false false args None) /\
  args = [("_", I_ "i32")] /\ trampoline_shim 1 T false false args None = Some w /\ ~ fn_typed w.
Proof.
  set (cb := TFn false false [("_", I_ "i32")] None). set (f := fn_ LCxx "f" false None [("cb", cb)] None false).
  destruct (accepts_ok GMacro [ACxxFunction f] eq_refl) as (T & HT).
  exists GMacro, id_order, [ACxxFunction f], T, [("_", I_ "i32")]. pose proof HT as ((_ & Hc) & _). vm_compute in Hc. injection Hc as Hc. eexists. split; [exact HT|].
  split; [eapply (me_arg _ _ f); [left; left; reflexivity|left; reflexivity|constructor]|]. split; [reflexivity|].
  split; [rewrite <- Hc; reflexivity|].
  intros (_ & G & K1 & K2). cbn in K1, K2. inversion K1 as [| |? ? ? K3| |]; subst. inversion K3; subst.
  inversion K2 as [| | | | | | | | |? ? K4 K5|]; subst. inversion K4 as [| | | | |? ? ? ? ? K6 K7| | | | |]; subst.
  inversion K6 as [|? ? ? ? K8 K9| | | | | | | | |]; subst. inversion K9; subst. inversion K7 as [|? ? ? ? J1 J2]; subst. inversion J1; subst. discriminate.
Qed.
Print Assumptions C84_callback_refuted.

(** A bridge with all conversions, for which all hypotheses hold and the functions type
    check. *)
Example C84_nonvacuous :
  let cb := TFn false false [("x", TStr None); ("q", I_ "Q")] (Some (TBox (I_ "R"))) in
  let f := fn_ LCxx "f" false (Some "C") [("a", I_ "P"); ("b", I_ "Q"); ("c", TUniquePtr (I_ "C")); ("s", I_ "String"); ("v", TVec (I_ "u8")); ("w", TRef false true None (TVec (I_ "String")));
              ("p", TRef true true None (I_ "C")); ("k", TBox (I_ "R")); ("l", TSlice true None (I_ "u8")); ("t", TRef false false None (I_ "String")); ("e", TSharedPtr (I_ "C")); ("cb", cb)]
              (Some (TVec (I_ "String"))) true in
  let g := fn_ LRust "g" false (Some "R") [("k", TBox (I_ "R")); ("q", I_ "Q"); ("s", I_ "String"); ("v", TVec (I_ "String")); ("t", TRef false false None (I_ "String")); ("y", TStr None)] (Some (I_ "Q")) true in
  let h := fn_ LRust "h" false None [] (Some (I_ "u8")) false in
  let apis := [C_ "C"; R_ "R"; S_ "P" [I_ "i32"]; S_ "Q" [I_ "String"]; ACxxFunction f; ARustFunction g; ARustFunction h] in
  exists T wf wg wh wcb, accepted_bridge GMacro id_order apis T /\ ~ has_cycle contains (structs_of apis) /\
  cxx_wrapper 3 T f = Some wf /\ rust_fn_shim 3 T g = Some wg /\ rust_fn_shim 3 T h = Some wh /\
  trampoline_shim 3 T false false [("x", TStr None); ("q", I_ "Q")] (Some (TBox (I_ "R"))) = Some wcb /\
  fn_typed wf /\ fn_typed wg /\ fn_typed wh /\ fn_typed wcb /\ fn_typed (rust_super g) /\ List.length (rf_stmts wf) = 8%nat.
Proof.
  cbv zeta. match goal with |- exists T wf wg wh wcb, accepted_bridge _ _ ?l T /\ _ /\ cxx_wrapper _ _ ?x = _ /\ rust_fn_shim _ _ ?y = _ /\ rust_fn_shim _ _ ?z = _ /\ _ =>
    set (apis := l); set (f := x) in *; set (g := y) in *; set (h := z) in *; destruct (accepts_ok GMacro l eq_refl) as (T & HT) end.
  pose proof HT as ((_ & Hc) & _). vm_compute in Hc. injection Hc as Hc.
  destruct (cxx_wrapper 3 T f) as [wf|] eqn:Ef; [|rewrite <- Hc in Ef; vm_compute in Ef; discriminate Ef].
  destruct (rust_fn_shim 3 T g) as [wg|] eqn:Eg; [|rewrite <- Hc in Eg; vm_compute in Eg; discriminate Eg].
  destruct (rust_fn_shim 3 T h) as [wh|] eqn:Eh; [|rewrite <- Hc in Eh; vm_compute in Eh; discriminate Eh].
  destruct (trampoline_shim 3 T false false [("x", TStr None); ("q", I_ "Q")] (Some (TBox (I_ "R")))) as [wcb|] eqn:Ec; [|rewrite <- Hc in Ec; vm_compute in Ec; discriminate Ec].
  assert (If : In (ACxxFunction f) apis) by (do 4 right; left; reflexivity). assert (Ig : In (ARustFunction g) apis) by (do 5 right; left; reflexivity). assert (Ih : In (ARustFunction h) apis) by (do 6 right; left; reflexivity).
  assert (Wf : forall x, In x [f; g; h] -> well_named (map fst (fn_args x)) /\ p_rust (fn_name x) <> "return" /\ ~ In (p_rust (fn_name x)) ["self"; "return"; "fn"]).
  { intros x I. cbn in I. unfold well_named. repeat (destruct I as [<-|I]; [cbn; repeat split; try (repeat constructor; cbn; intuition discriminate); intuition discriminate|]). destruct I. }
  assert (Ok : forall t, In t ([I_ "u8"; I_ "P"; TUniquePtr (I_ "C"); I_ "String"; I_ "Q"; TVec (I_ "u8"); TBox (I_ "R"); TVec (I_ "String"); TSharedPtr (I_ "C"); TStr None; TSlice true None (I_ "u8")] ++
      [TRef false false None (I_ "String"); TRef false true None (TVec (I_ "String")); TRef true true None (I_ "C")] ++
      map snd (fn_args f)) -> ~ no_conversion t /\ ~ vec_of_str t).
  { intros t I. cbn in I. unfold no_conversion, vec_of_str.
    repeat (destruct I as [<-|I]; [split; [intros [(? & ? & ? & E & E2)|[(? & ? & ? & E)|(? & ? & ? & ? & E)]]; try discriminate E; injection E as <- <- <-; discriminate E2|intros (? & E); discriminate E]|]). destruct I. }
  exists T, wf, wg, wh, wcb. split; [exact HT|]. split; [apply (accepted_acyclic _ _ _ _ HT), array_freeb_ok; reflexivity|]. split; [exact Ef|]. split; [exact Eg|]. split; [exact Eh|]. split; [exact Ec|].
  split; [|split; [|split; [|split; [|split]]]].
  - apply (C84_wrapper _ _ _ _ f 3%nat wf HT If); [apply Wf; cbn; auto|apply Wf; cbn; auto|exact Ef|]. split.
    + intros x t I. apply Ok. apply in_or_app. right. apply in_or_app. right. apply (in_map snd) in I. exact I.
    + intros t Et. apply Ok. injection Et as <-. cbn. tauto.
  - apply (C84_exported _ _ _ _ g 3%nat wg HT Ig); [apply Wf; cbn; auto|apply Wf; cbn; auto|exact Eg|]. split; [|split].
    + intros x t I. apply Ok. apply (in_map snd) in I. cbn in I |- *. tauto.
    + intros t Et. apply Ok. injection Et as <-. cbn. tauto.
    + intros (E & _). discriminate E.
  - apply (C84_exported _ _ _ _ h 3%nat wh HT Ih); [apply Wf; cbn; auto|apply Wf; cbn; auto|exact Eh|]. split; [intros x t []|split].
    + intros t Et. apply Ok. injection Et as <-. cbn. tauto.
    + intros (E & _). discriminate E.
  - refine (proj2 (C84_callback _ _ _ _ _ _ _ _ 3%nat wcb HT _ _ _ Ec) _).
    + eapply (me_arg _ _ f "cb"); [left; exact If|cbn; do 11 right; left; reflexivity|constructor].
    + repeat constructor; cbn; intuition discriminate.
    + cbn. intuition (subst; discriminate).
    + split; [intros x t I; apply Ok; apply (in_map snd) in I; cbn in I |- *; tauto|]. intros t Et. apply Ok. injection Et as <-. cbn. tauto.
  - apply (C84_super _ _ _ _ g HT Ig); [apply Wf; cbn; auto|]. intros x I J. apply contains_str_spec in J. cbn in I.
    repeat (destruct I as [<-|I]; [discriminate J|]). destruct I.
  - rewrite <- Hc in Ef. vm_compute in Ef. injection Ef as <-. reflexivity.
Qed.
