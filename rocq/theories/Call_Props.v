(** C86: a call through the bridge calls the function of the user with the same
    arguments and gives the caller its result. *)
From Verif Require Import Base StrLib Syntax_Model Toposort_Spec Toposort_Model Types_Model Types_Spec Types_Props Check_Model Check_Spec Check_Proofs Check_Proofs2 Check_Props
  Mangle_Model Mangle_Spec Mangle_Proofs2 Abi_Model Abi_Spec Abi_Proofs Abi_Props Expr_Model Expr_Spec Expr_Proofs2 Expr_Proofs3 Shim_Props Expr_Props
  CxxExpr_Model CxxExpr_Spec CxxExpr_Proofs CxxExpr_Proofs2 CxxExpr_Proofs3 CxxExpr_Props Call_Spec Call_Proofs Call_Proofs2 Call_Proofs3 Call_Proofs4 Call_Proofs5 Call_Proofs6 Call_Proofs7.
From Coq Require Import Lia.

Lemma flag_same gen1 o1 gen2 o2 apis T1 T2 n1 n2 t b1 b2 : accepted_bridge gen1 o1 apis T1 -> accepted_bridge gen2 o2 apis T2 ->
  needs_indirect_abi n1 T1 t = Some b1 -> needs_indirect_abi n2 T2 t = Some b2 -> b1 = b2.
Proof.
  intros H1 H2 E1 E2. pose proof (indirect_exact _ _ _ _ _ _ _ H1 E1) as X1. pose proof (indirect_exact _ _ _ _ _ _ _ H2 E2) as X2.
  destruct b1, b2; auto; exfalso; intuition congruence.
Qed.
Lemma flags_same gen1 o1 gen2 o2 apis T1 T2 n1 n2 : accepted_bridge gen1 o1 apis T1 -> accepted_bridge gen2 o2 apis T2 -> forall (args : list (string * ty)) bs bs',
  Forall2 (fun a b => needs_indirect_abi n1 T1 (snd a) = Some b) args bs -> Forall2 (fun a b => needs_indirect_abi n2 T2 (snd a) = Some b) args bs' -> bs = bs'.
Proof.
  intros H1 H2. induction args as [|a args IH]; intros bs bs' F1 F2; inversion F1; inversion F2; subst; [reflexivity|]. f_equal; [eapply flag_same; [exact H1|exact H2|eassumption|eassumption]|apply IH; assumption].
Qed.
Lemma slots_same gen1 o1 gen2 o2 apis T1 T2 n1 n2 s b1 b2 : accepted_bridge gen1 o1 apis T1 -> accepted_bridge gen2 o2 apis T2 ->
  indirect_return n1 T1 s = Some b1 -> indirect_return n2 T2 s = Some b2 -> b1 = b2.
Proof.
  intros H1 H2 E1 E2. unfold indirect_return in *. destruct (sg_ret s); [|congruence]. destruct (sg_throws s); [congruence|]. eapply flag_same; [exact H1|exact H2|eassumption|eassumption].
Qed.

Lemma Forall2_in_l {B C} (R : B -> C -> Prop) l l' : Forall2 R l l' -> forall a, In a l -> exists b, R a b.
Proof. induction 1 as [|b c l l' Hbc H IH]; intros a I; [destruct I|]. destruct I as [->|I]; eauto. Qed.
Arguments Forall2_in_l {B C R l l'} _ {a} _.
Lemma setup_flags n T : forall args st, setup n T args = Some st -> exists bs, Forall2 (fun a b => needs_indirect_abi n T (snd a) = Some b) args bs.
Proof.
  induction args as [|(x, t) args IH]; intros st E; [exists []; constructor|]. cbn [setup] in E. apply obind_inv in E. destruct E as (b & Eb & E).
  destruct (setup n T args) as [st'|]; [|discriminate E]. destruct (IH _ eq_refl) as (bs & H). exists (b :: bs). constructor; assumption.
Qed.
Lemma shim_flags n T : n <> 0 -> forall args ps, otraverse (fun a => option_map (pair (fst a)) (cxx_shim_arg n T (snd a))) args = Some ps -> exists bs, Forall2 (fun (a : string * ty) b => needs_indirect_abi n T (snd a) = Some b) args bs.
Proof.
  intros Nz. induction args as [|(x, t) args IH]; intros ps E; [exists []; constructor|]. apply otraverse_inv in E as (p & ps' & Ep & Es & ->). destruct (IH _ Es) as (bs & H). cbn [fst snd] in Ep.
  destruct (needs_indirect_abi n T t) as [b|] eqn:Eb; [exists (b :: bs); constructor; assumption|]. exfalso. destruct n as [|n]; [contradiction|].
  unfold cxx_shim_arg in Ep. destruct (is_rust_string t) eqn:Es'.
  - destruct t; try discriminate Es'. cbn in Es'. apply String.eqb_eq in Es'. cbn [needs_indirect_abi is_guaranteed_pod] in Eb. rewrite Es' in Eb. discriminate Eb.
  - assert (Q : cxx_extern_arg (S n) T t = None) by (unfold cxx_extern_arg; rewrite Eb; match goal with |- obind ?o _ = _ => destruct o end; reflexivity).
    rewrite Q in Ep. destruct t; try discriminate Ep. discriminate Eb.
Qed.

(** Rust calls a C++ function.  [world]: what the functions of the user reply; it may
    depend on all earlier calls.  There is exactly one call, of the function the user
    declared, with the same receiver and arguments; the caller gets what it returned. *)
Theorem C86_call : forall (D A F X : Type) (world : list (event D A F X) -> event D A F X -> reply D A F X) apis Tg Tm f ng nm c w recv args s,
  both_accept apis Tg Tm -> In (ACxxFunction f) apis ->
  well_named (map fst (fn_args f)) -> (forall x, In x (map fst (fn_args f)) -> plain_name x) -> p_rust (fn_name f) <> "return" ->
  ~ (fn_throws f = true /\ p_rust (fn_name f) = "throw") ->
  cxx_wrapper nm Tm f = Some w -> ng <> 0 -> cxx_shim ng Tg f = Some c ->
  receiver_fits (fn_receiver f) recv -> Forall2 (fun a v => fits (snd a) v) (fn_args f) args ->
  (forall x tr this vs, user_name apis f x -> match world tr (CallCxx x this vs) with Returns v => fits_ret (fn_ret f) v | Throws _ => True | Panics => False end) ->
  exists x s', user_name apis f x /\
    let call := CallCxx x (option_map Outer recv) (map in_cxx args) in
    trace s' = trace s ++ [call] /\
    rust_calls_cxx world ("__" ++ p_rust (fn_name f)) w c (map (fun a => Addr (Outer a)) (match recv with Some a => [a] | None => [] end) ++ args) s =
    (match world (trace s) call with
     | Returns v => Done (if fn_throws f then Res (inl v) else v)
     | Throws (Some e) => if fn_throws f then Done (Res (inr e)) else Aborted
     | _ => Aborted
     end, s').
Proof.
  intros D A F X world apis Tg Tm f ng nm c w recv args s (og & om & Hg & Hm) Hf W P Nr Nt Ew Nz Ec Rf Fi Wd.
  assert (Hall : all_functions apis f) by (left; exact Hf).
  assert (Bm : exists bs, Forall2 (fun a b => needs_indirect_abi nm Tm (snd a) = Some b) (fn_args f) bs).
  { pose proof Ew as E. unfold cxx_wrapper in E. apply obind_inv in E. destruct E as (? & _ & E). apply obind_inv in E. destruct E as (? & _ & E). apply obind_inv in E. destruct E as (st & Es & _). eapply setup_flags, Es. }
  destruct Bm as (bs & Bm).
  assert (Bg : Forall2 (fun a b => needs_indirect_abi ng Tg (snd a) = Some b) (fn_args f) bs).
  { pose proof Ec as E. unfold cxx_shim in E. apply obind_inv in E. destruct E as (? & _ & E). apply obind_inv in E. destruct E as (? & _ & E). apply obind_inv in E. destruct E as (ps & Es & _).
    destruct (shim_flags _ _ Nz _ _ Es) as (bs' & B'). rewrite (flags_same _ _ _ _ _ _ _ _ _ Hm Hg _ _ _ Bm B'). exact B'. }
  assert (Tu : forall x, target_of Tg f x -> user_name apis f x).
  { intros x. unfold target_of, user_name. destruct (fn_receiver f); [intros (p & R & ->); exists p; split; [apply (resolve_stands _ _ _ _ Hg), R|rewrite full_name_ok; reflexivity]|intros ->; apply full_name_ok]. }
  set (g := fun vs => no_exception (run_cxx world [] (fun _ _ => stuck) None c vs)).
  destruct (rust_side world nm Tm f w recv args bs g s W Nr) as (ws & l & nr & s1 & slot & Es & T1 & Wi & Ll & Nl & Ln & Run1 & Run2).
  { apply (no_dunder _ _ _ _ _ _ Hm Hall). }
  { apply (no_dunder _ _ _ _ _ "return" Hm Hall). }
  { exact Ew. } { exact Rf. } { exact Bm. } { exact Fi. }
  { intros x t I Q. destruct (Forall2_in_l Bm I) as (b & Eb). cbn [snd] in Eb. rewrite (in_memory _ _ _ _ Eb Q) in Eb. exact Eb. }
  destruct (cxx_side world Tg ng f c recv args ws bs l nr s1) as (target & slot' & s2 & Es' & Tg' & T2 & Run & Mem).
  { intros x tr o us Tx Q. specialize (Wd x tr o us (Tu _ Tx)). rewrite Q in Wd. exact Wd. }
  { intros x tr o us v Tx Q. specialize (Wd x tr o us (Tu _ Tx)). rewrite Q in Wd. exact Wd. }
  { apply W. } { exact P. } { exact Nr. } { exact Nt. }
  { intros x t u I. apply (fn_arg_ok _ _ _ _ Hg f x t Hall I). }
  { exact Ec. } { exact Rf. } { exact Bg. } { exact Fi. } { exact Wi. } { exact Ll. } { exact Nl. }
  { intros Q. apply Ln. eapply slots_same; [exact Hm|exact Hg|exact Es|exact Q]. }
  assert (slot' = slot) by (eapply slots_same; [exact Hg|exact Hm|exact Es'|exact Es]). subst slot'.
  exists target, s2. split; [apply Tu, Tg'|]. cbn zeta. rewrite T1 in T2. split; [exact T2|]. unfold rust_calls_cxx. fold g. rewrite T1 in Run, Mem.
  set (ev := CallCxx target (option_map Outer recv) (map in_cxx args)) in *.
  assert (Eg : g (map (fun a => Addr (Outer a)) (match recv with Some a => [a] | None => [] end) ++ ws ++ when slot [Addr (Local nr)]) s1 =
    match world (trace s) ev with
    | Returns v => (Done (if fn_throws f then Reply None else if slot then Unit else lowered (fn_ret f) v), s2)
    | Throws (Some e) => (if fn_throws f then Done (Reply (Some e)) else Aborted, s2)
    | _ => (Aborted, s2)
    end).
  { unfold g, no_exception. rewrite Run. destruct (world (trace s) ev) as [v|[e|]|]; [destruct (fn_throws f)|destruct (fn_throws f)| |]; reflexivity. }
  rewrite Eg in Run1, Run2. clear Eg. pose proof (Wd target (trace s) (option_map Outer recv) (map in_cxx args) (Tu _ Tg')) as Wv. fold ev in Wv.
  destruct (world (trace s) ev) as [v|[e|]|]; [|destruct (fn_throws f); [apply Run2; reflexivity|exact Run2]|exact Run2|contradiction].
  destruct (Run1 v Wv (Mem v eq_refl)) as (R1 & R2). destruct (fn_throws f); [apply R2|apply R1]; reflexivity.
Qed.
Print Assumptions C86_call.

(** The function that calls the function of the user. *)
Lemma super_run {D A F X : Type} (world : list (event D A F X) -> event D A F X -> reply D A F X) gen ord apis T f recv (args : list (val D A F X)) s :
  accepted_bridge gen ord apis T -> In (ARustFunction f) apis -> well_named (map fst (fn_args f)) -> (forall x, In x (map fst (fn_args f)) -> ~ has_infix "::" x) ->
  receiver_fits (fn_receiver f) recv -> List.length args = List.length (fn_args f) ->
  let all := map (fun a => Addr (Outer a)) (match recv with Some a => [a] | None => [] end) ++ args in
  run_rust world (only (rust_function f) (fun vs => perform world (CallRust (rust_function f) vs))) (rust_super f) all s = perform world (CallRust (rust_function f) all) s.
Proof.
  intros H Hf (W1 & W2 & W3) Hc Rf L all. pose proof (no_dunder gen ord apis T f "self" H (or_intror Hf)) as Ds.
  unfold run_rust, rust_super. cbn [rf_params rf_stmts rf_value rrun]. fold (rust_function f).
  assert (Hi : has_infix "::" (rust_function f)).
  { unfold rust_function. destruct (fn_receiver f) as [r|]; [exists (n_rust (rc_ty r)), (p_rust (fn_name f)); reflexivity|exists "super", (p_rust (fn_name f)); reflexivity]. }
  assert (Ns : rust_function f <> "__self") by (intros E; rewrite E in Hi; apply contains_str_spec in Hi; discriminate Hi).
  set (names := when (is_some (fn_receiver f)) ["__self"%string] ++ map fst (fn_args f)).
  assert (En : map fst (x_receivers "__self" (fn_sig f) ++ x_args (fn_sig f)) = names).
  { unfold names. rewrite map_app, x_args_names. unfold x_receivers. cbn [sg_receiver fn_sig sg_args]. destruct (fn_receiver f); reflexivity. }
  assert (Ln : List.length all = List.length names).
  { unfold all, names. rewrite !app_length, !map_length, L. destruct (fn_receiver f), recv; try destruct Rf; reflexivity. }
  assert (El : List.length (x_receivers "__self" (fn_sig f) ++ x_args (fn_sig f)) = List.length names) by (rewrite <- En, map_length; reflexivity).
  rewrite El, <- Ln, Nat.eqb_refl, En.
  assert (Nd : NoDup names) by (unfold names; destruct (fn_receiver f); cbn; [constructor; assumption|assumption]).
  assert (Nu : ~ In "_" names) by (unfold names; destruct (fn_receiver f); cbn; [intros [E|I]; [discriminate E|exact (W3 I)]|exact W3]).
  cbn [reval]. rewrite lookup_combine_none.
  2: { unfold names. intros I. apply in_app_or in I. destruct I as [I|I]; [|exact (Hc _ I Hi)]. destruct (fn_receiver f); cbn in I; [destruct I as [I|[]]; exact (Ns (eq_sym I))|destruct I]. }
  assert (Ev : forall (vars : list string) (us : list (val D A F X)) s, (forall x u, In (x, u) (combine vars us) -> lookup x (combine names all) = Some u) -> List.length vars = List.length us ->
    revals world (only (rust_function f) (fun vs => perform world (CallRust (rust_function f) vs))) (combine names all) (map EVar vars) s = (Done us, s)).
  { induction vars as [|x vars IH]; intros [|u us] s0 K Lu; try discriminate Lu; [reflexivity|]. cbn [map revals reval]. rewrite (K x u) by (left; reflexivity). rewrite bind_ret.
    fold (revals world (only (rust_function f) (fun vs => perform world (CallRust (rust_function f) vs))) (combine names all)). rewrite (bind_done _ _ _ us s0); [reflexivity|]. apply IH; [|cbn in Lu; congruence]. intros y w I. apply K. right. exact I. }
  assert (Eq : when (is_some (fn_receiver f)) [EVar "__self"] ++ map (fun a => EVar (fst a)) (fn_args f) = map EVar names).
  { unfold names. rewrite map_app, map_map. destruct (fn_receiver f); reflexivity. }
  rewrite Eq. fold (revals world (only (rust_function f) (fun vs => perform world (CallRust (rust_function f) vs))) (combine names all)).
  rewrite (bind_done _ _ _ all s); [unfold only; rewrite String.eqb_refl; reflexivity|]. apply Ev; [|congruence].
  intros x u I. apply lookup_combine; [exact Nd|intros ->; apply Nu; apply (in_combine_l _ _ _ _ I)|exact I].
Qed.

Lemma hand_flags n T : forall args es, otraverse (fun a => hand_arg n T (fst a) (snd a)) args = Some es -> exists bs, Forall2 (fun (a : string * ty) b => needs_indirect_abi n T (snd a) = Some b) args bs.
Proof.
  induction args as [|(x, t) args IH]; intros es E; [exists []; constructor|]. apply otraverse_inv in E as (e & es' & Ee & Es & ->). destruct (IH _ Es) as (bs & H). cbn [fst snd] in Ee.
  unfold hand_arg in Ee. apply obind_inv in Ee. destruct Ee as (b & Eb & _). exists (b :: bs). constructor; assumption.
Qed.
Lemma export_flags n T : forall args ps, otraverse (fun a => option_map (pair (fst a)) (shim_arg n T (snd a))) args = Some ps -> exists bs, Forall2 (fun (a : string * ty) b => needs_indirect_abi n T (snd a) = Some b) args bs.
Proof.
  induction args as [|(x, t) args IH]; intros ps E; [exists []; constructor|]. apply otraverse_inv in E as (e & es' & Ee & Es & ->). destruct (IH _ Es) as (bs & H). cbn [fst snd] in Ee.
  unfold shim_arg in Ee. destruct (needs_indirect_abi n T t) as [b|] eqn:Eb; [|discriminate Ee]. exists (b :: bs). constructor; assumption.
Qed.
Lemma plain_not_fn t : top_plain t = true -> no_fn t.
Proof. intros E un th a r ->. discriminate E. Qed.

(** The two languages together: [ev] is the call of the function of the user. *)
Lemma cxx_to_rust {D A F X : Type} (world : list (event D A F X) -> event D A F X -> reply D A F X) apis Tg Tm ng nm sg x callback invoke c d r recv (args : list (val D A F X)) (fv : val D A F X) calls ev s :
  both_accept apis Tg Tm -> cxx_rust_shim ng Tg sg x callback = Some c -> cxx_function_decl ng Tg sg callback = Some d -> rust_shim nm Tm sg invoke = Some r ->
  (callback = match invoke with inl _ => false | inr _ => true end) ->
  NoDup (map fst (sg_args sg)) -> (forall y, In y (map fst (sg_args sg)) -> plain_name y) -> (forall y, In y ["__self"; "__return"; "__extern"; "__fn"; "_"] -> ~ In y (map fst (sg_args sg))) ->
  has_char "$" x = true -> (forall y, x <> (y ++ "$")%string) -> (callback = true -> sg_receiver sg = None) -> (forall q, fv <> Addr (Local q)) -> receiver_fits (sg_receiver sg) recv ->
  Forall2 (fun a v => fits (snd a) v) (sg_args sg) args -> (forall y t, In (y, t) (sg_args sg) -> no_fn t) ->
  let all := map (fun a => Addr (Outer a)) (match recv with Some a => [a] | None => [] end) ++ args in
  match invoke with
  | inl (local, _) => ~ In local (map fst (sg_args sg)) /\ ~ In local ["__self"; "__return"; "__fn"]%string /\ forall s', calls local all s' = perform world ev s'
  | inr _ => exists fp, fv = Fun fp /\ ev = CallFn fp all
  end ->
  match world (trace s) ev with Returns u => exists o, answer (sg_throws sg) u = Some o /\ forall v, o = inl v -> fits_ret (sg_ret sg) v | Throws _ => False | Panics => True end ->
  exists s', trace s' = trace s ++ [ev] /\
    run_cxx world [(x, d)] (only x (fun vs => no_panic (run_rust world calls r vs))) (option_map Outer recv) c (args ++ when callback [fv]) s =
    (match world (trace s) ev with
     | Returns u => match answer (sg_throws sg) u with Some (inl v) => Done v | Some (inr e) => Thrown (Some e) | None => Stuck end
     | _ => Aborted
     end, s').
Proof.
  intros (og & om & Hg & Hm) Ec Ed Er Hcb N P Nn I1 I2 Rc Nfv Rf Fi Nf all Hi Wd.
  assert (Bg : exists bs, Forall2 (fun a b => needs_indirect_abi ng Tg (snd a) = Some b) (sg_args sg) bs).
  { pose proof Ec as E. unfold cxx_rust_shim in E. do 6 (apply obind_inv in E; destruct E as (? & _ & E)). apply obind_inv in E. destruct E as (es & Es & _). eapply hand_flags, Es. }
  destruct Bg as (bs & Bg).
  assert (Bm : Forall2 (fun a b => needs_indirect_abi nm Tm (snd a) = Some b) (sg_args sg) bs).
  { pose proof Er as E. unfold rust_shim in E. apply obind_inv in E. destruct E as (? & _ & E). apply obind_inv in E. destruct E as (ps & Es & _).
    destruct (export_flags _ _ _ _ Es) as (bs' & B'). rewrite (flags_same _ _ _ _ _ _ _ _ _ Hg Hm _ _ _ Bg B'). exact B'. }
  assert (Sg : exists slot, indirect_return ng Tg sg = Some slot).
  { pose proof Ec as E. unfold cxx_rust_shim in E. do 4 (apply obind_inv in E; destruct E as (? & _ & E)). apply obind_inv in E. destruct E as (slot & Es & _). eauto. }
  destruct Sg as (slot & Sg).
  assert (Sm : indirect_return nm Tm sg = Some slot).
  { pose proof Er as E. unfold rust_shim in E. do 3 (apply obind_inv in E; destruct E as (? & _ & E)). apply obind_inv in E. destruct E as (out & Eo & _). unfold x_outparam in Eo. apply obind_inv in Eo. destruct Eo as (b & Eb & _).
    rewrite Eb. f_equal. eapply slots_same; [exact Hm|exact Hg|exact Eb|exact Sg]. }
  set (ext := fun vs => no_panic (run_rust world calls r vs)).
  destruct (from_cxx world ng Tg sg x callback c d recv args bs fv slot ext s Ec Ed Sg N P I1 I2 Rc Nfv Rf Bg Fi) as (ws & l & nr & s1 & Wi & Ll & Nl & Ln & Tr1 & Ra & Rt & Rd).
  pose proof (export_side world nm Tm calls sg invoke r recv args ws bs l nr fv s1 ev slot Er N Nn Rf Sm Bm Fi Nf Wi Ll Ln Nl Hi) as Run. cbn zeta in Run, Ra, Rt, Rd.
  assert (Ex : ext (map (fun a => Addr (Outer a)) (match recv with Some a => [a] | None => [] end) ++ ws ++ when slot [Addr (Local nr)] ++ when callback [fv]) s1 =
    no_panic (run_rust world calls r (map (fun a => Addr (Outer a)) (match recv with Some a => [a] | None => [] end) ++ ws ++ when slot [Addr (Local nr)] ++ match invoke with inl _ => [] | inr _ => [fv] end)) s1).
  { unfold ext. rewrite Hcb. destruct invoke; reflexivity. }
  rewrite Ex in Ra, Rt, Rd. clear Ex. unfold no_panic in Ra, Rt, Rd. rewrite Tr1 in Run.
  destruct (world (trace s) ev) as [u|e|]; [|destruct Wd|].
  - destruct Wd as (o & Eo & Fo). destruct (Run o Eo Fo) as (s4 & Tr4 & Nn4 & R4 & M4). rewrite Eo. rewrite R4 in Rt, Rd. destruct o as [v|e].
    + destruct (Rd v s4 (Fo v eq_refl) (M4 v eq_refl) Nn4 eq_refl) as (s5 & Tr5 & R5). exists s5. split; [congruence|exact R5].
    + assert (Th : sg_throws sg = true) by (destruct (sg_throws sg); [reflexivity|discriminate Eo]).
      destruct (Rt e s4 Th eq_refl) as (s5 & Tr5 & R5). exists s5. split; [congruence|exact R5].
  - destruct Run as (s4 & Tr4 & R4). rewrite R4 in Ra. exists s4. split; [exact Tr4|]. apply Ra. reflexivity.
Qed.

(** C++ calls a Rust function. *)
Theorem C86_exported : forall (D A F X : Type) (world : list (event D A F X) -> event D A F X -> reply D A F X) apis Tg Tm f ng nm x c d r recv args s,
  both_accept apis Tg Tm -> In (ARustFunction f) apis -> fn_lang f = LRust ->
  well_named (map fst (fn_args f)) -> (forall y, In y (map fst (fn_args f)) -> plain_name y /\ ~ has_infix "::" y) ->
  plain_name (p_rust (fn_name f)) -> p_rust (fn_name f) <> "fn" ->
  mangle_extern_fn Tg f = Some x -> cxx_rust_shim ng Tg (fn_sig f) x false = Some c -> cxx_function_decl ng Tg (fn_sig f) false = Some d -> rust_fn_shim nm Tm f = Some r ->
  receiver_fits (fn_receiver f) recv -> Forall2 (fun a v => fits (snd a) v) (fn_args f) args ->
  let call := CallRust (rust_function f) (map (fun a => Addr (Outer a)) (match recv with Some a => [a] | None => [] end) ++ args) in
  match world (trace s) call with Returns u => exists o, answer (fn_throws f) u = Some o /\ forall v, o = inl v -> fits_ret (fn_ret f) v | Throws _ => False | Panics => True end ->
  exists s', trace s' = trace s ++ [call] /\
    cxx_calls_rust world c x d r (Names_Model.rust_local_name f) (rust_super f) (rust_function f) (option_map Outer recv) args s =
    (match world (trace s) call with
     | Returns u => match answer (fn_throws f) u with Some (inl v) => Done v | Some (inr e) => Thrown (Some e) | None => Stuck end
     | _ => Aborted
     end, s').
Proof.
  intros D A F X world apis Tg Tm f ng nm x c d r recv args s Hb Hf L W P Pn Nfn Ei Ec Ed Er Rf Fi call Wd.
  pose proof Hb as (og & om & Hg & Hm). assert (Hall : all_functions apis f) by (right; exact Hf). pose proof W as (W1 & W2 & W3).
  pose proof (fun x => no_dunder _ _ _ _ f x Hm Hall) as Dd.
  assert (Hi : exists a, x = (a ++ "$" ++ p_rust (fn_name f))%string).
  { unfold mangle_extern_fn in Ei. destruct (fn_receiver f) as [rc|].
    - destruct (resolve_name Tg (n_rust (rc_ty rc))) as [p|]; [|discriminate]. apply (join_last (p_ns (fn_name f) ++ [CXXBRIDGE; p_cxx p])); [destruct (p_ns (fn_name f)); discriminate|].
      rewrite <- app_assoc. exact Ei.
    - apply (join_last (p_ns (fn_name f) ++ [CXXBRIDGE])); [destruct (p_ns (fn_name f)); discriminate|]. rewrite <- app_assoc. exact Ei. }
  assert (Lx : has_char "$" x = true /\ forall y, x <> (y ++ "$")%string).
  { destruct Hi as (a & ->). split; [rewrite !has_char_app; cbn; apply orb_true_r|]. intros y. apply no_final_dollar; [|apply plain_has, Pn]. intros E0. destruct Pn as (_ & Pn). apply Pn. rewrite E0. cbn. auto. }
  destruct Lx as (Lx1 & Lx2).
  set (loc := Names_Model.rust_local_name f).
  assert (NF : ~ In loc (map fst (fn_args f)) /\ ~ In loc ["__self"; "__return"; "__fn"]%string).
  { unfold loc, Names_Model.rust_local_name. destruct (fn_receiver f) as [rc|].
    - split; [apply Dd|]. intros [E2|[E2|[E2|[]]]]; injection E2 as E2; symmetry in E2; apply (f_equal (has_char "_")) in E2;
        rewrite !has_char_app in E2; cbn in E2; rewrite orb_true_r in E2; discriminate E2.
    - split; [apply Dd|]. destruct Pn as (_ & Pn). intros [E2|[E2|[E2|[]]]]; injection E2 as E2; rewrite <- E2 in *; [apply Pn|apply Pn|apply Nfn]; cbn; auto. }
  destruct (cxx_to_rust world apis Tg Tm ng nm (fn_sig f) x false (inl (loc, fn_unsafe f)) c d r recv args Unit)
    with (1 := Hb) (calls := only loc (fun vs => run_rust world (only (rust_function f) (fun vs => perform world (CallRust (rust_function f) vs))) (rust_super f) vs)) (ev := call) (s := s) as (s' & Tr & Run); try assumption; try reflexivity.
  - intros y I. apply P, I.
  - intros y [<-|[<-|[<-|[<-|[<-|[]]]]]]; [exact (Dd "self")|exact (Dd "return")|exact (Dd "extern")|exact (Dd "fn")|exact W3].
  - discriminate.
  - discriminate.
  - intros y t I. destruct (fn_arg_ok _ _ _ _ Hm f y t Hall I) as (_ & _ & _ & [Q|Q]); [apply plain_not_fn, Q|]. congruence.
  - split; [apply NF|]. split; [apply NF|]. intros s'. unfold only at 1. rewrite String.eqb_refl.
    apply (super_run world _ _ _ _ f recv args s' Hm Hf W); [intros y I; apply P, I|exact Rf|]. symmetry. eapply forall2_length, Fi.
  - exists s'. split; [exact Tr|]. unfold cxx_calls_rust. cbn [when] in Run. rewrite app_nil_r in Run. exact Run.
Qed.
Print Assumptions C86_exported.

(** C++ calls a function pointer that it got from Rust. *)
Theorem C86_callback : forall (D A F X : Type) (world : list (event D A F X) -> event D A F X -> reply D A F X) apis Tg Tm f y un th ps ret ng nm x c d r (fp : F) args s,
  both_accept apis Tg Tm -> simple_callbacks apis -> In (ACxxFunction f) apis -> In (y, TFn un th ps ret) (fn_args f) ->
  NoDup (map fst ps) -> (forall z, In z (map fst ps) -> plain_name z /\ ~ In z ["__self"; "__return"; "__extern"; "__fn"; "_"]) ->
  mangle_r_trampoline Tg f y = Some x -> cxx_rust_shim ng Tg (ptr_sig th ps ret) x true = Some c -> cxx_function_decl ng Tg (ptr_sig th ps ret) true = Some d ->
  trampoline_shim nm Tm un th ps ret = Some r -> Forall2 (fun a v => fits (snd a) v) ps args ->
  match world (trace s) (CallFn fp args) with Returns v => fits_ret ret v | Throws _ => False | Panics => True end ->
  exists s', trace s' = trace s ++ [CallFn fp args] /\
    cxx_calls_pointer world c x d r fp args s = (match world (trace s) (CallFn fp args) with Returns v => Done v | _ => Aborted end, s').
Proof.
  intros D A F X world apis Tg Tm f y un th ps ret ng nm x c d r fp args s Hb Sc Hf Iy N P Ei Ec Ed Er Fi Wd.
  pose proof Hb as (og & om & Hg & Hm).
  assert (M : mentioned apis (TFn un th ps ret)) by (eapply me_arg; [left; exact Hf|exact Iy|constructor]).
  assert (Th : th = false).
  { pose proof (mentioned_checked _ _ _ _ Hg _ M) as C. cbn [check_type] in C. destruct th; [discriminate C|reflexivity]. }
  subst th.
  assert (Hi : exists a, x = (a ++ "$" ++ "1")%string).
  { unfold mangle_r_trampoline in Ei. destruct (mangle_extern_fn Tg f) as [z|]; [|discriminate]. apply (join_last [z; y]); [discriminate|exact Ei]. }
  assert (Lx : has_char "$" x = true /\ forall z, x <> (z ++ "$")%string).
  { destruct Hi as (a & ->). split; [rewrite !has_char_app; cbn; apply orb_true_r|]. intros z. apply no_final_dollar; [discriminate|reflexivity]. }
  destruct Lx as (Lx1 & Lx2).
  destruct (cxx_to_rust world apis Tg Tm ng nm (ptr_sig false ps ret) x true (inr (x_type (TFn un false ps ret))) c d r None args (Fun fp))
    with (1 := Hb) (calls := fun (_ : string) (_ : list (val D A F X)) => @stuck D A F X (val D A F X)) (ev := CallFn fp args) (s := s) as (s' & Tr & Run); try assumption; try reflexivity.
  - intros z I. apply P, I.
  - intros z I J. apply P in J. destruct J as (_ & J). exact (J I).
  - discriminate.
  - intros z t I a b u v ->. destruct (Sc _ _ _ _ M) as (Q & _). destruct (Q z _ I) as (Q1 & _). apply Q1. unfold is_callback. eauto.
  - exists fp. split; reflexivity.
  - cbn [ptr_sig sg_throws sg_ret]. destruct (world (trace s) (CallFn fp args)); try exact Wd. exists (inl v). split; [reflexivity|]. intros w E. injection E as <-. exact Wd.
  - exists s'. split; [exact Tr|]. unfold cxx_calls_pointer. cbn [when option_map ptr_sig sg_throws answer] in Run. rewrite Run. destruct (world (trace s) (CallFn fp args)); reflexivity.
Qed.
Print Assumptions C86_callback.

(** A bridge with all kinds of arguments: the hypotheses hold, and the calls. *)
Lemma no_colons x : contains_str "::" x = false -> ~ has_infix "::" x.
Proof. intros E H. apply contains_str_spec in H. congruence. Qed.
Local Definition nm (a : string) : pair_name := Pair [] a a.
Local Definition I_ (a : string) : ty := TIdent (Named a []).
Local Definition fn_ (l : lang) (x : string) (recv : option string) (args : list (string * ty)) (ret : option ty) (th : bool) : extern_fn :=
  ExternFn CUnconditional l (Pair [] (x ++ "_") x) false false [] (option_map (fun t => Receiver false None false (Named t []) false) recv) args ret th true.
Local Definition C_ (a : string) : api := ACxxType (ExternType CUnconditional LCxx [] (nm a) [] [] true).
Local Definition R_ (a : string) : api := ARustType (ExternType CUnconditional LRust [] (nm a) [] [] true).
Local Definition S_ (a : string) (fs : list ty) : api := AStruct (Struct_ CUnconditional [] (nm a) [] (map (fun t => Var CUnconditional (nm "f") t) fs)).
Example C86_nonvacuous :
  let args := [("x", TStr None); ("q", I_ "Q")] in
  let cb := TFn false false args (Some (TBox (I_ "R"))) in
  let f := fn_ LCxx "f" (Some "C") [("a", I_ "P"); ("b", I_ "Q"); ("c", TUniquePtr (I_ "C")); ("s", I_ "String"); ("v", TVec (I_ "u8"));
              ("p", TRef true true None (I_ "C")); ("k", TBox (I_ "R")); ("l", TSlice true None (I_ "u8")); ("e", TSharedPtr (I_ "C")); ("cb", cb)]
              (Some (TVec (I_ "String"))) true in
  let g := fn_ LRust "g" (Some "R") [("k", TBox (I_ "R")); ("q", I_ "Q"); ("s", I_ "String"); ("v", TVec (I_ "String")); ("t", TRef false false None (I_ "String")); ("y", TStr None)]
              (Some (TRef false false None (I_ "Q"))) true in
  let apis := [C_ "C"; R_ "R"; S_ "P" [I_ "i32"]; S_ "Q" [I_ "String"]; ACxxFunction f; ARustFunction g] in
  let world : list (event nat nat nat nat) -> event nat nat nat nat -> reply nat nat nat nat := fun tr e =>
    match e with CallCxx _ _ _ => match tr with [] => Returns (Data 70) | _ => Throws (Some 71) end | CallRust _ _ => match tr with [] => Returns (Res (inl (Addr (Outer 72)))) | _ => Returns (Res (inr 73)) end | CallFn _ _ => Returns (BoxOf (Outer 74)) end in
  let fargs := [Data 1; Data 2; UniqueOf (Outer 3); Data 4; Data 5; Addr (Outer 6); BoxOf (Outer 7); Data 8; Data 9; Fun 10] in
  let gargs := [BoxOf (Outer 1); Data 2; Data 3; Data 4; Addr (Outer 5); Data 6] in
  let start := State (fun _ => None) 0 [] in
  exists Tg Tm wf cf rg cg ig dg rcb ccb icb dcb x, both_accept apis Tg Tm /\ simple_callbacks apis /\ user_name apis f x /\
  cxx_wrapper 3 Tm f = Some wf /\ cxx_shim 3 Tg f = Some cf /\ rust_fn_shim 3 Tm g = Some rg /\ mangle_extern_fn Tg g = Some ig /\ cxx_rust_shim 3 Tg (fn_sig g) ig false = Some cg /\ cxx_function_decl 3 Tg (fn_sig g) false = Some dg /\
  mangle_r_trampoline Tg f "cb" = Some icb /\ cxx_rust_shim 3 Tg (ptr_sig false args (Some (TBox (I_ "R")))) icb true = Some ccb /\ cxx_function_decl 3 Tg (ptr_sig false args (Some (TBox (I_ "R")))) true = Some dcb /\
  trampoline_shim 3 Tm false false args (Some (TBox (I_ "R"))) = Some rcb /\
  (exists s, rust_calls_cxx world "__f" wf cf (Addr (Outer 0) :: fargs) start = (Done (Res (inl (Data 70))), s) /\
    trace s = [CallCxx x (Some (Outer 0)) [Data 1; Data 2; UniqueOf (Outer 3); Data 4; Data 5; Addr (Outer 6); BoxOf (Outer 7); Data 8; Data 9; FatOf 10]] /\
    exists s', rust_calls_cxx world "__f" wf cf (Addr (Outer 0) :: fargs) s = (Done (Res (inr 71)), s')) /\
  (exists s, cxx_calls_rust world cg ig dg rg (Names_Model.rust_local_name g) (rust_super g) "R::g" (Some (Outer 0)) gargs start = (Done (Addr (Outer 72)), s) /\
    trace s = [CallRust "R::g" (Addr (Outer 0) :: gargs)] /\
    exists s', cxx_calls_rust world cg ig dg rg (Names_Model.rust_local_name g) (rust_super g) "R::g" (Some (Outer 0)) gargs s = (Thrown (Some 73), s')) /\
  (exists s, cxx_calls_pointer world ccb icb dcb rcb 10 [Data 1; Data 2] start = (Done (BoxOf (Outer 74)), s) /\ trace s = [CallFn 10 [Data 1; Data 2]]).
Proof.
  cbv zeta. match goal with |- exists Tg Tm wf cf rg cg ig dg rcb ccb icb dcb x, both_accept ?l _ _ /\ _ /\ user_name _ ?y _ /\ _ /\ _ /\ rust_fn_shim _ _ ?z = _ /\ _ =>
    set (apis := l); set (f := y) in *; set (g := z) in *; destruct (accepts_ok GBuild l eq_refl) as (Tg & Hg); destruct (accepts_ok GMacro l eq_refl) as (Tm & Hm) end.
  set (args := [("x", TStr None); ("q", I_ "Q")]). match goal with |- context [rust_calls_cxx ?w] => set (world := w) end.
  pose proof Hg as ((_ & Hcg) & _). vm_compute in Hcg. injection Hcg as Hcg. pose proof Hm as ((_ & Hcm) & _). vm_compute in Hcm. injection Hcm as Hcm.
  assert (Hb : both_accept apis Tg Tm) by (exists id_order, id_order; auto).
  assert (If : In (ACxxFunction f) apis) by (do 4 right; left; reflexivity). assert (Ig : In (ARustFunction g) apis) by (do 5 right; left; reflexivity).
  destruct (cxx_wrapper 3 Tm f) as [wf|] eqn:Ewf; [|rewrite <- Hcm in Ewf; vm_compute in Ewf; discriminate Ewf].
  destruct (cxx_shim 3 Tg f) as [cf|] eqn:Ecf; [|rewrite <- Hcg in Ecf; vm_compute in Ecf; discriminate Ecf].
  destruct (rust_fn_shim 3 Tm g) as [rg|] eqn:Erg; [|rewrite <- Hcm in Erg; vm_compute in Erg; discriminate Erg].
  destruct (mangle_extern_fn Tg g) as [ig|] eqn:Eig; [|rewrite <- Hcg in Eig; vm_compute in Eig; discriminate Eig].
  destruct (cxx_rust_shim 3 Tg (fn_sig g) ig false) as [cg|] eqn:Ecg; [|rewrite <- Hcg in Ecg; vm_compute in Ecg; discriminate Ecg].
  destruct (cxx_function_decl 3 Tg (fn_sig g) false) as [dg|] eqn:Edg; [|rewrite <- Hcg in Edg; vm_compute in Edg; discriminate Edg].
  destruct (mangle_r_trampoline Tg f "cb") as [icb|] eqn:Eicb; [|rewrite <- Hcg in Eicb; vm_compute in Eicb; discriminate Eicb].
  destruct (cxx_rust_shim 3 Tg (ptr_sig false args (Some (TBox (I_ "R")))) icb true) as [ccb|] eqn:Eccb; [|rewrite <- Hcg in Eccb; vm_compute in Eccb; discriminate Eccb].
  destruct (cxx_function_decl 3 Tg (ptr_sig false args (Some (TBox (I_ "R")))) true) as [dcb|] eqn:Edcb; [|rewrite <- Hcg in Edcb; vm_compute in Edcb; discriminate Edcb].
  destruct (trampoline_shim 3 Tm false false args (Some (TBox (I_ "R")))) as [rcb|] eqn:Ercb; [|rewrite <- Hcm in Ercb; vm_compute in Ercb; discriminate Ercb].
  assert (Sc : simple_callbacks apis) by (apply simple_callbacksb_ok; reflexivity).
  set (start := State (fun _ => None) 0 []). 
  set (fargs := [Data 1; Data 2; UniqueOf (Outer 3); Data 4; Data 5; Addr (Outer 6); BoxOf (Outer 7); Data 8; Data 9; Fun 10] : list (val nat nat nat nat)).
  set (gargs := [BoxOf (Outer 1); Data 2; Data 3; Data 4; Addr (Outer 5); Data 6] : list (val nat nat nat nat)).
  assert (Ff : Forall2 (fun a v => fits (snd a) v) (fn_args f) fargs) by (repeat constructor).
  assert (Fg : Forall2 (fun a v => fits (snd a) v) (fn_args g) gargs) by (repeat constructor).
  assert (Call : forall s, exists x s', user_name apis f x /\ trace s' = trace s ++ [CallCxx x (Some (Outer 0)) (map in_cxx fargs)] /\
    rust_calls_cxx world "__f" wf cf (Addr (Outer 0) :: fargs) s = (match trace s with [] => Done (Res (inl (Data 70))) | _ => Done (Res (inr 71)) end, s')).
  { intros s. destruct (C86_call nat nat nat nat world apis Tg Tm f 3 3 cf wf (Some 0) fargs s Hb If) as (x & s' & U & Tr & R); try assumption.
    - repeat split; [repeat constructor; cbn; intuition discriminate|cbn; intuition discriminate|cbn; intuition discriminate].
    - apply plain_all. reflexivity.
    - discriminate.
    - intros (_ & E). discriminate E.
    - discriminate.
    - exact Logic.I.
    - intros y tr th vs _. unfold world. destruct tr; [constructor; exact Logic.I|exact Logic.I].
    - exists x, s'. split; [exact U|]. split; [exact Tr|]. etransitivity; [exact R|]. unfold world. destruct (trace s); reflexivity. }
  assert (Exp : forall s, exists s', trace s' = trace s ++ [CallRust "R::g" (Addr (Outer 0) :: gargs)] /\
    cxx_calls_rust world cg ig dg rg (Names_Model.rust_local_name g) (rust_super g) "R::g" (Some (Outer 0)) gargs s = (match trace s with [] => Done (Addr (Outer 72)) | _ => Thrown (Some 73) end, s')).
  { intros s. destruct (C86_exported nat nat nat nat world apis Tg Tm g 3 3 ig cg dg rg (Some 0) gargs s Hb Ig eq_refl) as (s' & Tr & R); try assumption.
    - repeat split; [repeat constructor; cbn; intuition discriminate|cbn; intuition discriminate|cbn; intuition discriminate].
    - intros y I. split; [revert y I; apply plain_all; reflexivity|]. apply no_colons. cbn in I. repeat (destruct I as [<-|I]; [reflexivity|]). destruct I.
    - apply plain_nameb_ok. reflexivity.
    - discriminate.
    - exact Logic.I.
    - unfold world. destruct (trace s).
      + exists (inl (Addr (Outer 72))). split; [reflexivity|]. intros v E. injection E as <-. constructor.
      + exists (inr 73). split; [reflexivity|]. discriminate.
    - exists s'. split; [exact Tr|]. etransitivity; [exact R|]. unfold world. destruct (trace s); reflexivity. }
  destruct (C86_callback nat nat nat nat world apis Tg Tm f "cb" false false args (Some (TBox (I_ "R"))) 3 3 icb ccb dcb rcb 10 [Data 1; Data 2] start Hb Sc If) as (s3 & Tr3 & R3); try assumption.
  { do 9 right. left. reflexivity. }
  { repeat constructor; cbn; intuition discriminate. }
  { intros z I. split; [revert z I; apply plain_all; reflexivity|]. cbn in I. destruct I as [<-|[<-|[]]]; cbn; intuition discriminate. }
  { repeat constructor. }
  { cbn. constructor. }
  destruct (Call start) as (x & s1 & U & Tr1 & R1). destruct (Call s1) as (x' & s1' & _ & _ & R1'). destruct (Exp start) as (s2 & Tr2 & R2). destruct (Exp s2) as (s2' & _ & R2').
  exists Tg, Tm, wf, cf, rg, cg, ig, dg, rcb, ccb, icb, dcb, x. split; [exact Hb|]. split; [exact Sc|]. split; [exact U|]. do 10 (split; [reflexivity || assumption|]). split; [|split].
  - exists s1. split; [exact R1|]. split; [exact Tr1|]. exists s1'. rewrite R1', Tr1. reflexivity.
  - exists s2. split; [exact R2|]. split; [exact Tr2|]. exists s2'. rewrite R2', Tr2. reflexivity.
  - exists s3. split; [exact R3|exact Tr3].
Qed.
