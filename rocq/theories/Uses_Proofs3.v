(** Proofs about the names used in generated code: the pieces. *)
From Verif Require Import Base StrLib Syntax_Model Toposort_Model Toposort_Spec Toposort_Proofs2 TypeEq_Model Types_Model Types_Spec Types_Proofs Types_Proofs3 Types_Props
  Mangle_Model Abi_Model Header_Text Ifndef_Model Builtin_Model Builtin_Spec Builtin_Proofs Out_Model Out_Spec Uses_Model Uses_Spec Uses_Proofs Uses_Proofs2.
Local Opaque HEADER lines tokens_of text_of.

Ltac split_in H := cbn in H; repeat match type of H with _ \/ _ => destruct H as [H|H] | False => destruct H end.

Lemma write_loop_from in_cxx apis : forall written it s, In (EmStruct s) (write_loop in_cxx apis written it) -> In s it.
Proof.
  induction apis as [|a apis IH]; intros written it s; [intros []|].
  destruct a; cbn [write_loop]; eauto.
  - destruct (smem _ written); [apply IH|]. destruct (write_until _ _ it) as [[it' ns] outs] eqn:E.
    destruct (write_until_spec _ _ _ _ _ _ E) as [c [E1 [_ [E2 _]]]]. intros I. apply in_app_or in I. subst it. apply in_or_app. destruct I as [I|I].
    + left. apply in_map_iff in I. destruct I as [x [X I]]. injection X as ->. rewrite E2 in I. apply filter_In in I. apply I.
    + right. eapply IH, I.
  - intros I. apply in_app_or in I. destruct I as [I|I]; [|eapply IH, I]. destruct (in_cxx _); [destruct (en_from_header e)|]; split_in I; discriminate I.
  - intros [I|I]; [discriminate I|eapply IH, I].
Qed.
Lemma write_loop_others in_cxx apis written it d : In d (write_loop in_cxx apis written it) ->
  match d with EmStruct s => In s it | EmEnum e | EmCheckEnum e => In (AEnum e) apis | EmOpaque t => In (ARustType t) apis end.
Proof.
  intros I. destruct d as [s|e|e|t]; [eapply write_loop_from, I|..].
  all: match type of I with In ?d _ => assert (J : In d (em_others (write_loop in_cxx apis written it))) by (apply filter_In; split; [exact I|reflexivity]) end;
    rewrite structs_of_others in J; apply in_flat_map in J; destruct J as [a [J1 J2]]; destruct a; cbn in J2;
    repeat match type of J2 with context [if ?b then _ else _] => destruct b end; split_in J2; try discriminate J2; injection J2 as <-; exact J1.
Qed.
Lemma write_loop_opaque in_cxx apis written it t : In (ARustType t) apis -> In (EmOpaque t) (write_loop in_cxx apis written it).
Proof.
  intros I. assert (J : In (EmOpaque t) (em_others (write_loop in_cxx apis written it))).
  { rewrite structs_of_others. apply in_flat_map. exists (ARustType t). split; [exact I|left; reflexivity]. }
  apply filter_In in J. apply J.
Qed.

Section All.
  Variables (indirect : ty -> bool) (header : bool) (ord : nat -> list string -> list string) (apis : list api) (T : types) (errs : list cerr).
  Hypothesis Hc : collect ord apis = Some (T, errs).
  Let ops := generated_ops indirect header T apis.
  Notation good := (good ops).

  Lemma toposorted_from s : In s (t_toposorted T) -> In (AStruct s) apis.
  Proof.
    revert Hc. unfold collect. destruct (toposort (structs_of apis)) as [[order terrs]|]; [|discriminate].
    destruct (struct_improper_ctypes _ _ _ _); [|discriminate]. intros H; injection H as <- _. cbn [t_toposorted].
    intros I. assert (J : In s (structs_of apis)).
    { apply in_flat_map in I. destruct I as [i [_ I]]. destruct (nth_error _ i) eqn:E; [|destruct I]. destruct I as [<-|[]]. eapply nth_error_In, E. }
    apply in_flat_map in J. destruct J as [a [J1 J2]]. destruct a; split_in J2. subst. exact J1.
  Qed.

  (** Where the pieces come from. *)
  Definition from (p : piece) : Prop :=
    match p with
    | PMacros | PForward => True
    | PStruct s | POperatorDecls s | PHash s | POperators s => In (AStruct s) apis
    | PEnum e | PCheckEnum e => In (AEnum e) apis
    | POpaque t | PLayoutDecls t | PLayout t => In (ARustType t) apis
    | PTrivial a => In (ATypeAlias a) apis
    | PCxxShim f => In (ACxxFunction f) apis
    | PRustDecl f | PRustShim f => In (ARustFunction f) apis
    | PImplExtern k => In k (map fst (t_impls T))
    | PImplMember k => In k (map fst (t_impls T)) /\ (fst k = KBox \/ fst k = KVec)
    end.
  Lemma pieces_from p : In p (pieces header T apis) -> from p.
  Proof.
    intros I. unfold pieces in I. repeat (apply in_app_or in I; destruct I as [I|I]).
    - destruct I as [<-|[<-|[]]]; exact Logic.I.
    - apply in_map_iff in I. destruct I as [d [<- I]]. apply write_loop_others in I. destruct d; cbn [definition_piece from]; auto. apply toposorted_from, I.
    - destruct (negb header); [|destruct I]. cbn [when] in I. repeat (apply in_app_or in I; destruct I as [I|I]); apply in_flat_map in I; destruct I as [a [I1 I2]].
      + destruct a; split_in I2. destruct (has _ _); split_in I2. subst p. exact I1.
      + destruct a; split_in I2; subst p; exact I1.
      + destruct a; split_in I2. destruct (derives _ _); split_in I2. subst p. exact I1.
    - apply in_flat_map in I. destruct I as [a [I1 I2]].
      destruct a, header; split_in I2; subst p; exact I1.
    - destruct (negb header); [|destruct I]. cbn [when] in I. apply in_app_or in I. destruct I as [I|I].
      + apply in_map_iff in I. destruct I as [k [<- I]]. apply in_map, I.
      + apply in_flat_map in I. destruct I as [[k v] [I1 I2]]. cbn [fst] in I2. apply (in_map fst) in I1. cbn [fst] in I1.
        destruct (fst k) eqn:E; split_in I2; subst p; cbn [from]; rewrite E; auto.
  Qed.

  Lemma key_mentioned k : In k (map fst (t_impls T)) -> exists u, mentioned apis u /\ key_of u = Some k.
  Proof.
    rewrite (t_impls_eq _ _ _ _ Hc). destruct k as [k x]. destruct (impls_spec apis) as [_ [K _]]. intros I. apply K in I.
    destruct I as [[i [I1 I2]]|[_ [_ [u [U1 U2]]]]].
    - exists (im_ty i). split; [eapply me_impl; [exact I1|constructor]|apply key_generic, I2].
    - exists u. split; [exact U1|apply key_generic, U2].
  Qed.

  Lemma fn_msig f : In (ACxxFunction f) apis \/ In (ARustFunction f) apis -> msig apis (fn_wsig f).
  Proof.
    intros F. split; cbn [fn_wsig ws_args ws_ret].
    - intros t I. apply in_map_iff in I. destruct I as [[x t'] [<- I]]. eapply me_arg; [exact F|exact I|constructor].
    - intros t E. eapply me_ret; [exact F|exact E|constructor].
  Qed.
  Lemma methods_good x : good (w_methods apis x).
  Proof.
    apply good_flat_map. intros f I. apply in_flat_map in I. destruct I as [a [I1 I2]].
    apply (shim_decl_good indirect header ord apis T errs Hc). apply fn_msig.
    destruct a; split_in I2; (destruct (fn_receiver f0); [|destruct I2]); (destruct (String.eqb _ _); split_in I2); subst; auto.
  Qed.
  Lemma repr_good e : In (AEnum e) apis -> good (w_repr e).
  Proof. intros I. apply (atom_good indirect header ). intros o. apply (repr_asked indirect header ord apis T errs Hc e o I). Qed.

  Lemma piece_incl p : In p (pieces header T apis) -> incl (w_piece indirect header T apis p) ops.
  Proof. intros I o J. apply in_or_app. right. apply in_flat_map. eauto. Qed.
  Lemma opaque_piece t : In (ARustType t) apis -> In (POpaque t) (pieces header T apis).
  Proof.
    intros I. unfold pieces. apply in_or_app. right. apply in_or_app. left. apply (in_map definition_piece _ (EmOpaque t)). apply write_loop_opaque, I.
  Qed.

  Lemma unique_good vector x : incl (w_unique_ptr T vector x) ops -> In (inc_ IMemory) ops -> (vector = true -> In (inc_ IVector) ops) -> good (w_unique_ptr T vector x).
  Proof.
    intros I Hm Hv. unfold w_unique_ptr in *. cbn zeta in *.
    assert (N : In (inc_ INew) ops) by (apply I; left; reflexivity).
    apply incl_app_r in I. apply incl_app_r in I. pose proof (incl_app_l _ _ _ I) as I1. apply incl_app_r in I. apply incl_app_r in I.
    pose proof (incl_app_l _ _ _ I) as I2. apply incl_app_r in I.
    repeat apply good_app.
    - do 2 apply good_want. apply good_nil.
    - destruct vector; [|apply good_nil]. eapply good_use; [srcs|auto|apply good_nil].
    - destruct (_ && _); [|apply good_nil]. apply good_lit; [reflexivity|exact I1].
    - eapply good_use; [srcs|exact Hm|]. eapply good_use; [srcs|exact N|apply good_nil].
    - destruct (_ && maybe_trivial _ _); [|apply good_nil]. cbn [when] in *. apply good_want. eapply good_use; [srcs|apply I2; left; reflexivity|].
      eapply good_use; [srcs|exact N|apply good_nil].
    - destruct (_ && _); [|apply good_nil]. cbn [when] in *. apply good_want. eapply good_use; [srcs|apply I; left; reflexivity|].
      eapply good_use; [srcs|apply I1; left; reflexivity|apply good_nil].
  Qed.

  Lemma picks t o : mentioned apis t -> In o (w_pick t) -> In o ops.
  Proof. exact (pick_asked indirect header ord apis T errs Hc t o). Qed.
  Lemma piece_good p : In p (pieces header T apis) -> good (w_piece indirect header T apis p).
  Proof.
    intros Ip. pose proof (pieces_from p Ip) as F. pose proof (piece_incl p Ip) as I. destruct p; cbn [w_piece from] in *.
    - apply good_nil.
    - apply good_flat_map. intros a Ia. destruct a; try apply good_nil. destruct (negb _); [apply repr_good, Ia|apply good_nil].
    - apply good_app; [|apply good_app; [apply methods_good|apply good_lit; [reflexivity|exact (incl_app_r _ _ _ (incl_app_r _ _ _ I))]]].
      apply good_flat_map. intros v Iv. apply (type_good indirect header ord apis T errs Hc). eapply me_field; [exact F|exact Iv|constructor].
    - apply repr_good, F.
    - apply good_app; [apply good_lit; [reflexivity|exact (incl_app_l _ _ _ I)]|apply repr_good, F].
    - apply good_app; [apply good_lit; [reflexivity|exact (incl_app_l _ _ _ I)]|]. apply good_app; [apply methods_good|].
      apply good_lit; [reflexivity|exact (incl_app_r _ _ _ (incl_app_r _ _ _ I))].
    - match type of I with incl (_ :: (if ?b then _ else _)) _ => destruct b end; apply good_lit; solve [reflexivity|exact I].
    - destruct (derives _ _); [|apply good_nil]. apply good_lit; [reflexivity|exact I].
    - eapply good_use; [srcs| |apply good_nil]. apply (piece_incl _ (opaque_piece _ F)). cbn [w_piece]. apply in_or_app. right. apply in_or_app. right. right. left. reflexivity.
    - apply (cxx_shim_good indirect header ord apis T errs Hc); [apply fn_msig; auto|exact I].
    - apply (rust_decl_good indirect header ord apis T errs Hc); [apply fn_msig; auto|exact I].
    - apply good_lit; [reflexivity|exact I].
    - apply good_nil.
    - eapply good_use; [srcs| |apply good_nil]. apply (piece_incl _ (opaque_piece _ F)). cbn [w_piece]. apply in_or_app. right. apply in_or_app. right. right. left. reflexivity.
    - apply (shim_impl_good indirect header ord apis T errs Hc); [apply fn_msig; auto|exact I].
    - destruct (key_mentioned k F) as [u [U1 U2]]. destruct k as [k x]. unfold w_impl_extern in *. cbn [fst snd] in *.
      destruct k; destruct u; cbn in U2; try discriminate U2; destruct u; try discriminate U2; injection U2 as <-.
      + eapply good_use; [srcs|apply (picks _ _ U1); left; reflexivity|apply good_nil].
      + apply good_want. eapply good_use; [srcs|apply (picks _ _ U1); left; reflexivity|]. eapply good_use; [srcs|apply I; left; reflexivity|apply good_nil].
      + apply unique_good; [exact I|apply (picks _ _ U1); left; reflexivity|discriminate].
      + apply good_app.
        * do 2 apply good_want. eapply good_use; [srcs|apply (picks _ _ U1); left; reflexivity|]. eapply good_use; [srcs|apply I; left; reflexivity|apply good_nil].
        * pose proof (incl_app_r _ _ _ I) as J. destruct (maybe_trivial _ _); [|apply good_nil]. apply good_want. eapply good_use; [srcs|apply J; left; reflexivity|].
          eapply good_use; [srcs|apply I; left; reflexivity|apply good_nil].
      + do 2 apply good_want. do 2 (eapply good_use; [srcs|apply (picks _ _ U1); left; reflexivity|]). eapply good_use; [srcs|apply I; left; reflexivity|apply good_nil].
      + pose proof (incl_app_r _ _ _ I) as J. apply incl_app_r in J. pose proof (incl_app_r _ _ _ J) as K.
        assert (Hm : In (inc_ IMemory) ops) by (apply J; left; reflexivity).
        assert (Hv : In (inc_ IVector) ops) by (apply (picks _ _ U1); left; reflexivity).
        apply good_app; [|apply good_app].
        * do 3 apply good_want. eapply good_use; [srcs|exact Hv|]. eapply good_use; [srcs|apply I; left; reflexivity|apply good_nil].
        * destruct (maybe_trivial _ _); [|apply good_nil]. eapply good_use; [srcs|apply I; right; left; reflexivity|].
          eapply good_use; [srcs|apply I; right; right; left; reflexivity|]. eapply good_use; [srcs|apply K; left; reflexivity|].
          eapply good_use; [srcs|apply I; right; left; reflexivity|apply good_nil].
        * apply good_app; [apply good_want, good_nil|]. apply unique_good; auto.
    - destruct F as [F Fk]. destruct (key_mentioned k F) as [u [U1 U2]]. destruct k as [k x]. unfold w_impl_member in *. cbn [fst snd] in *.
      destruct k; try apply good_nil; destruct u; cbn in U2; try discriminate U2; destruct u; try discriminate U2; injection U2 as <-.
      + eapply good_use; [srcs|apply (picks _ _ U1); left; reflexivity|apply good_nil].
      + apply good_want. eapply good_use; [srcs|apply (picks _ _ U1); left; reflexivity|]. eapply good_use; [srcs|apply I; left; reflexivity|apply good_nil].
  Qed.

  Lemma pick_no_use t u : ~ In (Use u) (w_pick t).
  Proof.
    destruct t as [n| | | | | | | | | | | | | ]; cbn [w_pick]; intros I; try (split_in I; discriminate I).
    revert I. destruct (atom_from_str _) as [[]|]; intros I; split_in I; discriminate I.
  Qed.
  Lemma all_good u : In (Use u) ops -> exists w, In (u, w) sources /\ asked ops w = true.
  Proof.
    intros I. assert (G : good ops).
    { apply good_app; apply good_flat_map.
      - intros t _ v J. destruct (pick_no_use _ _ J).
      - intros p Ip. apply piece_good, Ip. }
    destruct (G u I) as [w [W1 W2]]. exists w. split; [exact W1|]. apply asked_In, W2.
  Qed.
End All.
