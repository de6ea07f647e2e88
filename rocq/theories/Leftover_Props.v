(** C97: linking when functions are switched off. *)
From Verif Require Import Base Syntax_Model Types_Model Types_Spec Types_Proofs Types_Proofs3 Types_Props Check_Model Check_Spec Check_Proofs Check_Proofs2 Check_Props
  Cfg_Model Cfg_Spec Cfg_Props Mangle_Model Mangle_Spec Mangle_Proofs Mangle_Proofs2 Mangle_Proofs3 Mangle_Props Leftover_Model Leftover_Spec.

(** The macro sees the whole bridge (tables [T]), the generator what is enabled
    (tables [T']). *)
Definition C97_claim : Prop := forall ord ord' c apis T T',
  accepted_bridge GMacro ord apis T -> accepted_bridge GBuild ord' (enabled c apis) T' -> wf_bridge apis ->
  forall s, In (Some s) (live_imports c T apis) -> In (Some s) (cxx_defs T' (enabled c apis)).

Lemma filter_all {A} (p : A -> bool) l : (forall x, In x l -> p x = true) -> filter p l = l.
Proof.
  induction l as [|a l IH]; intros H; [reflexivity|]. cbn. rewrite (H a (or_introl eq_refl)). f_equal. apply IH. intros x Hx. apply H. right. exact Hx.
Qed.

Lemma key_eq_dec (a b : impl_key) : {a = b} + {a <> b}.
Proof. decide equality; [apply string_dec|decide equality]. Qed.

Section Functions.
  Variables (c : config) (apis : list api).
  Hypothesis F : functions_only apis.
  Notation on := (enabled c apis).

  Lemma on_is : on = filter (fun a => holds c (api_cfg a)) apis.
  Proof using F.
    unfold enabled. rewrite <- (map_id (filter _ apis)) at 2. apply map_ext_in. intros a Ha. apply filter_In in Ha as (Ha & _).
    specialize (F a Ha). destruct a as [|s|e| | | | | |]; try reflexivity; destruct F as (_ & I); cbn.
    - f_equal. destruct s as [cf d n l fs]. unfold keep_fields. cbn. f_equal. apply filter_all. intros v Hv.
      rewrite (I (v_cfg v)); [reflexivity|]. cbn. apply in_map. exact Hv.
    - f_equal. destruct e as [cf d n l vs fh r er]. unfold keep_variants. cbn. f_equal. apply filter_all. intros v Hv.
      rewrite (I (vr_cfg v)); [reflexivity|]. cbn. apply in_map. exact Hv.
  Qed.
  Lemma on_in a : In a on <-> In a apis /\ holds c (api_cfg a) = true.
  Proof using F. rewrite on_is, filter_In. tauto. Qed.
  Lemma on_other a : In a apis -> (match a with ACxxFunction _ | ARustFunction _ => False | _ => True end) -> In a on.
  Proof using F.
    intros Ha N. apply on_in. split; [exact Ha|]. specialize (F a Ha). destruct a; try contradiction; destruct F as (-> & _); reflexivity.
  Qed.

  Lemma stands_filter P l x p : (forall a, In a l -> P a = false -> decl_name a = None) ->
    stands_for (filter P l) x p <-> stands_for l x p.
  Proof.
    induction l as [|a l IH]; intros H; [reflexivity|].
    assert (Cons : forall b m, stands_for (b :: m) x p <->
      stands_for m x p \/ (decl_name b = Some p /\ p_rust p = x /\ forall b' q, In b' m -> decl_name b' = Some q -> p_rust q <> x)).
    { clear. intros b m. split.
      - intros (pre & a & post & E & D & R & N). destruct pre as [|z pre]; cbn in E; injection E as -> ->.
        + right. auto.
        + left. exists pre, a, post. auto.
      - intros [(pre & a & post & -> & D & R & N)|(D & R & N)].
        + exists (b :: pre), a, post. auto.
        + exists [], b, m. auto. }
    cbn. destruct (P a) eqn:Pa.
    - rewrite !Cons, IH by (intros b Hb; apply H; right; exact Hb). apply or_iff_compat_l.
      split; intros (D & R & N); (split; [exact D|split; [exact R|]]); intros b' q I E.
      + destruct (P b') eqn:Pb; [apply (N b' q); [apply filter_In; auto|exact E]|]. rewrite (H b' (or_intror I) Pb) in E. discriminate.
      + apply (N b' q); [apply filter_In in I; tauto|exact E].
    - rewrite Cons, IH by (intros b Hb; apply H; right; exact Hb). split; [auto|]. intros [S|(D & _)]; [exact S|].
      rewrite (H a (or_introl eq_refl) Pa) in D. discriminate.
  Qed.
  Lemma stands_on x p : stands_for on x p <-> stands_for apis x p.
  Proof using F.
    rewrite on_is. apply stands_filter. intros a Ha E. specialize (F a Ha). destruct a; try reflexivity; destruct F as (X & _); rewrite X in E; discriminate.
  Qed.
  Lemma trivial_on x : maybe_trivial on x <-> maybe_trivial apis x.
  Proof using F.
    unfold maybe_trivial, is_struct, is_enum, is_alias.
    assert (Q : forall a, (match a with ACxxFunction _ | ARustFunction _ => False | _ => True end) -> (In a on <-> In a apis)).
    { intros a N. split; [intros I; apply on_in in I; tauto|intros I; apply on_other; assumption]. }
    split; (intros [(s & I & E)|[(s & I & E)|(s & I & E)]]; [left|right; left|right; right]); exists s; (split; [|exact E]); apply Q in I; auto; apply Q; auto; exact Logic.I.
  Qed.
  Lemma alias_on x : is_alias on x <-> is_alias apis x.
  Proof using F.
    split; intros (a & I & E); exists a; (split; [|exact E]).
    - apply on_in in I. tauto.
    - apply on_other; [exact I|exact Logic.I].
  Qed.
  Lemma instantiates_on g x : instantiates on g x -> instantiates apis g x.
  Proof using F.
    intros [(i & I & G)|(P & A & u & M & G)].
    - left. exists i. apply on_in in I. tauto.
    - right. split; [exact P|]. split; [rewrite alias_on in A; exact A|]. exists u. split; [|exact G].
      destruct M as [s f I1 I2 O|f y t I1 I2 O|f t I1 I2 O|i I1 O].
      + eapply me_field; eauto. apply on_in in I1. tauto.
      + eapply me_arg; eauto. destruct I1 as [I1|I1]; apply on_in in I1; tauto.
      + eapply me_ret; eauto. destruct I1 as [I1|I1]; apply on_in in I1; tauto.
      + eapply me_impl; eauto. apply on_in in I1. tauto.
  Qed.
  Lemma fn_entity_on f e : fn_entity on f e <-> fn_entity apis f e.
  Proof using F.
    split; (intros [R|r p R S]; [apply fe_free; exact R|eapply fe_method; [exact R|apply stands_on; exact S]]).
  Qed.
  Lemma tramp_on f h e : trampoline_entity on f h e <-> trampoline_entity apis f h e.
  Proof using F.
    split; (intros [x un th args ret R I|r p x un th args ret R S I]; [eapply te_free; eauto|eapply te_method; eauto; apply stands_on; exact S]).
  Qed.
  Lemma impl_cxx_on k e : impl_cxx on k e <-> impl_cxx apis k e.
  Proof using F.
    pose proof (trivial_on (snd k)) as M. split; intros (p & S & H); exists p; (split; [apply stands_on; exact S|]); destruct (fst k); auto;
      try (destruct H as (op & H & E); exists op; split; [tauto|exact E]);
      (destruct H as [(op & H & E)|H]; [left; exists op; split; [tauto|exact E]|right; exact H]).
  Qed.
  Lemma impl_rust_on k e : impl_rust on k e <-> impl_rust apis k e.
  Proof using F. split; intros (p & S & H); exists p; (split; [apply stands_on; exact S|exact H]). Qed.

  Variables (ord ord' : nat -> list string -> list string) (T T' : types).
  Hypothesis A : accepted_bridge GMacro ord apis T.
  Hypothesis A' : accepted_bridge GBuild ord' on T'.
  Hypothesis W : wf_bridge apis.

  Lemma wf_on : wf_bridge on.
  Proof using F W.
    intros p Hp. apply W. destruct Hp as [q lts D|s f S G|e v S G|f S|f x t S G].
    - apply (in_type _ _ lts). destruct D as [? I|? I|? I|? I|? I]; apply on_in in I as (I & _);
        [apply Check_Spec.de_struct|apply Check_Spec.de_enum|apply Check_Spec.de_cxx|apply Check_Spec.de_rust|apply Check_Spec.de_alias]; exact I.
    - eapply in_field; [apply on_in in S as (S & _); exact S|exact G].
    - eapply in_variant; [apply on_in in S as (S & _); exact S|exact G].
    - apply in_fn. destruct S as [S|S]; apply on_in in S; [left|right]; tauto.
    - eapply in_arg; [|exact G]. destruct S as [S|S]; apply on_in in S; [left|right]; tauto.
  Qed.

  Lemma key_on k : In k (map fst (t_impls T')) -> In k (map fst (t_impls T)).
  Proof using F A A'.
    intros H. destruct k as (k, x). pose proof (instantiates_key _ _ _ _ A' k x) as K'. pose proof (instantiates_key _ _ _ _ A k x) as K.
    apply K. apply instantiates_on. apply K'. exact H.
  Qed.

  Lemma imports_ok : realizes (live_imports c T apis)
    (fun e => (exists a, In a apis /\ holds c (api_cfg a) = true /\ api_cxx apis a e) \/ (exists k, In k (map fst (t_impls T)) /\ impl_cxx apis k e)).
  Proof using A W.
    apply (realizes_bridge apis T (fun a => when (holds c (api_cfg a)) (rust_api_imports T a)) (rust_impl_imports T)
      (fun a e => holds c (api_cfg a) = true /\ api_cxx apis a e) (impl_cxx apis)); [|intros k; eapply rust_impl_imports_ok; eauto].
    intros a Ha. apply realizes_when. destruct a; try apply realizes_nil. cbn [rust_api_imports api_cxx].
    change (?x :: ?l) with ([x] ++ l). apply realizes_app; [eapply fn_ok|eapply c_tramp_ok]; eauto; left; exact Ha.
  Qed.
  Lemma exports_ok : realizes (live_exports c T apis)
    (fun e => (exists a, In a apis /\ (match a with ACxxFunction _ | ARustFunction _ => holds c (api_cfg a) = true | _ => True end) /\ api_rust apis a e) \/
              (exists k, In k (map fst (t_impls T)) /\ impl_rust apis k e)).
  Proof using A W.
    apply (realizes_bridge apis T _ (rust_impl_exports T)
      (fun a e => (match a with ACxxFunction _ | ARustFunction _ => holds c (api_cfg a) = true | _ => True end) /\ api_rust apis a e) (impl_rust apis));
      [|intros k; eapply rust_impl_exports_ok; eauto].
    intros a Ha. destruct a; cbn [rust_api_exports api_rust];
      try (apply realizes_when); try (eapply realizes_ext; [|apply realizes_nil]; tauto);
      try (eapply r_tramp_ok; eauto; left; exact Ha); try (eapply fn_ok; eauto; right; exact Ha).
    - eapply realizes_ext; [|exact (rust_operator_exports_ok _ _ _ _ A W s Ha)]. intros e. tauto.
    - eapply realizes_ext; [|exact (layout_ok _ _ _ _ A W t Ha)]. intros e. tauto.
  Qed.

  Lemma generic_of_cxx k e : impl_cxx apis k e -> exists p i op, stands_for apis (snd k) p /\ instance_type i = cxx_name p /\ e = EGeneric i op.
  Proof.
    intros (p & S & H). destruct (fst k); try contradiction.
    - destruct H as (op & _ & ->). exists p, (IUnique (cxx_name p)), op. auto.
    - destruct H as (op & _ & ->). exists p, (IShared (cxx_name p)), op. auto.
    - destruct H as (op & _ & ->). exists p, (IWeak (cxx_name p)), op. auto.
    - destruct H as [(op & _ & ->)|(op & _ & ->)]; [exists p, (IVector (cxx_name p)), op|exists p, (IUniqueVector (cxx_name p)), op]; auto.
  Qed.
  Lemma generic_of_rust k e : impl_rust apis k e -> exists p i op, stands_for apis (snd k) p /\ instance_type i = cxx_name p /\ e = EGeneric i op.
  Proof.
    intros (p & S & H). destruct (fst k); try contradiction; destruct H as (op & _ & ->); [exists p, (IBox (cxx_name p)), op|exists p, (IVec (cxx_name p)), op]; auto.
  Qed.
  Lemma key_dec k : In k (map fst (t_impls T)) -> In k (map fst (t_impls T')) \/ leftover c apis (kind_name (fst k)) (snd k).
  Proof using A A'.
    intros H. destruct k as (k, x). pose proof (instantiates_key _ _ _ _ A' k x) as K'. pose proof (instantiates_key _ _ _ _ A k x) as K.
    destruct (in_dec key_eq_dec (k, x) (map fst (t_impls T'))) as [I|N]; [left; exact I|].
    right. split; [apply K; exact H|]. intros X. apply N, K'. exact X.
  Qed.
End Functions.

(** With only functions conditional: all that C++ defines is used by Rust; what Rust refers to and
    C++ does not define belongs to instantiations that only switched off functions mention (missing
    from the claim: those); and all that C++ refers to is exported. *)
Theorem C97_functions_partial : forall ord ord' c apis T T',
  accepted_bridge GMacro ord apis T -> accepted_bridge GBuild ord' (enabled c apis) T' -> wf_bridge apis -> functions_only apis ->
  (forall s, In (Some s) (cxx_defs T' (enabled c apis)) -> In (Some s) (live_imports c T apis)) /\
  (forall s, In (Some s) (live_imports c T apis) -> In (Some s) (cxx_defs T' (enabled c apis)) \/ dangling c apis s) /\
  (forall s, In (Some s) (cxx_decls T' (enabled c apis)) \/ In (Some s) (cxx_calls T' (enabled c apis)) -> In (Some s) (live_exports c T apis)) /\
  (forall s, In (Some s) (live_exports c T apis) -> In (Some s) (cxx_calls T' (enabled c apis)) \/ dangling c apis s).
Proof.
  intros ord ord' c apis T T' A A' W F.
  pose proof (imports_ok c apis ord T A W) as RI. pose proof (exports_ok c apis ord T A W) as RE.
  pose proof (wf_on c apis F W) as W'.
  pose proof (cxx_defs_ok _ _ _ _ A' W') as RD. pose proof (cxx_decls_ok _ _ _ _ A' W') as RC. pose proof (cxx_calls_ok _ _ _ _ A' W') as RL.
  assert (Fn : forall f, In (ACxxFunction f) (enabled c apis) <-> In (ACxxFunction f) apis /\ holds c (api_cfg (ACxxFunction f)) = true) by (intros f; apply on_in; exact F).
  assert (Gn : forall f, In (ARustFunction f) (enabled c apis) <-> In (ARustFunction f) apis /\ holds c (api_cfg (ARustFunction f)) = true) by (intros f; apply on_in; exact F).
  assert (Rust : forall e, rust_provides (enabled c apis) e ->
    (exists a, In a apis /\ (match a with ACxxFunction _ | ARustFunction _ => holds c (api_cfg a) = true | _ => True end) /\ api_rust apis a e) \/
    (exists k, In k (map fst (t_impls T)) /\ impl_rust apis k e)).
  { intros e H. apply (rust_provides_iff _ _ _ _ A') in H as [(a & Ia & H)|(k & Ik & H)].
    - left. exists a. apply (on_in c apis F) in Ia as (Ia & Ho). split; [exact Ia|]. split; [destruct a; auto|].
      destruct a; cbn in *; auto; [eapply tramp_on; eauto|eapply fn_entity_on; eauto].
    - right. exists k. split; [eapply key_on; eauto|]. eapply impl_rust_on; eauto. }
  split; [|split; [|split]].
  - intros s H. apply RD in H as (e & H & E). apply RI. exists e. split; [|exact E].
    apply (cxx_provides_iff _ _ _ _ A') in H as [(a & Ia & H)|(k & Ik & H)].
    + left. exists a. apply (on_in c apis F) in Ia as (Ia & Ho). split; [exact Ia|]. split; [exact Ho|].
      destruct a; cbn in *; auto. destruct H as [H|H]; [left; eapply fn_entity_on; eauto|right; eapply tramp_on; eauto].
    + right. exists k. split; [eapply key_on; eauto|]. eapply impl_cxx_on; eauto.
  - intros s H. apply RI in H as (e & [(a & Ia & Ho & H)|(k & Ik & H)] & E).
    + left. apply RD. exists e. split; [|exact E]. apply (cxx_provides_iff _ _ _ _ A'). left. exists a. split; [apply on_in; auto|].
      destruct a; cbn in *; auto. destruct H as [H|H]; [left; eapply fn_entity_on; eauto|right; eapply tramp_on; eauto].
    + destruct (key_dec c apis ord ord' T T' A A' k Ik) as [I|L].
      * left. apply RD. exists e. split; [|exact E]. apply (cxx_provides_iff _ _ _ _ A'). right. exists k. split; [exact I|]. eapply impl_cxx_on; eauto.
      * right. destruct (generic_of_cxx apis k e H) as (p & i & op & S & Ti & ->). exists (kind_name (fst k)), (snd k), p, i, op.
        split; [exact L|]. split; [exact S|]. split; [exact Ti|]. unfold slink in E. injection E as ->. reflexivity.
  - intros s [H|H]; [apply RC in H as (e & H & E)|apply RL in H as (e & H & E)]; apply RE; exists e; auto.
  - intros s H. apply RE in H as (e & [(a & Ia & Ho & H)|(k & Ik & H)] & E).
    + left. apply RL. exists e. split; [|exact E]. apply (rust_provides_iff _ _ _ _ A'). left. exists a. split.
      * destruct a; try (apply on_in; auto; fail); apply on_other; auto.
      * destruct a; cbn in *; auto; [eapply tramp_on; eauto|eapply fn_entity_on; eauto].
    + destruct (key_dec c apis ord ord' T T' A A' k Ik) as [I|L].
      * left. apply RL. exists e. split; [|exact E]. apply (rust_provides_iff _ _ _ _ A'). right. exists k. split; [exact I|]. eapply impl_rust_on; eauto.
      * right. destruct (generic_of_rust apis k e H) as (p & i & op & S & Ti & ->). exists (kind_name (fst k)), (snd k), p, i, op.
        split; [exact L|]. split; [exact S|]. split; [exact Ti|]. unfold slink in E. injection E as ->. reflexivity.
Qed.
Print Assumptions C97_functions_partial.

(** So the claim holds where no instantiation is left over. *)
Theorem C97_no_leftover : forall ord ord' c apis T T',
  accepted_bridge GMacro ord apis T -> accepted_bridge GBuild ord' (enabled c apis) T' -> wf_bridge apis -> functions_only apis ->
  (forall g x, ~ leftover c apis g x) ->
  (forall s, In (Some s) (live_imports c T apis) <-> In (Some s) (cxx_defs T' (enabled c apis))) /\
  (forall s, In (Some s) (live_exports c T apis) <-> In (Some s) (cxx_decls T' (enabled c apis))) /\
  (forall s, In (Some s) (live_exports c T apis) <-> In (Some s) (cxx_calls T' (enabled c apis))).
Proof.
  intros ord ord' c apis T T' A A' W F N. destruct (C97_functions_partial _ _ _ _ _ _ A A' W F) as (P1 & P2 & P3 & P4).
  assert (D : forall s, ~ dangling c apis s) by (intros s (g & x & p & i & op & L & _); exact (N g x L)).
  destruct (C12_symbols_agree _ _ _ _ A' (wf_on c apis F W)) as (_ & _ & _ & _ & Sc & Sl).
  split; [|split]; intros s.
  - split; [|apply P1]. intros H. destruct (P2 s H) as [X|X]; [exact X|destruct (D s X)].
  - split; [|intros H; apply P3; auto]. intros H. destruct (P4 s H) as [X|X]; [|destruct (D s X)]. apply Sc, Sl. exact X.
  - split; [|intros H; apply P3; auto]. intros H. destruct (P4 s H) as [X|X]; [exact X|destruct (D s X)].
Qed.
Print Assumptions C97_no_leftover.

(** False: C++ functions that take a std::unique_ptr of a class, one of them switched off, so that
    the other's class has no instantiation in C++ … *)
Local Definition off : config := fun _ _ => false.
Local Definition flag : cfg_expr := CEq "feature" (Some "x").
Local Definition I_ (a : string) : ty := TIdent (Named a []).
Local Definition cls x := ACxxType (ExternType CUnconditional LCxx [] (Pair [] x x) [] [] false).
Local Definition takes cf f t := ACxxFunction (ExternFn cf LCxx (Pair [] f f) false false [] None [("a", t)] None false true).
Local Definition half := [cls "C"; cls "D"; takes CUnconditional "f" (TUniquePtr (I_ "C")); takes flag "g" (TUniquePtr (I_ "D"))].
Lemma refutes_claim apis s : accepts GMacro apis = true -> accepts GBuild (enabled off apis) = true -> wf_bridgeb apis = true ->
  (forall T, accepted_bridge GMacro id_order apis T -> In (Some s) (live_imports off T apis)) ->
  (forall T, accepted_bridge GBuild id_order (enabled off apis) T -> ~ In (Some s) (cxx_defs T (enabled off apis))) -> ~ C97_claim.
Proof.
  intros A A' W I N H. destruct (accepts_ok _ _ A) as (T & HT), (accepts_ok _ _ A') as (T' & HT').
  apply (N T' HT'). apply (H _ _ _ _ _ _ HT HT'); [apply wf_bridgeb_ok; exact W|auto].
Qed.
Theorem C97_function_refuted : ~ C97_claim.
Proof.
  apply (refutes_claim half "cxxbridge1$unique_ptr$D$drop"); try (vm_compute; reflexivity).
  - intros T ((_ & Hc) & _). vm_compute in Hc. injection Hc as <-. vm_compute. tauto.
  - intros T ((_ & Hc) & _). vm_compute in Hc. injection Hc as <-. vm_compute. intros H. repeat (destruct H as [H|H]; [discriminate|]). exact H.
Qed.
Print Assumptions C97_function_refuted.

(** … and an explicit instantiation that is itself switched off. *)
Theorem C97_impl_refuted : ~ C97_claim.
Proof.
  apply (refutes_claim [cls "C"; AImpl (Impl_ flag [] false (TUniquePtr (I_ "C")))] "cxxbridge1$unique_ptr$C$drop"); try (vm_compute; reflexivity).
  - intros T ((_ & Hc) & _). vm_compute in Hc. injection Hc as <-. vm_compute. tauto.
  - intros T ((_ & Hc) & _). vm_compute in Hc. injection Hc as <-. vm_compute. intros H. repeat (destruct H as [H|H]; [discriminate|]). exact H.
Qed.
Print Assumptions C97_impl_refuted.

(** The example bridge meets the hypotheses of the theorem; with the flag set nothing is left over. *)
Example C97_nonvacuous : functions_only half /\ wf_bridge half /\
  (exists T, accepted_bridge GMacro id_order half T) /\ (exists T, accepted_bridge GBuild id_order (enabled off half) T) /\
  dangling off half "cxxbridge1$unique_ptr$D$drop" /\
  enabled (fun _ _ => true) half = half.
Proof.
  split.
  { intros a [<-|[<-|[<-|[<-|[]]]]]; try exact Logic.I; (split; [reflexivity|intros e []]). }
  split; [apply wf_bridgeb_ok; reflexivity|]. split; [apply accepts_ok; reflexivity|]. split; [apply accepts_ok; vm_compute; reflexivity|].
  split; [|reflexivity].
  destruct (accepts_ok GMacro half eq_refl) as (T & HT). destruct (accepts_ok GBuild (enabled off half) ltac:(vm_compute; reflexivity)) as (T' & HT').
  exists "UniquePtr", "D", (Pair [] "D" "D"), (IUnique ([], "D")), "drop". split; [|split; [|split; reflexivity]].
  - split.
    + apply (instantiates_key _ _ _ _ HT KUnique "D"). destruct HT as ((_ & Hc) & _). vm_compute in Hc. injection Hc as <-. vm_compute. tauto.
    + intros X. apply (instantiates_key _ _ _ _ HT' KUnique "D") in X. destruct HT' as ((_ & Hc) & _). vm_compute in Hc. injection Hc as <-.
      vm_compute in X. repeat (destruct X as [X|X]; [discriminate|]). exact X.
  - exists [cls "C"], (cls "D"), [takes CUnconditional "f" (TUniquePtr (I_ "C")); takes flag "g" (TUniquePtr (I_ "D"))].
    repeat split. intros b q [<-|[<-|[]]] X; discriminate.
Qed.
