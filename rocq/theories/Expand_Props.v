(** C59: what is left of a disabled item in the Rust expansion.  Specification:
    Expand_Spec.v. *)
From Verif Require Import Base Syntax_Model Toposort_Spec Types_Model Types_Spec Types_Props Check_Model Check_Spec Check_Proofs Check_Proofs2 Check_Props
  Cfg_Model Cfg_Spec Cfg_Props Mangle_Model Mangle_Spec Types_Proofs Types_Proofs3 Expand_Model Expand_Spec.

Local Definition nm (a : string) : pair_name := Pair [] a a.
Local Definition I_ (a : string) : ty := TIdent (Named a []).
Local Definition flag : cfg_expr := CEq "feature" (Some "x").
Local Definition off : config := fun _ _ => false.

(** The bridge is accepted, and so is what the configuration leaves of it. *)
Definition C59_claim : Prop := forall ord ord' c apis T T', accepted_bridge GMacro ord apis T ->
  accepted_bridge GMacro ord' (enabled c apis) T' -> all_defined c apis (expand T apis).

Lemma refute apis i n : accepts GMacro apis = true -> accepts GMacro (enabled off apis) = true ->
  (forall T, accepted_bridge GMacro id_order apis T -> In i (expand T apis)) -> present off i (ri_uses i) n -> (forall x, n <> NOuter x) ->
  (forall T j, accepted_bridge GMacro id_order apis T -> In j (expand T apis) -> present off j (ri_defs j) n -> False) -> ~ C59_claim.
Proof.
  intros A B Hi Hn Ho Hd H. destruct (accepts_ok _ _ A) as (T & HT). destruct (accepts_ok _ _ B) as (T' & HT').
  destruct (H _ _ off apis T T' HT HT' i n (Hi T HT) Hn) as [(j & Hj & P)|(x & E & _)]; [exact (Hd T j HT Hj P)|exact (Ho x E)].
Qed.
Ltac no_def := intros ? ? ((_ & Hc) & _) Hj (C & e & I & E); vm_compute in Hc; injection Hc as <-;
  vm_compute in Hj; repeat (destruct Hj as [<-|Hj]; [cbn in C, I; try discriminate C; repeat (destruct I as [I|I]; [try discriminate I; injection I as <-; discriminate E|]); try exact I; fail|]); exact Hj.

(** False: a disabled struct leaves its impls behind. *)
Theorem C59_struct_refuted : ~ C59_claim.
Proof.
  apply (refute [AStruct (Struct_ flag [] (nm "S") [] [Var CUnconditional (nm "f") (I_ "u8")])] (plain_item [NType "S"]) (NType "S")); try reflexivity.
  - intros T _. right. left. reflexivity.
  - split; [reflexivity|]. exists CUnconditional. split; [left; reflexivity|reflexivity].
  - discriminate.
  - no_def.
Qed.
Print Assumptions C59_struct_refuted.

(** False: the Debug impl of an enum matches on a disabled variant. *)
Theorem C59_variant_refuted : ~ C59_claim.
Proof.
  apply (refute [AEnum (Enum_ CUnconditional [DDebug] (nm "E") [] [Variant flag (nm "A") 0; Variant CUnconditional (nm "B") 1] false AU8 true)]
    (plain_item [NType "E"; NVariant "E" "A"; NVariant "E" "B"]) (NVariant "E" "A")); try reflexivity.
  - intros T _. right. right. right. left. reflexivity.
  - split; [reflexivity|]. exists CUnconditional. split; [right; left; reflexivity|reflexivity].
  - discriminate.
  - no_def.
Qed.
Print Assumptions C59_variant_refuted.

(** False: the Clone impl of a struct copies a disabled field. *)
Theorem C59_field_refuted : ~ C59_claim.
Proof.
  apply (refute [AStruct (Struct_ CUnconditional [DClone] (nm "S") [] [Var flag (nm "f") (I_ "u8"); Var CUnconditional (nm "g") (I_ "u8")])]
    (plain_item [NType "S"; NField "S" "f"; NField "S" "g"]) (NField "S" "f")); try reflexivity.
  - intros T _. right. right. left. reflexivity.
  - split; [reflexivity|]. exists CUnconditional. split; [right; left; reflexivity|reflexivity].
  - discriminate.
  - no_def.
Qed.
Print Assumptions C59_field_refuted.

(** False: a disabled Rust type is still imported from the enclosing module. *)
Theorem C59_import_refuted : ~ C59_claim.
Proof.
  intros H. pose (t := ExternType flag LRust [] (nm "R") [] [] true).
  destruct (accepts_ok GMacro [ARustType t] eq_refl) as (T & HT). destruct (accepts_ok GMacro [] eq_refl) as (T' & HT').
  destruct (H _ _ off [ARustType t] T T' HT HT' (RItem CUnconditional (always [NType "R"]) (always [NOuter "R"])) (NOuter "R")) as [(j & Hj & C & e & I & E)|(x & _ & a & [<-|[]] & D & _)].
  - left. reflexivity.
  - split; [reflexivity|]. exists CUnconditional. split; [left; reflexivity|reflexivity].
  - destruct HT as ((_ & Hc) & _). vm_compute in Hc. injection Hc as <-. vm_compute in Hj.
    repeat (destruct Hj as [<-|Hj]; [cbn in C, I; repeat (destruct I as [I|I]; [discriminate I|]); destruct I|]). exact Hj.
  - discriminate D.
Qed.
Print Assumptions C59_import_refuted.

(** What holds: bridges in which only functions and type aliases carry a cfg, and no
    explicit impl names a conditional alias. *)
Definition only_functions_conditional (apis : list api) : Prop :=
  (forall a, In a apis -> match a with
     | AStruct s => st_cfg s = CUnconditional /\ forall f, In f (st_fields s) -> v_cfg f = CUnconditional
     | AEnum e => en_cfg e = CUnconditional /\ forall v, In v (en_variants e) -> vr_cfg v = CUnconditional
     | ACxxType t | ARustType t => et_cfg t = CUnconditional
     | _ => True
     end) /\
  (forall i k x a, In (AImpl i) apis -> generic_over k x (im_ty i) -> In (ATypeAlias a) apis -> p_rust (ta_name a) = x -> ta_cfg a = CUnconditional).

Lemma type_names_occur t : forall x, In x (type_names t) -> exists n, occurs (TIdent n) t /\ n_rust n = x /\ ~ is_primitive x.
Proof.
  assert (W : forall t u, (forall x, In x (type_names t) -> exists n, occurs (TIdent n) t /\ n_rust n = x /\ ~ is_primitive x) ->
    (forall v, occurs v t -> occurs v u) -> forall x, In x (type_names t) -> exists n, occurs (TIdent n) u /\ n_rust n = x /\ ~ is_primitive x).
  { intros t0 u H K x Hx. destruct (H x Hx) as (n & O & E & P). exists n. auto. }
  induction t using ty_ind'; cbn [type_names]; intros x Hx;
    try (match goal with IH : forall x, In x (type_names ?t) -> _ |- _ => apply (W t); [exact IH|intros v O; constructor; exact O|exact Hx] end).
  - destruct (atom_from_str (n_rust n)) as [a|] eqn:E; cbn in Hx; [destruct Hx|]. destruct Hx as [<-|[]]. exists n.
    split; [constructor|]. split; [reflexivity|]. intros (b & B). congruence.
  - destruct Hx.
  - apply in_app_iff in Hx. destruct Hx as [Hx|Hx].
    + apply in_flat_map in Hx. destruct Hx as ((y, t) & Hy & Hx). cbn in Hx. rewrite Forall_forall in H.
      destruct (H _ Hy x Hx) as (n & O & E & P). exists n. split; [eapply oc_arg; eassumption|auto].
    + destruct ret as [r|]; [|destruct Hx]. destruct (H0 _ eq_refl x Hx) as (n & O & E & P). exists n. split; [apply oc_ret; exact O|auto].
  - destruct Hx.
Qed.

Section Partial.
  Context (ord ord' : nat -> list string -> list string) (c : config) (apis : list api) (T T' : types).
  Hypothesis HT : accepted_bridge GMacro ord apis T.
  Hypothesis HT' : accepted_bridge GMacro ord' (enabled c apis) T'.
  Hypothesis Hc : only_functions_conditional apis.

  Lemma in_enabled a : In a (enabled c apis) -> exists b, In b apis /\ holds c (api_cfg b) = true /\ a = keep_inner c b.
  Proof. unfold enabled. rewrite in_map_iff. intros (b & <- & Hb). apply filter_In in Hb. exists b. tauto. Qed.
  Lemma enabled_in b : In b apis -> holds c (api_cfg b) = true -> In (keep_inner c b) (enabled c apis).
  Proof. intros H1 H2. unfold enabled. apply in_map. apply filter_In. auto. Qed.

  (** [x] is declared by an item that is enabled. *)
  Definition live (x : string) : Prop := exists a p, In a apis /\ holds c (api_cfg a) = true /\ decl_name a = Some p /\ p_rust p = x.

  Lemma def_here a i n e : In a apis -> In i (expand_api T a) -> holds c (ri_cfg i) = true -> In (e, n) (ri_defs i) -> holds c e = true ->
    exists j, In j (expand T apis) /\ present c j (ri_defs j) n.
  Proof.
    intros Ha Hi H1 H2 H3. exists i. split; [|split; [exact H1|exists e; auto]]. unfold expand. rewrite !in_app_iff. right. left.
    apply in_flat_map. exists a. auto.
  Qed.

  Lemma struct_defined s : In (AStruct s) apis -> exists j, In j (expand T apis) /\ present c j (ri_defs j) (NType (p_rust (st_name s))).
  Proof.
    intros H. destruct Hc as (H1 & _). specialize (H1 _ H). cbn in H1. destruct H1 as (E & _).
    eapply (def_here (AStruct s)); [exact H|left; reflexivity|cbn; rewrite E; reflexivity|left; reflexivity|reflexivity].
  Qed.
  Lemma enum_defined e : In (AEnum e) apis -> exists j, In j (expand T apis) /\ present c j (ri_defs j) (NType (p_rust (en_name e))).
  Proof.
    intros H. destruct Hc as (H1 & _). specialize (H1 _ H). cbn in H1. destruct H1 as (E & _).
    eapply (def_here (AEnum e)); [exact H|left; reflexivity|cbn; rewrite E; reflexivity|left; reflexivity|reflexivity].
  Qed.
  Lemma live_defined x : live x -> exists j, In j (expand T apis) /\ present c j (ri_defs j) (NType x).
  Proof.
    intros (a & p & Ha & Hh & Hd & <-). destruct a as [|s|e|t|f|t|f|t|i]; cbn in Hd; try discriminate Hd; injection Hd as <-.
    - apply struct_defined. exact Ha.
    - apply enum_defined. exact Ha.
    - destruct (has (p_rust (et_name t)) (t_structs T)) eqn:E1.
      { destruct HT as ((_ & Hcol) & _). destruct (collect_facts _ _ _ _ Hcol) as [order [terrs [imp [_ [_ [_ [Es _]]]]]]]. rewrite Es in E1.
        unfold has in E1. destruct (assoc _ _) as [s|] eqn:A; [|discriminate E1].
        destruct (structs_none apis (p_rust (et_name t))) as (_ & N).
        assert (is_struct apis (p_rust (et_name t))) as (s' & S1 & S2).
        { rewrite structs_last in A. apply last_struct_has. rewrite A. reflexivity. }
        rewrite <- S2. apply struct_defined. exact S1. }
      destruct (has (p_rust (et_name t)) (t_enums T)) eqn:E2.
      { destruct HT as ((_ & Hcol) & _). destruct (collect_facts _ _ _ _ Hcol) as [order [terrs [imp [_ [_ [_ [_ [Ee _]]]]]]]]. rewrite Ee in E2.
        apply enums_has in E2. destruct E2 as (e & S1 & S2). rewrite <- S2. apply enum_defined. exact S1. }
      eapply (def_here (ACxxType t)); [exact Ha|cbn [expand_api]; rewrite E1, E2; left; reflexivity|exact Hh|left; reflexivity|reflexivity].
    - exists (RItem CUnconditional (always [NType (p_rust (et_name t))]) (always [NOuter (p_rust (et_name t))])). split.
      + unfold expand. apply in_app_iff. left. apply in_flat_map. exists (ARustType t). split; [exact Ha|left; reflexivity].
      + split; [reflexivity|]. exists CUnconditional. split; [left; reflexivity|reflexivity].
    - eapply (def_here (ATypeAlias t)); [exact Ha|left; reflexivity|exact Hh|left; reflexivity|reflexivity].
  Qed.

  Lemma declares_live x p lts : declares (enabled c apis) p lts -> p_rust p = x -> live x.
  Proof.
    intros D E. destruct D as [s H|e H|t H|t H|t H]; destruct (in_enabled _ H) as (b & Hb & Hh & Eb); destruct b; try discriminate Eb; cbn in Eb; injection Eb as ->;
      eexists _, _; (split; [exact Hb|split; [exact Hh|split; [reflexivity|exact E]]]).
  Qed.
  Lemma mentioned_live n : mentioned (enabled c apis) (TIdent n) -> ~ is_primitive (n_rust n) -> live (n_rust n).
  Proof.
    intros M P. destruct (proj1 (C51_names_resolve _ _ _ _ HT') n M) as [Q|(p & lts & _ & D & E)]; [contradiction|]. eapply declares_live; eassumption.
  Qed.
  Lemma signature_live f n : In (ACxxFunction f) apis \/ In (ARustFunction f) apis -> holds c (fn_cfg f) = true -> In n (signature_names f) ->
    exists x, n = NType x /\ live x.
  Proof.
    intros Hf Hh Hn. assert (Hf' : In (ACxxFunction f) (enabled c apis) \/ In (ARustFunction f) (enabled c apis)).
    { destruct Hf as [Hf|Hf]; [left; exact (enabled_in (ACxxFunction f) Hf Hh)|right; exact (enabled_in (ARustFunction f) Hf Hh)]. }
    unfold signature_names in Hn. apply in_map_iff in Hn. destruct Hn as (x & <- & Hx). exists x. split; [reflexivity|].
    rewrite !in_app_iff in Hx. destruct Hx as [Hx|[Hx|Hx]].
    - destruct (fn_receiver f) as [r|] eqn:Er; [|destruct Hx]. destruct Hx as [<-|[]].
      destruct (proj2 (C51_names_resolve _ _ _ _ HT') f r Hf' Er) as (p & lts & _ & D & E). eapply declares_live; eassumption.
    - apply in_flat_map in Hx. destruct Hx as ((y, t) & Hy & Hx). destruct (type_names_occur t x Hx) as (n & O & E & P). subst x.
      apply mentioned_live; [eapply me_arg; eassumption|exact P].
    - destruct (fn_ret f) as [r|] eqn:Er; [|destruct Hx]. destruct (type_names_occur r x Hx) as (n & O & E & P). subst x.
      apply mentioned_live; [eapply me_ret; eassumption|exact P].
  Qed.
  Lemma impl_live k x : In (k, x) (map fst (t_impls T)) -> ~ is_primitive x -> live x.
  Proof.
    intros H P. assert (G := HT). destruct G as ((Ho & Hcol) & _). destruct (C17_instantiations _ _ _ _ Ho Hcol) as (_ & I & _). apply I in H. clear I.
    assert (M : forall u, mentioned apis u -> generic_over (kind_name k) x u -> exists n, mentioned apis (TIdent n) /\ n_rust n = x).
    { intros u M Gu. assert (O : forall n, occurs (TIdent n) u -> mentioned apis (TIdent n)).
      { intros n O. assert (Tr : forall t, occurs u t -> occurs (TIdent n) t).
        { intros t. clear -O. induction 1; try (constructor; auto; fail); auto. eapply oc_arg; eauto. }
        destruct M; [eapply me_field|eapply me_arg|eapply me_ret|eapply me_impl]; eauto. }
      inversion Gu; subst; (exists n; split; [apply O; repeat constructor|reflexivity]). }
    assert (D : exists n, mentioned apis (TIdent n) /\ n_rust n = x).
    { destruct H as [(i & Hi & Gi)|(_ & _ & u & Mu & Gu)]; [|eapply M; eassumption]. apply (M (im_ty i)); [|exact Gi]. eapply me_impl; [exact Hi|constructor]. }
    destruct D as (n & Mn & <-). destruct (proj1 (C51_names_resolve _ _ _ _ HT) n Mn) as [Q|(p & lts & _ & D & E)]; [contradiction|].
    destruct Hc as (H1 & H2). destruct D as [s D|e D|t D|t D|t D]; pose proof (H1 _ D) as Q; cbn in Q.
    - exists (AStruct s), (st_name s). cbn. destruct Q as (-> & _). auto.
    - exists (AEnum e), (en_name e). cbn. destruct Q as (-> & _). auto.
    - exists (ACxxType t), (et_name t). cbn. rewrite Q. auto.
    - exists (ARustType t), (et_name t). cbn. rewrite Q. auto.
    - exists (ATypeAlias t), (ta_name t). cbn. split; [exact D|]. split; [|auto].
      destruct H as [(i & Hi & Gi)|(_ & Na & _)]; [rewrite (H2 i (kind_name k) (n_rust n) t Hi Gi D E); reflexivity|].
      exfalso. apply Na. exists t. auto.
  Qed.
End Partial.

Lemma always_use c g ds l n : present c (RItem g ds (always l)) (ri_uses (RItem g ds (always l))) n -> In n l.
Proof. intros (_ & e & I & _). cbn in I. unfold always in I. apply in_map_iff in I. destruct I as (m & Em & Im). injection Em as _ <-. exact Im. Qed.

Local Arguments always : simpl never.
Local Arguments plain_item : simpl never.
Theorem C59_functions_partial : forall ord ord' c apis T T', accepted_bridge GMacro ord apis T ->
  accepted_bridge GMacro ord' (enabled c apis) T' -> only_functions_conditional apis -> all_defined c apis (expand T apis).
Proof.
  intros ord ord' c apis T T' HT HT' Hc i n Hi Hn.
  assert (L : forall x, live c apis x -> n = NType x -> (exists j, In j (expand T apis) /\ present c j (ri_defs j) n) \/ exists x, n = NOuter x /\ provided c apis x).
  { intros x Hx ->. left. eapply live_defined; eassumption. }
  assert (K := proj1 Hc).
  unfold expand in Hi. rewrite !in_app_iff in Hi. destruct Hi as [Hi|[Hi|Hi]]; apply in_flat_map in Hi.
  - destruct Hi as (a & Ha & Hi). destruct a as [| | | | |x| | |]; try (destruct Hi; fail). pose proof (K _ Ha) as Q. cbn in Q.
    destruct Hi as [<-|[<-|[]]].
    + apply always_use in Hn. destruct Hn as [<-|[]]. right. eexists. split; [reflexivity|].
      exists (ARustType x). split; [exact Ha|]. cbn. rewrite Q. auto.
    + apply always_use in Hn. destruct Hn as [<-|[]]. apply (L (p_rust (et_name x))); [|reflexivity].
      exists (ARustType x), (et_name x). cbn. rewrite Q. auto.
  - destruct Hi as (a & Ha & Hi). pose proof (K _ Ha) as Q. destruct a as [|s|e|t|f|t|f|t|im]; cbn in Hi, Q; try (destruct Hi; fail).
    + destruct Q as (Q & Qf).
      assert (Ls : live c apis (p_rust (st_name s))) by (exists (AStruct s), (st_name s); cbn; rewrite Q; auto).
      assert (F : forall m, In m (map (fun f => NField (p_rust (st_name s)) (p_rust (v_name f))) (st_fields s)) -> exists j, In j (expand T apis) /\ present c j (ri_defs j) m).
      { intros m Hm. apply in_map_iff in Hm. destruct Hm as (f & <- & Hf).
        eapply (def_here c apis T (AStruct s)); [exact Ha|left; reflexivity|cbn; rewrite Q; reflexivity|right; apply in_map_iff; exists f; split; [reflexivity|exact Hf]|].
        rewrite (Qf f Hf). reflexivity. }
      assert (P : forall b, i = plain_item (NType (p_rust (st_name s)) :: when b (map (fun f => NField (p_rust (st_name s)) (p_rust (v_name f))) (st_fields s))) ->
        (exists j, In j (expand T apis) /\ present c j (ri_defs j) n) \/ exists x, n = NOuter x /\ provided c apis x).
      { intros b ->. apply always_use in Hn. destruct Hn as [E|Hm]; [apply (L _ Ls); auto|]. destruct b; [|destruct Hm]. left. apply F. exact Hm. }
      rewrite ?in_app_iff in Hi. destruct Hi as [<-|[<-|Hi]].
      * destruct Hn as (_ & e & I & _). cbn in I. apply in_flat_map in I. destruct I as (f & Hf & I). apply in_map_iff in I. destruct I as (y & E & Hy). injection E as <- <-.
        destruct (type_names_occur _ _ Hy) as (m & O & Em & Np). subst y. apply (L (n_rust m)); [|reflexivity].
        eapply mentioned_live; [exact HT'| |exact Np]. eapply (me_field _ _ (keep_fields c s) f).
        -- apply (enabled_in c apis (AStruct s) Ha). cbn. rewrite Q. reflexivity.
        -- cbn. apply filter_In. split; [exact Hf|]. rewrite (Qf f Hf). reflexivity.
        -- exact O.
      * apply (P false eq_refl).
      * destruct Hi as [Hi|[Hi|[<-|[]]]]; [| |apply (P false eq_refl)]; apply in_flat_map in Hi; destruct Hi as (d & _ & Hi).
        -- destruct d; cbn in Hi; try (destruct Hi; fail); destruct Hi as [<-|[]];
             first [exact (P false eq_refl)|exact (P true eq_refl)|exact (P (negb (derives DCopy (st_derives s))) eq_refl)|exact (P (negb (derives DOrd (st_derives s))) eq_refl)].
        -- destruct d; cbn in Hi; try (destruct Hi; fail); destruct Hi as [<-|[]]; exact (P false eq_refl).
    + destruct Q as (Q & Qv).
      assert (Ls : live c apis (p_rust (en_name e))) by (exists (AEnum e), (en_name e); cbn; rewrite Q; auto).
      assert (P : forall b, i = plain_item (NType (p_rust (en_name e)) :: when b (map (fun v => NVariant (p_rust (en_name e)) (p_rust (vr_name v))) (en_variants e))) ->
        (exists j, In j (expand T apis) /\ present c j (ri_defs j) n) \/ exists x, n = NOuter x /\ provided c apis x).
      { intros b ->. apply always_use in Hn. destruct Hn as [E|Hm]; [apply (L _ Ls); auto|]. destruct b; [|destruct Hm]. left.
        apply in_map_iff in Hm. destruct Hm as (v & <- & Hv).
        eapply (def_here c apis T (AEnum e)); [exact Ha|right; left; reflexivity|reflexivity|apply in_map_iff; exists v; split; [reflexivity|exact Hv]|].
        rewrite (Qv v Hv). reflexivity. }
      destruct Hi as [<-|[<-|[<-|Hi]]].
      * destruct Hn as (_ & d & [] & _).
      * apply always_use in Hn. destruct Hn as [E|[]]. apply (L _ Ls). auto.
      * apply (P false eq_refl).
      * rewrite !in_app_iff in Hi. destruct Hi as [Hi|[Hi|Hi]].
        -- apply in_flat_map in Hi. destruct Hi as (d & _ & Hi). destruct d; cbn in Hi; try (destruct Hi; fail); destruct Hi as [<-|[]];
             first [exact (P false eq_refl)|exact (P true eq_refl)].
        -- destruct (negb _); [|destruct Hi]. destruct Hi as [<-|[]]. apply (P false eq_refl).
        -- destruct (negb _); [|destruct Hi]. destruct Hi as [<-|[]]. apply (P false eq_refl).
    + assert (Ls : live c apis (p_rust (et_name t))) by (exists (ACxxType t), (et_name t); cbn; rewrite Q; auto).
      destruct (_ && _); [|destruct Hi]. destruct Hi as [<-|[<-|[<-|[]]]]; [destruct Hn as (_ & d & [] & _)|..];
        apply always_use in Hn; destruct Hn as [E|[]]; apply (L _ Ls); auto.
    + destruct Hi as [<-|[]]. pose proof (proj1 Hn) as Hh. cbn in Hh. apply always_use in Hn.
      edestruct (signature_live ord' c apis T' HT' f n) as (x & E & Lx); [left; exact Ha|exact Hh|exact Hn|]. apply (L x Lx E).
    + assert (Ls : live c apis (p_rust (et_name t))) by (exists (ARustType t), (et_name t); cbn; rewrite Q; auto).
      assert (E : i = plain_item [NType (p_rust (et_name t))]) by (destruct Hi as [<-|Hi]; [reflexivity|]; destruct (derives _ _); cbn in Hi; intuition).
      rewrite E in Hn. apply always_use in Hn. destruct Hn as [E2|[]]. apply (L _ Ls). auto.
    + destruct Hi as [<-|[]]. pose proof (proj1 Hn) as Hh. cbn in Hh. apply always_use in Hn. apply in_app_iff in Hn. destruct Hn as [Hn|Hn].
      * edestruct (signature_live ord' c apis T' HT' f n) as (x & E & Lx); [right; exact Ha|exact Hh|exact Hn|]. apply (L x Lx E).
      * destruct (is_none _); [|destruct Hn]. destruct Hn as [<-|[]]. right. eexists. split; [reflexivity|]. exists (ARustFunction f). auto.
    + destruct Hi as [<-|[<-|[]]]; [destruct Hn as (_ & d & [] & _)|]. pose proof (proj1 Hn) as Hh. cbn in Hh.
      apply always_use in Hn. destruct Hn as [E|[]]. apply (L (p_rust (ta_name t))); [|auto]. exists (ATypeAlias t), (ta_name t). auto.
  - destruct Hi as (((k, x), v) & Hk & Hi). cbn in Hi. destruct Hi as [<-|[]].
    apply always_use in Hn. destruct (atom_from_str x) eqn:Ex; cbn in Hn; [destruct Hn|]. destruct Hn as [E|[]].
    apply (L x); [|auto]. eapply (impl_live ord c apis T HT Hc k x); [|intros (a & Ea); congruence]. apply in_map_iff. exists ((k, x), v). auto.
Qed.
Print Assumptions C59_functions_partial.

Example C59_nonvacuous :
  let S := AStruct (Struct_ CUnconditional [DClone; DDebug; DPartialOrd; DPartialEq] (nm "S") [] [Var CUnconditional (nm "f") (I_ "u8")]) in
  let R := ARustType (ExternType CUnconditional LRust [] (nm "R") [] [] true) in
  let A := ATypeAlias (TypeAlias flag [] (nm "A") []) in
  let f := ACxxFunction (ExternFn flag LCxx (nm "f") false false [] None [("x", TBox (I_ "R")); ("a", TRef false false None (I_ "A"))] (Some (I_ "S")) false true) in
  let g := ARustFunction (ExternFn CUnconditional LRust (nm "g") false false [] None [("x", TVec (I_ "S"))] None false true) in
  let apis := [S; R; A; f; g] in
  (exists T, accepted_bridge GMacro id_order apis T /\ 12 <= List.length (expand T apis)) /\ (exists T', accepted_bridge GMacro id_order (enabled off apis) T') /\
  enabled off apis = [S; R; g] /\ only_functions_conditional apis.
Proof.
  cbv zeta. split; [|split; [|split]].
  - match goal with |- exists T, accepted_bridge _ _ ?l T /\ _ => destruct (accepts_ok GMacro l eq_refl) as (T & HT) end.
    exists T. split; [exact HT|]. destruct HT as ((_ & Hcol) & _). vm_compute in Hcol. injection Hcol as <-. apply Nat.leb_le. reflexivity.
  - match goal with |- exists T, accepted_bridge _ _ ?l T => exact (accepts_ok GMacro l eq_refl) end.
  - reflexivity.
  - split.
    + intros a H. cbn in H. repeat (destruct H as [<-|H]; [cbn; intuition (subst; auto)|]). destruct H.
    + intros i k x a H. cbn in H. repeat (destruct H as [H|H]; [discriminate H|]). destruct H.
Qed.
