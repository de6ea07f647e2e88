(** C14, C54: the C++ generator strips disabled items and processes all bridges of a file
    together; the Rust macro does neither.  Specification: Abi_Spec.v, Cfg_Spec.v. *)
From Verif Require Import Base Syntax_Model TypeEq_Model Toposort_Model Toposort_Spec Types_Model Types_Spec
  Check_Model Check_Spec Check_Proofs Check_Proofs2 Check_Props Cfg_Model Cfg_Spec Cfg_Proofs Cfg_Props Mangle_Model Mangle_Spec Abi_Model Abi_Spec Abi_Proofs Abi_Props.
From Coq Require Import Relations.

Local Definition I_ (a : string) : ty := TIdent (Named a []).
Local Definition nm (a : string) : pair_name := Pair [] a a.
Local Definition feat (s : string) : cfg_expr := CEq "feature" (Some s).
Local Definition E_ (a : string) : api := AEnum (Enum_ CUnconditional [] (nm a) [] [Variant CUnconditional (nm "V") 0%Z] false AU8 false).
Local Definition A_ (a : string) : api := ATypeAlias (TypeAlias CUnconditional [] (nm a) []).
Local Definition S_ (c : cfg_expr) (a : string) (fs : list (cfg_expr * ty)) : api :=
  AStruct (Struct_ c [] (nm a) [] (map (fun t => Var (fst t) (nm "f") (snd t)) fs)).
Local Definition fn_ (args : list ty) (ret : option ty) : extern_fn :=
  ExternFn CUnconditional LCxx (nm "f") false false [] None (map (fun t => ("x", t)) args) ret false true.

(** * C14 *)
(** One bridge; the generator [cev] answers cfg questions in agreement with the
    configuration [c] under which rustc compiles the expansion.  The enabled functions
    have the same ABI on both sides. *)
Definition C14_claim : Prop := forall cev c apis out o1 o2 T1 T2, completion cev c ->
  generate_apis cev [(CUnconditional, apis)] = Some out ->
  accepted_bridge GBuild o1 out T1 -> accepted_bridge GMacro o2 apis T2 -> blocks_marked apis ->
  functions_agree out out T1 T2.

(** False: struct S { e: E, #[cfg(feature = "x")] n: i32 } with the feature off is
    plain data for the generator, which passes it directly, but not for the macro,
    which still sees the field [n] and passes a pointer. *)
Theorem C14_cfg_field_refuted : ~ C14_claim.
Proof.
  intros H. pose (f := fn_ [I_ "S"] None).
  pose (S1 := S_ CUnconditional "S" [(CUnconditional, I_ "E"); (feat "x", I_ "i32")]).
  pose (S2 := S_ CUnconditional "S" [(CUnconditional, I_ "E")]).
  pose (cev := (fun _ _ => CRFalse) : evaluator).
  destruct (accepts_ok GBuild [E_ "E"; S2; ACxxFunction f] eq_refl) as (T1 & H1). destruct (accepts_ok GMacro [E_ "E"; S1; ACxxFunction f] eq_refl) as (T2 & H2).
  destruct (H cev (fun _ _ => false) [E_ "E"; S1; ACxxFunction f] [E_ "E"; S2; ACxxFunction f] id_order id_order T1 T2) as (K & _).
  - intros k v b E. cbn in E. injection E as <-. reflexivity.
  - reflexivity.
  - exact H1.
  - exact H2.
  - apply markedb_ok. reflexivity.
  - destruct (K f) as (F & HF); [right; right; left; reflexivity|]. destruct (HF (S (S (S F)))) as ((c & r & E1 & E2 & _ & S) & _); [repeat constructor|].
    destruct H1 as ((_ & Hc1) & _). vm_compute in Hc1. injection Hc1 as <-. destruct H2 as ((_ & Hc2) & _). vm_compute in Hc2. injection Hc2 as <-.
    cbn in E1, E2. injection E1 as <-. injection E2 as <-. cbn [snd] in S. inversion S as [|? ? ? ? (A & _) _]; subst.
    inversion A as [? N| | | | | | | | |? ? ? ? ? X _ _| | | | | | | | |]; subst. inversion X.
Qed.
Print Assumptions C14_cfg_field_refuted.

(** Proved when fields and variants are unconditional, and no name is declared both by an
    enabled and by a disabled item (restrictions of C13 included). *)
Definition items_conditional_only (apis : list api) : Prop := forall a e, In a apis -> In e (inner_cfgs a) -> e = CUnconditional.
Definition names_separated (c : config) (apis : list api) : Prop := forall a b p q, In a apis -> In b apis ->
  decl_name a = Some p -> decl_name b = Some q -> p_rust p = p_rust q -> holds c (api_cfg a) = holds c (api_cfg b).

Lemma filter_all {A} (f : A -> bool) l : (forall x, In x l -> f x = true) -> filter f l = l.
Proof. induction l as [|x l IH]; intros H; [reflexivity|]. cbn. rewrite (H x (or_introl eq_refl)), IH; [reflexivity|]. intros y Hy. apply H. right; exact Hy. Qed.
Lemma keep_inner_id c apis a : items_conditional_only apis -> In a apis -> keep_inner c a = a.
Proof.
  intros H I. assert (K := H a). destruct a; try reflexivity; cbn [keep_inner inner_cfgs] in *; f_equal.
  - destruct s as [cf d n l fs]. unfold keep_fields. cbn in *. f_equal. apply filter_all. intros x Hx. rewrite (K (v_cfg x) I); [reflexivity|]. apply in_map, Hx.
  - destruct e as [cf d n l vs h r x]. unfold keep_variants. cbn in *. f_equal. apply filter_all. intros y Hy. rewrite (K (vr_cfg y) I); [reflexivity|]. apply in_map, Hy.
Qed.
Lemma enabled_filter c apis : items_conditional_only apis -> enabled c apis = filter (fun a => holds c (api_cfg a)) apis.
Proof.
  intros H. unfold enabled. rewrite <- (map_id (filter _ _)) at 2. apply map_ext_in. intros a Ha. apply filter_In in Ha. apply (keep_inner_id c apis a H), Ha.
Qed.
Lemma structs_of_In s apis : In s (structs_of apis) <-> In (AStruct s) apis.
Proof.
  unfold structs_of. rewrite in_flat_map. split.
  - intros (a & Ha & Hs). destruct a; cbn in Hs; try contradiction. destruct Hs as [->|[]]. exact Ha.
  - intros H. exists (AStruct s). split; [exact H|left; reflexivity].
Qed.
Lemma cycle_incl sub big : (forall a, In a sub -> In a big) -> ~ has_cycle contains (structs_of big) -> ~ has_cycle contains (structs_of sub).
Proof.
  intros H N (A & C). apply N. exists A. revert C. generalize A at 1 3. intros B C. induction C as [x y (H1 & H2 & H3)|x y z _ IH1 _ IH2]; [|eapply t_trans; eassumption].
  apply t_step. rewrite !structs_of_In in *. auto.
Qed.

Theorem C14_cfg_partial : forall cev c apis out o1 o2 T1 T2, completion cev c ->
  generate_apis cev [(CUnconditional, apis)] = Some out ->
  accepted_bridge GBuild o1 out T1 -> accepted_bridge GMacro o2 apis T2 -> blocks_marked apis ->
  items_conditional_only apis -> names_separated c apis ->
  ~ has_cycle contains (structs_of apis) -> primitives_unaliased out -> simple_callbacks out ->
  functions_agree out out T1 T2.
Proof.
  intros cev c apis out o1 o2 T1 T2 Hc Hg H1 H2 Hm Hi Hn Hcy Hp Hs.
  apply (C26_generate _ c) in Hg; [|exact Hc]. cbn [filter fst holds flat_map snd] in Hg. rewrite app_nil_r in Hg.
  rewrite (enabled_filter c apis Hi) in Hg.
  assert (Hsub : forall a, In a out -> In a apis) by (intros a Ha; rewrite Hg in Ha; apply filter_In in Ha; apply Ha).
  apply (views_agree _ _ _ _ _ _ H1 Hp Hs); [intros f If; apply Hm, Hsub, If|auto|].
  intros t M. destruct (views_decided _ _ _ _ _ _ _ _ t H1 H2) as (b & G & _ & E); [|eapply cycle_incl; eassumption|exact Hcy|exact M|exists b; auto].
  split; [exact Hsub|]. intros a p b q Ib Eb Ia Ea E. rewrite Hg in Ib |- *. apply filter_In in Ib. apply filter_In. split; [exact Ia|].
  destruct Ib as (Ib & Kb). rewrite (Hn a b p q Ia Ib Ea Eb E). exact Kb.
Qed.
Print Assumptions C14_cfg_partial.

Example C14_nonvacuous :
  let apis := [E_ "E"; S_ (feat "x") "X" [(CUnconditional, I_ "String")]; S_ (feat "y") "S" [(CUnconditional, I_ "E")]; ACxxFunction (fn_ [I_ "S"; I_ "E"] None)] in
  let c : config := fun k v => match v with Some s => String.eqb s "y" | None => false end in
  exists cev out T1 T2, completion cev c /\ generate_apis cev [(CUnconditional, apis)] = Some out /\ out <> apis /\
    accepted_bridge GBuild id_order out T1 /\ accepted_bridge GMacro id_order apis T2 /\ blocks_marked apis /\
    items_conditional_only apis /\ names_separated c apis /\ ~ has_cycle contains (structs_of apis) /\ primitives_unaliased out /\ simple_callbacks out.
Proof.
  cbv zeta. set (c := (fun k v => match v with Some s => String.eqb s "y" | None => false end) : config).
  set (apis := [_; _; _; _]). pose (out := [E_ "E"; S_ (feat "y") "S" [(CUnconditional, I_ "E")]; ACxxFunction (fn_ [I_ "S"; I_ "E"] None)]).
  destruct (accepts_ok GBuild out eq_refl) as (T1 & H1). destruct (accepts_ok GMacro apis eq_refl) as (T2 & H2).
  exists (fun k v => cfg_of_bool (c k v)), out, T1, T2. split; [intros k v b E; unfold known in E; destruct (c k v); cbn in E; congruence|].
  split; [reflexivity|]. split; [discriminate|]. split; [exact H1|]. split; [exact H2|]. split; [apply markedb_ok; reflexivity|].
  split; [|split; [|split; [apply (accepted_acyclic _ _ _ _ H2), array_freeb_ok; reflexivity|split; [apply unaliasedb_ok; reflexivity|apply simple_callbacksb_ok; reflexivity]]]].
  - intros a e Ha He. cbn in Ha. repeat (destruct Ha as [<-|Ha]; [cbn in He; repeat (destruct He as [<-|He]; [reflexivity|]); destruct He|]). destruct Ha.
  - intros a b p q Ha Hb Ea Eb E. cbn in Ha, Hb.
    repeat (destruct Ha as [<-|Ha]); try destruct Ha; repeat (destruct Hb as [<-|Hb]); try destruct Hb; cbn in Ea, Eb; try discriminate;
      injection Ea as <-; injection Eb as <-; try reflexivity; discriminate E.
Qed.

(** * C54 *)
(** A file with several bridges (without cfg attributes).  The functions of each bridge
    have the same ABI in the C++ code, generated from all bridges at once, and in the
    expansion of that bridge. *)
Definition unconditional (bs : list (cfg_expr * list api)) : Prop :=
  forall b, In b bs -> fst b = CUnconditional /\ items_conditional_only (snd b) /\ forall a, In a (snd b) -> api_cfg a = CUnconditional.
Definition C54_claim : Prop := forall cev bs out b o1 o2 T1 T2, unconditional bs -> generate_apis cev bs = Some out -> In b bs ->
  accepted_bridge GBuild o1 out T1 -> accepted_bridge GMacro o2 (snd b) T2 -> blocks_marked out ->
  functions_agree (snd b) out T1 T2.

(** False: the first bridge names the shared struct S of the second one through an alias
    and passes it by value.  The generator finds the struct and passes it directly; the
    macro only sees the alias and passes a pointer. *)
Theorem C54_bridges_refuted : ~ C54_claim.
Proof.
  intros H. pose (f := fn_ [I_ "S"] None).
  pose (b1 := [A_ "S"; ACxxFunction f]). pose (b2 := [E_ "E"; S_ CUnconditional "S" [(CUnconditional, I_ "E")]]).
  pose (bs := [(CUnconditional, b1); (CUnconditional, b2)]). pose (out := b1 ++ b2).
  destruct (accepts_ok GBuild out eq_refl) as (T1 & H1). destruct (accepts_ok GMacro b1 eq_refl) as (T2 & H2).
  destruct (H unsupported bs out (CUnconditional, b1) id_order id_order T1 T2) as (K & _).
  - intros b Hb. cbn in Hb. repeat (destruct Hb as [<-|Hb]); try destruct Hb; (split; [reflexivity|]); (split; [intros a e Ha He|intros a Ha]); cbn in Ha;
      repeat (destruct Ha as [<-|Ha]); try destruct Ha; try reflexivity; cbn in He; repeat (destruct He as [<-|He]); try destruct He; reflexivity.
  - reflexivity.
  - left. reflexivity.
  - exact H1.
  - exact H2.
  - apply markedb_ok. reflexivity.
  - destruct (K f) as (F & HF); [right; left; reflexivity|]. destruct (HF (S (S (S F)))) as ((c & r & E1 & E2 & _ & S) & _); [repeat constructor|].
    destruct H1 as ((_ & Hc1) & _). vm_compute in Hc1. injection Hc1 as <-. destruct H2 as ((_ & Hc2) & _). vm_compute in Hc2. injection Hc2 as <-.
    cbn in E1, E2. injection E1 as <-. injection E2 as <-. cbn [snd] in S. inversion S as [|? ? ? ? (A & _) _]; subst.
    inversion A as [? N| | | | | | | | |? ? ? ? ? X _ _| | | | | | | | |]; subst. inversion X.
Qed.
Print Assumptions C54_bridges_refuted.

Lemma completion_exists cev : exists c, completion cev c.
Proof. exists (fun k v => match known cev k v with Some b => b | None => false end). intros k v b E. rewrite E. reflexivity. Qed.
Lemma unconditional_out cev bs out : unconditional bs -> generate_apis cev bs = Some out -> out = flat_map snd bs.
Proof.
  intros H G. destruct (completion_exists cev) as (c & Hc). apply (C26_generate _ c) in G; [|exact Hc].
  rewrite (filter_all _ bs) in G by (intros b Hb; rewrite (proj1 (H b Hb)); reflexivity).
  rewrite enabled_filter in G.
  - rewrite G. apply filter_all. intros a Ha. apply in_flat_map in Ha. destruct Ha as (b & Hb & Ha). destruct (H b Hb) as (_ & _ & K). rewrite (K a Ha). reflexivity.
  - intros a e Ha He. apply in_flat_map in Ha. destruct Ha as (b & Hb & Ha). destruct (H b Hb) as (_ & K & _). exact (K a e Ha He).
Qed.

(** Proved for a bridge none of whose type names is also declared by another bridge of
    the file (restrictions of C13 included). *)
Theorem C54_bridges_partial : forall cev bs out b o1 o2 T1 T2, unconditional bs -> generate_apis cev bs = Some out -> In b bs ->
  accepted_bridge GBuild o1 out T1 -> accepted_bridge GMacro o2 (snd b) T2 -> blocks_marked out ->
  (forall b' a p a' q, In b' bs -> In a (snd b) -> decl_name a = Some p -> In a' (snd b') -> decl_name a' = Some q -> p_rust q = p_rust p -> In a' (snd b)) ->
  ~ has_cycle contains (structs_of out) -> primitives_unaliased out -> simple_callbacks out ->
  functions_agree (snd b) out T1 T2.
Proof.
  intros cev bs out b o1 o2 T1 T2 Hu Hg Hb H1 H2 Hm Hn Hcy Hp Hs. pose proof (unconditional_out _ _ _ Hu Hg) as ->.
  assert (Hsub : forall a, In a (snd b) -> In a (flat_map snd bs)) by (intros a Ha; apply in_flat_map; exists b; auto).
  apply (views_agree _ _ _ _ _ _ H1 Hp Hs); [intros f If; apply Hm, Hsub, If|exact Hsub|].
  intros t M. destruct (views_decided _ _ _ _ _ _ _ _ t H2 H1) as (r & _ & G & F & E); [|eapply cycle_incl; eassumption|exact Hcy|exact M|].
  - split; [exact Hsub|]. intros a p a' q Ia' Ea' Ia Ea E. apply in_flat_map in Ia. destruct Ia as (b' & Hb' & Ia). eapply Hn; eauto.
  - exists r. split; [exact G|]. exists F. intros n L. destruct (E n L). auto.
Qed.
Print Assumptions C54_bridges_partial.

Example C54_nonvacuous :
  let b1 := [E_ "E"; ACxxFunction (ExternFn CUnconditional LCxx (nm "g") false false [] None [("x", I_ "E")] None false true)] in let b2 := [S_ CUnconditional "S" [(CUnconditional, I_ "String")]; ACxxFunction (fn_ [I_ "S"] None)] in
  let bs := [(CUnconditional, b1); (CUnconditional, b2)] in
  exists out T1 T2, unconditional bs /\ generate_apis unsupported bs = Some out /\ accepted_bridge GBuild id_order out T1 /\ accepted_bridge GMacro id_order b2 T2 /\
    ~ has_cycle contains (structs_of out) /\ primitives_unaliased out /\ simple_callbacks out.
Proof.
  intros b1 b2 bs. destruct (accepts_ok GBuild (b1 ++ b2) eq_refl) as (T1 & H1). destruct (accepts_ok GMacro b2 eq_refl) as (T2 & H2).
  exists (b1 ++ b2), T1, T2. split.
  - intros b Hb. cbn in Hb. repeat (destruct Hb as [<-|Hb]); try destruct Hb; (split; [reflexivity|]); (split; [intros a e Ha He|intros a Ha]); cbn in Ha;
      repeat (destruct Ha as [<-|Ha]); try destruct Ha; try reflexivity; cbn in He; repeat (destruct He as [<-|He]); try destruct He; reflexivity.
  - split; [reflexivity|]. split; [exact H1|]. split; [exact H2|]. split; [apply (accepted_acyclic _ _ _ _ H1), array_freeb_ok; reflexivity|].
    split; [apply unaliasedb_ok; reflexivity|apply simple_callbacksb_ok; reflexivity].
Qed.
