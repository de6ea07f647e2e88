(** C87: every declaration of the generated C++ file finds the types, members and
    functions it refers to.  Specification: Unit_Spec.v. *)
From Verif Require Import Base StrLib Syntax_Model TypeEq_Model Toposort_Model Toposort_Spec Toposort_Proofs2 Toposort_Props Types_Model Types_Spec Types_Proofs Types_Proofs2 Types_Proofs3 Types_Props
  Check_Model Check_Spec Check_Proofs Check_Proofs2 Check_Props Mangle_Model Mangle_Spec Mangle_Proofs Mangle_Proofs2 Mangle_Proofs3 Mangle_Props Abi_Model Abi_Spec Abi_Proofs Abi_Props
  Nested_Model Nested_Spec Nested_Props Derive_Model CxxExpr_Model CxxExpr_Spec Expr_Proofs2 Expr_Props CxxExpr_Props Uses_Proofs3
  Unit_Model Unit_Spec Unit_Proofs Unit_Proofs2 Unit_Proofs3 Unit_Proofs4.
From Coq Require Import Lia.

(** The full claim. *)
Definition C87_claim : Prop := forall gen ord apis T n header l, accepted_bridge gen ord apis T -> wf_bridge apis ->
  unit_decls n T apis header = Some l -> well_founded_file apis (preprocess [] l).

(** For a bridge without array fields, whose items for the same type agree on the C++
    name, whose different types have different C++ names and whose Rust methods are
    declared in the namespace of their type, it holds of the source file and of the header;
    and no definition is dropped by the preprocessor.  (Missing from the claim: the four
    kinds of bridges refuted below.) *)
Theorem C87_file_partial : forall gen ord apis T n header l, accepted_bridge gen ord apis T -> wf_bridge apis ->
  array_free (structs_of apis) -> names_agree apis -> methods_at_home apis -> (forall a, In a apis -> (List.length (api_namespace a) < n)%nat) ->
  unit_decls n T apis header = Some l -> preprocess [] l = l /\ well_founded_file apis (preprocess [] l).
Proof.
  intros gen ord apis T n header l H W A G M F E.
  assert (P : preprocess [] l = l) by (apply preprocess_id; [eapply file_guards; eassumption|intros g _ []]).
  split; [exact P|]. rewrite P. apply founded_file. eapply file_founded; eassumption.
Qed.
Print Assumptions C87_file_partial.

(** The files are generated, for every sufficient recursion budget. *)
Lemma uniform {A} (P : A -> nat -> Prop) l : (forall a, In a l -> exists N, forall n, (N <= n)%nat -> P a n) -> exists N, forall n a, (N <= n)%nat -> In a l -> P a n.
Proof.
  induction l as [|a l IH]; intros H; [exists 0%nat; intros n a _ []|]. destruct (H a (or_introl eq_refl)) as (N1 & H1). destruct IH as (N2 & H2); [intros b I; apply H; right; exact I|].
  exists (N1 + N2)%nat. intros n b L [<-|I]; [apply H1; lia|apply H2; [lia|exact I]].
Qed.
Lemma guard_total apis a p k : wf_bridge apis -> In a apis -> decl_name a = Some p -> exists g, guard_of k p = Some g.
Proof.
  intros W I D. destruct (W p (decl_item _ a p I D)) as (W1 & W2 & _). unfold guard_of, to_symbol. rewrite sym_join_segs.
  - eexists. reflexivity.
  - destruct (p_ns p); discriminate.
  - apply Forall_app. split; [eapply Forall_impl; [|exact W1]; apply identifier_ne|]. constructor; [apply identifier_ne, W2|constructor].
Qed.
Lemma method_total gen ord apis T f : accepted_bridge gen ord apis T -> simple_callbacks apis -> all_functions apis f -> exists s, cxx_function_shim_decl T (fn_sig f) false = Some s.
Proof.
  intros H Cb Hf. destruct (arg_types gen ord apis T f H Cb Hf) as (A & R). unfold cxx_function_shim_decl. cbn [fn_sig sg_ret sg_args].
  destruct (otraverse_total (fun a => cxx_type T (snd a)) (fn_args f)) as (cs & ->); [intros (x, t) I; exact (A x t I)|].
  destruct (fn_ret f) as [t|]; [destruct (R t eq_refl) as (c & ->)|]; cbn [option_map obind]; eauto.
Qed.
Theorem C87_generated : forall gen ord apis T, accepted_bridge gen ord apis T -> wf_bridge apis -> ~ has_cycle contains (structs_of apis) -> simple_callbacks apis ->
  exists N, forall n header, (N <= n)%nat -> exists l, unit_decls n T apis header = Some l.
Proof.
  intros gen ord apis T H W C Cb.
  assert (Sf : forall f, all_functions apis f -> exists N, forall n, (N <= n)%nat -> (exists w, cxx_shim n T f = Some w) /\
    (forall invoke, (exists w, cxx_rust_shim n T (fn_sig f) invoke false = Some w) /\ (exists d, cxx_function_decl n T (fn_sig f) false = Some d)) /\
    (forall x un th args ret invoke, In (x, TFn un th args ret) (fn_args f) ->
       (exists w, cxx_rust_shim n T (ptr_sig th args ret) invoke true = Some w) /\ (exists d, cxx_function_decl n T (ptr_sig th args ret) true = Some d)))
    by (intros f Hf; eapply C85_generated; eassumption).
  destruct (uniform (fun a n => match a with
     | ACxxFunction f | ARustFunction f => (exists w, cxx_shim n T f = Some w) /\
        (forall invoke, (exists w, cxx_rust_shim n T (fn_sig f) invoke false = Some w) /\ (exists d, cxx_function_decl n T (fn_sig f) false = Some d)) /\
        (forall x un th args ret invoke, In (x, TFn un th args ret) (fn_args f) ->
          (exists w, cxx_rust_shim n T (ptr_sig th args ret) invoke true = Some w) /\ (exists d, cxx_function_decl n T (ptr_sig th args ret) true = Some d))
     | _ => True end) apis) as (N1 & K1).
  { intros a I. destruct a; try (exists 0%nat; intros; exact Logic.I); apply Sf; [left|right]; exact I. }
  destruct (uniform (fun a n => (List.length (api_namespace a) < n)%nat) apis) as (N2 & K2); [intros a _; exists (S (List.length (api_namespace a))); intros n L; lia|].
  exists (S (N1 + N2)). intros n header L. unfold unit_decls.
  destruct (C30_forward_declarations T apis n) as (toks & r & o & E & _); [intros a I; apply K2; [lia|exact I]|lia|]. rewrite E. cbn [obind]. clear r o E.
  assert (Me : forall x, exists ms, otraverse (method_decl T) (methods_for apis x) = Some ms).
  { intros x. apply otraverse_total. intros f I. unfold methods_for in I. apply in_flat_map in I as (a & Ia & I).
    assert (Hf : all_functions apis f).
    { destruct a; try (destruct I; fail); (destruct (fn_receiver f0); [|destruct I]); (destruct (String.eqb _ x); [|destruct I]); destruct I as [<-|[]]; [left|right]; exact Ia. }
    destruct (method_total gen ord apis T f H Cb Hf) as (s & Es). unfold method_decl. rewrite Es. eexists. reflexivity. }
  destruct (otraverse_total (data_decl T apis) (write_loop (fun x => smem x (t_cxx T)) apis [] (t_toposorted T))) as (ds & Ed).
  { intros e I. destruct (em_declared gen ord apis T H e I) as (a & Ia & Da).
    destruct e as [s|e|e|t]; cbn [data_decl em_pair] in *.
    - apply (em_struct gen ord apis T H) in I as (Is & _). unfold struct_decl. destruct (guard_total apis a _ "STRUCT" W Ia Da) as (g & ->). cbn [obind].
      assert (Fs : exists fs, cxx_fields T s = Some fs).
      { apply otraverse_total. intros f Hf. assert (M : mentioned apis (v_ty f)) by (eapply me_field; [exact Is|exact Hf|constructor]).
        destruct (field_sized _ _ _ _ H s f Is Hf) as (_ & U).
        destruct (cxx_type_plain gen ord apis T H (v_ty f) M) as (c & ->); [apply (mentioned_plain _ _ _ _ H _ M); eapply unsized_plain, U|]. eexists. reflexivity. }
      destruct Fs as (fs & ->). cbn [obind]. destruct (Me (p_rust (st_name s))) as (ms & ->). cbn [obind]. eauto.
    - destruct (guard_total apis a _ "ENUM" W Ia Da) as (g & ->). cbn [option_map]. eauto.
    - eauto.
    - unfold opaque_decl. destruct (guard_total apis a _ "STRUCT" W Ia Da) as (g & ->). cbn [obind]. destruct (Me (p_rust (et_name t))) as (ms & ->). cbn [obind]. eauto. }
  unfold data_structures. rewrite Ed. cbn [option_map obind].
  assert (Mo : forall a p sym, In a apis -> decl_name a = Some p -> In sym operator_names -> exists ln, mangle_operator p sym = Some ln).
  { intros a p sym I D J. rewrite (operator_link gen ord apis T H W p sym (decl_item _ a p I D) J). eexists. reflexivity. }
  assert (Mf : forall f, all_functions apis f -> exists ln, mangle_extern_fn T f = Some ln).
  { intros f Hf. destruct (fn_has_entity gen ord apis T H f Hf) as (e & He). rewrite (fn_link gen ord apis T H W f e Hf He). eexists. reflexivity. }
  assert (On : forall s x, In x (operator_decls s) -> In x operator_names).
  { intros s x. unfold operator_decls, operator_names. destruct (derives DPartialEq (st_derives s)), (derives DPartialOrd (st_derives s)), (derives DEq (st_derives s)), (derives DOrd (st_derives s)); cbn; intuition. }
  assert (Dc : exists ds, otraverse (function_decl n T) apis = Some ds).
  { apply otraverse_total. intros a I. destruct a as [|s|e|t|f|t|f|a|i]; cbn [function_decl]; try (eexists; reflexivity).
    - unfold operator_decl.
      match goal with |- exists b, obind (otraverse ?f ?l) _ = _ => destruct (otraverse_total f l) as (l1 & ->) end.
      { intros x J. destruct (Mo (AStruct s) (st_name s) x I eq_refl (On s x J)) as (ln & ->). eexists. reflexivity. }
      cbn [obind]. match goal with |- exists b, obind (otraverse ?f ?l) _ = _ => destruct (otraverse_total f l) as (l2 & ->) end; [|cbn [obind]; eauto].
      intros x J. destruct (derives DHash (st_derives s)); [|destruct J]. destruct J as [<-|[]].
      destruct (Mo (AStruct s) (st_name s) "hash"%string I eq_refl) as (ln & ->); [cbn; tauto|]. eexists. reflexivity.
    - pose proof (K1 n _ ltac:(lia) I) as ((w & Ew) & _ & Kt). cbn beta iota in *. unfold shim_decl. destruct (Mf f (or_introl I)) as (ln & ->). cbn [obind]. rewrite Ew. cbn [obind].
      destruct (otraverse_total (trampoline n T f) (fn_args f)) as (ts & ->); [|cbn [obind]; eauto].
      intros (x, t) J. unfold trampoline. cbn [fst snd]. destruct t; try (eexists; reflexivity).
      destruct (r_tramp_link gen ord apis T H W f x _ _ _ _ (or_introl I) J) as (e1 & _ & ->). destruct (c_tramp_link gen ord apis T H W f x _ _ _ _ (or_introl I) J) as (e2 & _ & ->).
      unfold slink. cbn [obind]. destruct (Kt x _ _ _ _ (link_name e1) J) as ((w' & ->) & (d & ->)). cbn [obind]. eauto.
    - unfold layout_decl. apply otraverse_total. intros x J. destruct (Mo (ARustType t) (et_name t) x I eq_refl) as (ln & ->); [cbn in J; cbn; tauto|]. eexists. reflexivity.
    - pose proof (K1 n _ ltac:(lia) I) as (_ & Kr & _). cbn beta iota in *. unfold rust_decl. destruct (Mf f (or_intror I)) as (ln & ->). cbn [obind]. destruct (Kr ln) as (_ & (d & ->)). cbn [obind]. eauto. }
  assert (Dh : exists hs, otraverse hash_decl apis = Some hs).
  { apply otraverse_total. intros a I. destruct a; cbn [hash_decl]; try (eexists; reflexivity). destruct (derives DHash (st_derives s)); [|eexists; reflexivity].
    destruct (Mo (AStruct s) (st_name s) "hash"%string I eq_refl) as (ln & ->); [cbn; tauto|]. eexists. reflexivity. }
  destruct Dc as (dc & Ec), Dh as (dh & Eh). rewrite Ec, Eh. cbn [obind].
  assert (Df : exists fs, otraverse (function_def n T header) apis = Some fs).
  { apply otraverse_total. intros a I. destruct a as [|s|e|t|f|t|f|a|i]; cbn [function_def]; try (eexists; reflexivity).
    - destruct header; [eexists; reflexivity|]. apply otraverse_total. intros d J. unfold operator_def. destruct (operator_defs_in s d J) as (_ & Q). destruct (snd d) as [sym|o]; [|eexists; reflexivity].
      destruct (Mo (AStruct s) (st_name s) sym I eq_refl (On s sym Q)) as (ln & ->). eexists. reflexivity.
    - destruct header; [eexists; reflexivity|]. unfold layout_def. apply otraverse_total. intros (x & sym) J. cbn [fst snd].
      destruct (Mo (ARustType t) (et_name t) sym I eq_refl) as (ln & ->); [destruct J as [J|[J|[]]]; injection J as <- <-; cbn; tauto|]. eexists. reflexivity.
    - unfold rust_def. destruct header.
      + destruct (fn_receiver f); [eexists; reflexivity|]. destruct (method_total gen ord apis T f H Cb (or_intror I)) as (s & ->). eexists. reflexivity.
      + pose proof (K1 n _ ltac:(lia) I) as (_ & Kr & _). cbn beta iota in *. destruct (Mf f (or_intror I)) as (ln & ->). cbn [obind]. destruct (Kr ln) as ((w & ->) & _). cbn [obind].
        destruct (fn_receiver f) as [r|] eqn:R; [|eexists; reflexivity]. destruct (receiver_resolves _ _ _ _ H f r (or_intror I) R) as (p & lts & Er).
        assert (Rn : resolve_name T (n_rust (rc_ty r)) = Some p) by (unfold resolve_name; rewrite Er; reflexivity). rewrite Rn. eexists. reflexivity. }
  destruct Df as (df & Ef). rewrite Ef.
  assert (Rk : forall k, In k (map fst (t_impls T)) -> exists p, resolve_name T (snd k) = Some p).
  { intros (k & x) I. destruct (impl_resolves gen ord apis T H k x I) as (p & S). exists p. apply (resolve_stands gen ord apis T H), S. }
  assert (Lk : forall k o, In k (map fst (t_impls T)) -> In o (cxx_impl_decls T k) -> exists ln, o = Some ln).
  { intros k o I J. apply (cxx_impl_decls_ok gen ord apis T H W k I o) in J as (e & _ & ->). eexists. reflexivity. }
  assert (De : exists es, otraverse (fun k => impl_extern T (fst k)) (t_impls T) = Some es).
  { apply otraverse_total. intros k I. apply (in_map fst) in I. unfold impl_extern. destruct (Rk _ I) as (p & ->). cbn [obind]. destruct (specializes (fst (fst k))); [|eexists; reflexivity].
    apply otraverse_total. intros o J. destruct (Lk _ _ I J) as (ln & ->). eexists. reflexivity. }
  assert (Dm : exists ms, otraverse (fun k => impl_member T (fst k)) (t_impls T) = Some ms).
  { apply otraverse_total. intros k I. apply (in_map fst) in I. unfold impl_member. destruct (specializes (fst (fst k))); [|eexists; reflexivity]. destruct (Rk _ I) as (p & ->). cbn [obind].
    destruct (otraverse_total (fun o => o) (cxx_impl_calls T (fst k))) as (ls & ->); [|eexists; reflexivity]. intros o J. exact (Lk _ _ I J). }
  destruct De as (es & Ee), Dm as (ms & Em). rewrite Ee, Em. destruct header; cbn [obind]; eauto.
Qed.
Print Assumptions C87_generated.

(** For the examples. *)
Definition facts (l : list placed_decl) : list fact := flat_map (fun x => provides (fst x) (snd x)) l.
Lemma facts_ok l f : provided l f <-> In f (facts l).
Proof.
  unfold provided, facts. rewrite in_flat_map. split; [intros (ns & d & I & J); exists (ns, d); auto|]. intros ((ns & d) & I & J). exists ns, d. auto.
Qed.
Lemma unfounded apis l i ns d f : nth_error l i = Some (ns, d) -> In (Fact f) (needs ns d) -> ~ In f (facts (firstn i l)) -> ~ users apis f -> ~ well_founded_file apis l.
Proof.
  intros E I N U H. apply nth_error_split in E as (l1 & l2 & -> & <-). rewrite firstn_app, firstn_all, PeanoNat.Nat.sub_diag in N. cbn [firstn] in N. rewrite app_nil_r in N.
  destruct (H l1 ns d l2 eq_refl (Fact f) I) as [P|P]; [apply N, facts_ok, P|exact (U P)].
Qed.
Definition names_agreeb (apis : list api) : bool :=
  forallb (fun a => forallb (fun b => match decl_name a, decl_name b with
    | Some p, Some q => Bool.eqb (String.eqb (p_rust p) (p_rust q)) (if list_eq_dec string_dec (qualified p) (qualified q) then true else false)
    | _, _ => true end) apis) apis.
Lemma names_agreeb_ok apis : names_agreeb apis = true -> names_agree apis.
Proof.
  unfold names_agreeb. rewrite forallb_forall. intros H a b p q Ia Ib Da Db. specialize (H a Ia). rewrite forallb_forall in H. specialize (H b Ib). rewrite Da, Db in H.
  apply Bool.eqb_prop in H. rewrite <- String.eqb_eq, H. destruct (list_eq_dec string_dec (qualified p) (qualified q)); split; congruence.
Qed.
Definition methods_at_homeb (apis : list api) : bool :=
  forallb (fun a => match a with
    | ARustFunction f => match fn_receiver f with
        | Some r => forallb (fun b => match decl_name b with
            | Some p => negb (String.eqb (p_rust p) (n_rust (rc_ty r))) || (if list_eq_dec string_dec (p_ns (fn_name f)) (p_ns p) then true else false)
            | None => true end) apis
        | None => true end
    | _ => true end) apis.
Lemma methods_at_homeb_ok apis : methods_at_homeb apis = true -> methods_at_home apis.
Proof.
  unfold methods_at_homeb. rewrite forallb_forall. intros H f r p I R S. specialize (H _ I). cbn beta iota in H. rewrite R, forallb_forall in H.
  destruct S as (pre & b & post & E & D & En & _). assert (Ib : In b apis) by (rewrite E; apply in_or_app; right; left; reflexivity).
  specialize (H b Ib). rewrite D, En, String.eqb_refl in H. cbn [negb orb] in H. destruct (list_eq_dec string_dec _ _) as [e|]; [exact e|discriminate].
Qed.

Local Definition I_ (a : string) : ty := TIdent (Named a []).
Local Definition fn_ (l : lang) (ns : list string) (x : string) (recv : option string) (args : list (string * ty)) (ret : option ty) (th : bool) : extern_fn :=
  ExternFn CUnconditional l (Pair ns x x) false false [] (option_map (fun t => Receiver false None false (Named t []) false) recv) args ret th true.
Local Definition C_ (ns : list string) (a : string) : api := ACxxType (ExternType CUnconditional LCxx [] (Pair ns a a) [] [] true).
Local Definition R_ (ns : list string) (a : string) : api := ARustType (ExternType CUnconditional LRust [] (Pair ns a a) [] [] true).
Local Definition S_ (ds : list trait) (p : pair_name) (fs : list ty) : api := AStruct (Struct_ CUnconditional ds p [] (map (fun t => Var CUnconditional (Pair [] "f" "f") t) fs)).
Local Definition E_ (p : pair_name) : api := AEnum (Enum_ CUnconditional [] p [] [Variant CUnconditional (Pair [] "V" "V") 0] false AU8 true).
Local Ltac no_user := intros U; inversion U as [q Q|q Q|q x c ret ps Q|q x sg Q|f0 I0 R0]; subst; inversion Q as [t0 I0|a0 I0|e0 I0 H0]; subst; cbn in I0;
  repeat (destruct I0 as [I0|I0]; [discriminate I0 || (injection I0 as <-; cbn in *; discriminate)|]); destruct I0.
Local Ltac no_fact := cbn; intros I0; repeat (destruct I0 as [I0|I0]; [discriminate I0|]); destruct I0.
Local Ltac compute_file T apis := destruct (accepts_ok GBuild apis eq_refl) as (T & HT); pose proof HT as ((_ & Hc) & _); vm_compute in Hc; injection Hc as Hc; exists T; eexists; split; [exact HT|]; rewrite <- Hc.

(** A struct with a field of type [B; 1], defined before the struct B: its class is
    written first. *)
Theorem C87_array_refuted : exists apis T l, accepted_bridge GBuild id_order apis T /\ unit_decls 3 T apis false = Some l /\
  wf_bridge apis /\ names_agree apis /\ methods_at_home apis /\ ~ well_founded_file apis (preprocess [] l).
Proof.
  set (apis := [S_ [] (Pair [] "A" "A") [TArray (I_ "B") 1]; S_ [] (Pair [] "B" "B") [I_ "i32"]]). exists apis. compute_file T apis.
  split; [reflexivity|]. split; [apply wf_bridgeb_ok; reflexivity|]. split; [apply names_agreeb_ok; reflexivity|]. split; [apply methods_at_homeb_ok; reflexivity|].
  eapply (unfounded apis _ 2 _ _ (Complete ["B"]%string)); [reflexivity|right; left; reflexivity|no_fact|no_user].
Qed.
Print Assumptions C87_array_refuted.

(** A Rust method in the namespace m of a type in the namespace n: the definition
    `R::f` is written in m, where there is no class R. *)
Theorem C87_namespace_refuted : exists apis T l, accepted_bridge GBuild id_order apis T /\ unit_decls 3 T apis false = Some l /\
  wf_bridge apis /\ names_agree apis /\ array_free (structs_of apis) /\ ~ well_founded_file apis (preprocess [] l).
Proof.
  set (apis := [R_ ["n"] "R"; ARustFunction (fn_ LRust ["m"] "f" (Some "R") [] None false)]). exists apis. compute_file T apis.
  split; [reflexivity|]. split; [apply wf_bridgeb_ok; reflexivity|]. split; [apply names_agreeb_ok; reflexivity|]. split; [apply array_freeb_ok; reflexivity|].
  eapply (unfounded apis _ 7 _ _ (Complete ["m"; "R"]%string)); [reflexivity|left; reflexivity|no_fact|no_user].
Qed.
Print Assumptions C87_namespace_refuted.

(** Two structs with the same C++ name: the second class is dropped by the preprocessor,
    its operators are still defined. *)
Theorem C87_same_name_refuted : exists apis T l, accepted_bridge GBuild id_order apis T /\ unit_decls 3 T apis false = Some l /\
  wf_bridge apis /\ methods_at_home apis /\ array_free (structs_of apis) /\ ~ well_founded_file apis (preprocess [] l).
Proof.
  set (apis := [S_ [] (Pair [] "X" "A") [I_ "i32"]; S_ [DPartialEq] (Pair [] "X" "B") [I_ "i32"]]). exists apis. compute_file T apis.
  split; [reflexivity|]. split; [apply wf_bridgeb_ok; reflexivity|]. split; [apply methods_at_homeb_ok; reflexivity|]. split; [apply array_freeb_ok; reflexivity|].
  eapply (unfounded apis _ 5 _ _ (Prototype ["X"] "operator==" (op_sig (Pair [] "X" "B")))%string); [reflexivity|right; left; reflexivity|no_fact|no_user].
Qed.
Print Assumptions C87_same_name_refuted.

(** A shared struct n::A with an extern C++ type m::A of the same Rust name: the struct is
    not defined, since the user's header does, and n::A stays incomplete. *)
Theorem C87_extern_refuted : exists apis T l, accepted_bridge GBuild id_order apis T /\ unit_decls 3 T apis false = Some l /\
  wf_bridge apis /\ methods_at_home apis /\ array_free (structs_of apis) /\ ~ well_founded_file apis (preprocess [] l).
Proof.
  set (apis := [C_ ["m"] "A"; S_ [] (Pair ["n"] "A" "A") [I_ "i32"]; ACxxFunction (fn_ LCxx [] "f" None [("a", I_ "A")] None false)]). exists apis. compute_file T apis.
  split; [reflexivity|]. split; [apply wf_bridgeb_ok; reflexivity|]. split; [apply methods_at_homeb_ok; reflexivity|]. split; [apply array_freeb_ok; reflexivity|].
  eapply (unfounded apis _ 2 _ _ (Complete ["n"; "A"]%string)); [reflexivity| |no_fact|no_user]. vm_compute. auto 10.
Qed.
Print Assumptions C87_extern_refuted.

Corollary C87_claim_refuted : ~ C87_claim.
Proof.
  intros H. destruct C87_array_refuted as (apis & T & l & HT & E & W & _ & _ & N). apply N. exact (H _ _ _ _ _ _ _ HT W E).
Qed.
Print Assumptions C87_claim_refuted.

(** A bridge with all kinds of declarations, in two namespaces, for which all hypotheses
    hold. *)
Example C87_nonvacuous :
  let cb := TFn false false [("q", I_ "Q")] (Some (TBox (I_ "R"))) in
  let apis := [C_ ["n"] "C"; R_ ["m"] "R"; S_ [DPartialEq; DEq; DHash] (Pair ["n"] "P_" "P") [I_ "i32"; I_ "E"]; S_ [] (Pair [] "Q" "Q") [I_ "P"; TBox (I_ "R"); TUniquePtr (I_ "C")];
               E_ (Pair ["n"] "E" "E"); C_ ["n"] "P2"; E_ (Pair ["n"] "P2" "P2");
               ACxxFunction (fn_ LCxx ["n"] "f" (Some "C") [("q", I_ "Q"); ("cb", cb)] (Some (I_ "P")) true);
               ACxxFunction (fn_ LCxx ["m"] "g" None [("v", TVec (I_ "Q"))] None false);
               ARustFunction (fn_ LRust ["m"] "h" (Some "R") [("p", TRef false false None (I_ "P"))] (Some (TUniquePtr (I_ "C"))) true);
               ARustFunction (fn_ LRust [] "k" None [("e", I_ "P2")] None false)] in
  exists T l h, accepted_bridge GBuild id_order apis T /\ unit_decls 5 T apis false = Some l /\ unit_decls 5 T apis true = Some h /\ wf_bridge apis /\
    array_free (structs_of apis) /\ names_agree apis /\ methods_at_home apis /\ simple_callbacks apis /\ (forall a, In a apis -> (List.length (api_namespace a) < 5)%nat) /\
    ~ has_cycle contains (structs_of apis) /\ well_founded_file apis (preprocess [] l) /\ well_founded_file apis (preprocess [] h) /\ List.length l = 42%nat /\ List.length h = 12%nat.
Proof.
  cbv zeta. match goal with |- exists T l h, accepted_bridge _ _ ?x T /\ _ => set (apis := x) end.
  destruct (accepts_ok GBuild apis eq_refl) as (T & HT). pose proof HT as ((_ & Hc) & _). vm_compute in Hc. injection Hc as Hc.
  destruct (unit_decls 5 T apis false) as [l|] eqn:El; [|rewrite <- Hc in El; vm_compute in El; discriminate El].
  destruct (unit_decls 5 T apis true) as [h|] eqn:Eh; [|rewrite <- Hc in Eh; vm_compute in Eh; discriminate Eh].
  assert (W : wf_bridge apis) by (apply wf_bridgeb_ok; reflexivity). assert (A : array_free (structs_of apis)) by (apply array_freeb_ok; reflexivity).
  assert (G : names_agree apis) by (apply names_agreeb_ok; reflexivity). assert (M : methods_at_home apis) by (apply methods_at_homeb_ok; reflexivity).
  assert (F : forall a, In a apis -> (List.length (api_namespace a) < 5)%nat).
  { intros a I. assert (X : forallb (fun a => Nat.ltb (List.length (api_namespace a)) 5) apis = true) by reflexivity. rewrite forallb_forall in X. apply PeanoNat.Nat.ltb_lt, X, I. }
  exists T, l, h. split; [exact HT|]. split; [exact El || reflexivity|]. split; [exact Eh || reflexivity|]. split; [exact W|]. split; [exact A|]. split; [exact G|]. split; [exact M|].
  split; [apply simple_callbacksb_ok; reflexivity|]. split; [exact F|]. split; [eapply accepted_acyclic; eassumption|].
  split; [exact (proj2 (C87_file_partial _ _ _ _ _ _ _ HT W A G M F El))|]. split; [exact (proj2 (C87_file_partial _ _ _ _ _ _ _ HT W A G M F Eh))|].
  rewrite <- Hc in El, Eh. vm_compute in El, Eh. injection El as <-. injection Eh as <-. split; reflexivity.
Qed.
