(** C07-C09, C17, C18: the type collector.  Specification: Types_Spec.v, Toposort_Spec.v. *)
From Verif Require Import Base Syntax_Model TypeEq_Model Toposort_Model Toposort_Spec Toposort_Proofs Toposort_Proofs2 Toposort_Props
  Types_Model Types_Spec Types_Proofs Types_Proofs2 Types_Proofs3.
From Coq Require Import Relations Permutation.

(** For the examples. *)
Local Definition nm (a : string) : pair_name := Pair [] a a.
Local Definition I_ (a : string) : ty := TIdent (Named a []).
Local Definition S_ (a : string) (fs : list ty) : api :=
  AStruct (Struct_ CUnconditional [] (nm a) [] (map (fun t => Var CUnconditional (nm "f") t) fs)).
Local Definition E_ (a : string) (from_header : bool) : api := AEnum (Enum_ CUnconditional [] (nm a) [] [] from_header AU8 false).
Local Definition C_ (a : string) : api := ACxxType (ExternType CUnconditional LCxx [] (nm a) [] [] true).
Local Definition R_ (a : string) : api := ARustType (ExternType CUnconditional LRust [] (nm a) [] [] true).
Local Definition A_ (a : string) : api := ATypeAlias (TypeAlias CUnconditional [] (nm a) []).
Local Definition F_ (args : list ty) (ret : option ty) : api :=
  ACxxFunction (ExternFn CUnconditional LCxx (nm "f") false false [] None (map (fun t => ("x", t)) args) ret false true).

(** The iteration order of a hash set with elements [l], in round [n]. *)
Definition hash_order (ord : nat -> list string -> list string) : Prop := forall n l, Permutation (ord n l) l.

(** [T] is the collected information of the accepted bridge [apis]. *)
Definition accepted (ord : nat -> list string -> list string) (apis : list api) (T : types) : Prop :=
  hash_order ord /\ collect ord apis = Some (T, []).

Lemma collect_facts ord apis T errs : collect ord apis = Some (T, errs) ->
  let s := collect_apis apis in
  exists order terrs imp, toposort (structs_of apis) = Some (order, terrs) /\
    struct_improper_ctypes ord (c_structs s) (c_rust s) (c_aliases s) = Some imp /\
    errs = c_errs s ++ map (fun e => ECycle (fst e) (snd e)) terrs /\
    t_structs T = c_structs s /\ t_enums T = c_enums s /\ t_rust T = c_rust s /\ t_aliases T = c_aliases s /\ t_cxx T = c_cxx s /\
    t_improper T = imp /\ t_impls T = fold_left (add_implicit (c_aliases s)) (c_all s) (c_impls s) /\
    t_required_trivial T = required_trivial_reasons apis (c_all s) (c_structs s) (c_enums s) (c_cxx s) /\
    t_untrusted T = c_untrusted s /\ t_res T = c_res s /\ t_all T = c_all s.
Proof.
  unfold collect. destruct (toposort (structs_of apis)) as [[order terrs]|]; [|discriminate].
  destruct (struct_improper_ctypes _ _ _ _) as [imp|] eqn:E; [|discriminate]. intros H; injection H as <- <-.
  exists order, terrs, imp. cbn [t_structs t_enums t_rust t_aliases t_cxx t_improper t_impls t_required_trivial t_untrusted t_res t_all]. auto 20.
Qed.
Lemma no_dup_distinct ord apis T errs : collect ord apis = Some (T, errs) -> (forall n, ~ In (EDupType n) errs) -> NoDup (names (structs_of apis)).
Proof.
  intros H Hn. destruct (collect_facts _ _ _ _ H) as [order [terrs [imp [_ [_ [-> _]]]]]].
  apply accepted_nodup. apply dup_iff. intros n Hin. apply (Hn n). apply in_or_app. auto.
Qed.

(** * C07 *)
(** The analysis of [t] ends (for every sufficient recursion budget, with the same
    answer), and the answer is right. *)
Definition pod_decided (T : types) (apis : list api) (t : ty) : Prop :=
  exists b fuel, (forall fuel', fuel <= fuel' -> is_guaranteed_pod (t_structs T) (t_enums T) fuel' t = Some b)
                 /\ (b = true <-> ~ blocked apis t).

Definition C07_claim : Prop := forall ord apis T t, accepted ord apis T -> pod_decided T apis t.

(** False: the bridge [struct A { f: [A; 1] }] is accepted here (C05), and the analysis
    of [A] never returns (in Rust: stack overflow). *)
Theorem C07_pod_refuted : ~ C07_claim.
Proof.
  intros H. specialize (H (fun _ l => l) [S_ "A" [TArray (I_ "A") 1]]).
  destruct (collect (fun _ l => l) [S_ "A" [TArray (I_ "A") 1]]) as [[T errs]|] eqn:E; [|discriminate].
  assert (errs = []) by (vm_compute in E; injection E as _ <-; reflexivity). subst errs.
  destruct (H T (I_ "A")) as [b [fuel [Hf _]]].
  - split; [intros n l; apply Permutation_refl|exact E].
  - assert (G : forall n, is_guaranteed_pod (t_structs T) (t_enums T) n (I_ "A") = None /\
        is_guaranteed_pod (t_structs T) (t_enums T) n (TArray (I_ "A") 1) = None).
    { assert (Es : assoc "A" (t_structs T) = Some (Struct_ CUnconditional [] (nm "A") [] [Var CUnconditional (nm "f") (TArray (I_ "A") 1)]))
        by (vm_compute in E; injection E as <-; reflexivity). clear - Es.
      induction n as [|n [IH1 IH2]]; [auto|]. split; [|exact IH1]. cbn. rewrite Es. cbn. fold (I_ "A"). rewrite IH2. reflexivity. }
    specialize (Hf fuel (le_n _)). rewrite (proj1 (G fuel)) in Hf. discriminate.
Qed.
Print Assumptions C07_pod_refuted.

(** Proved when no struct contains itself (missing: cycles through arrays, which the
    collector does not reject). *)
Theorem C07_pod_partial : forall ord apis T t, accepted ord apis T ->
  ~ has_cycle contains (structs_of apis) -> pod_decided T apis t.
Proof.
  intros ord apis T t [_ Hc] Hcy.
  assert (Hnd : NoDup (names (structs_of apis))) by (apply (no_dup_distinct _ _ _ _ Hc); intros n []).
  destruct (collect_facts _ _ _ _ Hc) as [order [terrs [imp [_ [_ [_ [Es [Ee _]]]]]]]]. unfold pod_decided. rewrite Es, Ee.
  destruct (pod_terminates apis Hnd Hcy t) as [fuel [b Hb]]. exists b, fuel. split.
  - intros fuel' Hf. eapply pod_mono; eauto.
  - eapply pod_correct; eauto.
Qed.
Print Assumptions C07_pod_partial.

(** In particular for every accepted bridge without array fields. *)
Theorem C07_array_free_partial : forall ord apis T t, accepted ord apis T ->
  array_free (structs_of apis) -> pod_decided T apis t.
Proof.
  intros ord apis T t Ha Hf. apply (C07_pod_partial ord); [exact Ha|]. destruct Ha as [_ Hc].
  assert (Hnd : NoDup (names (structs_of apis))) by (apply (no_dup_distinct _ _ _ _ Hc); intros n []).
  destruct (C05_cycles_partial apis Hnd) as [order [errs [E [_ G]]]]. rewrite <- (G Hf). intros Hn. apply Hn.
  destruct (collect_facts _ _ _ _ Hc) as [order' [terrs [imp [E' [_ [Hem _]]]]]]. rewrite E' in E. injection E as _ <-.
  symmetry in Hem. apply app_eq_nil in Hem. destruct Hem as [_ Hem]. destruct terrs; [reflexivity|discriminate].
Qed.
Print Assumptions C07_array_free_partial.

Example C07_nonvacuous :
  let apis := [S_ "P" [I_ "E"; TRef false false None (I_ "Q"); TArray (I_ "u8") 4]; E_ "E" false; S_ "Q" [I_ "P"; TBox (I_ "R")]; R_ "R"] in
  exists T, accepted (fun _ l => rev l) apis T /\ ~ blocked apis (I_ "P") /\ blocked apis (I_ "Q").
Proof.
  cbv zeta. eexists. split; [split; [intros n l; apply Permutation_sym, Permutation_rev|vm_compute; reflexivity]|].
  assert (Hb : forall n, n_rust n = "P" -> ~ blocked [S_ "P" [I_ "E"; TRef false false None (I_ "Q"); TArray (I_ "u8") 4]; E_ "E" false; S_ "Q" [I_ "P"; TBox (I_ "R")]; R_ "R"] (TIdent n)).
  { intros n En H. refine (proj1 (pod_correct _ _ 5 (TIdent n) true _) eq_refl H).
    - repeat constructor; cbn; intuition discriminate.
    - destruct n as [r l]. cbn in En. subst r. reflexivity. }
  split; [apply (Hb (Named "P" [])); reflexivity|].
  eapply bl_struct; [| right; right; left; reflexivity|reflexivity|right; left; reflexivity|].
  - intros [a H]. discriminate.
  - right. apply bl_owner. exists (I_ "R"). left. reflexivity.
Qed.

(** * C08 *)
(** Whatever the iteration order of the hash tables: collection ends for every bridge,
    and if names are not declared twice, the classification is exactly [improper]. *)
Theorem C08_improper : forall ord apis, hash_order ord ->
  exists T errs, collect ord apis = Some (T, errs) /\
    ((forall n, ~ In (EDupType n) errs) -> forall t, is_considered_improper T t = true <-> improper apis t).
Proof.
  intros ord apis Hord. destruct (collect_total ord apis Hord) as [T [errs Hc]]. exists T, errs. split; [exact Hc|]. intros Hn t.
  assert (Hnd := no_dup_distinct _ _ _ _ Hc Hn).
  destruct (collect_facts _ _ _ _ Hc) as [order [terrs [imp [_ [Ei [_ [Es [_ [Er [Ea [_ [Eimp _]]]]]]]]]]]].
  unfold is_considered_improper. rewrite Es, Er, Ea, Eimp.
  destruct (improper_result apis Hnd ord Hord) as [imp' [E' G]]. rewrite E' in Ei. injection Ei as ->.
  destruct (determine_improper _ _ _ t) as [b|x] eqn:D.
  - eapply det_definite; eauto.
  - destruct (det_depends apis Hnd _ _ D) as [D1 [D2 D3]]. rewrite D3, <- (G x D1 D2). apply smem_In.
Qed.
Print Assumptions C08_improper.

(** A chain whose improperness is found only after several rounds in one order. *)
Example C08_nonvacuous :
  let apis := [S_ "A" [I_ "B"]; S_ "B" [TPtr false (I_ "C")]; S_ "C" [I_ "i32"; I_ "String"]; S_ "D" [I_ "E"]; S_ "E" [TRef false false None (I_ "D")]] in
  hash_order (fun _ l => rev l) /\
  (exists T, collect (fun _ l => rev l) apis = Some (T, []) /\ is_considered_improper T (I_ "A") = true /\ is_considered_improper T (I_ "D") = false) /\
  improper apis (I_ "A").
Proof.
  cbv zeta. split; [intros n l; apply Permutation_sym, Permutation_rev|]. split; [eexists; split; [vm_compute; reflexivity|split; reflexivity]|].
  eapply im_struct; [intros [a H]; discriminate|left; reflexivity|reflexivity|left; reflexivity|].
  eapply im_struct; [intros [a H]; discriminate|right; left; reflexivity|reflexivity|left; reflexivity|].
  apply im_ptr.
  eapply im_struct; [intros [a H]; discriminate|right; right; left; reflexivity|reflexivity|right; left; reflexivity|].
  apply im_string. reflexivity.
Qed.

(** * C09 *)
Definition dup_reported (errs : list cerr) : Prop := exists n, In (EDupType n) errs.
Definition C09_claim : Prop := forall ord apis T errs, hash_order ord -> collect ord apis = Some (T, errs) ->
  (~ dup_reported errs <-> forall n, unambiguous (decls n apis)).

(** False: [type A = path; struct A { f: i32 }] is accepted, although the alias and the
    struct both define A (the other order is rejected).  Likewise an [extern C++]
    type followed by an enum bound to a header. *)
Theorem C09_duplicates_refuted : ~ C09_claim.
Proof.
  intros H. specialize (H (fun _ l => l) [A_ "A"; S_ "A" [I_ "i32"]]).
  destruct (collect (fun _ l => l) [A_ "A"; S_ "A" [I_ "i32"]]) as [[T errs]|] eqn:E; [|discriminate].
  specialize (H T errs (fun n l => Permutation_refl _) eq_refl).
  assert (errs = []) by (vm_compute in E; injection E as _ <-; reflexivity). subst errs.
  destruct H as [H _]. destruct (H (fun D => match D with ex_intro _ n H => H end) "A") as [G|[G|G]]; cbn in G; [lia|discriminate|discriminate].
Qed.
Print Assumptions C09_duplicates_refuted.

(** The exact rule, for every bridge and every name: a name is accepted iff it is
    declared at most once, or by a shared type and an extern C++ type in either order, or by
    an alias followed by a shared type, or by an extern C++ type or an alias
    followed by an enum bound to a header.  The error names the duplicated type.
    (Missing from the claim: the last three combinations should be rejected.) *)
Theorem C09_duplicates_partial : forall ord apis T errs n, hash_order ord -> collect ord apis = Some (T, errs) ->
  (~ In (EDupType n) errs <->
   unambiguous (decls n apis) \/ decls n apis = [DkAlias; DkShared] \/
   decls n apis = [DkCxx; DkFromHeader] \/ decls n apis = [DkAlias; DkFromHeader]).
Proof.
  intros ord apis T errs n _ Hc. destruct (collect_facts _ _ _ _ Hc) as [order [terrs [imp [_ [_ [-> _]]]]]].
  assert (G : In (EDupType n) (c_errs (collect_apis apis) ++ map (fun e => ECycle (fst e) (snd e)) terrs) <-> df_err (dfa_run (decls n apis)) = true).
  { rewrite dup_state. cbn [df_err]. rewrite in_app_iff, existsb_exists. split.
    - intros [H|H]; [exists (EDupType n); split; [exact H|apply String.eqb_refl]|].
      apply in_map_iff in H. destruct H as [e [H _]]. discriminate.
    - intros [e [H1 H2]]. destruct e; try discriminate. apply String.eqb_eq in H2. subst. auto. }
  rewrite G, not_true_iff_false, dfa_accepts. unfold accepted_decls, unambiguous. cbn [In]. intuition auto.
Qed.
Print Assumptions C09_duplicates_partial.

(** For bridges without aliases and header-bound enums the claim holds as stated. *)
Theorem C09_no_alias_partial : forall ord apis T errs, hash_order ord -> collect ord apis = Some (T, errs) ->
  (forall n, ~ In DkAlias (decls n apis) /\ ~ In DkFromHeader (decls n apis)) ->
  (~ dup_reported errs <-> forall n, unambiguous (decls n apis)).
Proof.
  intros ord apis T errs Ho Hc Hna. split.
  - intros H n. destruct (proj1 (C09_duplicates_partial ord apis T errs n Ho Hc)) as [G|[G|[G|G]]]; [intros D; apply H; exists n; exact D|exact G| | |];
      destruct (Hna n) as [N1 N2]; rewrite G in N1, N2; cbn in N1, N2; tauto.
  - intros H [n D]. revert D. apply (C09_duplicates_partial ord apis T errs n Ho Hc). left. apply H.
Qed.
Print Assumptions C09_no_alias_partial.

Example C09_nonvacuous :
  let apis := [C_ "A"; S_ "A" [I_ "i32"]; E_ "B" false; C_ "B"; R_ "C"; S_ "C" []] in
  hash_order (fun _ l => l) /\
  (exists T, collect (fun _ l => l) apis = Some (T, [EDupType "C"])) /\
  unambiguous (decls "A" apis) /\ unambiguous (decls "B" apis) /\ ~ unambiguous (decls "C" apis).
Proof.
  cbv zeta. split; [intros n l; apply Permutation_refl|]. split; [eexists; vm_compute; reflexivity|].
  split; [right; right; reflexivity|]. split; [right; left; reflexivity|]. intros [H|[H|H]]; cbn in H; [lia|discriminate|discriminate].
Qed.

(** * C17 *)
(** The instantiations of a bridge: no duplicates; exactly those requested by an
    explicit impl or written anywhere over a name that is neither primitive nor an
    alias; and each records its explicit impl, if any. *)
Theorem C17_instantiations : forall ord apis T errs, hash_order ord -> collect ord apis = Some (T, errs) ->
  NoDup (map fst (t_impls T)) /\
  (forall k x, In (k, x) (map fst (t_impls T)) <->
     (exists i, In (AImpl i) apis /\ generic_over (kind_name k) x (im_ty i)) \/
     (~ is_primitive x /\ ~ is_alias apis x /\ exists u, mentioned apis u /\ generic_over (kind_name k) x u)) /\
  (forall k x v, In ((k, x), v) (t_impls T) -> match v with
     | Some i => In (AImpl i) apis /\ generic_over (kind_name k) x (im_ty i)
     | None => ~ exists i, In (AImpl i) apis /\ generic_over (kind_name k) x (im_ty i)
     end).
Proof.
  intros ord apis T errs _ Hc. destruct (collect_facts _ _ _ _ Hc) as [order [terrs [imp [_ [_ [_ [_ [_ [_ [_ [_ [_ [-> _]]]]]]]]]]]]].
  exact (impls_spec apis).
Qed.
Print Assumptions C17_instantiations.

Example C17_nonvacuous :
  let i := Impl_ CUnconditional [] false (TUniquePtr (I_ "A")) in
  let apis := [C_ "C"; A_ "A"; F_ [TRef false false None (TVec (I_ "C")); TVec (I_ "C"); TBox (I_ "A"); TPtr false (TUniquePtr (TCxxVector (I_ "C")))] None; AImpl i] in
  exists T errs, collect (fun _ l => l) apis = Some (T, errs) /\
    map fst (t_impls T) = [(KUnique, "A"); (KVec, "C"); (KVector, "C")].
Proof. eexists; eexists. split; vm_compute; reflexivity. Qed.

(** * C18 *)
(** For every extern C++ type without a shared definition, exactly the listed
    positions are recorded as requiring the triviality check, each with its reason. *)
Theorem C18_reasons : forall ord apis T errs x r, hash_order ord -> collect ord apis = Some (T, errs) ->
  ((exists rs, In (x, rs) (t_required_trivial T) /\ In r rs) <->
   is_cxx_type apis x /\ ~ is_struct apis x /\ ~ is_enum apis x /\ used_at apis x (pos_of r)).
Proof.
  intros ord apis T errs x r _ Hc. destruct (collect_facts _ _ _ _ Hc) as [order [terrs [imp [_ [_ [_ [_ [_ [_ [_ [_ [_ [_ [-> _]]]]]]]]]]]]]].
  exact (required_spec apis x r).
Qed.
Print Assumptions C18_reasons.

Example C18_nonvacuous :
  let apis := [A_ "A"; S_ "S" [I_ "A"]; F_ [TRef false true None (I_ "A"); TBox (TVec (I_ "A"))] (Some (I_ "S"))] in
  exists T errs, collect (fun _ l => l) apis = Some (T, errs) /\
    t_required_trivial T = [("A", [RField "S"; RUnpinnedMut "f"; RVecElement])].
Proof. eexists; eexists. split; vm_compute; reflexivity. Qed.
