(** What several bridges provide together, and the checks of the generator. *)
From Verif Require Import Base Syntax_Model Types_Model Types_Spec Types_Proofs3 Types_Props Check_Model Check_Spec Check_Proofs Check_Proofs2 Mangle_Model Mangle_Spec Mangle_Proofs2 Attrs_Model Parse_Model File_Model File_Spec.
From Verif Require Paths_Model StrLib.

Section Many.
  Variable bss : list (list api).
  Hypothesis apart : names_apart bss.
  Hypothesis acc : forall b, In b bss -> exists gen ord T, accepted_bridge gen ord b T.
  Notation all := (List.concat bss).

  Lemma in_all a : In a all <-> exists b, In b bss /\ In a b.
  Proof. apply in_concat. Qed.
  Lemma up b a : In b bss -> In a b -> In a all.
  Proof. intros. apply in_all. eauto. Qed.
  Lemma stands_up b x p : In b bss -> stands_for b x p -> stands_for all x p.
  Proof.
    intros Ib (pre & a & post & -> & D & N & L). apply in_split in Ib as (l1 & l2 & E).
    exists (List.concat l1 ++ pre), a, (post ++ List.concat l2). split; [rewrite E, concat_app; cbn; rewrite <- !app_assoc; reflexivity|].
    split; [exact D|]. split; [exact N|]. intros b q I Db Eq. apply in_app_or in I as [I|I]; [exact (L _ _ I Db Eq)|].
    apply in_concat in I as (b' & Ib' & I). apply In_nth_error in Ib' as (k & K).
    assert (List.length l1 = S (List.length l1) + k)%nat; [|lia].
    eapply (apart _ _ (pre ++ a :: post) b' a b p q); try eassumption.
    - rewrite E, nth_error_app2, Nat.sub_diag by lia. reflexivity.
    - rewrite E, nth_error_app2 by lia. replace (S (List.length l1) + k - List.length l1)%nat with (S k) by lia. exact K.
    - apply in_or_app. right. left. reflexivity.
    - congruence.
  Qed.
  Lemma stands_down b x p q : In b bss -> stands_for b x p -> stands_for all x q -> p = q.
  Proof. intros Ib S S'. apply (stands_up _ _ _ Ib) in S. apply res_last in S. apply res_last in S'. congruence. Qed.
  Lemma decl_local b x p a q : In b bss -> stands_for b x p -> In a all -> decl_name a = Some q -> p_rust q = x -> In a b.
  Proof.
    intros Ib (pre & a0 & post & E & D & N & _) I Da Eq. apply in_all in I as (b' & Ib' & I).
    apply In_nth_error in Ib as (i & Ki). apply In_nth_error in Ib' as (j & Kj).
    assert (i = j) as <-.
    { apply (apart i j b b' a0 a p q); try assumption; [rewrite E; apply in_or_app; right; left; reflexivity|congruence]. }
    congruence.
  Qed.
  Lemma alias_local b x p : In b bss -> stands_for b x p -> is_alias all x <-> is_alias b x.
  Proof.
    intros Ib S. split; intros (a & I & N); exists a; (split; [|exact N]); [eapply decl_local; eauto; reflexivity|eapply up; eauto].
  Qed.
  Lemma trivial_local b x p : In b bss -> stands_for b x p -> maybe_trivial all x <-> maybe_trivial b x.
  Proof.
    intros Ib S. unfold maybe_trivial. rewrite (alias_local b x p Ib S).
    assert (is_struct all x <-> is_struct b x) as -> by (split; intros (a & I & N); exists a; (split; [|exact N]); [eapply decl_local; eauto; reflexivity|eapply up; eauto]).
    assert (is_enum all x <-> is_enum b x) as -> by (split; intros (a & I & N); exists a; (split; [|exact N]); [eapply decl_local; eauto; reflexivity|eapply up; eauto]).
    reflexivity.
  Qed.
  Lemma mentioned_all u : mentioned all u <-> exists b, In b bss /\ mentioned b u.
  Proof.
    split.
    - intros [s f I|f x t I|f t I|i I].
      + apply in_all in I as (b & Ib & I). exists b. split; [exact Ib|eapply me_field; eauto].
      + destruct I as [I|I]; apply in_all in I as (b & Ib & I); exists b; (split; [exact Ib|eapply me_arg; eauto]).
      + destruct I as [I|I]; apply in_all in I as (b & Ib & I); exists b; (split; [exact Ib|eapply me_ret; eauto]).
      + apply in_all in I as (b & Ib & I). exists b. split; [exact Ib|eapply me_impl; eauto].
    - intros (b & Ib & [s f I|f x t I|f t I|i I]); [eapply me_field|eapply me_arg|eapply me_ret|eapply me_impl]; eauto using up; destruct I; eauto using up.
  Qed.
  Lemma inst_stands b k x : In b bss -> instantiates b (kind_name k) x -> exists p, stands_for b x p.
  Proof.
    intros Ib I. destruct (acc b Ib) as (gen & ord & T & A). apply (instantiates_key _ _ _ _ A) in I. exact (impl_resolves _ _ _ _ A _ _ I).
  Qed.
  Lemma inst_all k x : instantiates all (kind_name k) x <-> exists b, In b bss /\ instantiates b (kind_name k) x.
  Proof.
    split.
    - intros [(i & I & G)|(Np & Na & u & M & G)].
      + apply in_all in I as (b & Ib & I). exists b. split; [exact Ib|]. left. eauto.
      + apply mentioned_all in M as (b & Ib & M). exists b. split; [exact Ib|]. right. split; [exact Np|]. split; [|eauto].
        intros (a & I & N). apply Na. exists a. split; [eapply up; eauto|exact N].
    - intros (b & Ib & I). destruct (inst_stands _ _ _ Ib I) as (p & S).
      destruct I as [(i & I & G)|(Np & Na & u & M & G)]; [left; exists i; split; [eapply up; eauto|exact G]|].
      right. split; [exact Np|]. split; [rewrite (alias_local _ _ _ Ib S); exact Na|]. exists u. split; [apply mentioned_all; eauto|exact G].
  Qed.
  (** what holds of an instantiation in the union holds of it in the bridge *)
  Lemma inst_in k x p : instantiates all (kind_name k) x -> stands_for all x p ->
    exists b, In b bss /\ instantiates b (kind_name k) x /\ stands_for b x p.
  Proof.
    intros I S. apply inst_all in I as (b & Ib & I). destruct (inst_stands _ _ _ Ib I) as (q & Sq).
    exists b. split; [exact Ib|]. split; [exact I|]. rewrite <- (stands_down _ _ _ _ Ib Sq S). exact Sq.
  Qed.
  Lemma fn_local b f e : In b bss -> In (ACxxFunction f) b \/ In (ARustFunction f) b -> fn_entity all f e <-> fn_entity b f e.
  Proof.
    intros Ib I. destruct (acc b Ib) as (gen & ord & T & A). split.
    - intros [E|r p E S]; [constructor; exact E|].
      assert (Af : all_functions b f) by (destruct I; [left|right]; assumption).
      destruct (fn_has_entity _ _ _ _ A f Af) as (e' & [E'|r' p' E' S']); [congruence|].
      assert (r' = r) by congruence. subst r'. pose proof (stands_down _ _ _ _ Ib S' S). subst p'. econstructor; eauto.
    - intros [E|r p E S]; [constructor; exact E|]. econstructor; eauto using stands_up.
  Qed.
  Lemma tramp_local b f h e : In b bss -> In (ACxxFunction f) b -> trampoline_entity all f h e <-> trampoline_entity b f h e.
  Proof.
    intros Ib I. destruct (acc b Ib) as (gen & ord & T & A). split.
    - intros [x un th args ret E J|r p x un th args ret E S J]; [econstructor; eauto|].
      destruct (fn_has_entity _ _ _ _ A f (or_introl I)) as (e' & [E'|r' p' E' S']); [congruence|].
      assert (r' = r) by congruence. subst r'. pose proof (stands_down _ _ _ _ Ib S' S). subst p'. eapply te_method; eauto.
    - intros [x un th args ret E J|r p x un th args ret E S J]; [econstructor; eauto|eapply te_method; eauto using stands_up].
  Qed.

  Ltac pick k H S := let b := fresh "b" in let Ib := fresh "Ib" in let I' := fresh "I'" in let S' := fresh "S'" in
    destruct (inst_in k _ _ H S) as (b & Ib & I' & S'); exists b; split; [exact Ib|].

  Lemma cxx_provides_all e : cxx_provides all e <-> exists b, In b bss /\ cxx_provides b e.
  Proof.
    split.
    - intros [f e0 I F|f e0 I F|x p op I S O|x p I S M|x p op I S O|x p I S M|x p op I S O|x p op I S O|x p op I S M O|x p op I S O].
      + apply in_all in I as (b & Ib & I). exists b. split; [exact Ib|]. eapply cp_fn; [exact I|]. apply (fn_local b f e0 Ib (or_introl I)). exact F.
      + apply in_all in I as (b & Ib & I). exists b. split; [exact Ib|]. eapply cp_trampoline; [exact I|]. apply (tramp_local b f false e0 Ib I). exact F.
      + pick KUnique I S. eapply cp_unique; eauto.
      + pick KUnique I S. eapply cp_unique_uninit; eauto. eapply trivial_local; eauto.
      + pick KShared I S. eapply cp_shared; eauto.
      + pick KShared I S. eapply cp_shared_uninit; eauto. eapply trivial_local; eauto.
      + pick KWeak I S. eapply cp_weak; eauto.
      + pick KVector I S. eapply cp_vector; eauto.
      + pick KVector I S. eapply cp_vector_value; eauto. eapply trivial_local; eauto.
      + pick KVector I S. eapply cp_vector_owner; eauto.
    - intros (b & Ib & [f e0 I F|f e0 I F|x p op I S O|x p I S M|x p op I S O|x p I S M|x p op I S O|x p op I S O|x p op I S M O|x p op I S O]).
      + eapply cp_fn; [eapply up; eauto|]. apply (fn_local b f e0 Ib (or_introl I)). exact F.
      + eapply cp_trampoline; [eapply up; eauto|]. apply (tramp_local b f false e0 Ib I). exact F.
      + eapply cp_unique; eauto using stands_up. apply (inst_all KUnique); eauto.
      + eapply cp_unique_uninit; eauto using stands_up. apply (inst_all KUnique); eauto. eapply trivial_local; eauto.
      + eapply cp_shared; eauto using stands_up. apply (inst_all KShared); eauto.
      + eapply cp_shared_uninit; eauto using stands_up. apply (inst_all KShared); eauto. eapply trivial_local; eauto.
      + eapply cp_weak; eauto using stands_up. apply (inst_all KWeak); eauto.
      + eapply cp_vector; eauto using stands_up. apply (inst_all KVector); eauto.
      + eapply cp_vector_value; eauto using stands_up. apply (inst_all KVector); eauto. eapply trivial_local; eauto.
      + eapply cp_vector_owner; eauto using stands_up. apply (inst_all KVector); eauto.
  Qed.
  Lemma rust_provides_all e : rust_provides all e <-> exists b, In b bss /\ rust_provides b e.
  Proof.
    split.
    - intros [f e0 I F|f e0 I F|s I D|s I D E|s op I D O|s op I D E O|s I D|t op I O|x p op I S O|x p op I S O];
        try (apply in_all in I as (b & Ib & I); exists b; (split; [exact Ib|])).
      + eapply rp_fn; [exact I|]. apply (fn_local b f e0 Ib (or_intror I)). exact F.
      + eapply rp_trampoline; [exact I|]. apply (tramp_local b f true e0 Ib I). exact F.
      + apply rp_eq; assumption.
      + apply rp_ne; assumption.
      + apply rp_lt; assumption.
      + apply rp_gt; assumption.
      + apply rp_hash; assumption.
      + apply rp_layout; assumption.
      + pick KBox I S. eapply rp_box; eauto.
      + pick KVec I S. eapply rp_vec; eauto.
    - intros (b & Ib & [f e0 I F|f e0 I F|s I D|s I D E|s op I D O|s op I D E O|s I D|t op I O|x p op I S O|x p op I S O]).
      + eapply rp_fn; [eapply up; eauto|]. apply (fn_local b f e0 Ib (or_intror I)). exact F.
      + eapply rp_trampoline; [eapply up; eauto|]. apply (tramp_local b f true e0 Ib I). exact F.
      + apply rp_eq; eauto using up.
      + apply rp_ne; eauto using up.
      + apply rp_lt; eauto using up.
      + apply rp_gt; eauto using up.
      + apply rp_hash; eauto using up.
      + apply rp_layout; eauto using up.
      + eapply rp_box; eauto using stands_up. apply (inst_all KBox); eauto.
      + eapply rp_vec; eauto using stands_up. apply (inst_all KVec); eauto.
  Qed.
End Many.

(** * Includes *)
Lemma relative_spec s : (exists r, Paths_Model.components s = Paths_Model.CurDir :: r \/ Paths_Model.components s = Paths_Model.ParentDir :: r) <-> relative s.
Proof.
  unfold Paths_Model.components, relative. split.
  - pose proof (StrLib.join_split Paths_Model.slash s) as J. destruct (StrLib.split_on Paths_Model.slash s) as [|first rest]; [intros (r & [E|E]); discriminate|].
    intros (r & H).
    assert (F : first = "." \/ first = "..").
    { unfold Paths_Model.part in H. destruct (String.eqb_spec first "."); [auto|]. destruct (String.eqb_spec first ".."); [auto|].
      destruct (String.eqb_spec first ""), rest as [|? ?]; cbn in H; destruct H as [H|H]; discriminate. }
    destruct rest as [|second rest]; cbn [StrLib.join_with] in J; [subst; tauto|].
    right. right. exists (StrLib.join_with Paths_Model.slash (second :: rest)). destruct F as [-> | ->]; [left|right]; rewrite <- J; reflexivity.
  - intros [->|[->|(r & [->| ->])]].
    + eexists. left. reflexivity.
    + eexists. right. reflexivity.
    + change ("./" ++ r)%string with ("." ++ String Paths_Model.slash r)%string. rewrite StrLib.split_on_app by reflexivity.
      pose proof (StrLib.split_on_ne Paths_Model.slash r). destruct (StrLib.split_on Paths_Model.slash r); [congruence|]. eexists. left. reflexivity.
    + change ("../" ++ r)%string with (".." ++ String Paths_Model.slash r)%string. rewrite StrLib.split_on_app by reflexivity.
      pose proof (StrLib.split_on_ne Paths_Model.slash r). destruct (StrLib.split_on Paths_Model.slash r); [congruence|]. eexists. right. reflexivity.
Qed.
Lemma precheck_spec allow apis : precheck allow apis = [] <-> allow = true \/ forall i, In (AInclude i) apis -> ~ relative (in_path i).
Proof.
  unfold precheck. destruct allow; [tauto|]. rewrite flat_map_nil. split.
  - intros H. right. intros i I R. specialize (H _ I). apply relative_spec in R as (r & R). unfold dot_include in H.
    destruct R as [R|R]; rewrite R in H; discriminate.
  - intros [H|H]; [discriminate|]. intros a I. destruct (dot_include a) eqn:D; [|reflexivity]. exfalso.
    destruct a as [i| | | | | | | |]; try discriminate. apply (H i I). apply relative_spec. unfold dot_include in D.
    destruct (Paths_Model.components (in_path i)) as [|[] r]; try discriminate; eauto.
Qed.

(** * What the generator checks, the macro does too *)
Lemma typecheck_macro T apis : typecheck GBuild T apis = [] -> typecheck GMacro T apis = [].
Proof.
  unfold typecheck. rewrite !app_nil. intros (A & B & C). split; [exact A|]. split; [exact B|].
  rewrite flat_map_nil in *. intros a I. specialize (C a I).
  destruct a; cbn [check_api] in *; try exact C;
    unfold check_api_struct, check_api_enum, check_api_type, check_api_fn, check_api_type_alias, check_api_impl in *; rewrite !app_nil in *; cbn [check_lifetimes]; tauto.
Qed.
