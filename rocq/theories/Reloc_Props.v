(** C91: what Rust moves is bytewise movable in C++.  Specification: Reloc_Spec.v. *)
From Verif Require Import Base Syntax_Model TypeEq_Model Types_Model Types_Spec Types_Proofs Types_Proofs2 Types_Proofs3 Types_Props Check_Model Check_Spec Check_Proofs Check_Props Reloc_Model Reloc_Spec.

(** The full claim: if the generated code compiles in both languages, then Rust holds no C++
    object whose bytes cannot be moved. *)
Definition C91_claim : Prop := forall gen ord apis T w a n, accepted_bridge gen ord apis T -> foreign apis a -> asserts_hold w (static_asserts T apis) ->
  n_rust n = p_rust (ta_name a) -> rust_holds apis n -> bytewise_elements (w (ta_name a)).

Lemma relocatable_ok d : IsRelocatable d = true <-> bytewise d.
Proof.
  split.
  - destruct d as [[] [] [[]|] [[]|]|d]; cbn; intros H; try discriminate; constructor.
  - destruct 1 as [|m d|m d b]; try reflexivity; destruct m, d; try reflexivity; destruct b as [[]|]; reflexivity.
Qed.
Lemma relocatable_or_array_ok d : IsRelocatableOrArray d = true <-> bytewise_elements d.
Proof.
  induction d as [m dt mb sp|d IH].
  - change (IsRelocatable (DClass m dt mb sp) = true <-> bytewise_elements (DClass m dt mb sp)). rewrite relocatable_ok. split; [apply be_class|]. inversion 1; assumption.
  - cbn [IsRelocatableOrArray]. rewrite IH. split; [apply be_array|]. inversion 1; subst; [|assumption]. match goal with H : bytewise (DArray _) |- _ => inversion H end.
Qed.
Lemma bytewise_elems d : bytewise d -> bytewise_elements d. Proof. apply be_class. Qed.

Lemma push_keys k r m : map fst (push_reason k r m) = if existsb (String.eqb k) (map fst m) then map fst m else map fst m ++ [k].
Proof. induction m as [|(x, l) m IH]; [reflexivity|]. cbn. destruct (String.eqb k x); [reflexivity|]. cbn. rewrite IH. destruct (existsb _ _); reflexivity. Qed.
Lemma push_nodup k r m : NoDup (map fst m) -> NoDup (map fst (push_reason k r m)).
Proof.
  intros H. rewrite push_keys. destruct (existsb (String.eqb k) (map fst m)) eqn:E; [exact H|].
  assert (N : ~ In k (map fst m)) by (intros I; enough (existsb (String.eqb k) (map fst m) = true) by congruence; apply existsb_exists; exists k; split; [exact I|apply String.eqb_refl]).
  clear E. induction (map fst m) as [|x l IH]; cbn; [constructor; [intros []|constructor]|]. inversion H; subst. constructor.
  - rewrite in_app_iff. intros [I|[->|[]]]; [contradiction|]. apply N. left. reflexivity.
  - apply IH; [assumption|]. intros I. apply N. right. exact I.
Qed.
Lemma required_nodup apis all s e c : NoDup (map fst (required_trivial_reasons apis all s e c)).
Proof.
  unfold required_trivial_reasons. generalize (flat_map reasons_of_api apis ++ flat_map reasons_of_ty all) as l. assert (N : NoDup (map fst (@nil (string * list reason)))) by constructor. revert N.
  generalize (@nil (string * list reason)) as m. intros m N l. revert m N. induction l as [|(k, r) l IH]; intros m N; [exact N|]. cbn [fold_left]. apply IH.
  destruct (smem k c && negb (has k s) && negb (has k e)); [apply push_nodup, N|exact N].
Qed.
Lemma assoc_nodup {A} x (a : A) l : NoDup (map fst l) -> In (x, a) l -> assoc x l = Some a.
Proof.
  induction l as [|(y, b) l IH]; [intros _ []|]. cbn. intros N [E|I]; inversion N; subst.
  - injection E as -> ->. rewrite String.eqb_refl. reflexivity.
  - destruct (String.eqb_spec x y) as [->|_]; [|auto]. destruct H1. apply in_map_iff. exists (y, a). auto.
Qed.
Section Accepted.
  Context (gen : generator) (ord : nat -> list string -> list string) (apis : list api) (T : types) (Hacc : accepted_bridge gen ord apis T).
  Lemma keys_nodup : NoDup (map fst (t_required_trivial T)).
  Proof. destruct Hacc as ((_ & Hc) & _). destruct (collect_facts _ _ _ _ Hc) as [order [terrs [imp [_ [_ [_ [_ [_ [_ [_ [_ [_ [_ [-> _]]]]]]]]]]]]]]. apply required_nodup. Qed.
  Lemma reasons_ok a r : foreign apis a -> ((exists rs, assoc (p_rust (ta_name a)) (t_required_trivial T) = Some rs /\ In r rs) <-> used_at apis (p_rust (ta_name a)) (pos_of r)).
  Proof.
    intros (Ia & Ns & Ne). destruct Hacc as ((Ho & Hc) & _). assert (K := C18_reasons ord apis T [] (p_rust (ta_name a)) r Ho Hc). split.
    - intros (rs & E & I). apply assoc_In in E. apply K. eauto.
    - intros U. destruct K as (_ & K). destruct K as (rs & I & J); [repeat split; auto; right; left; exists a; auto|]. exists rs. split; [|exact J]. apply assoc_nodup; [exact keys_nodup|exact I].
  Qed.
  Lemma reasons_nonempty x rs : assoc x (t_required_trivial T) = Some rs -> exists r, In r rs.
  Proof.
    destruct Hacc as ((Ho & Hc) & _). destruct (collect_facts _ _ _ _ Hc) as [order [terrs [imp [_ [_ [_ [_ [_ [_ [_ [_ [_ [_ [-> _]]]]]]]]]]]]]].
    intros E. apply assoc_In in E. revert x rs E. unfold required_trivial_reasons.
    generalize (flat_map reasons_of_api apis ++ flat_map reasons_of_ty (c_all (collect_apis apis))) as l.
    assert (N : forall x rs, In (x, rs) (@nil (string * list reason)) -> exists r, In r rs) by (intros x rs []). revert N. generalize (@nil (string * list reason)) as m. intros m N l. revert m N.
    induction l as [|(k, r) l IH]; intros m N; [exact N|]. cbn [fold_left]. apply IH. destruct (_ && _ && _); [|exact N].
    clear IH. induction m as [|(y, l0) m IHm]; cbn; intros x rs.
    - intros [E|[]]. injection E as <- <-. exists r. left. reflexivity.
    - destruct (String.eqb k y); cbn; intros [E|I].
      + injection E as <- <-. exists r. apply in_or_app. right. left. reflexivity.
      + apply (N x). right. exact I.
      + apply (N x). left. exact E.
      + apply (IHm (fun x rs I => N x rs (or_intror I)) x). exact I.
  Qed.
  Lemma used_pos x p : used_at apis x p -> exists r, pos_of r = p.
  Proof. intros _. destruct p; [exists (RField s)|exists (RArg f)|exists (RRet f)|exists RBoxTarget|exists RVecElement|exists (RSlice mutable)|exists (RUnpinnedMut f)]; reflexivity. Qed.
  Lemma assertion_ok w a : foreign apis a ->
    (match assoc (p_rust (ta_name a)) (t_required_trivial T) with
     | Some rs => match check_trivial_extern_type a rs with AssertRelocatable p => IsRelocatable (w p) = true | AssertRelocatableOrArray p => IsRelocatableOrArray (w p) = true end
     | None => True end) <-> usable apis (p_rust (ta_name a)) (w (ta_name a)).
  Proof.
    intros F. pose proof (fun r => reasons_ok a r F) as K. unfold usable. destruct (assoc (p_rust (ta_name a)) (t_required_trivial T)) as [rs|] eqn:E.
    - assert (K' : forall r, In r rs <-> used_at apis (p_rust (ta_name a)) (pos_of r)).
      { intros r. rewrite <- (K r). split; [eauto|]. intros (rs' & Q & I). injection Q as <-. exact I. }
      destruct (reasons_nonempty _ _ E) as (r0 & I0). unfold check_trivial_extern_type. destruct (forallb _ rs) eqn:Fb.
      + rewrite relocatable_or_array_ok. rewrite forallb_forall in Fb. split.
        * intros H. split; [auto|]. intros p U N. destruct N. destruct (used_pos _ _ U) as (r & <-). apply K' in U. specialize (Fb r U). destruct r; try discriminate; exact I.
        * intros (H & _). apply (H (pos_of r0)), K', I0.
      + rewrite relocatable_ok. assert (X : exists r, In r rs /\ ~ inside (pos_of r)).
        { clear -Fb. induction rs as [|r rs IH]; [discriminate|]. cbn in Fb. destruct r; try (eexists; split; [left; reflexivity|cbn; tauto]); destruct (IH Fb) as (r' & I & N); exists r'; (split; [right; exact I|exact N]). }
        destruct X as (r & Ir & Nr). split.
        * intros H. split; intros; [apply be_class|]; exact H.
        * intros (_ & H). apply (H (pos_of r)); [apply K', Ir|exact Nr].
    - split; [|auto]. intros _. split; intros p U; exfalso; destruct (used_pos _ _ U) as (r & <-); apply K in U; destruct U as (rs & Q & _); discriminate.
  Qed.
End Accepted.

(** The static assertions hold exactly if every C++ type may be used where the bridge uses
    it. *)
Theorem C91_static : forall gen ord apis T w, accepted_bridge gen ord apis T -> (forall a, In (ATypeAlias a) apis -> foreign apis a) ->
  (asserts_hold w (static_asserts T apis) <-> forall a, In (ATypeAlias a) apis -> usable apis (p_rust (ta_name a)) (w (ta_name a))).
Proof.
  intros gen ord apis T w H F. unfold asserts_hold, static_asserts. rewrite Forall_flat_map, Forall_forall. split.
  - intros G a I. apply (assertion_ok _ _ _ _ H w a (F a I)). specialize (G _ I). cbn in G. destruct (assoc _ _); [inversion G; assumption|exact Logic.I].
  - intros G x I. destruct x; try constructor. pose proof (proj2 (assertion_ok _ _ _ _ H w a (F a I)) (G a I)) as Q. destruct (assoc _ _); [constructor; [exact Q|constructor]|constructor].
Qed.
Print Assumptions C91_static.
(** So, whatever C++ type is passed by value, is an element of a Box, Vec, slice or array, or is
    behind an unpinned mutable reference: its bytes can be moved, … *)
Theorem C91_values : forall gen ord apis T w a n, accepted_bridge gen ord apis T -> foreign apis a -> asserts_hold w (static_asserts T apis) -> n_rust n = p_rust (ta_name a) ->
  (exists p, used_at apis (n_rust n) p) \/ (exists t, by_value apis t /\ inline_in (TIdent n) t) -> bytewise_elements (w (ta_name a)).
Proof.
  intros gen ord apis T w a n H F A E U.
  assert (G : exists rs, assoc (p_rust (ta_name a)) (t_required_trivial T) = Some rs).
  { destruct U as [(p & U)|(t & B & I)].
    - destruct (used_pos apis _ _ U) as (r & <-). rewrite E in U. apply (reasons_ok _ _ _ _ H a r F) in U. destruct U as (rs & Q & _). eauto.
    - destruct F as (Ia & Ns & Ne). destruct (C19_by_value_partial _ _ _ _ H) as ((V & _) & _). destruct (V t B) as [((un & th & args & ret & ->) & _)|(_ & V2)]; [inversion I|].
      destruct (V2 n I) as (rs & R); rewrite ?E; auto; [exists a; auto|]. exists rs. apply assoc_nodup; [apply (keys_nodup _ _ _ _ H)|]. rewrite <- E. exact R. }
  destruct G as (rs & R). unfold asserts_hold, static_asserts in A. rewrite Forall_flat_map, Forall_forall in A. specialize (A _ (proj1 F)). cbn in A. rewrite R in A. inversion A as [|? ? Q _]; subst.
  unfold check_trivial_extern_type in Q. destruct (forallb _ rs); [apply relocatable_or_array_ok, Q|apply be_class, relocatable_ok, Q].
Qed.
Print Assumptions C91_values.
(** … and the macro requires that its Kind be Trivial; for no other type is that required. *)
Theorem C91_kinds : forall gen ord apis T a, accepted_bridge gen ord apis T -> foreign apis a ->
  (In (p_rust (ta_name a)) (verify_kinds T apis) <-> exists p, used_at apis (p_rust (ta_name a)) p).
Proof.
  intros gen ord apis T a H F. unfold verify_kinds. rewrite in_flat_map. split.
  - intros (x & Ix & I). destruct x as [| | | | | | |b|]; try destruct I. unfold has in I. destruct (assoc (p_rust (ta_name b)) (t_required_trivial T)) as [rs|] eqn:R; cbn in I; [|destruct I].
    destruct I as [E|[]]. rewrite E in R. destruct (reasons_nonempty _ _ _ _ H _ _ R) as (r & Ir). exists (pos_of r). apply (reasons_ok _ _ _ _ H a r F). eauto.
  - intros (p & U). destruct (used_pos apis _ _ U) as (r & <-). apply (reasons_ok _ _ _ _ H a r F) in U. destruct U as (rs & R & _). exists (ATypeAlias a). split; [apply F|].
    unfold has. rewrite R. cbn. auto.
Qed.
Print Assumptions C91_kinds.

(** * Accepted bridges for which the claim is false *)
Local Definition I_ (a : string) : ty := TIdent (Named a []).
Local Definition al : type_alias := TypeAlias CUnconditional [] (Pair [] "A" "A") [].
Local Definition F_ (args : list ty) : api :=
  ACxxFunction (ExternFn CUnconditional LCxx (Pair [] "f" "f") false false [] None (map (fun t => ("x"%string, t)) args) None false true).
Lemma foreign_al apis : forallb (fun a => match a with AStruct s => negb (String.eqb (p_rust (st_name s)) "A") | AEnum e => negb (String.eqb (p_rust (en_name e)) "A") | _ => true end) apis = true ->
  In (ATypeAlias al) apis -> foreign apis al.
Proof.
  rewrite forallb_forall. intros H I. split; [exact I|]. split; intros (s & J & E); specialize (H _ J); cbn in H; rewrite E in H; discriminate.
Qed.
Local Definition bad : cdesc := DClass false false None None.
Lemma bad_not : ~ bytewise_elements bad. Proof. intros H. inversion H as [? B|]; subst. inversion B. Qed.
(** Arguments of function pointers are not checked, in either language. *)
Theorem C91_callback_refuted : exists gen ord apis T w a n, accepted_bridge gen ord apis T /\ foreign apis a /\ asserts_hold w (static_asserts T apis) /\ verify_kinds T apis = [] /\
  n_rust n = p_rust (ta_name a) /\ rust_holds apis n /\ ~ bytewise_elements (w (ta_name a)).
Proof.
  set (apis := [ATypeAlias al; F_ [TFn false false [("x"%string, I_ "A")] None]]). destruct (accepts_ok GBuild apis eq_refl) as (T & HT). pose proof HT as ((_ & Hc) & _). vm_compute in Hc. injection Hc as Hc.
  exists GBuild, id_order, apis, T, (fun _ => bad), al, (Named "A" []). split; [exact HT|]. split; [apply foreign_al; [reflexivity|left; reflexivity]|].
  split; [rewrite <- Hc; vm_compute; constructor|]. split; [rewrite <- Hc; vm_compute; reflexivity|]. split; [reflexivity|]. split; [|apply bad_not].
  apply (rh_callback_arg _ _ false false [("x"%string, I_ "A")] None "x" (I_ "A")); [|left; reflexivity|constructor]. eapply me_arg; [left; right; left; reflexivity|left; reflexivity|constructor].
Qed.
Print Assumptions C91_callback_refuted.
(** A type whose Kind is Trivial can be given to UniquePtr::new; C++ does not check it. *)
Theorem C91_unique_refuted : exists gen ord apis T w a n, accepted_bridge gen ord apis T /\ foreign apis a /\ asserts_hold w (static_asserts T apis) /\
  n_rust n = p_rust (ta_name a) /\ mentioned apis (TUniquePtr (TIdent n)) /\ rust_holds apis n /\ ~ bytewise_elements (w (ta_name a)).
Proof.
  set (apis := [ATypeAlias al; F_ [TUniquePtr (I_ "A")]]). destruct (accepts_ok GBuild apis eq_refl) as (T & HT). pose proof HT as ((_ & Hc) & _). vm_compute in Hc. injection Hc as Hc.
  assert (M : mentioned apis (TUniquePtr (TIdent (Named "A" [])))) by (eapply me_arg; [left; right; left; reflexivity|left; reflexivity|constructor]).
  exists GBuild, id_order, apis, T, (fun _ => bad), al, (Named "A" []). split; [exact HT|]. split; [apply foreign_al; [reflexivity|left; reflexivity]|].
  split; [rewrite <- Hc; vm_compute; constructor|]. split; [reflexivity|]. split; [exact M|]. split; [|apply bad_not]. eapply rh_new; [exact M|auto].
Qed.
Print Assumptions C91_unique_refuted.
Theorem C91_claim_refuted : ~ C91_claim.
Proof. intros H. destruct C91_callback_refuted as (gen & ord & apis & T & w & a & n & A & F & S & _ & E & R & N). exact (N (H gen ord apis T w a n A F S E R)). Qed.
Print Assumptions C91_claim_refuted.
(** A bridge that uses a type by value and as field: the assertion is about the type itself, and
    a type with a destructor is refused unless it says that it may be moved; as field only, an
    array is allowed. *)
Example C91_nonvacuous :
  let S := AStruct (Struct_ CUnconditional [] (Pair [] "S" "S") [] [Var CUnconditional (Pair [] "x" "x") (I_ "A")]) in
  let b1 := [ATypeAlias al; S; F_ [I_ "A"]] in let b2 := [ATypeAlias al; S] in
  exists T1 T2, accepted_bridge GBuild id_order b1 T1 /\ accepted_bridge GBuild id_order b2 T2 /\ foreign b1 al /\ foreign b2 al /\
    static_asserts T1 b1 = [AssertRelocatable (ta_name al)] /\ static_asserts T2 b2 = [AssertRelocatableOrArray (ta_name al)] /\ verify_kinds T1 b1 = ["A"%string] /\
    asserts_hold (fun _ => DClass true false (Some true) None) (static_asserts T1 b1) /\ ~ asserts_hold (fun _ => DClass true false None None) (static_asserts T1 b1) /\
    asserts_hold (fun _ => DArray (DClass true true None None)) (static_asserts T2 b2) /\ ~ asserts_hold (fun _ => DArray (DClass true true None None)) (static_asserts T1 b1).
Proof.
  intros S b1 b2. destruct (accepts_ok GBuild b1 eq_refl) as (T1 & H1). destruct (accepts_ok GBuild b2 eq_refl) as (T2 & H2).
  pose proof H1 as ((_ & Hc1) & _). pose proof H2 as ((_ & Hc2) & _). vm_compute in Hc1, Hc2. injection Hc1 as Hc1. injection Hc2 as Hc2. exists T1, T2.
  assert (E1 : static_asserts T1 b1 = [AssertRelocatable (ta_name al)]) by (rewrite <- Hc1; vm_compute; reflexivity).
  assert (E2 : static_asserts T2 b2 = [AssertRelocatableOrArray (ta_name al)]) by (rewrite <- Hc2; vm_compute; reflexivity).
  split; [exact H1|]. split; [exact H2|]. split; [apply foreign_al; [reflexivity|left; reflexivity]|]. split; [apply foreign_al; [reflexivity|left; reflexivity]|].
  split; [exact E1|]. split; [exact E2|]. split; [rewrite <- Hc1; vm_compute; reflexivity|]. unfold asserts_hold. rewrite E1, E2.
  repeat split; try (repeat constructor); intros N; inversion N as [|? ? Q _]; discriminate Q.
Qed.
