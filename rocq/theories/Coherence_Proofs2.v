(** Proofs for C89, part 2: the expansion is coherent exactly if the items of the bridge are
    apart. *)
From Verif Require Import Base StrLib Syntax_Model TypeEq_Model Toposort_Model Toposort_Spec Types_Model Types_Spec Types_Proofs Types_Proofs2 Types_Props
  Check_Model Check_Spec Check_Proofs Check_Proofs2 Mangle_Model Mangle_Spec Mangle_Proofs Mangle_Proofs2 Mangle_Proofs4 Abi_Model Derive_Model Expand_Model
  Member_Proofs Coherence_Model Coherence_Spec Coherence_Proofs.
From Coq Require Import Lia.

(** * Names made up by the macro *)
Lemma double_tail c x : double x -> double (String c x).
Proof. intros (a & b & ->). exists (String c a), b. reflexivity. Qed.
Lemma first_double x y g h : ~ double x -> (forall a, x <> a ++ "_")%string -> ~ double y -> (forall a, y <> a ++ "_")%string ->
  (x ++ "__" ++ g = y ++ "__" ++ h)%string -> x = y /\ g = h.
Proof.
  revert y. induction x as [|c x IH]; intros y Dx Ex Dy Ey E.
  - destruct y as [|c y]; [cbn in E; injection E as ->; auto|]. exfalso. cbn in E. injection E as Ec E. subst c. destruct y as [|c y]; [exact (Ey ""%string eq_refl)|].
    cbn in E. injection E as Ec E. subst c. apply Dy. exists ""%string, y. reflexivity.
  - destruct y as [|d y].
    + exfalso. cbn in E. injection E as Ec E. subst c. destruct x as [|c x]; [exact (Ex ""%string eq_refl)|]. cbn in E. injection E as Ec E. subst c. apply Dx. exists ""%string, x. reflexivity.
    + cbn in E. injection E as -> E. destruct (IH y) as (-> & ->); auto.
      * intros D. apply Dx, double_tail, D.
      * intros a ->. apply (Ex (String d a)). reflexivity.
      * intros D. apply Dy, double_tail, D.
      * intros a ->. apply (Ey (String d a)). reflexivity.
Qed.
Lemma slength_app a b : String.length (a ++ b) = (String.length a + String.length b)%nat.
Proof. induction a as [|c a IH]; cbn; [reflexivity|]. rewrite IH. reflexivity. Qed.
Lemma suffix_inj a b s : (a ++ s = b ++ s)%string -> a = b.
Proof.
  revert b. induction a as [|c a IH]; intros b E.
  - destruct b as [|d b]; [reflexivity|]. exfalso. apply (f_equal String.length) in E. rewrite !slength_app in E. cbn in E. lia.
  - destruct b as [|d b]; [exfalso; apply (f_equal String.length) in E; rewrite !slength_app in E; cbn in E; lia|]. cbn in E. injection E as -> E. f_equal. apply IH, E.
Qed.

Definition ops : list string := ["eq"; "ne"; "lt"; "le"; "gt"; "ge"; "hash"]%string.
Lemma op_inj o o' x y : In o ops -> In o' ops -> (("__operator_" ++ o ++ "_" ++ x)%string = ("__operator_" ++ o' ++ "_" ++ y)%string) -> o = o' /\ x = y.
Proof.
  intros I J E. cbn [ops In] in I, J.
  repeat (destruct I as [<-|I]); try contradiction; repeat (destruct J as [<-|J]); try contradiction; cbn in E; try discriminate E; injection E as ->; auto.
Qed.
Lemma operator_names_ops s o : In o (operator_names s) -> In o ops.
Proof.
  unfold operator_names. rewrite in_flat_map. intros (d & _ & I). unfold ops. destruct d; cbn in I; try contradiction; unfold when in I.
  - destruct I as [<-|[]]. cbn. tauto.
  - destruct (negb (derives DEq (st_derives s))); cbn in I; cbn; tauto.
  - destruct (negb (derives DOrd (st_derives s))); cbn in I; cbn; tauto.
Qed.
Lemma operator_names_nodup s : NoDup (st_derives s) -> NoDup (operator_names s).
Proof.
  intros N. unfold operator_names. set (p := negb (derives DEq (st_derives s))). set (q := negb (derives DOrd (st_derives s))). clearbody p q.
  set (tag := fun o : string => if in_dec string_dec o ["eq"; "ne"]%string then "a"%string else if string_dec o "hash" then "c"%string else "b"%string).
  set (name := fun d => match d with DPartialEq => ["a"%string] | DHash => ["c"%string] | DPartialOrd => ["b"%string] | _ => [] end).
  apply (tagged name _ tag).
  - intros d o _ I. destruct d; cbn in I; try contradiction; unfold when in I; destruct p, q; cbn in I; repeat (destruct I as [<-|I]); try contradiction; vm_compute; auto.
  - clear -N. induction N as [|d l Nd N IH]; [constructor|]. cbn [flat_map]. apply nodup_app. split; [destruct d; cbn; repeat constructor; intros []|]. split; [exact IH|].
    intros x I J. apply in_flat_map in J as (d' & Id & J). destruct d; cbn in I; try contradiction; destruct I as [<-|[]]; destruct d'; cbn in J; try contradiction; destruct J as [J|[]]; try discriminate J; contradiction.
  - intros d _. destruct d; unfold when; destruct p, q; repeat constructor; cbn; intuition discriminate.
Qed.

Section Coherence.
  Variables (gen : generator) (ord : nat -> list string -> list string) (apis : list api) (T : types) (v : env).
  Hypothesis Hacc : accepted_bridge gen ord apis T.
  Notation api_pure := (api_pure T).
  Notation instances := (instances T).
  Notation shared := (shared T).

  Lemma pure_struct s : In (AStruct s) apis -> api_pure (AStruct s) =
    (SModule, IStruct (p_rust (st_name s)) (map (fun f => p_rust (v_name f)) (st_fields s))) :: (SModule, IImpl RExternType (p_rust (st_name s)))
    :: map (fun d => (SModule, IImpl (RDerived d) (p_rust (st_name s)))) (st_derives s) ++ operator_items s ++ [(SForbid, IImpl RDrop (p_rust (st_name s)))].
  Proof. intros I. unfold Coherence_Proofs.api_pure. cbn [api_items]. unfold struct_items. rewrite (struct_traits_ok gen ord apis T Hacc s I). reflexivity. Qed.
  Lemma pure_enum e : In (AEnum e) apis -> api_pure (AEnum e) =
    (SModule, IStruct (p_rust (en_name e)) ["repr"%string]) :: map (fun w => (SModule, IAssoc (p_rust (en_name e)) (p_rust (vr_name w)))) (en_variants e)
    ++ (SModule, IImpl RExternType (p_rust (en_name e))) :: map (fun d => (SModule, IImpl (RDerived d) (p_rust (en_name e)))) (enum_list e).
  Proof. intros I. unfold Coherence_Proofs.api_pure. cbn [api_items]. unfold enum_items. rewrite (enum_traits_ok gen ord apis T Hacc e I). reflexivity. Qed.
  Lemma pure_cxx t : api_pure (ACxxType t) = if shared (p_rust (et_name t)) then [] else cxx_type_items t.
  Proof. unfold Coherence_Proofs.api_pure, Coherence_Proofs.shared. cbn [api_items]. rewrite <- negb_orb. destruct (_ || _); reflexivity. Qed.

  (** * Selections from the expansion *)
  (** A selection that sees nothing of operators and mentions *)
  Section Select.
    Context {A : Type} (f : scope * item -> list A).
    Hypothesis Hm : forall x, f (SHidden, IMention x) = [].
    Lemma sel_mention xs : flat_map f (mention xs) = [].
    Proof. unfold mention. rewrite flat_map_map'. apply flat_map_none. intros x _. apply Hm. Qed.
    Lemma sel_operators s : flat_map f (operator_items s) = flat_map (fun o => f (SHidden, IFn ("__operator_" ++ o ++ "_" ++ p_rust (st_name s))%string)) (operator_names s).
    Proof. unfold operator_items. rewrite flat_map_flat. apply flat_map_ext'. intros o _. cbn [flat_map mention map]. rewrite Hm. apply app_nil_r. Qed.
    Definition sel_api (a : api) : list A :=
      match a with
      | AStruct s => let x := p_rust (st_name s) in
          f (SModule, IStruct x (map (fun f => p_rust (v_name f)) (st_fields s))) ++ f (SModule, IImpl RExternType x)
          ++ flat_map (fun d => f (SModule, IImpl (RDerived d) x)) (st_derives s)
          ++ flat_map (fun o => f (SHidden, IFn ("__operator_" ++ o ++ "_" ++ x)%string)) (operator_names s) ++ f (SForbid, IImpl RDrop x)
      | AEnum e => let x := p_rust (en_name e) in
          f (SModule, IStruct x ["repr"%string]) ++ flat_map (fun w => f (SModule, IAssoc x (p_rust (vr_name w)))) (en_variants e)
          ++ f (SModule, IImpl RExternType x) ++ flat_map (fun d => f (SModule, IImpl (RDerived d) x)) (enum_list e)
      | ACxxType t => let x := p_rust (et_name t) in
          if shared x then [] else f (SModule, IStruct x ("_private" :: map (fun l => "_lifetime_" ++ l) (et_lts t))%string) ++ f (SModule, IImpl RExternType x)
      | ACxxFunction g => match fn_receiver g with None => f (SModule, IFn (p_rust (fn_name g))) | Some r => f (SModule, IAssoc (n_rust (rc_ty r)) (p_rust (fn_name g))) end
      | ARustType t => let x := p_rust (et_name t) in f (SModule, IImpl RRustType x) ++ flat_map (fun _ => f (SModule, IImpl RExternType x)) (et_derives t)
      | ARustFunction g => f (SHidden, IFn (match fn_receiver g with None => "__" ++ p_rust (fn_name g) | Some r => "__" ++ n_rust (rc_ty r) ++ "__" ++ p_rust (fn_name g) end)%string)
      | ATypeAlias a => f (SModule, IAlias (p_rust (ta_name a)))
      | _ => []
      end.
    Lemma sel_api_ok a : In a apis -> flat_map f (api_pure a) = sel_api a.
    Proof.
      intros I. destruct a; cbn [sel_api]; try reflexivity.
      - rewrite pure_struct by exact I. cbn [flat_map]. rewrite !flat_map_app, flat_map_map', sel_operators. cbn [flat_map]. rewrite app_nil_r. reflexivity.
      - rewrite pure_enum by exact I. cbn [flat_map]. rewrite flat_map_app, flat_map_map'. cbn [flat_map]. rewrite flat_map_map'. reflexivity.
      - rewrite pure_cxx. destruct (shared (p_rust (et_name t))); [reflexivity|]. unfold cxx_type_items. cbn [flat_map mention map app]. rewrite Hm, app_nil_r. reflexivity.
      - unfold Coherence_Proofs.api_pure. cbn [api_items]. unfold cxx_fn_items. destruct (fn_receiver f0); cbn [flat_map]; apply app_nil_r.
      - unfold Coherence_Proofs.api_pure. cbn [api_items]. unfold rust_type_items. cbn [flat_map]. rewrite flat_map_app, sel_mention, app_nil_r, flat_map_flat. f_equal. apply flat_map_ext'.
        intros d J. rewrite (rust_derives gen ord apis T Hacc t d I J). cbn. apply app_nil_r.
      - unfold Coherence_Proofs.api_pure. cbn [api_items]. unfold rust_fn_items. cbn [flat_map]. rewrite sel_mention. apply app_nil_r.
      - unfold Coherence_Proofs.api_pure. cbn [api_items]. unfold alias_items. cbn [flat_map]. rewrite sel_mention. apply app_nil_r.
    Qed.
    Definition sel_key (k : impl_key) : list A :=
      match fst k with
      | KBox => f (SHidden, IImpl (RTarget KBox) (snd k)) ++ flat_map (fun o => f (SHidden, IFn (snd k ++ "__box_" ++ o)%string)) ["alloc"; "dealloc"; "drop"]%string
      | KVec => f (SHidden, IImpl (RTarget KVec) (snd k)) ++
          flat_map (fun o => f (SHidden, IFn (snd k ++ "__vec_" ++ o)%string)) ["new"; "drop"; "len"; "capacity"; "data"; "reserve_total"; "set_len"; "truncate"]%string
      | k' => f (SModule, IImpl (RTarget k') (snd k))
      end.
    Lemma sel_key_ok k : flat_map f (impl_items k) = sel_key k.
    Proof. unfold impl_items, sel_key. destruct (fst k); cbn [flat_map mention map app]; rewrite ?Hm, ?app_nil_r; reflexivity. Qed.
    Definition sel_import (a : api) : list A := match a with ARustType t => f (SModule, IImport (p_rust (et_name t))) | _ => [] end.
    Lemma sel_all : flat_map f (imports apis ++ flat_map api_pure apis ++ instances ++ forbids apis) =
      flat_map sel_import apis ++ flat_map sel_api apis ++ flat_map sel_key (map fst (t_impls T)) ++ flat_map f (forbids apis).
    Proof.
      rewrite !flat_map_app. f_equal; [|f_equal; [|f_equal]].
      - unfold imports. rewrite flat_map_flat. apply flat_map_ext'. intros a _. destruct a; try reflexivity. unfold import_items. cbn [flat_map]. rewrite sel_mention. apply app_nil_r.
      - rewrite flat_map_flat. apply flat_map_ext'. exact sel_api_ok.
      - unfold Coherence_Proofs.instances. rewrite flat_map_flat. apply flat_map_ext'. intros k _. apply sel_key_ok.
    Qed.
  End Select.

  Notation L := (imports apis ++ flat_map api_pure apis ++ instances ++ forbids apis).

  (** * Types *)
  Lemma types_module : NoDup (names_in type_name SModule L) <-> forall x, is_alias apis x -> ~ is_struct apis x /\ ~ is_enum apis x.
  Proof.
    rewrite <- (types_nodup gen ord apis T Hacc). unfold names_in. rewrite sel_all by reflexivity.
    set (rust := fun (_ : string) k => match k with DkRust => true | _ => false end).
    set (rest := fun x k => match k with DkRust => false | DkCxx => negb (shared x) | _ => true end).
    assert (E1 : forall f : scope * item -> list string, (forall x, f (SModule, IImport x) = [x]) -> flat_map (sel_import f) apis = flat_map (pick rust) apis).
    { intros f H. apply flat_map_ext'. intros a _. destruct a; cbn; try reflexivity; [destruct (en_from_header e); reflexivity|rewrite H; reflexivity]. }
    rewrite E1 by reflexivity.
    match goal with |- NoDup (_ ++ flat_map ?g apis ++ flat_map ?h ?ks ++ ?z) <-> _ =>
      assert (E2 : flat_map g apis = flat_map (pick rest) apis); [|assert (E3 : flat_map h ks = []); [|assert (E4 : z = [])]] end.
    - apply flat_map_ext'. intros a _. destruct a; cbn [sel_api scope_eqb fst snd type_name]; try reflexivity.
      + rewrite !flat_map_none by reflexivity. reflexivity.
      + rewrite !flat_map_none by reflexivity. cbn. destruct (en_from_header e); reflexivity.
      + cbn [pick dname rest]. destruct (shared (p_rust (et_name t))); reflexivity.
      + destruct (fn_receiver f); reflexivity.
      + rewrite flat_map_none by reflexivity. reflexivity.
    - apply flat_map_none. intros (k, x) _. destruct k; reflexivity.
    - unfold forbids. destruct (existsb _ apis); reflexivity.
    - rewrite E2, E3, E4, app_nil_r. rewrite !(NoDup_count_occ string_dec).
      assert (C : forall n, count_occ string_dec (flat_map (pick rust) apis ++ flat_map (pick rest) apis) n = count_occ string_dec (flat_map (pick (all_types T)) apis) n).
      { intros n. rewrite count_occ_app, !pick_count. induction (decls n apis) as [|k l IH]; [reflexivity|]. cbn [filter]. destruct k; cbn [rust rest all_types]; try (destruct (shared n)); cbn [negb List.length]; lia. }
      split; intros H n; specialize (H n); rewrite C in *; exact H.
  Qed.
  Lemma types_elsewhere p : p <> SModule -> NoDup (names_in type_name p L).
  Proof.
    intros N. unfold names_in. rewrite sel_all by (intros x; destruct (scope_eqb _ _); reflexivity).
    match goal with |- NoDup (?w ++ flat_map ?g apis ++ flat_map ?h ?ks ++ ?z) =>
      assert (E1 : w = []); [|assert (E2 : flat_map g apis = []); [|assert (E3 : flat_map h ks = []); [|rewrite E1, E2, E3]]] end.
    - apply flat_map_none. intros a _. destruct a, p; try reflexivity; congruence.
    - apply flat_map_none. intros a _. destruct a, p; cbn [sel_api scope_eqb fst snd type_name]; rewrite ?flat_map_none by reflexivity; try reflexivity; try congruence;
        try (destruct (shared (p_rust (et_name t))); reflexivity); destruct (fn_receiver f); reflexivity.
    - apply flat_map_none. intros (k, x) _. destruct k, p; reflexivity.
    - unfold forbids. destruct (existsb _ apis); [|constructor]. destruct p; cbn; try congruence; repeat constructor; intros [].
  Qed.

  (** * Fields *)
  Lemma in_expansion i : In i L <-> In i (imports apis) \/ (exists a, In a apis /\ In i (api_pure a)) \/ (exists k, In k (map fst (t_impls T)) /\ In i (impl_items k)) \/ In i (forbids apis).
  Proof. rewrite !in_app_iff, in_flat_map. unfold Coherence_Proofs.instances. rewrite in_flat_map. reflexivity. Qed.
  Definition fields_of (i : scope * item) : list (list string) := match snd i with IStruct _ fs => [fs] | _ => [] end.
  Lemma fields_ok : (forall p x fs, In (p, IStruct x fs) L -> NoDup fs) <->
    (forall s, In (AStruct s) apis -> NoDup (map (fun f => p_rust (v_name f)) (st_fields s))) /\
    (forall t, In (ACxxType t) apis -> ~ is_struct apis (p_rust (et_name t)) -> ~ is_enum apis (p_rust (et_name t)) -> NoDup (et_lts t)).
  Proof.
    assert (E : (forall p x fs, In (p, IStruct x fs) L -> NoDup fs) <-> forall fs, In fs (flat_map fields_of L) -> NoDup fs).
    { split.
      - intros H fs I. apply in_flat_map in I as ((p, i) & I & J). destruct i; cbn in J; try contradiction. destruct J as [<-|[]]. exact (H _ _ _ I).
      - intros H p x fs I. apply H, in_flat_map. eexists. split; [exact I|left; reflexivity]. }
    rewrite E, sel_all by reflexivity.
    match goal with |- (forall fs, In fs (?w ++ flat_map ?g apis ++ flat_map ?h ?ks ++ ?z) -> _) <-> _ =>
      assert (E1 : w = []); [|assert (E3 : flat_map h ks = []); [|assert (E4 : z = []); [|rewrite E1, E3, E4; cbn [app]; rewrite app_nil_r]]] end.
    - apply flat_map_none. intros a _. destruct a; reflexivity.
    - apply flat_map_none. intros (k, x) _. destruct k; reflexivity.
    - unfold forbids. destruct (existsb _ apis); reflexivity.
    - assert (P : forall t, NoDup (et_lts t) <-> NoDup ("_private" :: map (fun l => "_lifetime_" ++ l) (et_lts t))%string).
      { intros t. rewrite <- (nodup_map (fun l => "_lifetime_" ++ l)%string (et_lts t)) by (intros x y _ _ Q; injection Q; auto). split; intros N; [constructor; [|exact N]|inversion N; assumption].
        rewrite in_map_iff. intros (l & Q & _). discriminate. }
      split.
      + intros H. split.
        * intros s I. apply H, in_flat_map. exists (AStruct s). split; [exact I|left; reflexivity].
        * intros t I Ns Ne. apply P, H, in_flat_map. exists (ACxxType t). split; [exact I|]. cbn [sel_api]. destruct (shared (p_rust (et_name t))) eqn:S; [|left; reflexivity].
          apply (shared_ok gen ord apis T Hacc) in S. tauto.
      + intros (Hs & Ht) fs I. apply in_flat_map in I as (a & Ia & I). destruct a; cbn [sel_api fields_of snd app] in I; try contradiction.
        * rewrite !flat_map_none in I by reflexivity. destruct I as [<-|[]]. exact (Hs _ Ia).
        * rewrite !flat_map_none in I by reflexivity. destruct I as [<-|[]]. repeat constructor. intros [].
        * destruct (shared (p_rust (et_name t))) eqn:S; [destruct I|]. destruct I as [<-|[]]. apply P, Ht; [exact Ia| |]; intros Q; (enough (shared (p_rust (et_name t)) = true) by congruence); apply (shared_ok gen ord apis T Hacc); auto.
        * destruct (fn_receiver f); destruct I.
        * rewrite flat_map_none in I by reflexivity. destruct I.
  Qed.
End Coherence.
