(** Proofs for C89, part 3: values, associated items, implementations, scopes. *)
From Verif Require Import Base StrLib Syntax_Model TypeEq_Model Toposort_Model Toposort_Spec Types_Model Types_Spec Types_Proofs Types_Proofs2 Types_Props
  Check_Model Check_Spec Check_Proofs Check_Proofs2 Mangle_Model Mangle_Spec Mangle_Proofs Mangle_Proofs2 Mangle_Proofs4 Abi_Model Derive_Model Expand_Model Expand_Props
  Member_Proofs Coherence_Model Coherence_Spec Coherence_Proofs Coherence_Proofs2.
From Coq Require Import Lia Permutation.

(** * Lists *)
Lemma interleave {A B} (f g : A -> list B) l : Permutation (flat_map (fun a => f a ++ g a) l) (flat_map f l ++ flat_map g l).
Proof.
  induction l as [|a l IH]; [constructor|]. cbn [flat_map]. rewrite <- !app_assoc. apply Permutation_app_head.
  eapply Permutation_trans; [apply Permutation_app_head, IH|]. rewrite !app_assoc. apply Permutation_app_tail, Permutation_app_comm.
Qed.
Lemma nodup_interleave {A B} (f g : A -> list B) l : NoDup (flat_map (fun a => f a ++ g a) l) <-> NoDup (flat_map f l ++ flat_map g l).
Proof. split; apply Permutation_NoDup; [|apply Permutation_sym]; apply interleave. Qed.
Lemma nodup_partial {A B} (k : A -> option B) l :
  NoDup (flat_map (fun a => match k a with Some y => [y] | None => [] end) l) <-> ForallOrdPairs (fun a b => forall y, k a = Some y -> k b <> Some y) l.
Proof.
  induction l as [|a l IH]; [split; constructor|]. cbn [flat_map]. rewrite nodup_app, IH. split.
  - intros (_ & F & D). constructor; [|exact F]. rewrite Forall_forall. intros b I y Ea Eb. apply (D y); [rewrite Ea; left; reflexivity|]. apply in_flat_map. exists b. split; [exact I|]. rewrite Eb. left. reflexivity.
  - intros H. inversion H as [|? ? Fa F]; subst. split; [destruct (k a); repeat constructor; intros []|]. split; [exact F|]. intros y I J. apply in_flat_map in J as (b & Ib & J).
    rewrite Forall_forall in Fa. destruct (k a) as [z|] eqn:Ea; [|destruct I]. destruct I as [->|[]]. destruct (k b) as [z|] eqn:Eb; [|destruct J]. destruct J as [->|[]]. exact (Fa b Ib y eq_refl Eb).
Qed.
Lemma map_flat {A B C} (g : B -> C) (f : A -> list B) l : map g (flat_map f l) = flat_map (fun a => map g (f a)) l.
Proof. induction l as [|a l IH]; [reflexivity|]. cbn [flat_map]. rewrite map_app, IH. reflexivity. Qed.
Lemma fop_split {A} (R : A -> A -> Prop) l : (forall pre a mid b post, l = pre ++ a :: mid ++ b :: post -> R a b) -> ForallOrdPairs R l.
Proof.
  induction l as [|a l IH]; intros H; constructor.
  - rewrite Forall_forall. intros b I. apply in_split in I as (mid & post & ->). exact (H [] a mid b post eq_refl).
  - apply IH. intros pre x mid y post ->. exact (H (a :: pre) x mid y post eq_refl).
Qed.
Lemma fop_flat {A B} (sel : A -> list B) (R : B -> B -> Prop) l : (forall a, In a l -> ForallOrdPairs R (sel a)) ->
  ForallOrdPairs (fun a b => forall f g, In f (sel a) -> In g (sel b) -> R f g) l -> ForallOrdPairs R (flat_map sel l).
Proof.
  intros S F. induction F as [|a l Fa F IH]; [constructor|]. cbn [flat_map]. apply fop_app. split; [apply S; left; reflexivity|]. split; [apply IH; intros b I; apply S; right; exact I|].
  intros f g I J. apply in_flat_map in J as (b & Ib & J). rewrite Forall_forall in Fa. exact (Fa b Ib f g I J).
Qed.
Lemma fop_and {A} (R S : A -> A -> Prop) l : ForallOrdPairs R l -> ForallOrdPairs S l -> ForallOrdPairs (fun a b => R a b /\ S a b) l.
Proof.
  intros F. induction F as [|a l Fa F IH]; intros G; [constructor|]. inversion G as [|? ? Ga G']; subst. constructor; [|apply IH, G'].
  rewrite Forall_forall in *. intros b I. split; auto.
Qed.

Section Coherence.
  Variables (gen : generator) (ord : nat -> list string -> list string) (apis : list api) (T : types) (v : env).
  Hypothesis Hacc : accepted_bridge gen ord apis T.
  Notation api_pure := (api_pure T).
  Notation instances := (instances T).
  Notation shared := (shared T).
  Notation L := (imports apis ++ flat_map api_pure apis ++ instances ++ forbids apis).
  Notation keys := (map fst (t_impls T)).

  (** * Functions *)
  Definition free_apart (f g : extern_fn) : Prop := fn_receiver f = None -> fn_receiver g = None -> p_rust (fn_name f) <> p_rust (fn_name g).
  Lemma free_fns (sel : api -> list extern_fn) : (forall a f, In f (sel a) -> fn_of a = Some f) -> (forall a, sel a = [] \/ exists f, sel a = [f]) -> ForallOrdPairs free_apart (flat_map sel apis).
  Proof.
    intros H O. apply fop_flat.
    - intros a _. destruct (O a) as [->|(f & ->)]; repeat constructor.
    - apply fop_split. intros pre a mid b post E f g If Ig Rf Rg N. pose proof (no_dup_fn apis pre a mid b post f g E (H _ _ If) (H _ _ Ig) (no_errors gen ord apis T Hacc)) as D.
      rewrite Rf, Rg, N, String.eqb_refl in D. discriminate.
  Qed.
  Lemma free_cxx : ForallOrdPairs free_apart (cxx_fns apis).
  Proof. apply free_fns; intros a; destruct a; cbn; try (left; reflexivity); try (intros f' []; fail); try (intros g [<-|[]]; reflexivity); right; eexists; reflexivity. Qed.
  Lemma free_rust : ForallOrdPairs free_apart (rust_fns apis).
  Proof. apply free_fns; intros a; destruct a; cbn; try (left; reflexivity); try (intros f' []; fail); try (intros g [<-|[]]; reflexivity); right; eexists; reflexivity. Qed.
  Lemma in_cxx_fns f : In f (cxx_fns apis) <-> In (ACxxFunction f) apis.
  Proof. unfold cxx_fns. rewrite in_flat_map. split; [intros (a & I & J); destruct a; cbn in J; try contradiction; destruct J as [<-|[]]; exact I|intros I; exists (ACxxFunction f); split; [exact I|left; reflexivity]]. Qed.
  Lemma in_rust_fns f : In f (rust_fns apis) <-> In (ARustFunction f) apis.
  Proof. unfold rust_fns. rewrite in_flat_map. split; [intros (a & I & J); destruct a; cbn in J; try contradiction; destruct J as [<-|[]]; exact I|intros I; exists (ARustFunction f); split; [exact I|left; reflexivity]]. Qed.
  Lemma over_cxx {B} (h : extern_fn -> list B) (g : api -> list B) : (forall a, g a = match a with ACxxFunction f => h f | _ => [] end) -> flat_map g apis = flat_map h (cxx_fns apis).
  Proof. intros H. unfold cxx_fns. rewrite flat_map_flat. apply flat_map_ext'. intros a _. rewrite H. destruct a; try reflexivity. cbn. rewrite app_nil_r. reflexivity. Qed.
  Lemma over_rust {B} (h : extern_fn -> list B) (g : api -> list B) : (forall a, g a = match a with ARustFunction f => h f | _ => [] end) -> flat_map g apis = flat_map h (rust_fns apis).
  Proof. intros H. unfold rust_fns. rewrite flat_map_flat. apply flat_map_ext'. intros a _. rewrite H. destruct a; try reflexivity. cbn. rewrite app_nil_r. reflexivity. Qed.
  Lemma receiver_declared f r : all_functions apis f -> fn_receiver f = Some r -> declared apis (n_rust (rc_ty r)).
  Proof. intros I E. destruct (receiver_ok _ _ _ _ Hacc f r I E) as (_ & _ & D & _). unfold declared. tauto. Qed.

  (** * Values of the module *)
  Lemma values_module : NoDup (names_in (value_name v) SModule L) <->
    forall f, In (ACxxFunction f) apis -> fn_receiver f = None -> is_rust_type apis (p_rust (fn_name f)) -> e_value v (p_rust (fn_name f)) = false.
  Proof.
    unfold names_in. rewrite (sel_all gen ord) by (reflexivity || exact Hacc).
    match goal with |- NoDup (flat_map ?w apis ++ flat_map ?g apis ++ flat_map ?h ?ks ++ ?z) <-> _ =>
      assert (E1 : flat_map w apis = flat_map (pick (fun x k => match k with DkRust => e_value v x | _ => false end)) apis);
      [|assert (E2 : flat_map g apis = flat_map (fun f => match fn_receiver f with None => [p_rust (fn_name f)] | Some _ => [] end) (cxx_fns apis)); [|assert (E3 : flat_map h ks = []); [|assert (E4 : z = [])]]] end.
    - apply flat_map_ext'. intros a _. destruct a; cbn; try reflexivity. destruct (en_from_header e); reflexivity.
    - apply over_cxx. intros a. destruct a; cbn [sel_api scope_eqb fst snd value_name app]; rewrite ?flat_map_none by reflexivity; try reflexivity. destruct (shared (p_rust (et_name t))); reflexivity.
    - apply flat_map_none. intros (k, x) _. destruct k; reflexivity.
    - unfold forbids. destruct (existsb _ apis); reflexivity.
    - rewrite E1, E2, E3, E4, app_nil_r, nodup_app. split.
      + intros (_ & _ & D) f I R (t & It & Et). apply not_true_is_false. intros V. apply (D (p_rust (fn_name f))).
        * apply in_flat_map. exists (ARustType t). split; [exact It|]. cbn. rewrite Et, V. left. reflexivity.
        * apply in_flat_map. exists f. split; [apply in_cxx_fns, I|]. rewrite R. left. reflexivity.
      + intros H. split; [|split].
        * apply pick_nodup. intros n. pose proof (decls_ok gen ord apis T Hacc n) as [Q|Q]; [eapply Nat.le_trans; [apply filter_le|exact Q]|].
          cbn [In] in Q. destruct Q as [Q|[Q|[Q|[Q|[Q|[]]]]]]; rewrite <- Q; cbn; lia.
        * rewrite (flat_map_ext' _ (fun f => match (if fn_receiver f then None else Some (p_rust (fn_name f))) with Some y => [y] | None => [] end)) by (intros f _; destruct (fn_receiver f); reflexivity).
          apply nodup_partial. eapply fop_impl; [|apply free_cxx]. intros f g _ _ N y. destruct (fn_receiver f) eqn:Rf, (fn_receiver g) eqn:Rg; try discriminate. intros [= <-] [= Q]. exact (N Rf Rg (eq_sym Q)).
        * intros x I J. apply in_flat_map in I as (a & Ia & I). apply in_flat_map in J as (f & If & J). destruct (fn_receiver f) eqn:R; [destruct J|]. destruct J as [<-|[]].
          unfold pick in I. destruct a; cbn in I; try contradiction; [destruct (en_from_header e); contradiction|]. destruct (e_value v (p_rust (et_name t))) eqn:V; [|destruct I]. destruct I as [E|[]].
          rewrite E in V. apply in_cxx_fns in If. rewrite (H f If R) in V; [discriminate|]. exists t. auto.
  Qed.

  (** * Values of the hidden block *)
  Definition local (f : extern_fn) : string :=
    (match fn_receiver f with None => "__" ++ p_rust (fn_name f) | Some r => "__" ++ n_rust (rc_ty r) ++ "__" ++ p_rust (fn_name f) end)%string.
  Lemma locals_ok : ordinary apis -> (NoDup (map local (rust_fns apis)) <-> distinct_methods (rust_fns apis)).
  Proof.
    intros [Ot Of]. rewrite <- fop_nodup, fop_map. unfold distinct_methods. split.
    - apply fop_impl. intros f g If Ig N Rf Rt Q. apply N. unfold local. unfold receiver_type in Rt. destruct (fn_receiver f) as [r|]; [|congruence]. destruct (fn_receiver g) as [r'|]; [|discriminate]. injection Rt as ->. rewrite Q. reflexivity.
    - intros D. eapply fop_impl; [|exact (fop_and _ _ _ D free_rust)]. intros f g If Ig (M & F) E. apply in_rust_fns in If. apply in_rust_fns in Ig. unfold local in E.
      destruct (fn_receiver f) as [r|] eqn:Rf; destruct (fn_receiver g) as [r'|] eqn:Rg; cbn [append] in E; injection E as E.
      + destruct (Ot (n_rust (rc_ty r))) as ((_ & P1 & _ & P2) & _); [eapply receiver_declared; [right; exact If|exact Rf]|].
        destruct (Ot (n_rust (rc_ty r'))) as ((_ & P3 & _ & P4) & _); [eapply receiver_declared; [right; exact Ig|exact Rg]|].
        destruct (first_double _ _ _ _ P1 P2 P3 P4 E) as (Q & Q'). apply M; [discriminate| |exact Q']. unfold receiver_type. rewrite Rf, Rg. cbn. rewrite Q. reflexivity.
      + destruct (Of g Ig Rg) as (N & _). apply N. rewrite <- E. eexists; eexists; reflexivity.
      + destruct (Of f If Rf) as (N & _). apply N. rewrite E. eexists; eexists; reflexivity.
      + exact (F Rf Rg E).
  Qed.
  Definition op_name (q : string * string) : string := ("__operator_" ++ fst q ++ "_" ++ snd q)%string.
  Definition op_pairs : list (string * string) := flat_map (fun a => match a with AStruct s => map (fun o => (o, p_rust (st_name s))) (operator_names s) | _ => [] end) apis.
  Lemma op_pairs_in q : In q op_pairs -> In (fst q) ops.
  Proof. unfold op_pairs. rewrite in_flat_map. intros (a & _ & I). destruct a; try contradiction. apply in_map_iff in I as (o & <- & I). cbn. eapply operator_names_ops, I. Qed.
  Lemma ops_ok : (forall s, In (AStruct s) apis -> NoDup (st_derives s)) -> NoDup (map op_name op_pairs).
  Proof.
    intros H. apply nodup_map.
    - intros (o, x) (o', y) I J E. apply op_pairs_in in I. apply op_pairs_in in J. destruct (op_inj _ _ _ _ I J E) as (E1 & E2). cbn in E1, E2. subst. reflexivity.
    - apply (tagged (pick (own T)) _ snd); [|exact (own_nodup gen ord apis T Hacc)|].
      + intros a e Ia I. destruct a; try contradiction. apply in_map_iff in I as (o & <- & _). left. reflexivity.
      + intros a Ia. destruct a; try constructor. apply nodup_map; [intros x y _ _ Q; injection Q; auto|]. apply operator_names_nodup, H, Ia.
  Qed.
  Definition suffixes (k : impl_kind) : list string :=
    match k with
    | KBox => ["box_alloc"; "box_dealloc"; "box_drop"]
    | KVec => ["vec_new"; "vec_drop"; "vec_len"; "vec_capacity"; "vec_data"; "vec_reserve_total"; "vec_set_len"; "vec_truncate"]
    | _ => []
    end%string.
  Definition key_name (q : impl_key * string) : string := (snd (fst q) ++ "__" ++ snd q)%string.
  Definition key_pairs : list (impl_key * string) := flat_map (fun k => map (pair k) (suffixes (fst k))) keys.
  Lemma keys_ok : ordinary apis -> NoDup (map key_name key_pairs).
  Proof.
    intros [Ot _]. assert (In' : forall q, In q key_pairs -> In (fst q) keys /\ In (snd q) (suffixes (fst (fst q)))).
    { intros q I. unfold key_pairs in I. apply in_flat_map in I as (k & Ik & I). apply in_map_iff in I as (o & <- & I). auto. }
    apply nodup_map.
    - intros ((k, x), o) ((k', y), o') I J E. apply In' in I as (I & I'). apply In' in J as (J & J'). cbn [fst snd] in *.
      destruct (Ot _ (key_declared gen ord apis T Hacc _ I)) as ((_ & P1 & _ & P2) & _). destruct (Ot _ (key_declared gen ord apis T Hacc _ J)) as ((_ & P3 & _ & P4) & _). cbn [snd] in *.
      unfold key_name in E. cbn [fst snd] in E. destruct (first_double _ _ _ _ P1 P2 P3 P4 E) as (-> & ->).
      assert (k = k') as ->; [|reflexivity]. destruct k, k'; cbn in I', J'; try contradiction; try reflexivity; exfalso; repeat (destruct I' as [<-|I']); try contradiction; intuition discriminate.
    - apply (tagged (fun k => [k]) _ fst).
      + intros k e _ I. apply in_map_iff in I as (o & <- & _). left. reflexivity.
      + rewrite flat_map_one, map_id. destruct Hacc as ((Ho & Hc) & _). exact (proj1 (C17_instantiations _ _ _ _ Ho Hc)).
      + intros k _. apply nodup_map; [intros x y _ _ Q; injection Q; auto|]. destruct (fst k); repeat constructor; cbn; intuition discriminate.
  Qed.
  Lemma values_hidden : ordinary apis -> (forall s, In (AStruct s) apis -> NoDup (st_derives s)) -> (NoDup (names_in (value_name v) SHidden L) <-> distinct_methods (rust_fns apis)).
  Proof.
    intros O Hs. rewrite <- (locals_ok O). unfold names_in. rewrite (sel_all gen ord) by (reflexivity || exact Hacc).
    match goal with |- NoDup (?w ++ flat_map ?g apis ++ flat_map ?h ?ks ++ ?z) <-> _ =>
      assert (E1 : w = []); [|assert (E2 : flat_map g apis = flat_map (fun a => match a with AStruct s => map op_name (map (fun o => (o, p_rust (st_name s))) (operator_names s)) | _ => [] end
                                              ++ match a with ARustFunction f => [local f] | _ => [] end) apis); [|assert (E3 : flat_map h ks = map key_name key_pairs); [|assert (E4 : z = [])]]] end.
    - apply flat_map_none. intros a _. destruct a; reflexivity.
    - apply flat_map_ext'. intros a _. destruct a; cbn [sel_api scope_eqb fst snd value_name app]; rewrite ?flat_map_none by reflexivity; try reflexivity.
      + rewrite flat_map_one, map_map, !app_nil_r. reflexivity.
      + destruct (shared (p_rust (et_name t))); reflexivity.
      + destruct (fn_receiver f); reflexivity.
    - unfold key_pairs. rewrite map_flat. apply flat_map_ext'. intros (k, x) _. destruct k; reflexivity.
    - unfold forbids. destruct (existsb _ apis); reflexivity.
    - rewrite E1, E2, E3, E4, app_nil_r. cbn [app]. rewrite nodup_app, nodup_interleave, nodup_app.
      assert (F1 : flat_map (fun a => match a with AStruct s => map op_name (map (fun o => (o, p_rust (st_name s))) (operator_names s)) | _ => [] end) apis = map op_name op_pairs).
      { unfold op_pairs. rewrite map_flat. apply flat_map_ext'. intros a _. destruct a; reflexivity. }
      assert (F2 : flat_map (fun a => match a with ARustFunction f => [local f] | _ => [] end) apis = map local (rust_fns apis)).
      { rewrite (over_rust (fun f => [local f])) by reflexivity. apply flat_map_one. }
      rewrite F1, F2. split; [intros ((_ & N & _) & _); exact N|]. intros N. split; [split; [exact (ops_ok Hs)|split; [exact N|]]|split; [exact (keys_ok O)|]].
      + intros x I J. apply in_map_iff in I as ((o, y) & <- & I). apply in_map_iff in J as (f & E & J). apply in_rust_fns in J. pose proof (op_pairs_in _ I) as Io. cbn [fst] in Io. destruct O as [Ot Of].
        assert (Dy : declared apis y). { unfold op_pairs in I. apply in_flat_map in I as (a & Ia & I). destruct a; try contradiction. apply in_map_iff in I as (o' & [= _ <-] & _). left. exists s. auto. }
        destruct (Ot y Dy) as ((_ & Py & Ps & _) & _). unfold local, op_name in E. cbn [fst snd] in E. destruct (fn_receiver f) as [r|] eqn:R; cbn [append] in E; injection E as E.
        * enough (D : double ("operator_" ++ o ++ "_" ++ y)%string).
          { destruct D as (a & b & D). clear -D Py Ps Io.
            assert (G : forall p, ~ double (p ++ "_" ++ "x")%string -> (p ++ "_" ++ y = a ++ "__" ++ b)%string -> False).
            { clear D. revert a. intros a p. revert a. induction p as [|c p IH]; intros a Np D.
              - destruct a as [|d a]; cbn in D.
                + injection D as D. exact (Ps b D).
                + injection D as D1 D. apply Py. exists a, b. exact D.
              - destruct a as [|d a]; cbn in D; injection D as D1 D.
                + subst c. destruct p as [|c p].
                  * apply Np. exists ""%string, "x"%string. reflexivity.
                  * cbn in D. injection D as -> D. apply Np. exists ""%string, (p ++ "_" ++ "x")%string. reflexivity.
                + apply (IH a); [|exact D]. intros Q. apply Np, double_tail, Q. }
            cbn [ops In] in Io. repeat (destruct Io as [<-|Io]); try contradiction;
              match type of D with (("operator_" ++ ?o ++ "_" ++ y)%string = _) => apply (G ("operator_" ++ o)%string); [|exact D] end;
              intros (a' & b' & Q); clear -Q; cbn in Q; repeat (destruct a' as [|? a']; cbn in Q; [discriminate Q|]; injection Q as _ Q); destruct a'; discriminate Q. }
          exists (n_rust (rc_ty r)), (p_rust (fn_name f)). exact (eq_sym E).
        * destruct (Of f J R) as (_ & N'). exact (N' (o ++ "_" ++ y)%string E).
      + intros x I J. apply in_map_iff in J as ((k, o) & <- & J). unfold key_pairs in J. apply in_flat_map in J as (k' & Ik & J). apply in_map_iff in J as (o' & [= -> ->] & _).
        destruct O as [Ot _]. destruct (Ot _ (key_declared gen ord apis T Hacc _ Ik)) as ((P0 & _ & P1 & _) & _). unfold key_name in I. cbn [fst snd] in I.
        assert (Q : exists r, (snd k ++ "__" ++ o = "_" ++ r)%string).
        { eapply Permutation_in in I; [|apply interleave]. rewrite F1, F2 in I. apply in_app_iff in I as [I|I]; apply in_map_iff in I as (z & <- & _); [unfold op_name|unfold local; destruct (fn_receiver z)]; eexists; cbn [append]; reflexivity. }
        destruct Q as (r & Q). destruct (snd k) as [|c y]; [congruence|]. cbn [append] in Q. injection Q as -> _. exact (P1 y eq_refl).
  Qed.
  Lemma values_forbid : NoDup (names_in (value_name v) SForbid L).
  Proof.
    unfold names_in. rewrite (sel_all gen ord) by (reflexivity || exact Hacc).
    match goal with |- NoDup (?w ++ flat_map ?g apis ++ flat_map ?h ?ks ++ ?z) =>
      assert (E1 : w = []); [|assert (E2 : flat_map g apis = []); [|assert (E3 : flat_map h ks = []); [|assert (E4 : z = []); [|rewrite E1, E2, E3, E4; constructor]]]] end.
    - apply flat_map_none. intros a _. destruct a; reflexivity.
    - apply flat_map_none. intros a _. destruct a; cbn [sel_api scope_eqb fst snd value_name app]; rewrite ?flat_map_none by reflexivity; try reflexivity; [destruct (shared (p_rust (et_name t)))|destruct (fn_receiver f)]; reflexivity.
    - apply flat_map_none. intros (k, x) _. destruct k; reflexivity.
    - unfold forbids. destruct (existsb _ apis); reflexivity.
  Qed.

  (** * Associated items *)
  Definition variants_of (a : api) : list (string * string) := match a with AEnum e => map (fun w => (p_rust (en_name e), p_rust (vr_name w))) (en_variants e) | _ => [] end.
  Definition method_of (f : extern_fn) : option (string * string) := match fn_receiver f with Some r => Some (n_rust (rc_ty r), p_rust (fn_name f)) | None => None end.
  Lemma assoc_ok : separate v apis -> (NoDup (flat_map (fun i => assoc_item v (snd i)) L) <->
    (forall e, In (AEnum e) apis -> NoDup (map (fun w => p_rust (vr_name w)) (en_variants e))) /\ distinct_methods (cxx_fns apis)).
  Proof.
    intros Sep. rewrite (sel_all gen ord) by (reflexivity || exact Hacc).
    set (g := fun q : string * string => (e_type v (fst q), snd q)).
    set (methods := fun f => match method_of f with Some y => [y] | None => [] end).
    match goal with |- NoDup (?w ++ flat_map ?h apis ++ flat_map ?h' ?ks ++ ?z) <-> _ =>
      assert (E1 : w = []); [|assert (E2 : flat_map h apis = map g (flat_map (fun a => variants_of a ++ match a with ACxxFunction f => methods f | _ => [] end) apis)); [|assert (E3 : flat_map h' ks = []); [|assert (E4 : z = [])]]] end.
    - apply flat_map_none. intros a _. destruct a; reflexivity.
    - rewrite map_flat. apply flat_map_ext'. intros a _.
      destruct a; cbn [sel_api snd assoc_item app variants_of]; rewrite ?flat_map_none by reflexivity; try reflexivity.
      + rewrite (flat_map_none (fun _ : trait => [])) by reflexivity. rewrite app_nil_r, flat_map_one, app_nil_r, map_map. reflexivity.
      + destruct (shared (p_rust (et_name t))); reflexivity.
      + unfold methods, method_of. destruct (fn_receiver f); reflexivity.
    - apply flat_map_none. intros (k, x) _. destruct k; reflexivity.
    - unfold forbids. destruct (existsb _ apis); reflexivity.
    - rewrite E1, E2, E3, E4, app_nil_r. cbn [app]. rewrite nodup_map.
      + rewrite nodup_interleave, nodup_app. rewrite (over_cxx methods (fun a => match a with ACxxFunction f => methods f | _ => [] end)) by (intros a; destruct a; reflexivity).
        assert (A : NoDup (flat_map variants_of apis) <-> forall e, In (AEnum e) apis -> NoDup (map (fun w => p_rust (vr_name w)) (en_variants e))).
        { rewrite (tagged (pick (own T)) variants_of fst apis); [|intros a q Ia I; destruct a; cbn in I; try contradiction; apply in_map_iff in I as (w & <- & _); cbn; destruct (en_from_header e); left; reflexivity|exact (own_nodup gen ord apis T Hacc)].
          assert (Q : forall e, NoDup (variants_of (AEnum e)) <-> NoDup (map (fun w => p_rust (vr_name w)) (en_variants e))).
          { intros e. cbn [variants_of]. rewrite <- (map_map (fun w => p_rust (vr_name w)) (pair (p_rust (en_name e)))). apply nodup_map. intros x y _ _ E; injection E; auto. }
          split; [intros H e I; apply Q, H, I|]. intros H a I. destruct a; try constructor. apply Q, H, I. }
        assert (B : NoDup (flat_map methods (cxx_fns apis)) <-> distinct_methods (cxx_fns apis)).
        { unfold methods. rewrite nodup_partial. unfold distinct_methods. split; apply fop_impl; intros f h _ _ N.
          - intros R Rt E. unfold method_of, receiver_type in *. destruct (fn_receiver f) as [r|]; [|congruence]. destruct (fn_receiver h) as [r'|]; [|discriminate]. cbn in Rt. injection Rt as Rt. rewrite Rt, E in N. exact (N _ eq_refl eq_refl).
          - intros y Ef Eh. unfold method_of, receiver_type in *. destruct (fn_receiver f) as [r|]; [|discriminate]. destruct (fn_receiver h) as [r'|]; [|discriminate]. injection Ef as <-. injection Eh as Q1 Q2.
            apply N; [discriminate|cbn; congruence|congruence]. }
        rewrite A, B. split; [intros (H1 & H2 & _); auto|]. intros (H1 & H2). split; [exact H1|split; [exact H2|]]. intros q I J. apply in_flat_map in I as (a & Ia & I). apply in_flat_map in J as (f & If & J).
        destruct a; cbn in I; try contradiction. apply in_map_iff in I as (w & <- & _). unfold methods, method_of in J. destruct (fn_receiver f) as [r|] eqn:R; [|destruct J]. destruct J as [[= J _]|[]].
        apply in_cxx_fns in If. destruct (receiver_ok _ _ _ _ Hacc f r (or_introl If) R) as (_ & Ne & _). apply Ne. exists e. auto.
      + assert (D : forall q, In q (flat_map (fun a => variants_of a ++ match a with ACxxFunction f => methods f | _ => [] end) apis) -> declared apis (fst q)).
        { intros q I. apply in_flat_map in I as (a & Ia & I). apply in_app_iff in I as [I|I].
          - destruct a; cbn in I; try contradiction. apply in_map_iff in I as (w & <- & _). right. left. exists e. auto.
          - destruct a; cbn in I; try contradiction. unfold methods, method_of in I. destruct (fn_receiver f) as [r|] eqn:R; [|destruct I]. destruct I as [<-|[]]. eapply receiver_declared; [left; exact Ia|exact R]. }
        intros (x, m) (y, m') I J [= E ->]. rewrite (Sep x y (D _ I) (D _ J) E). reflexivity.
  Qed.

  (** * Implementations *)
  Definition impls_of (a : api) : list (rtrait * string) :=
    match a with
    | AStruct s => map (fun t => (t, p_rust (st_name s))) (RExternType :: map RDerived (st_derives s) ++ [RDrop])
    | AEnum e => map (fun t => (t, p_rust (en_name e))) (RExternType :: map RDerived (enum_list e))
    | ACxxType t => if shared (p_rust (et_name t)) then [] else [(RExternType, p_rust (et_name t))]
    | ARustType t => map (fun d => (d, p_rust (et_name t))) (RRustType :: map (fun _ => RExternType) (et_derives t))
    | _ => []
    end.
  Lemma impls_nodup a : In a apis -> (NoDup (impls_of a) <-> match a with AStruct s => NoDup (st_derives s) | AEnum e => NoDup (en_derives e) | ARustType t => NoDup (et_derives t) | _ => True end).
  Proof.
    intros Ia. destruct a; cbn [impls_of]; try (split; [intros _; exact I|intros _; constructor]; fail).
    - rewrite nodup_map by congruence. rewrite <- (nodup_map RDerived (st_derives s)) by congruence. split.
      + intros N. inversion N as [|? ? _ N']; subst. apply nodup_app in N'. apply N'.
      + intros N. constructor; [|apply nodup_app; split; [exact N|split; [repeat constructor; intros []|]]].
        * rewrite in_app_iff, in_map_iff. intros [(d & D & _)|[D|[]]]; discriminate.
        * intros t I [<-|[]]. apply in_map_iff in I as (d & D & _). discriminate.
    - rewrite nodup_map by congruence. split.
      + intros N. inversion N as [|? ? _ N']; subst. rewrite nodup_map in N' by congruence. unfold enum_list in N'. apply nodup_app in N'. apply N'.
      + intros N. constructor; [rewrite in_map_iff; intros (d & D & _); discriminate|]. rewrite nodup_map by congruence. unfold enum_list.
        assert (K : forall d l, derives d l = false <-> ~ In d l).
        { intros d l. unfold derives. rewrite <- not_true_iff_false, existsb_exists. split; intros H Q; apply H; [exists d; split; [exact Q|destruct d; reflexivity]|destruct Q as (d' & I & Q); destruct d, d'; try discriminate Q; exact I]. }
        assert (W1 : forall d, In d (when (negb (derives d (en_derives e))) [d]) -> ~ In d (en_derives e)).
        { intros d. unfold when. destruct (derives d (en_derives e)) eqn:D; cbn; [intros []|]. intros _. apply K, D. }
        assert (W2 : forall d d', In d' (when (negb (derives d (en_derives e))) [d]) -> d' = d).
        { intros d d'. unfold when. destruct (derives d (en_derives e)); cbn; [intros []|]. intros [<-|[]]. reflexivity. }
        assert (W3 : forall d, NoDup (when (negb (derives d (en_derives e))) [d])).
        { intros d. unfold when. destruct (derives d (en_derives e)); cbn; repeat constructor. intros []. }
        clear K.
        apply nodup_app. split; [exact N|]. split.
        * apply nodup_app. split; [apply W3|]. split; [apply nodup_app; split; [apply W3|]; split; [apply nodup_app; split; [apply W3|]; split; [apply W3|]|]|].
          -- intros d I J. apply W2 in I. apply W2 in J. congruence.
          -- intros d I J. apply W2 in I. rewrite !in_app_iff in J. destruct J as [J|J]; apply W2 in J; congruence.
          -- intros d I J. apply W2 in I. rewrite !in_app_iff in J. destruct J as [J|[J|J]]; apply W2 in J; congruence.
        * intros d I J. rewrite !in_app_iff in J. destruct J as [J|[J|[J|J]]]; pose proof (W2 _ _ J); subst d; exact (W1 _ J I).
    - split; [auto|]. intros _. destruct (shared (p_rust (et_name t))); repeat constructor. intros [].
    - rewrite nodup_map by congruence. pose proof (fun d => rust_derives gen ord apis T Hacc t d Ia) as R. destruct (et_derives t) as [|d [|d' l]]; cbn [map].
      + split; repeat constructor. intros [].
      + split; repeat constructor; cbn; intuition discriminate.
      + split; intros N; exfalso.
        * inversion N as [|? ? _ N']; subst. inversion N' as [|? ? N'' _]; subst. apply N''. left. reflexivity.
        * inversion N as [|? ? N' _]; subst. apply N'. left. rewrite (R d), (R d'); cbn; auto.
  Qed.
  Lemma impls_ok : separate v apis -> (NoDup (flat_map (fun i => impl_item v (snd i)) L) <->
    (forall s, In (AStruct s) apis -> NoDup (st_derives s)) /\ (forall e, In (AEnum e) apis -> NoDup (en_derives e)) /\ (forall t, In (ARustType t) apis -> NoDup (et_derives t))).
  Proof.
    intros Sep. rewrite (sel_all gen ord) by (reflexivity || exact Hacc).
    set (g := fun q : rtrait * string => (fst q, e_type v (snd q))). set (target := fun k : impl_key => (RTarget (fst k), snd k)).
    match goal with |- NoDup (?w ++ flat_map ?h apis ++ flat_map ?h' ?ks ++ ?z) <-> _ =>
      assert (E1 : w = []); [|assert (E2 : flat_map h apis = map g (flat_map impls_of apis)); [|assert (E3 : flat_map h' ks = map g (map target ks)); [|assert (E4 : z = [])]]] end.
    - apply flat_map_none. intros a _. destruct a; reflexivity.
    - rewrite map_flat. apply flat_map_ext'. intros a _.
      destruct a; cbn [sel_api snd impl_item app impls_of]; rewrite ?flat_map_none by reflexivity; try reflexivity.
      + rewrite flat_map_one. cbn [map app]. rewrite !map_app, !map_map. rewrite (flat_map_none (fun _ : string => [])) by reflexivity. reflexivity.
      + rewrite flat_map_one. cbn [map app]. rewrite !map_map. rewrite ?(flat_map_none (fun _ : variant => [])) by reflexivity. reflexivity.
      + destruct (shared (p_rust (et_name t))); reflexivity.
      + destruct (fn_receiver f); reflexivity.
      + rewrite flat_map_one. cbn [map app]. rewrite !map_map. reflexivity.
    - rewrite (map_map target g), <- (flat_map_one (fun k => g (target k))). apply flat_map_ext'. intros (k, x) _. destruct k; reflexivity.
    - unfold forbids. destruct (existsb _ apis); reflexivity.
    - rewrite E1, E2, E3, E4, app_nil_r. cbn [app]. rewrite <- map_app, nodup_map.
      + rewrite nodup_app. assert (A := tagged (pick (own T)) impls_of snd apis). rewrite A.
        * split.
          -- intros (H & _). split; [|split]; intros x I; specialize (H _ I); apply impls_nodup in H; exact I || exact H.
          -- intros (Hs & He & Ht). split; [|split].
             ++ intros a I. apply impls_nodup; [exact I|]. destruct a; auto.
             ++ apply nodup_map; [intros (k, x) (k', y) _ _ [= -> ->]; reflexivity|]. destruct Hacc as ((Ho & Hc) & _). exact (proj1 (C17_instantiations _ _ _ _ Ho Hc)).
             ++ intros q I J. apply in_map_iff in J as (k & <- & _). apply in_flat_map in I as (a & _ & I). destruct a; cbn [impls_of] in I; try contradiction.
                ** apply in_map_iff in I as (t & [= -> _] & I). destruct I as [I|I]; [discriminate|]. apply in_app_iff in I as [I|[I|[]]]; [|discriminate]. apply in_map_iff in I as (d & D & _). discriminate.
                ** apply in_map_iff in I as (t & [= -> _] & I). destruct I as [I|I]; [discriminate|]. apply in_map_iff in I as (d & D & _). discriminate.
                ** destruct (shared (p_rust (et_name t))); [destruct I|]. destruct I as [I|[]]. discriminate.
                ** apply in_map_iff in I as (t' & [= -> _] & I). destruct I as [I|I]; [discriminate|]. apply in_map_iff in I as (d & D & _). discriminate.
        * intros a q Ia I. destruct a; cbn [impls_of] in I; try contradiction.
          -- apply in_map_iff in I as (t & <- & _). left. reflexivity.
          -- apply in_map_iff in I as (t & <- & _). cbn. destruct (en_from_header e); left; reflexivity.
          -- cbn. destruct (shared (p_rust (et_name t))); [destruct I|]. destruct I as [<-|[]]. left. reflexivity.
          -- apply in_map_iff in I as (t' & <- & _). left. reflexivity.
        * exact (own_nodup gen ord apis T Hacc).
      + assert (D : forall q, In q (flat_map impls_of apis ++ map target keys) -> declared apis (snd q)).
        { intros q I. apply in_app_iff in I as [I|I].
          - apply in_flat_map in I as (a & Ia & I). unfold declared, is_cxx_type. destruct a; cbn [impls_of] in I; try contradiction.
            + apply in_map_iff in I as (t & <- & _). left. exists s. auto.
            + apply in_map_iff in I as (t & <- & _). right. left. exists e. auto.
            + destruct (shared (p_rust (et_name t))); [destruct I|]. destruct I as [<-|[]]. right. right. left. left. exists t. auto.
            + apply in_map_iff in I as (t' & <- & _). right. right. right. exists t. auto.
          - apply in_map_iff in I as (k & <- & I). exact (key_declared gen ord apis T Hacc k I). }
        intros (t, x) (t', y) I J [= -> E]. rewrite (Sep x y (D _ I) (D _ J) E). reflexivity.
  Qed.

  (** * Scopes *)
  Lemma type_declared f x : all_functions apis f -> In x (flat_map (fun a => type_names (snd a)) (fn_args f) ++ match fn_ret f with Some r => type_names r | None => [] end) -> declared apis x.
  Proof.
    intros Hf I. assert (G : forall n, mentioned apis (TIdent n) -> ~ is_primitive (n_rust n) -> declared apis (n_rust n)).
    { intros n M P. destruct (mentioned_resolves _ _ _ _ Hacc n M) as [Q|(p & lts & Q)]; [contradiction|]. apply (resolve_ok _ _ _ _ Hacc) in Q. apply declared_iff. exists p, lts. exact Q. }
    apply in_app_iff in I as [I|I].
    - apply in_flat_map in I as ((y, t) & Iy & I). destruct (type_names_occur t x I) as (n & O & <- & P). apply G; [|exact P]. eapply me_arg; [exact Hf|exact Iy|exact O].
    - destruct (fn_ret f) as [r|] eqn:R; [|destruct I]. destruct (type_names_occur r x I) as (n & O & <- & P). apply G; [|exact P]. eapply me_ret; [exact Hf|exact R|exact O].
  Qed.
  Lemma scope_ok : ordinary apis -> forall t x, In (SHidden, IMention x) L \/ In (SHidden, IImpl t x) L -> ~ In (SHidden, IMod x) L.
  Proof.
    intros [Ot _] t x H J.
    assert (E : x = "forbid"%string).
    { set (mods := fun i : scope * item => match snd i with IMod y => [y] | _ => [] end). assert (K : In x (flat_map mods L)) by (apply in_flat_map; eexists; split; [exact J|left; reflexivity]). clear -K Hacc.
      rewrite (sel_all gen ord) in K by (reflexivity || exact Hacc). rewrite !in_app_iff in K. destruct K as [K|[K|[K|K]]].
      - rewrite flat_map_none in K; [destruct K|]. intros a _. destruct a; reflexivity.
      - rewrite flat_map_none in K; [destruct K|]. intros a _. destruct a; cbn [sel_api mods snd app]; rewrite ?flat_map_none by reflexivity; try reflexivity; [destruct (shared (p_rust (et_name t)))|destruct (fn_receiver f)]; reflexivity.
      - rewrite flat_map_none in K; [destruct K|]. intros (k, y) _. destruct k; reflexivity.
      - unfold forbids in K. destruct (existsb _ apis); cbn in K; [|destruct K]. destruct K as [<-|[]]. reflexivity. }
    assert (D : declared apis x).
    { clear E J Ot. assert (M : forall xs i, In i (mention xs) -> exists y, i = (SHidden, IMention y) /\ In y xs) by (intros xs i I; apply in_map_iff in I as (y & <- & I); eauto).
      assert (H' : exists i, In (SHidden, i) L /\ (i = IMention x \/ i = IImpl t x)) by (destruct H as [H|H]; eexists; (split; [exact H|]); auto). clear H. destruct H' as (i & H & Hi).
      apply in_expansion in H as [H|[(a & Ia & H)|[(k & Ik & H)|H]]].
      - unfold imports in H. apply in_flat_map in H as (a & Ia & H). destruct a; try contradiction. cbn in H. destruct H as [H|[H|[]]]; [discriminate|]. injection H as <-. destruct Hi as [[= <-]|Hi]; [|discriminate]. right. right. right. exists t0. auto.
      - destruct a; try contradiction H.
        + rewrite (pure_struct gen ord apis T Hacc) in H by exact Ia. left. exists s. split; [exact Ia|]. destruct H as [H|[H|H]]; [discriminate|discriminate|]. rewrite !in_app_iff in H. destruct H as [H|[H|H]].
          * apply in_map_iff in H as (d & H & _). discriminate.
          * unfold operator_items in H. apply in_flat_map in H as (o & _ & [H|H]); [injection H as <-; destruct Hi; discriminate|]. apply M in H as (y & [= ->] & [<-|[]]). destruct Hi as [[= <-]|Hi]; [reflexivity|discriminate].
          * destruct H as [H|[]]. discriminate.
        + rewrite (pure_enum gen ord apis T Hacc) in H by exact Ia. destruct H as [H|H]; [discriminate|]. apply in_app_iff in H as [H|[H|H]]; [|discriminate|]; apply in_map_iff in H as (d & H & _); discriminate.
        + rewrite pure_cxx in H. destruct (shared (p_rust (et_name t0))); [destruct H|]. cbn in H. destruct H as [H|[H|[H|[]]]]; try discriminate. injection H as <-. destruct Hi as [[= <-]|Hi]; [|discriminate].
          right. right. left. left. exists t0. auto.
        + unfold Coherence_Proofs.api_pure in H. cbn [api_items] in H. unfold cxx_fn_items in H. destruct (fn_receiver f); destruct H as [H|[]]; discriminate.
        + unfold Coherence_Proofs.api_pure in H. cbn [api_items] in H. unfold rust_type_items in H. destruct H as [H|H]; [discriminate|]. apply in_app_iff in H as [H|H].
          * apply in_flat_map in H as (d & _ & H). destruct (trait_eqb d DExternType); [|destruct H]. destruct H as [H|[]]. discriminate.
          * apply M in H as (y & [= ->] & [<-|[]]). destruct Hi as [[= <-]|Hi]; [|discriminate]. right. right. right. exists t0. auto.
        + unfold Coherence_Proofs.api_pure in H. cbn [api_items] in H. unfold rust_fn_items in H. destruct H as [H|H]; [injection H as <-; destruct Hi; discriminate|]. apply M in H as (y & [= ->] & H). destruct Hi as [[= <-]|Hi]; [|discriminate].
          apply in_app_iff in H as [H|H]; [|eapply type_declared; [right; exact Ia|exact H]]. destruct (fn_receiver f) as [r|] eqn:R; [|destruct H]. destruct H as [<-|[]]. eapply receiver_declared; [right; exact Ia|exact R].
        + cbn in H. destruct H as [H|[H|[]]]; [discriminate|]. injection H as <-. destruct Hi as [[= <-]|Hi]; [|discriminate]. right. right. left. right. left. exists a. auto.
      - assert (Q : x = snd k); [|rewrite Q; exact (key_declared gen ord apis T Hacc k Ik)]. unfold impl_items in H. destruct (fst k); cbn [flat_map mention map app] in H;
          repeat (destruct H as [H|H]; [injection H as H; destruct Hi as [Hi|Hi]; subst i; (discriminate || (injection Hi; auto))|]); try contradiction; destruct H as [H|[]]; discriminate.
      - unfold forbids in H. destruct (existsb _ apis); cbn in H; [|destruct H]. destruct H as [H|[H|[]]]; [|discriminate]. injection H as <-. destruct Hi; discriminate. }
    destruct (Ot x D) as (_ & N). exact (N E).
  Qed.

  (** * Together *)
  Lemma coherent_iff : separate v apis -> ordinary apis -> (coherent v L <-> apart v apis).
  Proof.
    intros Sep Ord. split.
    - intros [C1 C2 C3 C4 C5 _]. apply (impls_ok Sep) in C5 as (A1 & A2 & A3). apply (assoc_ok Sep) in C4 as (B1 & B2). apply (fields_ok gen ord apis T Hacc) in C3 as (F1 & F2).
      constructor; auto.
      + apply (types_module gen ord apis T Hacc), C1.
      + apply values_module, C2.
      + split; [exact B2|]. apply (values_hidden Ord A1), C2.
    - intros [A1 A2 (A3 & A4) A5 A6 A7 A8 A9 A10]. constructor.
      + intros p. destruct p; [apply (types_module gen ord apis T Hacc), A1| |]; apply (types_elsewhere gen ord apis T Hacc); discriminate.
      + intros p. destruct p; [apply values_module, A2|apply (values_hidden Ord A8), A4|apply values_forbid].
      + apply (fields_ok gen ord apis T Hacc). auto.
      + apply (assoc_ok Sep). auto.
      + apply (impls_ok Sep). auto.
      + exact (scope_ok Ord).
  Qed.
End Coherence.
