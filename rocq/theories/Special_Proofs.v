From Verif Require Import Base Syntax_Model Types_Model Types_Spec Types_Props Toposort_Spec Toposort_Model Check_Spec Check_Model Check_Proofs Check_Props Unit_Proofs2 Layout_Proofs
  Special_Model Special_Spec.
From Verif Require Layout_Proofs2.
From Coq Require Import Lia.
Local Open Scope nat_scope.

Scheme cxx_type_mut := Minimality for cxx_type Sort Prop with cxx_types_mut := Minimality for cxx_types Sort Prop.
Combined Scheme cxx_type_both from cxx_type_mut, cxx_types_mut.
Scheme has_val_mut := Minimality for has_val Sort Prop with has_vals_mut := Minimality for has_vals Sort Prop.

(** * Opaque Rust types *)
Section Accepted.
  Variables (gen : generator) (ord : nat -> list string -> list string) (apis : list api) (T : types).
  Hypothesis Hacc : accepted_bridge gen ord apis T.

  Lemma rust_only x : is_rust_type apis x -> ~ is_struct apis x /\ ~ is_enum apis x /\ ~ is_cxx_type apis x /\ ~ is_primitive x.
  Proof using Hacc.
    intros (t & I & E).
    assert (D : decl_of x (ARustType t) = [DkRust]) by (cbn; rewrite E, String.eqb_refl; reflexivity).
    assert (N : forall b k, In b apis -> decl_of x b = [k] -> b = ARustType t).
    { intros b k J Db. destruct (Layout_Proofs2.two_decls apis b (ARustType t) x k DkRust J I Db D) as [X|(l1 & l2 & l3 & X)]; [exact X|exfalso].
      destruct (Layout_Proofs2.shapes gen ord apis T Hacc x) as [[L|[L|L]]|[L|[L|L]]].
      1: destruct X as [X|X]; rewrite X, !app_length in L; cbn in L; rewrite app_length in L; cbn in L; lia.
      all: destruct X as [X|X]; rewrite X in L; destruct l1 as [|? [|? [|? ?]]], l2 as [|? [|? ?]]; cbn in L; try discriminate L. }
    assert (N1 : forall s, In (AStruct s) apis -> p_rust (st_name s) = x -> False).
    { intros s J Es. discriminate (N (AStruct s) DkShared J). cbn. rewrite Es, String.eqb_refl. reflexivity. }
    assert (N2 : forall e, In (AEnum e) apis -> p_rust (en_name e) = x -> False).
    { intros e J Es. assert (X : exists k, decl_of x (AEnum e) = [k]) by (cbn; rewrite Es, String.eqb_refl; eauto). destruct X as (k & X). discriminate (N _ k J X). }
    split; [intros (s & J & Es); exact (N1 s J Es)|]. split; [intros (s & J & Es); exact (N2 s J Es)|]. split.
    - intros [(u & J & Es)|[(u & J & Es)|(e & J & Es & _)]].
      + discriminate (N (ACxxType u) DkCxx J). cbn. rewrite Es, String.eqb_refl. reflexivity.
      + discriminate (N (ATypeAlias u) DkAlias J). cbn. rewrite Es, String.eqb_refl. reflexivity.
      + first [exact (N2 e J Es)|exact (N2 e Es J)].
    - intros P. apply (C53_builtin_names_partial gen ord apis T x Hacc); [right; right; left; exists t; auto|right; exact P].
  Qed.

  Lemma opaque_cxx_type s user n c : is_rust_type apis (n_rust n) -> cxx_type s apis user (TIdent n) c <-> c = opaque_class.
  Proof using Hacc.
    intros R. destruct (rust_only _ R) as (N1 & N2 & N3 & N4). split.
    - intros H. inversion H; subst; try reflexivity; exfalso; try tauto.
      1, 2: apply N4; eexists; eassumption.
      apply N1. eexists. eauto.
    - intros ->. apply ct_rust; [|exact R]. destruct (atom_from_str (n_rust n)) eqn:E; [|reflexivity]. destruct N4. eexists. exact E.
  Qed.
End Accepted.

Lemma opaque_made D inner i : careful D -> can_make D inner i opaque_class = false.
Proof.
  intros C. destruct i as [|[]|[]|[|i l]]; try reflexivity.
  - cbn. destruct (std D) eqn:E; cbn; try reflexivity.
    + destruct (default_first D inner); cbn; [reflexivity|]. destruct C as [C|C]; [congruence|]. unfold elements_ok. rewrite C. cbn. rewrite andb_false_r. reflexivity.
    + destruct (default_first D inner); cbn; [reflexivity|]. reflexivity.
  - assert (X : (std D = Cxx11 \/ std D = Cxx14) \/ std D = Cxx17 \/ std D = Cxx20) by (destruct (std D); auto). destruct X as [[X|X]|[X|X]].
    1, 2: cbn; rewrite X; reflexivity.
    + destruct C as [C|C]; [congruence|]. cbn. rewrite X. cbn. unfold elements_ok. rewrite C. cbn. apply andb_false_r.
    + destruct i as [|[]|[]|[|i' l']]; cbn; rewrite X; cbn; rewrite ?X; cbn; destruct l; reflexivity.
Qed.
Lemma opaque_ops D o : careful D \/ default_first D false = true -> op_compiles D opaque_class o = true <-> ~ makes_in_cxx o.
Proof.
  intros C.
  assert (M : forall l, can_make D false (Braces (map Self l)) opaque_class = false).
  { intros l. destruct C as [C|C]; [apply opaque_made, C|]. destruct l as [|r l]; [cbn; rewrite C; destruct (std D); reflexivity|].
    cbn. destruct (std D) eqn:E; try reflexivity; destruct r, l as [|[] l]; reflexivity. }
  assert (M0 : can_make D false Nothing opaque_class = false) by reflexivity.
  assert (MS : forall r, can_make D false (Self r) opaque_class = false) by (intros []; reflexivity).
  assert (MB : forall r, can_make D false (BraceSelf r) opaque_class = false) by (intros []; reflexivity).
  unfold op_compiles. destruct o; cbn -[can_make]; rewrite ?M, ?MS, ?MB, ?M0; cbn -[can_make]; try (split; [discriminate|intros X; destruct X; constructor]); try (split; [intros _ X; inversion X|reflexivity]).
  destruct l as [|b l]; [cbn; split; [discriminate|intros X; destruct X; constructor]|]. cbn -[can_make map]. rewrite M. split; [discriminate|intros X; destruct X; constructor].
Qed.

(** * Special members of shared structs *)
Lemma not_prim n : ~ is_primitive n <-> atom_from_str n = None.
Proof. unfold is_primitive. split; [intros H; destruct (atom_from_str n) eqn:E; [destruct H; eauto|reflexivity]|intros E (a & X); congruence]. Qed.
Section Structs.
  Variables (s : cstd) (apis : list api) (user : string -> ctype).
  Notation cty := (cxx_type s apis user).
  Notation ctys := (cxx_types s apis user).

  Lemma types_In ts cs t : ctys ts cs -> In t ts -> exists c, In c cs /\ cty t c.
  Proof. induction 1 as [|t0 c ts cs H Hs IH]; intros []; [subst; eexists; split; [left; reflexivity|assumption]|destruct (IH H0) as (c' & I & X); eexists; split; [right|]; eassumption]. Qed.
  Lemma types_In2 ts cs c : ctys ts cs -> In c cs -> exists t, In t ts /\ cty t c.
  Proof. induction 1 as [|t0 c0 ts cs H Hs IH]; intros []; [subst; eexists; split; [left; reflexivity|assumption]|destruct (IH H0) as (c' & I & X); eexists; split; [right|]; eassumption]. Qed.
  Lemma types_all (f : ctype -> bool) ts cs : ctys ts cs -> (forall t c, In t ts -> cty t c -> f c = true) -> forallb f cs = true.
  Proof. intros H G. apply forallb_forall. intros c I. destruct (types_In2 _ _ _ H I) as (t & It & Ht). exact (G t c It Ht). Qed.

  (** All of a kind of function, by what is held *)
  Lemma held_trans t u v : held apis t u -> held apis u v -> held apis t v.
  Proof. induction 1; intros; [assumption|eapply hd_field; eauto|constructor; auto]. Qed.
  Lemma held_struct n st f : atom_from_str (n_rust n) = None -> In (AStruct st) apis -> p_rust (st_name st) = n_rust n -> ~ is_cxx_type apis (n_rust n) ->
    In f (st_fields st) -> held apis (TIdent n) (v_ty f).
  Proof. intros A I E N F. eapply hd_field; [apply not_prim, A|split; eauto|exact F|constructor]. Qed.

  Lemma destroy_held t c : cty t c -> (forall x, is_cxx_type apis x -> can_destroy (user x) = true) -> (forall n, held apis t (TIdent n) -> ~ is_rust_type apis (n_rust n)) ->
    can_destroy c = true.
  Proof.
    intros H Hu. revert t c H.
    enough (G : (forall t c, cty t c -> (forall n, held apis t (TIdent n) -> ~ is_rust_type apis (n_rust n)) -> can_destroy c = true) /\
      forall ts cs, ctys ts cs -> (forall t n, In t ts -> held apis t (TIdent n) -> ~ is_rust_type apis (n_rust n)) -> forallb can_destroy cs = true) by exact (proj1 G).
    apply cxx_type_both; try (intros; reflexivity).
    - intros n st cs A I E N _ IH Hr. cbn. apply IH. intros t m It Hm. apply in_map_iff in It as (f & <- & If). apply Hr. eapply held_trans; [eapply held_struct; eauto|exact Hm].
    - intros n _ R Hr. destruct (Hr n (hd_self apis _) R).
    - intros n _ U _. apply Hu, U.
    - intros []; reflexivity.
    - intros t k c _ IH Hr. cbn. rewrite IH; [reflexivity|]. intros n Hn. apply Hr. constructor. exact Hn.
    - intros t c ts cs _ IH _ IHs Hr. cbn. rewrite IH, IHs; [reflexivity|intros u n I; apply Hr; right; exact I|intros n; apply Hr; left; reflexivity].
  Qed.
  (** Generic: if every held leaf can, the whole can. *)
  Lemma move_held t c : cty t c -> movable apis user -> (forall n, held apis t (TIdent n) -> ~ is_rust_type apis (n_rust n)) -> can_move c = true.
  Proof.
    intros H Hu. assert (Hd : forall x, is_cxx_type apis x -> can_destroy (user x) = true) by (intros x X; apply (Hu x X)). revert t c H.
    enough (G : (forall t c, cty t c -> (forall n, held apis t (TIdent n) -> ~ is_rust_type apis (n_rust n)) -> can_move c = true) /\
      forall ts cs, ctys ts cs -> (forall t n, In t ts -> held apis t (TIdent n) -> ~ is_rust_type apis (n_rust n)) -> forallb can_move cs = true) by exact (proj1 G).
    apply cxx_type_both; try (intros; reflexivity).
    - intros n st cs A I E N Hs IH Hr. assert (Hr' : forall t m, In t (map v_ty (st_fields st)) -> held apis t (TIdent m) -> ~ is_rust_type apis (n_rust m)).
      { intros t m It Hm. apply in_map_iff in It as (f & <- & If). apply Hr. eapply held_trans; [eapply held_struct; eauto|exact Hm]. }
      cbn. rewrite IH by exact Hr'. rewrite (types_all can_destroy _ _ Hs); [reflexivity|]. intros t c It Ht. apply (destroy_held t c Ht Hd). intros m Hm. apply (Hr' t m It Hm).
    - intros n _ R Hr. destruct (Hr n (hd_self apis _) R).
    - intros n _ U _. apply Hu, U.
    - intros []; reflexivity.
    - intros t k c Ht IH Hr. assert (Hr' : forall n, held apis t (TIdent n) -> ~ is_rust_type apis (n_rust n)) by (intros n Hn; apply Hr; constructor; exact Hn).
      cbn. rewrite IH by exact Hr'. rewrite (destroy_held t c Ht Hd Hr'). reflexivity.
    - intros t c ts cs _ IH _ IHs Hr. cbn. rewrite IH, IHs; [reflexivity|intros u n I; apply Hr; right; exact I|intros n; apply Hr; left; reflexivity].
  Qed.
  Lemma copy_held t c : cty t c -> (forall x, is_cxx_type apis x -> can_destroy (user x) = true) -> (forall u, held apis t u -> ~ alone apis user u) -> can_copy c = true.
  Proof.
    intros H Hd. revert t c H.
    enough (G : (forall t c, cty t c -> (forall u, held apis t u -> ~ alone apis user u) -> can_copy c = true) /\
      forall ts cs, ctys ts cs -> (forall t u, In t ts -> held apis t u -> ~ alone apis user u) -> forallb can_copy cs = true) by exact (proj1 G).
    apply cxx_type_both; try (intros; reflexivity).
    - intros n st cs A I E N Hs IH Hr. assert (Hr' : forall t m, In t (map v_ty (st_fields st)) -> held apis t m -> ~ alone apis user m).
      { intros t m It Hm. apply in_map_iff in It as (f & <- & If). apply Hr. eapply held_trans; [eapply held_struct; eauto|exact Hm]. }
      cbn. rewrite IH by exact Hr'. rewrite (types_all can_destroy _ _ Hs); [reflexivity|]. intros t c It Ht. apply (destroy_held t c Ht Hd).
      intros m Hm R. apply (Hr' t _ It Hm). constructor. exact R.
    - intros n _ R Hr. destruct (Hr _ (hd_self apis _)). constructor. exact R.
    - intros n A U Hr. destruct (can_copy (user (n_rust n))) eqn:E; [reflexivity|]. destruct (Hr _ (hd_self apis _)). apply al_user; [apply not_prim, A|exact U|exact E].
    - intros t Hr. destruct (Hr _ (hd_self apis _)). constructor.
    - intros t Hr. destruct (Hr _ (hd_self apis _)). constructor.
    - intros []; reflexivity.
    - intros t k c Ht IH Hr. assert (Hr' : forall u, held apis t u -> ~ alone apis user u) by (intros u Hn; apply Hr; constructor; exact Hn).
      cbn. rewrite IH by exact Hr'. rewrite (destroy_held t c Ht Hd); [reflexivity|]. intros m Hm R. apply (Hr' _ Hm). constructor. exact R.
    - intros t c ts cs _ IH _ IHs Hr. cbn. rewrite IH, IHs; [reflexivity|intros u n I; apply Hr; right; exact I|intros n; apply Hr; left; reflexivity].
  Qed.
  Lemma assign_held t c : cty t c -> (forall u, held apis t u -> ~ fixed apis user u) -> can_copy_assign c = true.
  Proof.
    revert t c.
    enough (G : (forall t c, cty t c -> (forall u, held apis t u -> ~ fixed apis user u) -> can_copy_assign c = true) /\
      forall ts cs, ctys ts cs -> (forall t u, In t ts -> held apis t u -> ~ fixed apis user u) -> forallb can_copy_assign cs = true) by exact (proj1 G).
    apply cxx_type_both; try (intros; reflexivity).
    - intros n st cs A I E N Hs IH Hr. cbn. apply IH. intros t m It Hm. apply in_map_iff in It as (f & <- & If). apply Hr. eapply held_trans; [eapply held_struct; eauto|exact Hm].
    - intros n A U Hr. destruct (can_copy_assign (user (n_rust n))) eqn:E; [reflexivity|]. destruct (Hr _ (hd_self apis _)). apply fx_user; [apply not_prim, A|exact U|exact E].
    - intros t Hr. destruct (Hr _ (hd_self apis _)). constructor.
    - intros t Hr. destruct (Hr _ (hd_self apis _)). constructor.
    - intros p m l t Hr. destruct (Hr _ (hd_self apis _)). constructor.
    - intros [] l t Hr; [destruct (Hr _ (hd_self apis _)); constructor|reflexivity].
    - intros t k c Ht IH Hr. cbn. rewrite IH; [reflexivity|]. intros u Hn; apply Hr; constructor; exact Hn.
    - intros t c ts cs _ IH _ IHs Hr. cbn. rewrite IH, IHs; [reflexivity|intros u n I; apply Hr; right; exact I|intros n; apply Hr; left; reflexivity].
  Qed.
End Structs.
