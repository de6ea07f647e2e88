From Verif Require Import Base Syntax_Model Types_Model Types_Spec Types_Proofs Types_Proofs2 Types_Props Toposort_Spec Toposort_Model Check_Spec
  Check_Model Check_Proofs Check_Props Mangle_Model Mangle_Spec Mangle_Proofs2 Abi_Model Abi_Spec Abi_Proofs Unit_Spec Unit_Proofs2 Layout_Model Layout_Spec.
From Coq Require Import Lia Relations.
Local Open Scope nat_scope.

(** * Arithmetic *)
Lemma pad_lowest a x : 0 < a -> lowest_multiple a x (x + padding x a).
Proof.
  intros A. unfold lowest_multiple, padding. pose proof (Nat.div_mod x a ltac:(lia)) as D. pose proof (Nat.mod_upper_bound x a ltac:(lia)) as U.
  destruct (Nat.eqb_spec (x mod a) 0) as [E|E].
  - split; [exists (x / a); lia|]. split; [lia|]. intros; lia.
  - split; [exists (S (x / a)); nia|]. split; [lia|]. intros y (k & ->) L.
    assert (x / a < k) by (apply Nat.div_lt_upper_bound; [lia|]; destruct (Nat.eq_dec x (a * k)); [exfalso|lia]; subst x; rewrite Nat.mul_comm, Nat.mod_mul in E by lia; lia).
    nia.
Qed.
Lemma lowest_unique a x y z : lowest_multiple a x y -> lowest_multiple a x z -> y = z.
Proof. intros (A & B & C) (D & E & F). specialize (C z D E). specialize (F y A B). lia. Qed.

Lemma offsets_same ls : Forall proper ls -> forall x os e, cxx_offsets x ls os e <-> rust_offsets x ls = (os, e).
Proof.
  induction 1 as [|l ls (A & S_ & D) F IH]; intros x os e; cbn [rust_offsets].
  - split; [intros H; inversion H; reflexivity|intros [= <- <-]; constructor].
  - destruct (rust_offsets (x + padding x (align l) + size l) ls) as [os' e'] eqn:R. split.
    + intros H. inversion H as [|? ? ? o os1 ? L C]; subst. pose proof (lowest_unique _ _ _ _ L (pad_lowest _ x A)). subst o.
      apply IH in C. congruence.
    + intros [= <- <-]. constructor; [apply pad_lowest, A|]. apply IH, R.
Qed.
Lemma offsets_grow ls : forall x os e, rust_offsets x ls = (os, e) -> x <= e.
Proof.
  induction ls as [|l ls IH]; cbn; intros x os e; [intros [= _ <-]; lia|].
  destruct (rust_offsets _ ls) as [os' e'] eqn:R. intros [= _ <-]. apply IH in R. lia.
Qed.
Lemma offsets_pos ls x os e : Forall proper ls -> ls <> [] -> rust_offsets x ls = (os, e) -> 1 <= e.
Proof.
  intros F N. destruct ls as [|l ls]; [congruence|]. inversion F as [|? ? (A & S_ & _)]; subst. cbn.
  destruct (rust_offsets _ ls) as [os' e'] eqn:R. intros [= _ <-]. apply offsets_grow in R. lia.
Qed.
Lemma strictest_ge ls m : In m ls -> align m <= strictest ls.
Proof. induction ls as [|l ls IH]; [intros []|]. intros [->|I]; cbn [strictest fold_right]; [lia|]. apply IH in I. unfold strictest in I. lia. Qed.
Lemma strictest_one ls : strictest ls = 1 \/ exists m, In m ls /\ align m = strictest ls.
Proof.
  induction ls as [|l ls IH]; [left; reflexivity|]. cbn [strictest fold_right]. fold (strictest ls).
  destruct (Nat.max_spec (align l) (strictest ls)) as [[_ ->]|[_ ->]]; [|right; exists l; split; [left; reflexivity|reflexivity]].
  destruct IH as [E|(m & I & E)]; [left; exact E|right; exists m; split; [right; exact I|exact E]].
Qed.
Lemma strictest_pos ls : 1 <= strictest ls.
Proof. induction ls as [|l ls IH]; cbn [strictest fold_right]; [lia|]. unfold strictest in IH. lia. Qed.

Lemma struct_same ls : Forall proper ls -> ls <> [] -> forall os l, cxx_struct ls os l <-> rust_struct ls = (os, l).
Proof.
  intros F N os l. unfold cxx_struct, rust_struct. destruct (rust_offsets 0 ls) as [os' e'] eqn:R.
  pose proof (offsets_pos _ _ _ _ F N R) as E1. split.
  - intros (e & C & G & O & L). apply (offsets_same _ F) in C. rewrite R in C. injection C as <- <-.
    assert (A : align l = strictest ls).
    { apply Nat.le_antisymm.
      - destruct O as [->|(m & I & <-)]; [apply strictest_pos|apply strictest_ge, I].
      - destruct (strictest_one ls) as [->|(m & I & <-)]; [|apply G, I]. destruct ls as [|l1 ls]; [congruence|]. inversion F as [|? ? (A & _)]; subst.
        specialize (G l1 (or_introl eq_refl)). lia. }
    rewrite A in L. rewrite Nat.max_r in L by lia. rewrite (lowest_unique _ _ _ _ (pad_lowest (strictest ls) e' (strictest_pos ls)) L).
    rewrite <- A. destruct l; reflexivity.
  - intros [= <- <-]. exists e'. split; [apply (offsets_same _ F), R|]. split; [apply strictest_ge|]. split.
    + cbn. destruct (strictest_one ls) as [E|(m & I & E)]; [left; exact E|right; eauto].
    + cbn [size align]. rewrite Nat.max_r by lia. apply pad_lowest, strictest_pos.
Qed.
Lemma struct_proper ls : Forall proper ls -> ls <> [] -> proper (snd (rust_struct ls)).
Proof.
  intros F N. unfold rust_struct. destruct (rust_offsets 0 ls) as [os e] eqn:R. cbn. pose proof (offsets_pos _ _ _ _ F N R) as E1.
  pose proof (strictest_pos ls). destruct (pad_lowest (strictest ls) e) as (D & _); [lia|]. split; [cbn; lia|]. split; [cbn; lia|exact D].
Qed.
Lemma struct_one l : proper l -> rust_struct [l] = ([0], l).
Proof.
  intros (A & S_ & (k & D)). unfold rust_struct. cbn [rust_offsets strictest fold_right]. unfold padding at 1.
  assert (M : 0 mod align l = 0) by (apply Nat.mod_0_l; lia). unfold padding. rewrite M. cbn [Nat.eqb]. rewrite Nat.max_l by lia. cbn [Nat.add].
  rewrite D, Nat.mod_mul by lia. cbn [Nat.eqb]. rewrite Nat.add_0_r, <- D. destruct l; reflexivity.
Qed.
Lemma struct_apart ls os l : Forall proper ls -> rust_struct ls = (os, l) -> apart 0 ls os (size l).
Proof.
  intros F. unfold rust_struct. destruct (rust_offsets 0 ls) as [os' e] eqn:R. intros [= <- <-]. cbn [size].
  assert (G : forall k x, e <= k -> rust_offsets x ls = (os', e) -> apart x ls os' k).
  { clear R. intros k x K. revert x os'. induction F as [|l ls (A & S_ & D) F IH]; cbn; intros x os R; [injection R as <- <-; exact K|].
    destruct (rust_offsets _ ls) as [os1 e1] eqn:R1. injection R as <- ->. destruct (pad_lowest (align l) x A) as (D1 & L1 & _).
    split; [exact L1|]. split; [exact D1|]. apply IH. exact R1. }
  apply G; [lia|exact R].
Qed.
Lemma arr_proper n l : n <> 0 -> proper l -> proper (arr n l).
Proof. intros N (A & S_ & (k & D)). unfold arr. split; [exact A|]. split; [cbn; nia|]. exists (n * k). cbn. rewrite D. lia. Qed.

(** * Induction over the values stored inline *)
Section Inline.
  Variable apis : list api.
  Hypothesis Hnd : NoDup (map struct_rust (structs_of apis)).
  Hypothesis Hac : ~ has_cycle contains (structs_of apis).
  Variable Q : ty -> Prop.
  Hypothesis Qother : forall t, (forall n, t <> TIdent n) -> (forall u k, t <> TArray u k) -> Q t.
  Hypothesis Qname : forall n, ~ is_struct apis (n_rust n) -> Q (TIdent n).
  Hypothesis Qstruct : forall n s, In (AStruct s) apis -> p_rust (st_name s) = n_rust n -> (forall f, In f (st_fields s) -> Q (v_ty f)) -> Q (TIdent n).
  Hypothesis Qarray : forall t k, Q t -> Q (TArray t k).

  Lemma inline_aux k : forall path, NoDup path -> incl path (map struct_rust (structs_of apis)) ->
    List.length (map struct_rust (structs_of apis)) - List.length path <= k ->
    forall t, (forall p x, In p path -> holds_inline t x -> is_struct apis x -> clos_trans _ (step apis) p x) -> Q t.
  Proof using Hnd Hac Qother Qname Qstruct Qarray.
    induction k as [k IHk] using lt_wf_ind. intros path Hp Hincl Hk t.
    induction t using ty_ind'; intros Hreach; try (apply Qother; intros; discriminate).
    - destruct (last_struct (n_rust n) apis) as [s|] eqn:Es.
      2:{ apply Qname. rewrite <- last_struct_has, Es. discriminate. }
      apply last_struct_In in Es as (HA & HN). assert (Hst : is_struct apis (n_rust n)) by (exists s; auto).
      assert (Hni : ~ In (n_rust n) path).
      { intros Hin. apply Hac. eapply step_cycle; [exact Hnd|]. apply (Hreach _ _ Hin (hi_ident n) Hst). }
      assert (Hin2 : incl (n_rust n :: path) (map struct_rust (structs_of apis))).
      { intros x [<-|Hx]; [|auto]. rewrite <- HN. apply (in_map struct_rust). apply structs_of_In. exact HA. }
      assert (Hnd2 : NoDup (n_rust n :: path)) by (constructor; assumption).
      pose proof (NoDup_incl_length Hnd2 Hin2) as Hlen. cbn in Hlen.
      apply (Qstruct n s HA HN). intros f Hf.
      apply (IHk (List.length (map struct_rust (structs_of apis)) - List.length (n_rust n :: path))) with (path := n_rust n :: path); auto.
      + cbn. lia.
      + intros p x Hpx Hhx Hsx.
        assert (Hstep : step apis (n_rust n) x).
        { destruct Hsx as [B [HB HBn]]. exists s, B. repeat split; auto; try (apply structs_of_In; assumption).
          exists f. unfold struct_rust. rewrite HBn. auto. }
        destruct Hpx as [<-|Hpx]; [apply t_step; exact Hstep|].
        eapply t_trans; [apply (Hreach _ _ Hpx (hi_ident n) Hst)|apply t_step; exact Hstep].
    - apply Qarray, IHt. intros p x H1 H2 H3. apply (Hreach p x H1); auto. constructor. exact H2.
  Qed.
  Lemma inline_ind t : Q t.
  Proof using Hnd Hac Qother Qname Qstruct Qarray.
    apply (inline_aux (List.length (map struct_rust (structs_of apis))) []); [constructor|intros x []|lia|intros p x []].
  Qed.
End Inline.
