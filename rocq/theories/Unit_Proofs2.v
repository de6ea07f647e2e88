(** Proofs about the generated C++ file: forward declarations and data structures. *)
From Verif Require Import Base StrLib Syntax_Model Toposort_Model Toposort_Spec Toposort_Proofs2 Toposort_Props Types_Model Types_Spec Types_Proofs Types_Proofs2 Types_Props
  Check_Model Check_Spec Check_Proofs Mangle_Model Mangle_Spec Mangle_Proofs Mangle_Proofs2 Abi_Model Nested_Model Nested_Spec Nested_Props Derive_Model CxxExpr_Model CxxExpr_Spec
  Expr_Proofs2 Uses_Proofs3 Unit_Model Unit_Spec Unit_Proofs.
From Coq Require Import Lia Permutation.

Lemma place_located st toks r o : located st toks r o ->
  place_tokens st toks = flat_map (fun x => map (pair (fst x)) (forward_decl (snd x))) r.
Proof.
  induction 1 as [|st a l r o _ IH|st x l r o _ IH|st x l r o _ IH]; cbn [place_tokens flat_map fst snd tl]; [reflexivity|rewrite IH; reflexivity|exact IH|exact IH].
Qed.
Lemma concat_singletons {A B} (f : A -> option (list B)) l r : (forall a b, f a = Some b -> exists x, b = [x]) -> otraverse f l = Some r ->
  forall before x after, List.concat r = before ++ x :: after ->
  exists l1 a l2 r1, l = l1 ++ a :: l2 /\ otraverse f l1 = Some r1 /\ List.concat r1 = before /\ f a = Some [x].
Proof.
  intros H. revert r. induction l as [|a l IH]; intros r E before x after C.
  - injection E as <-. destruct before; discriminate.
  - apply otraverse_inv in E as (b & bs & Ea & El & ->). destruct (H _ _ Ea) as (y & ->). cbn [List.concat app] in C.
    destruct before as [|z before]; cbn [app] in C; injection C as E C.
    + subst y. exists [], a, l, []. split; [reflexivity|]. split; [reflexivity|]. split; [reflexivity|exact Ea].
    + subst z. destruct (IH _ El _ _ _ C) as (l1 & a' & l2 & r1 & -> & E1 & E2 & E3).
      exists (a :: l1), a', l2, ([y] :: r1). split; [reflexivity|]. split.
      * change (obind (f a) (fun b => option_map (cons b) (otraverse f l1)) = Some ([y] :: r1)). rewrite Ea, E1. reflexivity.
      * split; [cbn [List.concat app]; rewrite E2; reflexivity|exact E3].
Qed.

Section Bridge.
  Variables (gen : generator) (ord : nat -> list string -> list string) (apis : list api) (T : types) (fuel : nat).
  Hypothesis Hacc : accepted_bridge gen ord apis T.
  Hypothesis Hagree : names_agree apis.
  Hypothesis Hfuel : forall a, In a apis -> (List.length (api_namespace a) < fuel)%nat.
  Variable toks : list ftok.
  Hypothesis Htoks : forward_declarations fuel T apis = Some toks.
  Notation fwd := (place_tokens [] toks).
  Notation inc := (fun x => smem x (t_cxx T)).

  Lemma resolved_stands p : resolved T p -> exists x, stands_for apis x p.
  Proof. intros (x & E). exists x. eapply resolve_stands; eassumption. Qed.
  Lemma stands_decl x p : stands_for apis x p -> exists a, In a apis /\ decl_name a = Some p /\ p_rust p = x.
  Proof. intros (pre & a & post & -> & D & E & _). exists a. split; [apply in_or_app; right; left; reflexivity|auto]. Qed.
  Lemma resolved_decl p : resolved T p -> exists a, In a apis /\ decl_name a = Some p.
  Proof. intros R. destruct (resolved_stands p R) as (x & S). destruct (stands_decl x p S) as (a & I & D & _). eauto. Qed.

  Lemma inc_ok x : inc x = true <-> is_cxx_type apis x.
  Proof. exact (cxx_ok _ _ _ _ Hacc x). Qed.
  Lemma cxx_side a p : inc (p_rust p) = true -> In a apis -> decl_name a = Some p -> cxx_defined apis (qualified p).
  Proof.
    intros C I D. apply inc_ok in C.
    assert (H : forall b q, In b apis -> decl_name b = Some q -> p_rust q = p_rust p -> qualified q = qualified p).
    { intros b q Ib Db E. apply (Hagree b a q p Ib I Db D). exact E. }
    destruct C as [(t & It & E)|[(t & It & E)|(e & Ie & E & F)]].
    - rewrite <- (H (ACxxType t) (et_name t) It eq_refl E). constructor. exact It.
    - rewrite <- (H (ATypeAlias t) (ta_name t) It eq_refl E). constructor. exact It.
    - rewrite <- (H (AEnum e) (en_name e) Ie eq_refl E). constructor; assumption.
  Qed.

  (** ** Forward declarations *)
  Lemma fwd_facts : exists r, fwd = flat_map (fun x => map (pair (fst x)) (forward_decl (snd x))) r /\
    forall ns a, In (ns, a) r <-> In a apis /\ needs_forward T a = true /\ api_namespace a = ns.
  Proof.
    assert (Z : fuel <> 0%nat).
    { intros ->. destruct apis as [|a l]; [|specialize (Hfuel a (or_introl eq_refl)); lia]. discriminate Htoks. }
    destruct (C30_forward_declarations T apis fuel Hfuel Z) as (toks' & r & o & E & L & _ & D). rewrite Htoks in E. injection E as <-.
    exists r. split; [exact (place_located _ _ _ _ L)|]. intros ns a.
    assert (M : In (ns, a) r <-> In a (declared_in r ns)).
    { unfold declared_in. rewrite in_flat_map. split.
      - intros I. exists (ns, a). split; [exact I|]. cbn [fst snd]. destruct (list_eq_dec string_dec ns ns); [left; reflexivity|congruence].
      - intros ((ns', a') & I & J). cbn [fst snd] in J. destruct (list_eq_dec string_dec ns' ns) as [->|]; [|destruct J]. destruct J as [->|[]]. exact I. }
    rewrite M, D. unfold type_items. rewrite filter_In. unfold needs_forward, api_namespace.
    destruct a; try (split; [intros (_ & H); discriminate H|intros (_ & H & _); discriminate H]).
    all: try (destruct (list_eq_dec string_dec _ ns) as [->|N]; [tauto|]; split; [intros (_ & H); discriminate H|intros (_ & _ & H); contradiction]).
    rewrite andb_true_iff. destruct (list_eq_dec string_dec _ ns) as [->|N]; [intuition|]. split; [intros (_ & _ & H); discriminate H|intros (_ & _ & H); contradiction].
  Qed.
  Lemma fwd_has a d : In a apis -> needs_forward T a = true -> In d (forward_decl a) -> In (api_namespace a, d) fwd.
  Proof.
    intros I N J. destruct fwd_facts as (r & -> & H). apply in_flat_map. exists (api_namespace a, a). split; [apply H; auto|]. cbn [fst snd]. apply in_map. exact J.
  Qed.
  Lemma fwd_from ns d : In (ns, d) fwd -> exists a, In a apis /\ In d (forward_decl a) /\ ns = api_namespace a.
  Proof.
    destruct fwd_facts as (r & -> & H). intros I. apply in_flat_map in I as ((ns', a) & I & J). cbn [fst snd] in J. apply in_map_iff in J as (d' & E & J). injection E as -> ->.
    apply H in I as (I & _ & E). exists a. auto.
  Qed.
  Notation K1 := (later (users apis) fwd).

  Lemma fwd_founded : founded (users apis) fwd.
  Proof.
    apply founded_all. intros ns d I n J. destruct (fwd_from _ _ I) as (a & Ia & Id & _). destruct a; cbn in Id; destruct Id as [<-|[]] || destruct Id; cbn in J; try (destruct J; fail).
    destruct J as [<-|[]]. cbn [meets]. apply us_declared, ic_type, Ia.
  Qed.
  Lemma declared_decl a p : In a apis -> decl_name a = Some p -> K1 (Declared (qualified p)).
  Proof.
    intros I D.
    assert (F : forall d, needs_forward T a = true -> In d (forward_decl a) -> In (Declared (qualified p)) (provides (api_namespace a) d) -> K1 (Declared (qualified p))).
    { intros d N J P. right. exists (api_namespace a), d. split; [apply fwd_has; assumption|exact P]. }
    destruct a; try discriminate D; cbn [decl_name] in D; injection D as <-.
    - apply (F (TForward (p_cxx (st_name s)))); [reflexivity|left; reflexivity|left; reflexivity].
    - destruct (inc (p_rust (en_name e))) eqn:C; [left; apply us_declared; eapply cxx_side; [exact C|exact I|reflexivity]|].
      apply (F (TForwardEnum (p_cxx (en_name e)))); [cbn [needs_forward]; rewrite C; reflexivity|left; reflexivity|left; reflexivity].
    - left. apply us_declared, ic_type, I.
    - apply (F (TForward (p_cxx (et_name t)))); [reflexivity|left; reflexivity|left; reflexivity].
    - left. apply us_declared, ic_alias, I.
  Qed.
  Lemma declared_resolved p : resolved T p -> K1 (Declared (qualified p)).
  Proof. intros R. destruct (resolved_decl p R) as (a & I & D). eapply declared_decl; eassumption. Qed.
  Lemma named_met c : good T c -> forall n, In n (named c) -> meets K1 n.
  Proof. intros G n I. apply in_map_iff in I as (p & <- & I). cbn [meets]. apply declared_resolved, G, I. Qed.
  Lemma nameds_met l : goods T l -> forall n, In n (flat_map named l) -> meets K1 n.
  Proof. intros G n I. apply in_flat_map in I as (c & J & I). exact (named_met c (G c J) n I). Qed.

  (** ** Data structures *)
  Notation em := (write_loop inc apis [] (t_toposorted T)).
  Lemma structs_nodup : NoDup (map struct_rust (structs_of apis)).
  Proof using Hacc.
    destruct Hacc as [[Ho Hc] _]. apply (no_dup_distinct ord apis T []); [exact Hc|]. intros n [].
  Qed.
  Lemma order_known : exists order, toposort (structs_of apis) = Some (order, []) /\
    t_toposorted T = flat_map (fun i => match nth_error (structs_of apis) i with Some s => [s] | None => [] end) order.
  Proof using Hacc.
    destruct Hacc as [[Ho Hc] _]. clear -Hc. revert Hc. unfold collect. destruct (toposort (structs_of apis)) as [[order terrs]|]; [|discriminate].
    destruct (struct_improper_ctypes _ _ _ _); [|discriminate]. intros H. injection H as <- H. exists order.
    apply app_eq_nil in H as (_ & H). apply map_eq_nil in H. subst terrs. auto.
  Qed.
  Lemma em_written : write_data_structures inc apis = Some em.
  Proof using Hacc. destruct order_known as (order & E & Et). unfold write_data_structures. rewrite E, Et. reflexivity. Qed.
  Lemma em_struct s : In (EmStruct s) em <-> In (AStruct s) apis /\ inc (struct_rust s) = false.
  Proof using Hacc.
    destruct (C06_emitted_once inc apis structs_nodup) as (em' & E & P & _). rewrite em_written in E. injection E as <-.
    assert (M : In (EmStruct s) em <-> In s (flat_map (fun e => match e with EmStruct s => [s] | _ => [] end) em)).
    { rewrite in_flat_map. split; [intros I; exists (EmStruct s); split; [exact I|left; reflexivity]|].
      intros (e & I & J). destruct e; try destruct J. subst. exact I. destruct H. }
    rewrite M. transitivity (In s (filter (fun s => negb (inc (struct_rust s))) (structs_of apis))).
    - split; apply Permutation_in; [exact P|apply Permutation_sym, P].
    - rewrite filter_In, structs_of_In, negb_true_iff. reflexivity.
  Qed.
  Lemma em_other d : match d with EmStruct _ => False | _ => True end -> (In d em <->
    exists a, In a apis /\ In d (match a with
        | AEnum e => if inc (p_rust (en_name e)) then (if en_from_header e then [] else [EmCheckEnum e]) else [EmEnum e]
        | ARustType t => [EmOpaque t]
        | _ => [] end)).
  Proof using Hacc.
    intros N. destruct (C06_emitted_once inc apis structs_nodup) as (em' & E & _ & Q). rewrite em_written in E. injection E as <-.
    rewrite <- in_flat_map, <- Q, filter_In. destruct d; intuition.
  Qed.
  Lemma struct_unique s s' : In (AStruct s) apis -> In (AStruct s') apis -> struct_rust s = struct_rust s' -> s = s'.
  Proof using Hacc.
    intros I I' E. apply (distinct_unique (structs_of apis)); [exact structs_nodup|apply structs_of_In, I|apply structs_of_In, I'|exact E].
  Qed.
  Lemma em_structs_nodup : NoDup (flat_map (fun e => match e with EmStruct s => [s] | _ => [] end) em).
  Proof using Hacc.
    destruct (C06_emitted_once inc apis structs_nodup) as (em' & E & P & _). rewrite em_written in E. injection E as <-.
    apply (Permutation_NoDup (Permutation_sym P)). apply NoDup_filter. eapply NoDup_map_inv. exact structs_nodup.
  Qed.
  Lemma split_unique before s after before' after' : em = before ++ EmStruct s :: after -> em = before' ++ EmStruct s :: after' -> before = before'.
  Proof using Hacc.
    intros E E'. pose proof em_structs_nodup as N.
    assert (G : forall (l : list emitted) b a b' a', NoDup (flat_map (fun e => match e with EmStruct s => [s] | _ => [] end) l) ->
              l = b ++ EmStruct s :: a -> l = b' ++ EmStruct s :: a' -> b = b').
    { clear. assert (In_ : forall x y, In s (flat_map (fun e => match e with EmStruct s => [s] | _ => [] end) (x ++ EmStruct s :: y)))
        by (intros x y; apply in_flat_map; exists (EmStruct s); split; [apply in_or_app; right; left; reflexivity|left; reflexivity]).
      induction l as [|e l IH]; intros b a b' a' N E E'; [destruct b; discriminate|].
      destruct b as [|x b], b' as [|x' b']; cbn [app] in E, E'.
      - reflexivity.
      - injection E as -> _. injection E' as <- E'. cbn [flat_map app] in N. apply NoDup_cons_iff in N as (N & _). exfalso. apply N. rewrite E'. apply In_.
      - injection E' as -> _. injection E as <- E. cbn [flat_map app] in N. apply NoDup_cons_iff in N as (N & _). exfalso. apply N. rewrite E. apply In_.
      - injection E as -> E. injection E' as <- E'. f_equal. eapply IH; [|exact E|exact E']. cbn [flat_map] in N.
        destruct x; cbn [app] in N; try exact N. apply NoDup_cons_iff in N. apply N. }
    eapply G; [exact N|exact E|exact E'].
  Qed.

  Variable data : list placed_decl.
  Hypothesis Hdata : data_structures T apis = Some data.
  Lemma data_split : exists ds, otraverse (data_decl T apis) em = Some ds /\ data = List.concat ds.
  Proof. unfold data_structures in Hdata. apply option_map_inv in Hdata as (ds & E & ->). eauto. Qed.
  Lemma data_single d l : data_decl T apis d = Some l -> exists x, l = [x].
  Proof.
    destruct d; cbn [data_decl]; unfold struct_decl, opaque_decl; intros E.
    - do 3 (apply obind_inv in E as (? & _ & E)). injection E as <-. eauto.
    - apply option_map_inv in E as (? & _ & ->). eauto.
    - injection E as <-. eauto.
    - do 2 (apply obind_inv in E as (? & _ & E)). injection E as <-. eauto.
  Qed.
  Lemma data_has d : In d em -> exists x, data_decl T apis d = Some [x] /\ In x data.
  Proof.
    intros I. destruct data_split as (ds & E & ->). destruct (otraverse_has _ _ _ _ E I) as (l & J & El). destruct (data_single _ _ El) as (x & ->).
    exists x. split; [exact El|]. apply in_concat. exists [x]. split; [exact J|left; reflexivity].
  Qed.
  Lemma method_good ms fs : otraverse (method_decl T) fs = Some ms -> forall m, In m ms -> goods T (ms_ret (snd m) :: ms_params (snd m)).
  Proof.
    intros E m I. destruct (otraverse_in _ _ _ _ E I) as (f & _ & Ef). unfold method_decl in Ef. apply option_map_inv in Ef as (s & Es & ->).
    cbn [snd ms_ret ms_params]. eapply cxx_function_shim_decl_good, Es.
  Qed.
  Lemma struct_resolved s : In (AStruct s) apis -> exists p, resolved T p /\ p_rust p = struct_rust s /\ qualified p = qualified (st_name s).
  Proof.
    intros I. assert (S : exists p, stands_for apis (struct_rust s) p).
    { assert (E : exists b q, In b apis /\ decl_name b = Some q /\ p_rust q = struct_rust s) by (exists (AStruct s), (st_name s); auto).
      clear -E. induction apis as [|a l IH]; [destruct E as (b & q & [] & _)|].
      assert (D : (exists b q, In b l /\ decl_name b = Some q /\ p_rust q = struct_rust s) \/ ~ (exists b q, In b l /\ decl_name b = Some q /\ p_rust q = struct_rust s)).
      { clear. induction l as [|b l IH]; [right; intros (b & q & [] & _)|]. destruct IH as [(b' & q & I & H)|N]; [left; exists b', q; split; [right; exact I|exact H]|].
        destruct (decl_name b) as [q|] eqn:Q.
        - destruct (string_dec (p_rust q) (struct_rust s)) as [E|E]; [left; exists b, q; split; [left; reflexivity|auto]|].
          right. intros (b' & q' & [<-|I] & Q' & E'); [congruence|]. apply N. eauto.
        - right. intros (b' & q' & [<-|I] & Q' & E'); [congruence|]. apply N. eauto. }
      destruct D as [D|N].
      - destruct (IH D) as (p & pre & b & post & -> & H). exists p, (a :: pre), b, post. split; [reflexivity|exact H].
      - destruct E as (b & q & [<-|I] & Q & E); [|exfalso; apply N; eauto].
        exists q, [], a, l. split; [reflexivity|]. split; [exact Q|]. split; [exact E|]. intros b q' I Q' E'. apply N. eauto. }
    destruct S as (p & S). exists p. split; [exists (struct_rust s); eapply resolve_stands; eassumption|].
    destruct (stands_decl _ _ S) as (a & Ia & D & E). split; [exact E|].
    apply (Hagree a (AStruct s) p (st_name s) Ia I D eq_refl). exact E.
  Qed.

  Hypothesis Harr : array_free (structs_of apis).
  Lemma data_founded : founded K1 data.
  Proof.
    destruct data_split as (ds & Eds & ->). intros before ns d after E n I.
    destruct (concat_singletons _ _ _ data_single Eds _ _ _ E) as (em1 & e & em2 & r1 & Eem & E1 & <- & Ee).
    assert (Ie : In e em) by (rewrite Eem; apply in_or_app; right; left; reflexivity).
    assert (lift : forall n, meets K1 n -> meets (later K1 (List.concat r1)) n) by (intros m; apply meets_mono; intros f H; left; exact H).
    destruct e as [s|e|e|t]; cbn [data_decl] in Ee.
    - apply em_struct in Ie as (Is & Ns). unfold struct_decl in Ee. apply obind_inv in Ee as (g & _ & Ee). apply obind_inv in Ee as (fields & Ef & Ee).
      apply obind_inv in Ee as (ms & Em & Ee). injection Ee as <- <-. cbn [needs] in I. apply in_app_or in I as [I|I].
      + apply in_flat_map in I as ((x & c) & J & I). cbn [snd] in I. unfold cxx_fields in Ef.
        destruct (otraverse_in _ _ _ _ Ef J) as (f & If & Ec). apply option_map_inv in Ec as (c' & Ec & Ex). injection Ex as -> <-.
        pose proof (cxx_type_good T _ _ Ec) as G. unfold field_needs in I. apply in_app_or in I as [I|I]; [apply lift, (named_met c G), I|].
        apply in_map_iff in I as (p & <- & I). cbn [meets].
        destruct (field_sized _ _ _ _ Hacc s f Is If) as (_ & Sz).
        pose proof (unsized_ok _ _ _ _ Hacc _ Sz) as US.
        assert (Hn : exists n, v_ty f = TIdent n /\ atom_from_str (n_rust n) = None /\ c = CNamed p).
        { destruct (v_ty f) as [nm|u|u|u|u|u|p0 m0 l0 u|m0 u|l0|u|un th args ret| |m0 l0 u|u len] eqn:Ty; cbn [cxx_type] in Ec;
            try (apply option_map_inv in Ec as (? & _ & ->); cbn [inline] in I; destruct I; fail).
          - destruct (atom_from_str (n_rust nm)) eqn:A; [injection Ec as <-; destruct I|]. apply option_map_inv in Ec as (q & _ & ->). destruct I as [<-|[]]. eauto.
          - injection Ec as <-. destruct I.
          - exfalso. apply (US (TCxxVector u)); constructor.
          - apply obind_inv in Ec as (? & _ & Ec). apply option_map_inv in Ec as (? & _ & ->). destruct I.
          - discriminate.
          - exfalso. eapply (Harr s f u len); [apply structs_of_In, Is|exact If|exact Ty]. }
        destruct Hn as (nm & Ty & At & ->). rewrite Ty in Ec. cbn [cxx_type] in Ec. rewrite At in Ec. apply option_map_inv in Ec as (q & Er & Eq). injection Eq as <-.
        assert (St : stands_for apis (n_rust nm) p) by (eapply resolve_stands; eassumption).
        destruct (stands_decl _ _ St) as (a & Ia & D & En).
        destruct (inc (p_rust p)) eqn:C; [left; left; apply us_complete; eapply cxx_side; eassumption|].
        destruct a as [|s'|e'|t'|f'|t'|f'|a'|i']; try discriminate D; cbn [decl_name] in D; injection D as <-.
        * assert (Cd : contains_directly s s') by (exists f, nm; auto).
          destruct (C04_definition_order_partial inc apis em structs_nodup) with (A := s) (B := s') as (b & af & Eb & Ib);
            [destruct order_known as (o & Eo & _); exists o; exact Eo|exact em_written|apply structs_of_In, Is|apply structs_of_In, Ia|exact Cd|exact Ns|exact C|].
          rewrite (split_unique _ _ _ _ _ Eb Eem) in Ib.
          destruct (otraverse_has _ _ _ _ E1 Ib) as (l & Jl & El). destruct (data_single _ _ El) as (y & ->).
          right. cbn [data_decl] in El. unfold struct_decl in El. do 3 (apply obind_inv in El as (? & _ & El)). injection El as <-.
          eexists _, _. split; [apply in_concat; eexists; split; [exact Jl|left; reflexivity]|]. cbn [provides app]. right. left. reflexivity.
        * left. right. exists (p_ns (en_name e')), (TForwardEnum (p_cxx (en_name e'))). split; [|right; left; reflexivity].
          apply (fwd_has (AEnum e')); [exact Ia|cbn [needs_forward]; rewrite C; reflexivity|left; reflexivity].
        * left. left. apply us_complete, ic_type, Ia.
        * exfalso. apply (US (TIdent nm)); [rewrite Ty; constructor|]. apply un_rust. exists t'. auto.
        * left. left. apply us_complete, ic_alias, Ia.
      + apply in_flat_map in I as (m & J & I). apply lift. apply in_app_or in J as [J|J]; [apply (nameds_met _ (method_good _ _ Em m J)), I|].
        apply in_map_iff in J as (o & <- & _). cbn [snd ms_ret ms_params op_sig flat_map app] in I. unfold named in I. cbn [names_in map app] in I. destruct I as [<-|[]].
        cbn [meets]. eapply declared_decl; [exact Is|reflexivity].
    - apply option_map_inv in Ee as (g & _ & Ee). injection Ee as -> ->. destruct I.
    - injection Ee as <- <-. cbn [needs] in I. destruct I as [<-|[]]. cbn [meets]. left. left. apply us_complete. apply (em_other (EmCheckEnum e) Logic.I) in Ie as (a & Ia & J).
      destruct a; try destruct J. destruct (inc (p_rust (en_name e0))) eqn:C; [|destruct J as [J|[]]; discriminate J]. destruct (en_from_header e0); [destruct J|].
      destruct J as [J|[]]. injection J as <-. eapply (cxx_side (AEnum e0) (en_name e0)); [exact C|exact Ia|reflexivity]. discriminate H. destruct H.
    - unfold opaque_decl in Ee. apply obind_inv in Ee as (g & _ & Ee). apply obind_inv in Ee as (ms & Em & Ee). injection Ee as <- <-. cbn [needs flat_map app] in I.
      apply lift. apply in_flat_map in I as (m & J & I). apply in_app_or in J as [J|J]; [apply (nameds_met _ (method_good _ _ Em m J)), I|].
      destruct J as [<-|[<-|[]]]; destruct I.
  Qed.
  Notation K2 := (later K1 data).

  Lemma complete_decl a p : In a apis -> decl_name a = Some p -> K2 (Complete (qualified p)).
  Proof.
    intros I D. destruct (inc (p_rust p)) eqn:C; [left; left; apply us_complete; eapply cxx_side; eassumption|].
    destruct a as [|s|e|t|f|t|f|a|i]; try discriminate D; cbn [decl_name] in D; injection D as <-.
    - right. destruct (data_has (EmStruct s)) as (x & Ex & Ix); [apply em_struct; auto|]. cbn [data_decl] in Ex. unfold struct_decl in Ex. do 3 (apply obind_inv in Ex as (? & _ & Ex)). injection Ex as <-.
      eexists _, _. split; [exact Ix|]. right. left. reflexivity.
    - left. right. exists (p_ns (en_name e)), (TForwardEnum (p_cxx (en_name e))). split; [|right; left; reflexivity].
      apply (fwd_has (AEnum e)); [exact I|cbn [needs_forward]; rewrite C; reflexivity|left; reflexivity].
    - left. left. apply us_complete, ic_type, I.
    - right. destruct (data_has (EmOpaque t)) as (x & Ex & Ix); [apply em_other; [exact Logic.I|]; exists (ARustType t); split; [exact I|left; reflexivity]|].
      cbn [data_decl] in Ex. unfold opaque_decl in Ex. do 2 (apply obind_inv in Ex as (? & _ & Ex)). injection Ex as <-.
      eexists _, _. split; [exact Ix|]. right. left. reflexivity.
    - left. left. apply us_complete, ic_alias, I.
  Qed.
  Lemma complete_resolved p : resolved T p -> K2 (Complete (qualified p)).
  Proof. intros R. destruct (resolved_decl p R) as (a & I & D). eapply complete_decl; eassumption. Qed.
  Lemma entire_names c p : In p (entire c) -> In p (names_in c).
  Proof. induction c; cbn; tauto. Qed.
  Lemma value_met c : good T c -> forall n, In n (value_needs c) -> meets K2 n.
  Proof.
    intros G n I. apply in_app_or in I as [I|I]; [eapply meets_mono; [|exact (named_met c G n I)]; intros f H; left; exact H|].
    apply in_map_iff in I as (p & <- & I). cbn [meets]. apply complete_resolved, G, entire_names, I.
  Qed.
  Lemma values_met l : goods T l -> forall n, In n (flat_map value_needs l) -> meets K2 n.
  Proof. intros G n I. apply in_flat_map in I as (c & J & I). exact (value_met c (G c J) n I). Qed.

  (** ** Members *)
  Lemma methods_in f r : all_functions apis f -> fn_receiver f = Some r -> In f (methods_for apis (n_rust (rc_ty r))).
  Proof.
    intros A R. unfold methods_for. apply in_flat_map. destruct A as [A|A]; (eexists; split; [exact A|]; cbn beta iota; rewrite R, String.eqb_refl; left; reflexivity).
  Qed.
  Lemma receiver_member f r p : all_functions apis f -> fn_receiver f = Some r -> stands_for apis (n_rust (rc_ty r)) p ->
    cxx_defined apis (qualified p) \/ exists m, method_decl T f = Some m /\
      K2 (Member (qualified p) (fst m) (ms_const (snd m)) (ms_ret (snd m)) (ms_params (snd m))) /\ K2 (Prototype (qualified p) (fst m) (snd m)).
  Proof.
    intros A R S. destruct (stands_decl _ _ S) as (a & Ia & D & En). pose proof (methods_in f r A R) as M.
    destruct (inc (p_rust p)) eqn:C; [left; eapply cxx_side; eassumption|right].
    assert (F : forall fields ms g more, otraverse (method_decl T) (methods_for apis (n_rust (rc_ty r))) = Some ms -> In (p_ns p, TClass g (p_cxx p) fields (ms ++ more)) data ->
       exists m, method_decl T f = Some m /\ K2 (Member (qualified p) (fst m) (ms_const (snd m)) (ms_ret (snd m)) (ms_params (snd m))) /\ K2 (Prototype (qualified p) (fst m) (snd m))).
    { intros fields ms g more E I. destruct (otraverse_has _ _ _ _ E M) as (m & J & Em). exists m. split; [exact Em|].
      assert (Q : forall q, In q [Member (qualified p) (fst m) (ms_const (snd m)) (ms_ret (snd m)) (ms_params (snd m)); Prototype (qualified p) (fst m) (snd m)] -> K2 q).
      { intros q Iq. right. eexists _, _. split; [exact I|]. cbn [provides]. apply in_or_app. right. apply in_flat_map. exists m. split; [apply in_or_app; left; exact J|exact Iq]. }
      split; apply Q; [left|right; left]; reflexivity. }
    destruct (receiver_ok _ _ _ _ Hacc f r A R) as (_ & NE & _ & _).
    destruct a as [|s|e|t|g|t|g|a|i]; try discriminate D; cbn [decl_name] in D; injection D as <-.
    - destruct (data_has (EmStruct s)) as (x & Ex & Ix); [apply em_struct; auto|]. cbn [data_decl] in Ex. unfold struct_decl in Ex.
      apply obind_inv in Ex as (g & _ & Ex). apply obind_inv in Ex as (fields & _ & Ex). apply obind_inv in Ex as (ms & Em & Ex). injection Ex as <-. rewrite En in Em. eapply F; eassumption.
    - exfalso. apply NE. exists e. auto.
    - exfalso. apply not_true_iff_false in C. apply C. apply inc_ok. left. exists t. auto.
    - destruct (data_has (EmOpaque t)) as (x & Ex & Ix); [apply em_other; [exact Logic.I|]; exists (ARustType t); split; [exact Ia|left; reflexivity]|].
      cbn [data_decl] in Ex. unfold opaque_decl in Ex. apply obind_inv in Ex as (g & _ & Ex). apply obind_inv in Ex as (ms & Em & Ex). injection Ex as <-. rewrite En in Em. eapply F; eassumption.
    - exfalso. apply not_true_iff_false in C. apply C. apply inc_ok. right. left. exists a. auto.
  Qed.
  Lemma operator_member s o : In (AStruct s) apis -> In o (class_operators s) ->
    K2 (Member (qualified (st_name s)) (op_text o) true (CAtom ABool) [CRef true (CNamed (st_name s))]) /\ K2 (Prototype (qualified (st_name s)) (op_text o) (op_sig (st_name s))).
  Proof.
    intros I Io. destruct (inc (struct_rust s)) eqn:C.
    - assert (X : cxx_defined apis (qualified (st_name s))) by (eapply (cxx_side (AStruct s)); [exact C|exact I|reflexivity]).
      split; left; left; constructor; exact X.
    - destruct (data_has (EmStruct s)) as (x & Ex & Ix); [apply em_struct; auto|]. cbn [data_decl] in Ex. unfold struct_decl in Ex.
      apply obind_inv in Ex as (g & _ & Ex). apply obind_inv in Ex as (fields & _ & Ex). apply obind_inv in Ex as (ms & Em & Ex). injection Ex as <-.
      assert (Q : forall q, In q [Member (qualified (st_name s)) (op_text o) true (CAtom ABool) [CRef true (CNamed (st_name s))]; Prototype (qualified (st_name s)) (op_text o) (op_sig (st_name s))] -> K2 q).
      { intros q Iq. right. eexists _, _. split; [exact Ix|]. cbn [provides]. apply in_or_app. right. apply in_flat_map. exists (op_text o, op_sig (st_name s)).
        split; [apply in_or_app; right; apply (in_map (fun o => (op_text o, op_sig (st_name s)))), Io|exact Iq]. }
      split; apply Q; [left|right; left]; reflexivity.
  Qed.
  Lemma layout_member t x : In (ARustType t) apis -> In x ["layout::size"; "layout::align"]%string -> K2 (Prototype (qualified (et_name t)) x layout_sig).
  Proof.
    intros I Ix. destruct (data_has (EmOpaque t)) as (y & Ey & Iy); [apply em_other; [exact Logic.I|]; exists (ARustType t); split; [exact I|left; reflexivity]|].
    cbn [data_decl] in Ey. unfold opaque_decl in Ey. apply obind_inv in Ey as (g & _ & Ey). apply obind_inv in Ey as (ms & Em & Ey). injection Ey as <-.
    right. eexists _, _. split; [exact Iy|]. cbn [provides]. apply in_or_app. right. apply in_flat_map. exists (x, layout_sig).
    split; [apply in_or_app; right; destruct Ix as [<-|[<-|[]]]; [left|right; left]; reflexivity|right; left; reflexivity].
  Qed.
End Bridge.
