(** C04-C06: definition order of shared structs.  Specification: Toposort_Spec.v. *)
From Verif Require Import Base Syntax_Model Toposort_Model Toposort_Spec Toposort_Proofs Toposort_Proofs2.
From Coq Require Import Relations Permutation.

(** For the examples: [S a fs] is the struct [a] with fields [fs]. *)
Local Definition S_ (a : string) (fs : list ty) : struct_ :=
  Struct_ CUnconditional [] (Pair [] a a) [] (map (fun t => Var CUnconditional (Pair [] "f" "f") t) fs).
Local Definition I_ (a : string) : ty := TIdent (Named a []).

(** The struct names of an accepted bridge are distinct: see C09. *)
Definition distinct_structs (apis : list api) : Prop := NoDup (map struct_rust (structs_of apis)).

(** No cycle is reported. *)
Definition no_cycle_error (apis : list api) : Prop :=
  exists order, toposort (structs_of apis) = Some (order, []).

(** C04, full claim: for every accepted bridge, if [A] [contains] [B] (both
    generated), then [B] is defined before [A]. *)
Definition C04_claim : Prop := forall in_cxx apis em,
  distinct_structs apis -> no_cycle_error apis -> write_data_structures in_cxx apis = Some em ->
  forall A B, In A (structs_of apis) -> In B (structs_of apis) -> contains A B ->
    in_cxx (struct_rust A) = false -> in_cxx (struct_rust B) = false ->
    exists before after, em = before ++ EmStruct A :: after /\ In (EmStruct B) before.

(** False because of arrays: [struct A { f: [B; 2] }  struct B { f: i32 }] defines
    A before B. *)
Theorem C04_definition_order_refuted : ~ C04_claim.
Proof.
  intros H.
  set (A := S_ "A" [TArray (I_ "B") 2]). set (B := S_ "B" [I_ "i32"]).
  destruct (H (fun _ => false) [AStruct A; AStruct B] [EmStruct A; EmStruct B]) with (A := A) (B := B)
    as [l1 [l2 [E1 E2]]]; try reflexivity.
  - repeat constructor; cbn; intuition discriminate.
  - exists [0; 1]. reflexivity.
  - left; reflexivity.
  - right; left; reflexivity.
  - exists (Var CUnconditional (Pair [] "f" "f") (TArray (I_ "B") 2)). split; [left; reflexivity|].
    apply hi_array. exact (hi_ident (Named "B" [])).
  - destruct l1 as [|e1 [|e2 [|e3 l1]]]; cbn in E1.
    + destruct E2.
    + injection E1 as _ E1 _. discriminate.
    + discriminate.
    + destruct l1; discriminate.
Qed.
Print Assumptions C04_definition_order_refuted.

(** It holds for containment that does not go through an array (missing: arrays). *)
Theorem C04_definition_order_partial : forall in_cxx apis em,
  distinct_structs apis -> no_cycle_error apis -> write_data_structures in_cxx apis = Some em ->
  forall A B, In A (structs_of apis) -> In B (structs_of apis) -> contains_directly A B ->
    in_cxx (struct_rust A) = false -> in_cxx (struct_rust B) = false ->
    exists before after, em = before ++ EmStruct A :: after /\ In (EmStruct B) before.
Proof. intros in_cxx apis em Hd [order Ho] Hw. exact (order_spec in_cxx apis em order Hd Hw Ho). Qed.
Print Assumptions C04_definition_order_partial.

(** In particular the full claim holds for bridges without array fields. *)
Theorem C04_array_free_partial : forall in_cxx apis em,
  array_free (structs_of apis) ->
  distinct_structs apis -> no_cycle_error apis -> write_data_structures in_cxx apis = Some em ->
  forall A B, In A (structs_of apis) -> In B (structs_of apis) -> contains A B ->
    in_cxx (struct_rust A) = false -> in_cxx (struct_rust B) = false ->
    exists before after, em = before ++ EmStruct A :: after /\ In (EmStruct B) before.
Proof.
  intros in_cxx apis em Ha Hd Hn Hw A B HA HB Hc. apply (C04_definition_order_partial in_cxx apis em Hd Hn Hw A B HA HB).
  exact (contains_no_array _ _ _ Ha HA Hc).
Qed.
Print Assumptions C04_array_free_partial.

Example C04_nonvacuous :
  let apis := [AStruct (S_ "A" [I_ "B"; I_ "C"]); AStruct (S_ "B" [I_ "C"; I_ "u8"]); AStruct (S_ "C" [I_ "i32"])] in
  array_free (structs_of apis) /\ distinct_structs apis /\ no_cycle_error apis /\
  exists em, write_data_structures (fun _ => false) apis = Some em /\ map (fun e => match e with EmStruct s => struct_rust s | _ => "" end) em = ["C"; "B"; "A"].
Proof.
  cbn. split; [|split; [|split]].
  - intros s f t len Hs Hf. cbn in Hs. repeat (destruct Hs as [<-|Hs]; [cbn in Hf; intuition (subst; discriminate)|]). destruct Hs.
  - repeat constructor; cbn; intuition discriminate.
  - exists [2; 1; 0]. reflexivity.
  - eexists. split; reflexivity.
Qed.

(** C05.  A cycle error is reported iff there is a by-value cycle.  Full claim: *)
Definition C05_claim : Prop := forall apis, distinct_structs apis ->
  exists order errs, toposort (structs_of apis) = Some (order, errs) /\
    (errs <> [] <-> has_cycle contains (structs_of apis)).

(** False: [struct A { f: [A; 1] }] is accepted. *)
Theorem C05_cycles_refuted : ~ C05_claim.
Proof.
  intros H. set (A := S_ "A" [TArray (I_ "A") 1]).
  destruct (H [AStruct A]) as [order [errs [E1 E2]]].
  - repeat constructor; cbn; intuition.
  - change (Some ([0], []) = Some (order, errs)) in E1. injection E1 as <- <-.
    apply (proj2 E2); [|reflexivity]. exists A. apply t_step. repeat split; try (left; reflexivity).
    exists (Var CUnconditional (Pair [] "f" "f") (TArray (I_ "A") 1)). split; [left; reflexivity|].
    apply hi_array. exact (hi_ident (Named "A" [])).
Qed.
Print Assumptions C05_cycles_refuted.

(** Exact for cycles through direct fields (missing: cycles through arrays); in
    particular there are no false positives. *)
Theorem C05_cycles_partial : forall apis, distinct_structs apis ->
  exists order errs, toposort (structs_of apis) = Some (order, errs) /\
    (errs <> [] <-> has_cycle contains_directly (structs_of apis)) /\
    (array_free (structs_of apis) -> (errs <> [] <-> has_cycle contains (structs_of apis))).
Proof.
  intros apis Hd. destruct (toposort_spec (structs_of apis)) as [order [errs [E [_ [HC _]]]]].
  exists order, errs. split; [exact E|].
  assert (G : errs <> [] <-> has_cycle contains_directly (structs_of apis)).
  { rewrite HC. apply cyclic_has_cycle. exact Hd. }
  split; [exact G|]. intros Ha. rewrite G.
  assert (M : forall R1 R2 : struct_ -> struct_ -> Prop, (forall X Y, In X (structs_of apis) -> R1 X Y -> R2 X Y) ->
     has_cycle R1 (structs_of apis) -> has_cycle R2 (structs_of apis)).
  { intros R1 R2 HR [A HA]. exists A. clear - HR HA. revert HA. generalize A at 1 3. generalize A. clear A.
    intros P Q HA. induction HA as [X Y [H1 [H2 H3]]|X Y Z H1 IH1 H2 IH2].
    - apply t_step. split; [exact H1|split; [exact H2|apply HR; assumption]].
    - eapply t_trans; eauto. }
  split; apply M.
  - intros X Y _ [f [n [H1 [H2 H3]]]]. exists f. split; [exact H1|]. rewrite H2, <- H3. constructor.
  - intros X Y HX HC'. exact (contains_no_array _ _ _ Ha HX HC').
Qed.
Print Assumptions C05_cycles_partial.

Example C05_nonvacuous :
  let apis := [AStruct (S_ "A" [I_ "B"]); AStruct (S_ "B" [I_ "C"]); AStruct (S_ "C" [I_ "B"])] in
  distinct_structs apis /\ array_free (structs_of apis) /\ has_cycle contains (structs_of apis).
Proof.
  cbn. split; [|split].
  - repeat constructor; cbn; intuition discriminate.
  - intros s f t len Hs Hf. cbn in Hs. repeat (destruct Hs as [<-|Hs]; [cbn in Hf; intuition (subst; discriminate)|]). destruct Hs.
  - exists (S_ "B" [I_ "C"]). apply t_trans with (S_ "C" [I_ "B"]); apply t_step.
    + split; [|split]; [cbn; auto|cbn; auto|]. eexists. split; [left; reflexivity|]. exact (hi_ident (Named "C" [])).
    + split; [|split]; [cbn; auto|cbn; auto|]. eexists. split; [left; reflexivity|]. exact (hi_ident (Named "B" [])).
Qed.

(** C06.  Struct definitions are exactly (as a multiset) the shared structs that are
    not extern C++ types; everything else follows the source order. *)
Theorem C06_emitted_once : forall in_cxx apis, distinct_structs apis ->
  exists em, write_data_structures in_cxx apis = Some em /\
    Permutation (flat_map (fun e => match e with EmStruct s => [s] | _ => [] end) em)
                (filter (fun s => negb (in_cxx (struct_rust s))) (structs_of apis)) /\
    filter (fun e => match e with EmStruct _ => false | _ => true end) em =
      flat_map (fun a => match a with
        | AEnum e => if in_cxx (p_rust (en_name e)) then (if en_from_header e then [] else [EmCheckEnum e]) else [EmEnum e]
        | ARustType t => [EmOpaque t]
        | _ => [] end) apis.
Proof.
  intros in_cxx apis Hd. destruct (write_spec in_cxx apis Hd) as [em [order [errs [E1 [E2 [E3 [E4 E5]]]]]]].
  exists em. split; [exact E1|]. split; [exact E4|exact E5].
Qed.
Print Assumptions C06_emitted_once.

Example C06_nonvacuous :
  let apis := [AStruct (S_ "A" [I_ "B"]); AStruct (S_ "X" [I_ "A"]); AStruct (S_ "B" [])] in
  distinct_structs apis /\
  exists em, write_data_structures (String.eqb "X") apis = Some em /\
             map (fun e => match e with EmStruct s => struct_rust s | _ => "" end) em = ["B"; "A"].
Proof. cbn. split; [repeat constructor; cbn; intuition discriminate|eexists; split; reflexivity]. Qed.
