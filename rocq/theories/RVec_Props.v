(** C44: rust::Vec in C++ behaves like a sequence. *)
From Verif Require Import Base Store_Lib RVec_Model RVec_Spec RVec_Proofs.
Require Import Lia.

Definition buffers (e : list (nat * repr)) : list nat :=
  flat_map (fun p => match buf (snd p) with Some a => [a] | None => [] end) e.

(** The claim is false: there are programs that do something sensible on lists, and have
    undefined behaviour on vectors.  [v.push_back(v[0])] reads the element after the buffer has
    moved; and a copy assignment that throws leaves a vector that is destroyed a second time. *)
Theorem C44_refuted :
  exists slack ops1 ops2,
    (exists s t o, spec_run ops1 [] = (Ok s o, t)) /\ fst (run slack ops1 ([], [])) = UB /\
    (exists s t o, spec_run ops2 [] = (Ok s o, t)) /\ fst (run slack ops2 ([], [])) = UB.
Proof.
  exists (fun _ => 0), [FromList 0 [7] None; Push 0 (Element 0 0) false],
    [FromList 0 [7] None; FromList 1 [8] None; Assign 0 1 (Some 0); Destroy 0].
  repeat split; try (vm_compute; reflexivity); repeat eexists; vm_compute; reflexivity.
Qed.
(** Appending an element of a full vector to itself always is undefined behaviour. *)
Theorem C44_self_append_refuted : forall slack ops h e o t x i throws r,
  run slack ops ([], []) = (Ok (h, e) o, t) -> careful_run slack ops ([], []) = true ->
  lookup x e = Some r -> i < len r -> len r = cap r ->
  step slack (Push x (Element x i) throws) (h, e) = UB.
Proof.
  intros slack ops h e o t x i throws r R CF L LT FULL. pose proof (run_ok slack ops _ _ rel_init CF) as K. rewrite R in K.
  destruct K as (s & _ & K). eapply alias_ub; eauto.
Qed.

(** Every program that does neither of the two does what it does on lists: no undefined
    behaviour, the same results, the same elements destroyed at the same points, and at every
    point each buffer that is not freed belongs to exactly one vector.
    Missing: the two cases above, in which the claim is false. *)
Theorem C44_sequence_partial : forall slack ops,
  careful_run slack ops ([], []) = true ->
  match run slack ops ([], []) with
  | (UB, _) => False
  | (Illegal, t) => spec_run ops [] = (Illegal, t)
  | (Ok (h, e) o, t) =>
      exists s, spec_run ops [] = (Ok s o, t)
        /\ map fst e = map fst s
        /\ NoDup (buffers e)
        /\ (forall a, cell h a <> None <-> In a (buffers e))
        /\ (s = [] -> forall a, cell h a = None)
  end.
Proof.
  intros slack ops CF. pose proof (run_ok slack ops _ _ rel_init CF) as R. destruct (run slack ops ([], [])) as [[| |[h e] o] t]; auto.
  destruct R as (s & E & m & EM & I & C). cbn [fst snd] in *. subst e. exists s. split; auto.
  destruct (g_owned v_own m s C) as [OB KS]. pose proof I as [O N A]. rewrite OB in *.
  change (flat_map (fun p => v_own (snd p)) (reprs m)) with (buffers (reprs m)) in *.
  assert (LV : forall a, In a (buffers (reprs m)) -> cell h a <> None).
  { intros a J. rewrite <- OB in J. eapply (inv_live v_own v_ok v_ok_live h m); eauto. }
  repeat split; auto. intros -> a. destruct m; [|discriminate]. destruct (cell h a) eqn:EC; auto. exfalso. apply (A a). congruence.
Qed.
(** A program can be careful: after reserve(n) with more room than elements, appending an
    element of the vector to itself is allowed. *)
Theorem C44_reserve : forall slack ops h e o t x n st,
  run slack ops ([], []) = (Ok (h, e) o, t) -> careful_run slack ops ([], []) = true ->
  reserve_total slack x n (h, e) = Some st ->
  exists r r', lookup x e = Some r /\ lookup x (snd st) = Some r' /\ len r' = len r /\ n <= cap r'
    /\ (len r < n -> forall i throws, careful (Push x (Element x i) throws) st = true).
Proof.
  intros slack ops h e o t x n st R CF RS. pose proof (run_ok slack ops _ _ rel_init CF) as K. rewrite R in K.
  destruct K as (s & _ & m & EM & I & C). cbn [fst snd] in *. subst e.
  destruct (lookup x m) as [[r ot]|] eqn:L.
  - destruct (g_found_inv _ _ _ _ _ C L) as (l & LS & ->).
    destruct (V_reserve slack h m x r l n I L) as (r' & h' & E & M & LE & _). rewrite E in RS. injection RS as <-.
    assert (L' : lookup x (set x (r', Some l) m) = Some (r', Some l)) by (apply lookup_set_same; congruence).
    exists r, r'. cbn [snd]. rewrite (g_reprs_found _ _ _ L), (g_reprs_found _ _ _ L'). cbn [fst].
    pose proof (v_ok_len _ _ _ (mv_ok _ _ _ _ _ M)) as E1. pose proof (v_ok_len _ _ _ (inv_lookup _ _ _ _ _ _ _ I L)) as E2.
    repeat split; auto; [lia|]. intros LT i throws. cbn [careful snd]. rewrite Nat.eqb_refl, (g_reprs_found _ _ _ L'). cbn [fst].
    apply Nat.ltb_lt. lia.
  - unfold reserve_total in RS. rewrite g_reprs_lookup, L in RS. discriminate.
Qed.

(** Appending is amortised constant time: however many elements are appended to a vector,
    fewer than three are moved for each of them, beside those that were there. *)
Theorem C44_amortised : forall slack ops h e o t x r vs,
  doubling slack -> run slack ops ([], []) = (Ok (h, e) o, t) -> careful_run slack ops ([], []) = true -> lookup x e = Some r ->
  (exists st' o' t', run slack (map (fun v => Push x (Value v) false) vs) (h, e) = (Ok st' o', t')) /\
  moved slack x vs (h, e) <= len r + 2 * List.length vs.
Proof.
  intros slack ops h e o t x r vs D R CF L. pose proof (run_ok slack ops _ _ rel_init CF) as K. rewrite R in K.
  destruct K as (s & _ & RL). pose proof RL as (m & EM & I & C). cbn [fst snd] in *. subst e.
  destruct (lookup x m) as [[r0 ot]|] eqn:LM; [|rewrite g_reprs_lookup, LM in L; discriminate].
  rewrite (g_reprs_found _ _ _ LM) in L. injection L as ->. cbn [fst] in *.
  destruct (g_found_inv _ _ _ _ _ C LM) as (l & LS & ->). pose proof (v_ok_cap _ _ _ (inv_lookup _ _ _ _ _ _ _ I LM)) as CA.
  split; [apply (pushes_run slack x vs _ _ RL); congruence|].
  pose proof (moved_bound slack x D vs (h, reprs m) r (g_reprs_found _ _ _ LM) CA). lia.
Qed.

(** Growth, throwing copies, self-assignments, appending from another vector and, with room,
    from itself. *)
Definition history : list op :=
  [FromList 0 [1; 2; 3] None; FromList 9 [4; 5] (Some 1); Copy 1 0 None; Copy 9 0 (Some 2); Push 1 (Element 0 2) false; Push 1 (Value 5) true;
   Assign 1 1 (Some 0); Assign 0 1 (Some 7); Reserve 0 6; Push 0 (Element 0 0) false; All 0; Move 2 0; Size 0; Truncate 2 2; Set_ 2 0 9; At 2 0; At 2 2;
   MoveAssign 1 2; Back 1; Swap 1 0; MoveAssign 0 0; All 0; Clear 1; Destroy 0; Destroy 1; Destroy 2].
Example C44_nonvacuous :
  careful_run (fun n => n) history ([], []) = true /\
  exists h o, run (fun n => n) history ([], []) =
    (Ok (h, []) o, [Done []; Thrown [4]; Done []; Thrown [1; 2]; Done []; Thrown []; Done []; Done [1; 2; 3]; Done []; Done [];
      Got [1; 2; 3; 3; 1]; Done []; Got [0]; Done [3; 3; 1]; Done []; Got [9]; Thrown []; Done [1; 2; 3; 3]; Got [2]; Done []; Done [9; 2]; Got [];
      Done []; Done []; Done []; Done []])
  /\ (forall a, cell h a = None).
Proof.
  split; [vm_compute; reflexivity|]. eexists. eexists. split; [vm_compute; reflexivity|].
  intros a. do 12 (destruct a as [|a]; [reflexivity|]). destruct a; reflexivity.
Qed.
Example C44_self_append_nonvacuous : exists h e o t r,
  run (fun _ => 0) [FromList 0 [7; 8] None] ([], []) = (Ok (h, e) o, t) /\ careful_run (fun _ => 0) [FromList 0 [7; 8] None] ([], []) = true
  /\ lookup 0 e = Some r /\ 1 < len r /\ len r = cap r.
Proof. do 5 eexists. repeat split; cbn; lia. Qed.
Example C44_reserve_nonvacuous : exists h e o t st,
  run (fun _ => 0) [FromList 0 [7; 8] None] ([], []) = (Ok (h, e) o, t) /\ careful_run (fun _ => 0) [FromList 0 [7; 8] None] ([], []) = true
  /\ reserve_total (fun _ => 0) 0 3 (h, e) = Some st.
Proof. do 5 eexists. repeat split. Qed.
(** What alloc::vec::Vec does; 100 elements appended to two. *)
Example C44_amortised_nonvacuous : let slack n := n - 2 in
  doubling slack /\ exists h e o t r, run slack [FromList 0 [7; 8] None] ([], []) = (Ok (h, e) o, t) /\ careful_run slack [FromList 0 [7; 8] None] ([], []) = true
  /\ lookup 0 e = Some r /\ moved slack 0 (seq 0 100) (h, e) = 126.
Proof. split; [intros n; cbv beta; lia|]. do 5 eexists. split; [reflexivity|]. repeat split. Qed.

Print Assumptions C44_refuted.
Print Assumptions C44_self_append_refuted.
Print Assumptions C44_sequence_partial.
Print Assumptions C44_reserve.
Print Assumptions C44_amortised.
