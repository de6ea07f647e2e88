(** C46: results and exceptions carry their message faithfully in both directions. *)
From Verif Require Import Base Store_Lib Lossy_Model Lossy_Spec Lossy_Proofs Err_Model Err_Spec Err_Proofs.
Require Import NArith Lia.

(** what String::from_utf8_lossy is documented to do *)
Definition is_lossy (f : list N -> list N) : Prop := forall bytes ps, parts bytes ps -> f bytes = utf8_text (lossy ps).

(** The claim is false in two ways.  A text with a zero byte inside loses what follows for who
    reads what() as the C string it is documented to be: *)
Theorem C46_refuted : exists text ops, forall decode, is_lossy decode ->
  ops = [CallRust 0 0 (IsErr text); What 0] /\ text = [97; 0; 98]%N /\
  snd (run decode ops ([], [])) = [Caught; Text (Some [97%N])].
Proof. exists [97; 0; 98]%N. eexists. intros decode _. split; [reflexivity|]. split; reflexivity. Qed.
(** and an error that was moved from and then leaves a C++ function as an exception makes the
    bridge take the length of a null string: *)
Theorem C46_moved_from_refuted : exists ops, forall decode, is_lossy decode ->
  ops = [CallRust 0 0 (IsErr [97%N]); Move 1 0; CallCpp 2 (Rethrows 0)] /\
  run decode ops ([], []) = (UB, [Caught; Done]).
Proof. eexists. intros decode _. split; reflexivity. Qed.

(** the allocations that errors and exceptions refer to *)
Definition pointers (e : list (nat * (kind * (ptr * nat)))) : list nat :=
  flat_map (fun p => match fst (snd (snd p)) with PAt a => [a] | _ => [] end) e.

(** Everything else holds, for every program: the same is seen as for variables that hold
    texts (Err_Spec), undefined behaviour happens only where the specification says so, and at
    every point each allocation that is not freed belongs to exactly one error or exception. *)
Theorem C46_messages_partial : forall decode, is_lossy decode -> forall ops,
  match run decode ops ([], []) with
  | (UB, t) => spec_run decode ops [] = (UB, t)
  | (Illegal, t) => spec_run decode ops [] = (Illegal, t)
  | (Ok (h, e) o, t) =>
      exists s, spec_run decode ops [] = (Ok s o, t)
        /\ map fst e = map fst s
        /\ NoDup (pointers e)
        /\ (forall a, cell h a <> None <-> In a (pointers e))
        /\ (s = [] -> forall a, cell h a = None)
  end.
Proof.
  intros decode _ ops. pose proof (run_ok decode ops _ _ rel_init) as R. destruct (run decode ops ([], [])) as [[| |[h e] o] t]; auto.
  destruct R as (s & E & m & EM & I & C). cbn [fst snd] in *. subst e. exists s. split; auto.
  destruct (g_owned e_own m s C) as [OB KS]. pose proof I as [O N A]. rewrite OB in *.
  change (flat_map (fun p => e_own (snd p)) (reprs m)) with (pointers (reprs m)) in *.
  assert (LV : forall a, In a (pointers (reprs m)) -> cell h a <> None).
  { intros a J. rewrite <- OB in J. eapply (inv_live e_own e_ok e_ok_live h m); eauto. }
  repeat split; auto. intros -> a. destruct m; [|discriminate]. destruct (cell h a) eqn:EC; auto. exfalso. apply (A a). congruence.
Qed.
(** The two directions by themselves, from any state a program can be in: the Rust error
    becomes a C++ error with that text, a C++ exception becomes a Rust one with the text
    decoded, and a value is returned as it is. *)
Definition reachable (decode : list N -> list N) (st : list (option (allocator * list N)) * list (nat * (kind * (ptr * nat)))) : Prop :=
  exists ops o t, run decode ops ([], []) = (Ok st o, t).
Theorem C46_rust_to_cpp_partial : forall decode h e x moves r, is_lossy decode -> reachable decode (h, e) -> lookup x e = None ->
  exists h' e', match r with
    | IsOk v => step decode (CallRust x moves r) (h, e) = Ok (h', e') (Value v) /\ (h', e') = (h, e)
    | IsErr text => step decode (CallRust x moves r) (h, e) = Ok (h', e') Caught
        /\ step decode (What x) (h', e') = Ok (h', e') (Text (Some (before_nul text)))
        /\ (~ In 0%N text -> before_nul text = text)
    end.
Proof.
  intros decode h e x moves r _ (ops & o & t & R) L. pose proof (run_ok decode ops _ _ rel_init) as RK. rewrite R in RK.
  destruct RK as (s & _ & RL). pose proof (step_ok decode (CallRust x moves r) _ _ RL) as S1.
  assert (FN : free_name x s = true).
  { destruct RL as (m & EM & I & C). cbn [snd] in EM. unfold free_name. destruct (lookup x s) as [tt|] eqn:LS; [|reflexivity].
    destruct (g_found m s x C _ LS) as (rr & LM). rewrite EM, g_reprs_lookup, LM in L. discriminate. }
  destruct (step decode (CallRust x moves r) (h, e)) as [| |[h' e'] ob] eqn:ST.
  - cbn in S1. rewrite FN in S1. destruct r; discriminate.
  - cbn in S1. rewrite FN in S1. destruct r; discriminate.
  - destruct S1 as (s' & E & R'). cbn in E. rewrite FN in E. exists h', e'. destruct r as [v|text].
    + injection E as <- <-. split; [reflexivity|]. cbn in ST. unfold unused in ST. rewrite L in ST. now injection ST as <- <-.
    + injection E as <- <-. split; [reflexivity|]. pose proof (step_ok decode (What x) _ _ R') as S2.
      destruct (step decode (What x) (h', e')) as [| |st2 ob] eqn:ST2; cbn in S2; rewrite Nat.eqb_refl in S2; try discriminate.
      destruct S2 as (s2 & E2 & _). injection E2 as _ <-. split.
      * f_equal. cbn in ST2. destruct (lookup x e') as [[[|] f]|]; [| |discriminate].
        -- destruct (error_what f h'); [|discriminate]. now injection ST2.
        -- destruct (exception_what f h'); [|discriminate]. now injection ST2.
      * clear. induction text as [|b text IH]; cbn; [reflexivity|]. intros N. destruct (N.eqb_spec b 0) as [->|]; [elim N; now left|]. f_equal. apply IH. auto.
Qed.
Theorem C46_cpp_to_rust : forall decode h e x what bytes ps, is_lossy decode -> reachable decode (h, e) -> lookup x e = None ->
  (* what() is a C string, or a handler reports a string *)
  (what = Throws (Some bytes) /\ parts (before_nul bytes) ps \/ what = Reports bytes /\ parts bytes ps) ->
  exists h' e', step decode (CallCpp x what) (h, e) = Ok (h', e') Caught
    /\ step decode (What x) (h', e') = Ok (h', e') (Text (Some (utf8_text (lossy ps)))).
Proof.
  intros decode h e x what bytes ps LY (ops & o & t & R) L W. pose proof (run_ok decode ops _ _ rel_init) as RK. rewrite R in RK.
  destruct RK as (s & _ & RL). pose proof (step_ok decode (CallCpp x what) _ _ RL) as S1.
  assert (FN : free_name x s = true).
  { destruct RL as (m & EM & I & C). cbn [snd] in EM. unfold free_name. destruct (lookup x s) as [tt|] eqn:LS; [|reflexivity].
    destruct (g_found m s x C _ LS) as (rr & LM). rewrite EM, g_reprs_lookup, LM in L. discriminate. }
  assert (SP : spec_step decode (CallCpp x what) s = Ok ((x, (RustException, Some (utf8_text (lossy ps)))) :: s) Caught).
  { cbn. rewrite FN. destruct W as [[-> P]|[-> P]]; now rewrite (LY _ _ P). }
  rewrite SP in S1. destruct (step decode (CallCpp x what) (h, e)) as [| |[h' e'] ob] eqn:ST; try discriminate.
  destruct S1 as (s' & E & R'). injection E as <- <-. exists h', e'. split; [reflexivity|].
  pose proof (step_ok decode (What x) _ _ R') as S2.
  destruct (step decode (What x) (h', e')) as [| |st2 ob] eqn:ST2; cbn in S2; rewrite Nat.eqb_refl in S2; try discriminate.
  destruct S2 as (s2 & E2 & _). injection E2 as _ <-. f_equal. cbn in ST2. destruct (lookup x e') as [[[|] f]|]; [| |discriminate].
  - destruct (error_what f h'); [|discriminate]. now injection ST2.
  - destruct (exception_what f h'); [|discriminate]. now injection ST2.
Qed.

(** The lossy conversion exists (see C41). *)
Definition decoder (bytes : list N) : list N :=
  match display_string (fun s l => Some (s ++ l)) bytes [] with Some (Some out) => out | _ => [] end.
Lemma decoder_lossy : is_lossy decoder.
Proof.
  intros bytes ps P. unfold decoder, display_string.
  destruct (display_spec (Datatypes.S (List.length bytes)) bytes) as (qs & pieces & Q & C & D); [lia|].
  assert (W : forall pieces (s : list N), writes (fun s l => Some (s ++ l)) pieces s = Some (s ++ List.concat pieces)).
  { clear. induction pieces as [|p pieces IH]; intros s; cbn; [now rewrite app_nil_r|]. now rewrite IH, app_assoc. }
  rewrite D, W. cbn [app]. rewrite C. now rewrite (parts_unique bytes ps P qs Q).
Qed.
Definition history : list op :=
  [CallRust 0 2 (IsErr [111; 110; 101]%N); CallRust 9 0 (IsOk 5); Copy 1 0 false; Copy 2 1 true; Move 2 1; What 1; What 2; AssignCopy 1 2 false;
   CallRust 3 0 (IsErr []); AssignMove 2 3; What 2; AssignMove 2 2; What 2; AssignCopy 0 2 false; What 0; AssignCopy 0 1 true; What 0;
   CallCpp 4 (Rethrows 1); What 4; CallCpp 5 (Throws (Some [97; 255; 0; 98]%N)); What 5; CallCpp 6 (Reports [97; 0; 98]%N); What 6; CallCpp 7 (Throws (Some [])); What 7;
   CallCpp 8 (Returns 3); Destroy 0; Destroy 1; Destroy 2; Destroy 3; Destroy 4; Destroy 5; Destroy 6; Destroy 7; CallCpp 8 ThrowsOther; Destroy 8].
Example C46_nonvacuous :
  exists h, run decoder history ([], []) =
    (Ok (h, []) Terminate,
     [Caught; Value 5; Done; BadAlloc; Done; Text None; Text (Some [111; 110; 101]%N); Done;
      Caught; Done; Text (Some []); Done; Text None; Done; Text None; BadAlloc; Text None;
      Caught; Text (Some [111; 110; 101]%N); Caught; Text (Some [97; 239; 191; 189]%N); Caught; Text (Some [97; 0; 98]%N); Caught; Text (Some []);
      Value 3; Done; Done; Done; Done; Done; Done; Done; Done; Terminate])
  /\ List.length h = 8 /\ (forall a, cell h a = None).
Proof.
  eexists. split; [vm_compute; reflexivity|]. split; [reflexivity|].
  intros a. do 8 (destruct a as [|a]; [reflexivity|]). destruct a; reflexivity.
Qed.
Example C46_reachable_nonvacuous : exists st, reachable decoder st /\ fst st <> [] /\ lookup 7 (snd st) = None.
Proof.
  eexists. split; [exists [CallRust 0 1 (IsErr [111; 110]%N); CallCpp 1 (Reports [111; 200]%N)]; eexists; eexists; vm_compute; reflexivity|].
  split; [discriminate|reflexivity].
Qed.

Print Assumptions C46_refuted.
Print Assumptions C46_moved_from_refuted.
Print Assumptions C46_messages_partial.
Print Assumptions C46_rust_to_cpp_partial.
Print Assumptions C46_cpp_to_rust.
