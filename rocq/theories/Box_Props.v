(** C49: rust::Box in C++ owns its object exactly once. *)
From Verif Require Import Base Store_Lib Box_Model Box_Spec Box_Proofs.

(** the allocations that boxes, and pointers from into_raw, refer to *)
Definition pointers (e : list (nat * (kind * option nat))) : list nat :=
  flat_map (fun p => match snd (snd p) with Some a => [a] | None => [] end) e.

(** Every program on boxes does what it does on variables that hold an object or nothing: the
    same objects are destroyed at the same points, nothing is freed twice, and at every point
    each allocation that is not freed belongs to exactly one box or raw pointer. *)
Theorem C49_exactly_once : forall ops,
  match run ops ([], []) with
  | (UB, _) => False
  | (Illegal, t) => spec_run ops [] = (Illegal, t)
  | (Ok (h, e) o, t) =>
      exists s, spec_run ops [] = (Ok s o, t)
        /\ map fst e = map fst s
        /\ NoDup (pointers e)
        /\ (forall a, cell h a <> None <-> In a (pointers e))
        /\ (s = [] -> forall a, cell h a = None)
  end.
Proof.
  intros ops. pose proof (run_ok ops _ _ rel_init) as R. destruct (run ops ([], [])) as [[| |[h e] o] t]; auto.
  destruct R as (s & E & m & EM & I & C). cbn [fst snd] in *. subst e. exists s. split; auto.
  destruct (g_owned b_own m s C) as [OB KS]. pose proof I as [O N A]. rewrite OB in *.
  change (flat_map (fun p => b_own (snd p)) (reprs m)) with (pointers (reprs m)) in *.
  assert (LV : forall a, In a (pointers (reprs m)) -> cell h a <> None).
  { intros a J. rewrite <- OB in J. eapply (inv_live b_own b_ok b_ok_live h m); eauto. }
  repeat split; auto. intros -> a. destruct m; [|discriminate]. destruct (cell h a) eqn:EC; auto. exfalso. apply (A a). congruence.
Qed.

(** A constructor that throws, moves onto itself, a null box, a round trip through raw. *)
Definition history : list op :=
  [New 0 7 false; New 1 8 true; InPlace 1 9 false false; InPlace 2 9 true false; Assign 0 1; Get 0; Assign 1 1; Assign 0 0;
   New 2 5 false; Put 2 6; IntoRaw 3 2; Destroy 2; FromRaw 2 3 false; Swap 2 1; Move 4 1; Get 4; Destroy 4; Destroy 0; Destroy 1; Destroy 2].
Example C49_nonvacuous :
  exists h o, run history ([], []) =
    (Ok (h, []) o, [Done []; Thrown; Done []; Thrown; Done [7]; Value 9; Done []; Done [9]; Done []; Done []; Done []; Done []; Done [];
                    Done []; Done []; Value 6; Done [6]; Done []; Done []; Done []])
  /\ List.length h = 5 /\ (forall a, cell h a = None).
Proof.
  eexists. eexists. split; [vm_compute; reflexivity|]. split; [reflexivity|].
  intros a. do 5 (destruct a as [|a]; [reflexivity|]). destruct a; reflexivity.
Qed.

Print Assumptions C49_exactly_once.
