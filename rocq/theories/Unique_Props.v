(** C37: a UniquePtr frees its object exactly once. *)
From Verif Require Import Base Unique_Model Unique_Spec Unique_Proofs.
Require Import Permutation.

(** Every program over UniquePtr, raw pointers and C++ unique_ptrs runs without undefined
    behaviour, with exactly the observations, panics and destructions, at the same points, of
    owned values that may be absent; and at every moment the objects in memory are exactly
    those that some variable owns, so none is lost and none is kept. *)
Theorem C37_owned_values : forall (V : Type) (veqb : V -> V -> bool) (vcmp : V -> V -> comparison) ops,
  snd (run veqb vcmp ops ([], [])) = snd (srun veqb vcmp ops []) /\
  match fst (run veqb vcmp ops ([], [])), fst (srun veqb vcmp ops []) with
  | Ok (h, _) _ _, Ok s _ _ =>
      Permutation (flat_map (fun c => match c with Live v => [v] | _ => [] end) h) (held s) /\
      ~ In Uninit h
  | Illegal, Illegal => True
  | _, _ => False
  end.
Proof.
  intros V veqb vcmp ops.
  assert (I : inv (@nil (cell V), []) [] []) by (repeat split; auto).
  destruct (run_related veqb vcmp ops _ _ _ I) as [R T]. split; [exact T|].
  destruct (fst (run veqb vcmp ops ([], []))) as [| |[h e] ob d]; destruct (fst (srun veqb vcmp ops [])) as [| |s ob' d']; cbn in R; try tauto.
  destruct R as (_ & _ & z & E & -> & P & U). cbn in *. split; [|exact U].
  rewrite <- live_values, <- pairs_held. now apply Permutation_map.
Qed.
Print Assumptions C37_owned_values.

(** Every object that was ever made is destroyed exactly once or still owned exactly once.
    [made] lists the values put into objects: by a constructor, or by writing through a
    reference, which destroys the old value. *)
Definition made {V} (ob : obs V) (o : op V) : list V :=
  match o, ob with
  | New _ v, _ | CxxNew _ v, _ => [v]
  | AsMut _ v, Wrote true | DerefMut _ v, Wrote true | PinMut _ v, Wrote true => [v]
  | _, _ => []
  end.
Theorem C37_exactly_once : forall (V : Type) (veqb : V -> V -> bool) (vcmp : V -> V -> comparison) ops h e ob d t,
  run veqb vcmp ops ([], []) = (Ok (h, e) ob d, t) ->
  Permutation (flat_map (fun '(o, (ob, _)) => made ob o) (combine ops t))
              (flat_map snd t ++ flat_map (fun c => match c with Live v => [v] | _ => [] end) h).
Proof.
  intros V veqb vcmp ops h e ob d t R.
  assert (C : forall ops (s s' : sstate) ob d t, srun veqb vcmp ops s = (Ok s' ob d, t) ->
     Permutation (held s ++ flat_map (fun '(o, (ob, _)) => made ob o) (combine ops t)) (flat_map snd t ++ held s')).
  { clear. induction ops as [|o ops IH]; intros s s' ob d t E; cbn in E.
    - inversion E; subst. cbn. now rewrite app_nil_r.
    - destruct (sstep veqb vcmp o s) as [| |s1 ob1 d1] eqn:S; try discriminate.
      destruct (srun veqb vcmp ops s1) as [r t1] eqn:Q. inversion E; subst. apply IH in Q. clear IH E. cbn.
      assert (K : Permutation (held s ++ made ob1 o) (d1 ++ held s1)).
      { clear Q. assert (AD : forall x k w (e e1 : @sstate V) ob2 d2, add x k w e = Ok e1 ob2 d2 -> d2 = [] /\ held e1 = drop_of w ++ held e).
        { intros x k w e e1 ob2 d2 A. unfold add in A. destruct (lookup x e); inversion A; subst. auto. }
        assert (PS : forall x k k' (e e1 : @sstate V) ob2 d2, pass x k k' e = Ok e1 ob2 d2 -> d2 = [] /\ Permutation (held e) (held e1)).
        { intros x k k' e e1 ob2 d2 A. unfold pass in A. destruct (get_var x k e) as [w|] eqn:G; inversion A; subst. split; [reflexivity|].
          cbn. exact (held_remove _ _ _ _ G). }
        assert (WR : forall x v (e e1 : @sstate V) ifn ob2 d2, write x v e ifn = Ok e1 ob2 d2 ->
           (ob2 = Wrote true /\ Permutation (held e ++ [v]) (d2 ++ held e1)) \/ (ob2 = ifn /\ d2 = [] /\ e1 = e)).
        { intros x v e e1 ifn ob2 d2 A. unfold write in A. destruct (get_var x KUnique e) as [[old|]|] eqn:G; inversion A; subst; [left|now right].
          split; [reflexivity|]. rewrite (held_remove _ _ _ _ G), (held_put _ _ _ _ v G). cbn. constructor.
          apply Permutation_sym, Permutation_cons_append. }
        assert (DS : forall x k (e e1 : @sstate V) ob2 d2, destroy x k e = Ok e1 ob2 d2 -> Permutation (held e) (d2 ++ held e1)).
        { intros x k e e1 ob2 d2 A. unfold destroy in A. destruct (get_var x k e) as [w|] eqn:G; inversion A; subst.
          exact (held_remove _ _ _ _ G). }
        destruct o; cbn [sstep] in S; cbn [made].
        - apply AD in S. destruct S as [-> ->]. cbn. now rewrite app_nil_r.
        - apply AD in S. destruct S as [-> ->]. cbn. apply Permutation_sym, Permutation_cons_append.
        - destruct (get_var x KUnique s) as [[|]|]; inversion S; subst; cbn; now rewrite app_nil_r.
        - destruct (get_var x KUnique s) as [|]; inversion S; subst; cbn; now rewrite app_nil_r.
        - apply WR in S. destruct S as [(-> & P)|(-> & -> & ->)]; [exact P|cbn; now rewrite app_nil_r].
        - destruct (get_var x KUnique s) as [[|]|]; inversion S; subst; cbn; now rewrite app_nil_r.
        - apply WR in S. destruct S as [(-> & P)|(-> & -> & ->)]; [exact P|cbn; now rewrite app_nil_r].
        - apply WR in S. destruct S as [(-> & P)|(-> & -> & ->)]; [exact P|cbn; now rewrite app_nil_r].
        - destruct (get_var x KUnique s) as [|]; inversion S; subst; cbn; now rewrite app_nil_r.
        - destruct (get_var x KUnique s); [|discriminate]. destruct (get_var y KUnique s); inversion S; subst; cbn; now rewrite app_nil_r.
        - destruct (get_var x KUnique s); [|discriminate]. destruct (get_var y KUnique s); inversion S; subst; cbn; now rewrite app_nil_r.
        - apply PS in S. destruct S as [-> P]. now rewrite app_nil_r.
        - apply PS in S. destruct S as [-> P]. now rewrite app_nil_r.
        - destruct (get_var x KUnique s) as [w|] eqn:G; [|discriminate]. apply AD in S. destruct S as [-> ->]. rewrite app_nil_r. exact (held_remove _ _ _ _ G).
        - apply DS in S. now rewrite app_nil_r.
        - apply PS in S. destruct S as [-> P]. now rewrite app_nil_r.
        - apply PS in S. destruct S as [-> P]. now rewrite app_nil_r.
        - apply AD in S. destruct S as [-> ->]. cbn. apply Permutation_sym, Permutation_cons_append.
        - apply DS in S. now rewrite app_nil_r. }
      rewrite app_assoc, K, <- !app_assoc. apply Permutation_app_head. exact Q. }
  destruct (C37_owned_values V veqb vcmp ops) as [T P]. rewrite R in *. cbn [fst snd] in *.
  destruct (srun veqb vcmp ops []) as [r t'] eqn:Q. cbn [fst snd] in *. subst t'.
  destruct r as [| |s ob' d']; try destruct P. apply C in Q. cbn in Q. rewrite Q.
  apply Permutation_app_head. now apply Permutation_sym.
Qed.
Print Assumptions C37_exactly_once.

Example C37_nonvacuous :
  let ops := [New 1 10; New 2 20; Null 3; IsNull 3; PinMut 1 11; AsRef 1; Deref 3; Cmp 3 1; IntoRaw 1; FromRaw 1;
              ToCxx 2; FromCxx 2; Move 2 4; Drop 4; CxxNew 5 50; FromCxx 5; Eq 5 1; Drop 5; Drop 3] in
  run Nat.eqb Nat.compare ops ([], []) =
    (Ok ([Live 11; Freed; Freed], [(1, (KUnique, Some 0))]) Done [],
     [(Done, []); (Done, []); (Done, []); (Bool true, []); (Wrote true, [10]); (Ref (Some 11), []); (Panic, []);
      (Order Lt, []); (Done, []); (Done, []); (Done, []); (Done, []); (Done, []); (Done, [20]);
      (Done, []); (Done, []); (Bool false, []); (Done, [50]); (Done, [])]) /\
  fst (run Nat.eqb Nat.compare [New 1 10; Drop 1; Drop 1] ([], [])) = Illegal.
Proof. split; reflexivity. Qed.
