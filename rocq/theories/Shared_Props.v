(** C38: shared and weak pointers keep the object alive exactly as long as needed. *)
From Verif Require Import Base Shared_Model Shared_Spec Shared_Proofs.
Require Import Lia.

(** Every program over SharedPtr, WeakPtr and their C++ counterparts runs without undefined
    behaviour, with the observations, panics and destructions, at the same points, of the
    specification, in which an object is destroyed when the last shared pointer to it goes and
    [upgrade] succeeds exactly if there still is one.  At every moment an object is in memory
    exactly if a shared pointer to it exists, and its control block exactly if any pointer to
    it exists. *)
Theorem C38_lifetime : forall (V : Type) (veqb : V -> V -> bool) (vcmp : V -> V -> comparison) ops,
  snd (run veqb vcmp ops ([], [])) = snd (srun veqb vcmp ops ([], [])) /\
  match fst (run veqb vcmp ops ([], [])), fst (srun veqb vcmp ops ([], [])) with
  | Ok (h, _) _ _, Ok (objs, e) _ _ =>
      List.length h = List.length objs /\
      forall a v, nth_error objs a = Some v ->
        ((exists s w, nth_error h a = Some (Block s w (Live v))) <->
         (exists x k, In (x, (k, Some a)) e /\ owning k = true)) /\
        (nth_error h a = Some Gone <-> ~ exists x k, In (x, (k, Some a)) e)
  | Illegal, Illegal => True
  | _, _ => False
  end.
Proof.
  intros V veqb vcmp ops.
  assert (I : inv (@nil (block V), []) ([], [])).
  { repeat split; auto; [intros [|a] v E; discriminate|intros x k a []]. }
  destruct (run_related veqb vcmp ops _ _ I) as [R T]. split; [exact T|].
  destruct (fst (run veqb vcmp ops ([], []))) as [| |[h e'] ob d]; destruct (fst (srun veqb vcmp ops ([], []))) as [| |[objs e] ob' d']; cbn in R; try tauto.
  destruct R as (_ & _ & Q & L & B & R). cbn [fst snd] in *. split; [exact L|]. intros a v E. rewrite (B a v E). clear -e.
  assert (C : forall b, (exists n, count b a e = S n) <-> exists x k, In (x, (k, Some a)) e /\ owning k = b).
  { intros b. induction e as [|[y [k p]] e IH]; cbn [count].
    - split; [intros [n E]; discriminate|intros (x & k & [] & _)].
    - destruct p as [c|].
      + destruct (Nat.eq_dec a c) as [<-|N].
        * rewrite hit_same. destruct (Bool.eqb b (owning k)) eqn:Q.
          -- split; [|cbn; eauto]. intros _. exists y, k. split; [now left|]. symmetry. now apply Bool.eqb_prop.
          -- cbn [Nat.add]. rewrite IH. split; intros (x & k' & H & O); exists x, k'; (split; [|exact O]).
             ++ now right.
             ++ destruct H as [H|H]; [|exact H]. inversion H; subst. rewrite Bool.eqb_reflx in Q. discriminate.
        * rewrite hit_other by exact N. cbn [Nat.add]. rewrite IH.
          split; intros (x & k' & H & O); exists x, k'; (split; [|exact O]); [now right|].
          destruct H as [H|H]; [|exact H]. inversion H; subst. congruence.
      + cbn [hit snd fst Nat.add]. rewrite IH.
        split; intros (x & k' & H & O); exists x, k'; (split; [|exact O]); [now right|].
        destruct H as [H|H]; [discriminate|exact H]. }
  pose proof (C true) as CT. pose proof (C false) as CF. clear C. split.
  - rewrite <- CT. unfold blk. destruct (count true a e) as [|s], (count false a e) as [|w]; split; intros H; eauto;
      try (destruct H as (? & ? & H); discriminate); destruct H as [? H]; discriminate.
  - assert (X : (exists x k, In (x, (k, Some a)) e) <-> (exists n, count true a e = S n) \/ (exists n, count false a e = S n)).
    { rewrite CT, CF. split.
      - intros (x & k & H). destruct (owning k) eqn:O; [left|right]; eauto.
      - intros [(x & k & H & _)|(x & k & H & _)]; eauto. }
    rewrite X. unfold blk. destruct (count true a e) as [|s], (count false a e) as [|w]; split; intros H; try discriminate; try reflexivity.
    + intros [[n Q]|[n Q]]; discriminate.
    + exfalso. apply H. eauto.
    + exfalso. apply H. eauto.
    + exfalso. apply H. eauto.
Qed.
Print Assumptions C38_lifetime.

(** Dropping destroys the object exactly if it was the last shared pointer, whatever weak
    pointers there are; upgrading gives the same object exactly if it is alive. *)
Theorem C38_spec_reading : forall (V : Type) (veqb : V -> V -> bool) (vcmp : V -> V -> comparison) objs e x y a v,
  nth_error objs a = Some v ->
  (lookup x e = Some (KShared, Some a) ->
   exists d, sstep veqb vcmp (Drop x) (objs, e) = Ok (objs, remove x e) Done d /\
     (d = [v] <-> ~ exists z k, In (z, (k, Some a)) (remove x e) /\ (k = KShared \/ k = KCxxShared)) /\
     (d = [] <-> exists z k, In (z, (k, Some a)) (remove x e) /\ (k = KShared \/ k = KCxxShared))) /\
  (lookup x e = Some (KWeak, Some a) -> lookup y e = None ->
   exists p, sstep veqb vcmp (Upgrade x y) (objs, e) = Ok (objs, (y, (KShared, p)) :: e) Done [] /\
     (p = Some a <-> exists z k, In (z, (k, Some a)) e /\ (k = KShared \/ k = KCxxShared)) /\
     (p = None <-> ~ exists z k, In (z, (k, Some a)) e /\ (k = KShared \/ k = KCxxShared))).
Proof.
  intros V veqb vcmp objs e x y a v N.
  assert (AL : forall e, alive a e = true <-> exists z k, In (z, (k, Some a)) e /\ (k = KShared \/ k = KCxxShared)).
  { clear. intros e. unfold alive. rewrite existsb_exists. split.
    - intros ([z [k p]] & I & H). cbn in H. apply andb_true_iff in H. destruct H as [O H]. destruct p as [b|]; [|discriminate].
      apply Nat.eqb_eq in H. subst b. exists z, k. split; [exact I|]. destruct k; try discriminate; auto.
    - intros (z & k & I & K). exists (z, (k, Some a)). split; [exact I|]. cbn. rewrite Nat.eqb_refl. destruct K as [-> | ->]; reflexivity. }
  split.
  - intros L. cbn [sstep]. unfold var. rewrite L. cbn [kind_eqb]. unfold forget. cbn [fst snd]. rewrite N. eexists. split; [reflexivity|].
    rewrite <- AL. destruct (alive a (remove x e)); split; split; intros H; try discriminate; try reflexivity; try (intros Q; discriminate); exfalso; now apply H.
  - intros L L'. cbn [sstep]. unfold var. rewrite L. cbn [kind_eqb]. unfold add, lock. cbn [fst snd]. rewrite L'. eexists. split; [reflexivity|].
    rewrite <- AL. destruct (alive a e); split; split; intros H; try discriminate; try reflexivity; try (intros Q; discriminate); exfalso; now apply H.
Qed.
Print Assumptions C38_spec_reading.

Example C38_nonvacuous :
  let ops := [New 1 10; Clone 1 2; Downgrade 1 3; Drop 1; Upgrade 3 4; AsRef 4; ToCxx 4; CxxCopy 4 5; CxxWrite 5 11; AsRef 2;
              Drop 2; CxxDrop 4; WDebug 3; CxxDrop 5; WDebug 3; Upgrade 3 6; IsNull 6; Deref 6; WDrop 3] in
  run Nat.eqb Nat.compare ops ([], []) =
    (Ok ([Gone], [(6, (KShared, None))]) Done [],
     [(Done, []); (Done, []); (Done, []); (Done, []); (Done, []); (Ref (Some 10), []); (Done, []); (Done, []); (Done, [10]); (Ref (Some 11), []);
      (Done, []); (Done, []); (Ref (Some 11), []); (Done, [11]); (Ref None, []); (Done, []); (Bool true, []); (Panic, []); (Done, [])]).
Proof. reflexivity. Qed.
