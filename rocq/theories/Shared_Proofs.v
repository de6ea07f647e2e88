(** Simulation between the counting implementation and the specification. *)
From Verif Require Import Base Shared_Model Shared_Spec.
Require Import Lia.

Section Sim.
Context {V : Type}.
Variable veqb : V -> V -> bool.
Variable vcmp : V -> V -> comparison.
Notation env := (list (nat * (kind * option nat))).

Definition hit (strong : bool) (a : nat) (x : nat * (kind * option nat)) : nat :=
  match snd (snd x) with
  | Some b => if Nat.eqb a b && Bool.eqb strong (owning (fst (snd x))) then 1 else 0
  | None => 0
  end.
Fixpoint count (strong : bool) (a : nat) (e : env) : nat :=
  match e with [] => 0 | x :: e => hit strong a x + count strong a e end.

Definition blk (s w : nat) (v : V) : block V :=
  match s, w with 0, 0 => Gone | 0, S _ => Block 0 w Destroyed | _, _ => Block s w (Live v) end.

Definition inv (st : state V) (s : sstate) : Prop :=
  snd st = snd s /\ List.length (fst st) = List.length (fst s) /\
  (forall a v, nth_error (fst s) a = Some v -> nth_error (fst st) a = Some (blk (count true a (snd s)) (count false a (snd s)) v)) /\
  (forall x k a, In (x, (k, Some a)) (snd s) -> a < List.length (fst s)).

Lemma count_remove b a x k p (e : env) : lookup x e = Some (k, p) -> count b a e = hit b a (x, (k, p)) + count b a (remove x e).
Proof.
  induction e as [|[y [k' p']] e IH]; cbn; [discriminate|].
  destruct (Nat.eqb_spec x y) as [<-|N].
  - intros E. inversion E; subst. reflexivity.
  - intros E. cbn. rewrite (IH E). cbn. lia.
Qed.
Lemma alive_count a e : alive a e = Nat.ltb 0 (count true a e).
Proof.
  unfold alive. induction e as [|[y [k p]] e IH]; cbn; [reflexivity|]. rewrite IH. unfold hit. cbn.
  destruct p as [b|]; [|rewrite andb_false_r; reflexivity].
  destruct (Nat.eqb a b), (owning k); cbn; try reflexivity. 
Qed.
Lemma lookup_in x (e : env) r : lookup x e = Some r -> In (x, r) e.
Proof.
  induction e as [|[y r'] e IH]; cbn; [discriminate|]. destruct (Nat.eqb_spec x y) as [<-|N]; intros E; [inversion E; now left|auto].
Qed.
Lemma remove_in x (e : env) y : In y (remove x e) -> In y e.
Proof.
  induction e as [|[z r'] e IH]; cbn; [auto|]. destruct (Nat.eqb x z); cbn; [auto|]. intros [E|I]; auto.
Qed.
Lemma set_nth (h : heap V) : forall a b i, a < List.length h ->
  nth_error (set_block a b h) i = if Nat.eqb i a then Some b else nth_error h i.
Proof.
  induction h as [|x h IH]; intros a b i L; [inversion L|].
  destruct a as [|a], i as [|i]; cbn; try reflexivity. apply IH. cbn in L. lia.
Qed.
Lemma set_length (h : heap V) : forall a b, List.length (set_block a b h) = List.length h.
Proof. induction h as [|x h IH]; intros [|a] b; cbn; congruence. Qed.
Lemma update_nth (l : list V) : forall a v i, a < List.length l ->
  nth_error (update a v l) i = if Nat.eqb i a then Some v else nth_error l i.
Proof.
  induction l as [|x l IH]; intros a v i L; [inversion L|].
  destruct a as [|a], i as [|i]; cbn; try reflexivity. apply IH. cbn in L. lia.
Qed.
Lemma update_length (l : list V) : forall a b, List.length (update a b l) = List.length l.
Proof. induction l as [|x h IH]; intros [|a] b; cbn; congruence. Qed.

(** a general step: block [a] is replaced, the variables change so that only the counts of [a] change *)
Lemma inv_set h objs e e' a v b :
  inv (h, e) (objs, e) -> nth_error objs a = Some v ->
  b = blk (count true a e') (count false a e') v ->
  (forall i strong, i <> a -> count strong i e' = count strong i e) ->
  (forall x k i, In (x, (k, Some i)) e' -> i < List.length objs) ->
  inv (set_block a b h, e') (objs, e').
Proof.
  intros (_ & L & B & R) N -> C R'. cbn [fst snd] in *. repeat split; cbn [fst snd]; auto.
  - now rewrite set_length.
  - intros i v' E. assert (A : a < List.length h) by (rewrite L; apply nth_error_Some; congruence).
    rewrite (set_nth h a _ i A). destruct (Nat.eqb_spec i a) as [->|X]; [congruence|].
    rewrite !C by exact X. now apply B.
Qed.
Lemma inv_env h objs e e' :
  inv (h, e) (objs, e) -> (forall i strong, count strong i e' = count strong i e) ->
  (forall x k i, In (x, (k, Some i)) e' -> i < List.length objs) -> inv (h, e') (objs, e').
Proof.
  intros (_ & L & B & R) C R'. cbn [fst snd] in *. repeat split; cbn [fst snd]; auto.
  intros a v E. rewrite !C. now apply B.
Qed.

Definition related (r : outcome V (state V)) (r' : outcome V sstate) : Prop :=
  match r, r' with
  | Illegal, Illegal => True
  | Ok st o d, Ok s o' d' => o = o' /\ d = d' /\ inv st s
  | _, _ => False
  end.
Lemma with_related x k (e : env) f g :
  (forall p, lookup x e = Some (k, p) -> related (f p) (g p)) -> related (with_var x k e f) (var x k e g).
Proof.
  intros H. unfold with_var, var. destruct (lookup x e) as [[k' p]|]; [|exact I].
  destruct (kind_eqb k k') eqn:K; [|exact I]. apply H. destruct k, k'; try discriminate; reflexivity.
Qed.

Lemma range_add x k p (objs : list V) (e : env) :
  (forall x k a, In (x, (k, Some a)) e -> a < List.length objs) ->
  (forall a, p = Some a -> a < List.length objs) ->
  forall y k' a, In (y, (k', Some a)) ((x, (k, p)) :: e) -> a < List.length objs.
Proof. intros R P y k' a [E|I]; [inversion E; subst; auto|eauto]. Qed.
Lemma range_remove x (objs : list V) (e : env) :
  (forall x k a, In (x, (k, Some a)) e -> a < List.length objs) ->
  forall y k' a, In (y, (k', Some a)) (remove x e) -> a < List.length objs.
Proof. intros R y k' a I. apply remove_in in I. eauto. Qed.

Lemma add_null x k h objs e : inv (h, e) (objs, e) ->
  related (bind_var x k (Some (None, h)) e) (add x k None (objs, e)).
Proof.
  intros I. unfold bind_var, add. cbn [snd]. destruct (lookup x e); [exact Logic.I|]. repeat split.
  - destruct I as (_ & L & _). exact L.
  - intros a v E. destruct I as (_ & _ & B & _). cbn. now apply B.
  - intros y k' a. destruct I as (_ & _ & _ & R). cbn. intros [E|J]; [discriminate|]. eapply R; eauto.
Qed.

Lemma object_at h objs e x k a : inv (h, e) (objs, e) -> lookup x e = Some (k, Some a) -> exists v, nth_error objs a = Some v /\
  nth_error h a = Some (blk (count true a e) (count false a e) v) /\ a < List.length objs.
Proof.
  intros (_ & L & B & R) Q. cbn [fst snd] in *. apply lookup_in in Q. apply R in Q.
  destruct (nth_error objs a) as [v|] eqn:E; [|apply nth_error_None in E; lia]. exists v. auto.
Qed.
Lemma hit_same b a x k : hit b a (x, (k, Some a)) = if Bool.eqb b (owning k) then 1 else 0.
Proof. unfold hit. cbn. now rewrite Nat.eqb_refl. Qed.
Lemma hit_other b i a x k : i <> a -> hit b i (x, (k, Some a)) = 0.
Proof. intros N. unfold hit. cbn. apply Nat.eqb_neq in N. now rewrite N. Qed.
Lemma owner_counted x k a (e : env) : lookup x e = Some (k, Some a) -> owning k = true -> exists s, count true a e = S s.
Proof. intros L O. rewrite (count_remove true a _ _ _ _ L), hit_same, O. cbn. eauto. Qed.
Lemma weak_counted x k a (e : env) : lookup x e = Some (k, Some a) -> owning k = false -> exists s, count false a e = S s.
Proof. intros L O. rewrite (count_remove false a _ _ _ _ L), hit_same, O. cbn. eauto. Qed.

Lemma ref_related h objs e x k p : inv (h, e) (objs, e) -> lookup x e = Some (k, p) -> owning k = true ->
  s_as_ref p h = Some (value p objs) /\ (p = None <-> value p objs = None).
Proof.
  intros I L O. destruct p as [a|]; [|cbn; tauto].
  destruct (object_at _ _ _ _ _ _ I L) as (v & E & B & A). cbn. unfold read_object. rewrite B.
  destruct (owner_counted _ _ _ _ L O) as [s ->]. rewrite E. cbn. split; [reflexivity|]. split; discriminate.
Qed.

(** copying a pointer of either kind: one more pointer to the same block *)
Lemma copy_related h objs e x k p y (r : option (option nat * heap V)) k' :
  inv (h, e) (objs, e) -> lookup x e = Some (k, p) ->
  (p = None -> r = Some (None, h)) ->
  (forall a v s w, p = Some a -> nth_error objs a = Some v -> count true a e = s -> count false a e = w ->
     nth_error h a = Some (blk s w v) ->
     r = Some (Some a, set_block a (blk (if owning k' then S s else s) (if owning k' then w else S w) v) h)) ->
  related (bind_var y k' r e) (add y k' p (objs, e)).
Proof.
  intros I L HN HS. destruct p as [a|].
  - destruct (object_at _ _ _ _ _ _ I L) as (v & E & B & A).
    rewrite (HS a v _ _ eq_refl E eq_refl eq_refl B). unfold bind_var, add. cbn [snd fst].
    destruct (lookup y e); [exact Logic.I|]. split; [reflexivity|]. split; [reflexivity|].
    eapply inv_set; eauto.
    + cbn [count]. rewrite !hit_same. destruct (owning k'); cbn; reflexivity.
    + intros i b N. cbn [count]. now rewrite hit_other.
    + destruct I as (_ & _ & _ & R). eapply range_add; [exact R|]. intros a' Q. now inversion Q; subst.
  - rewrite HN by reflexivity. now apply add_null.
Qed.

(** dropping an owner *)
Lemma forget_related h objs e x k p : inv (h, e) (objs, e) -> lookup x e = Some (k, p) -> owning k = true ->
  related (match std_release p h with Some (d, h) => Ok (h, remove x e) Done d | None => UB end) (forget x p (objs, e)).
Proof.
  intros I L O. pose proof I as (_ & _ & _ & R). cbn [fst snd] in R.
  destruct p as [a|].
  - destruct (object_at _ _ _ _ _ _ I L) as (v & E & B & A). unfold forget. cbn [fst snd]. rewrite E, alive_count.
    pose proof (count_remove true a _ _ _ _ L) as CT. rewrite hit_same, O in CT. cbn in CT.
    pose proof (count_remove false a _ _ _ _ L) as CF. rewrite hit_same, O in CF. cbn in CF.
    cbn [std_release]. rewrite B, CT. destruct (count true a (remove x e)) as [|s] eqn:CR; cbn [blk Nat.ltb Nat.leb].
    + split; [reflexivity|]. split; [reflexivity|]. unfold settle. eapply inv_set; eauto.
      * rewrite CR, CF. destruct (count false a (remove x e)); reflexivity.
      * intros i b N. rewrite (count_remove b i _ _ _ _ L), hit_other by exact N. reflexivity.
      * now apply range_remove.
    + split; [reflexivity|]. split; [reflexivity|]. unfold settle. eapply inv_set; eauto.
      * rewrite CR, CF. reflexivity.
      * intros i b N. rewrite (count_remove b i _ _ _ _ L), hit_other by exact N. reflexivity.
      * now apply range_remove.
  - cbn. split; [reflexivity|]. split; [reflexivity|]. eapply inv_env; [exact I| |now apply range_remove].
    intros i b. now rewrite (count_remove b i _ _ _ _ L).
Qed.

Lemma pass_related h objs e x k k' p : inv (h, e) (objs, e) -> lookup x e = Some (k, p) -> owning k' = owning k ->
  related (Ok (h, (x, (k', p)) :: remove x e) Done []) (Ok (objs, (x, (k', p)) :: remove x e) Done []).
Proof.
  intros I L O. repeat split.
  - now destruct I as (_ & Q & _).
  - intros a v E. destruct I as (_ & _ & B & _). cbn [fst snd] in *. rewrite (B _ _ E).
    rewrite (count_remove true a _ _ _ _ L), (count_remove false a _ _ _ _ L). cbn [count]. unfold hit. cbn [fst snd]. now rewrite O.
  - destruct I as (_ & _ & _ & R). cbn [fst snd] in *. intros y k2 a. eapply range_add.
    + now apply range_remove.
    + intros a' ->. apply lookup_in in L. eauto.
Qed.

Lemma step_related o st s : inv st s -> related (step veqb vcmp o st) (sstep veqb vcmp o s).
Proof.
  destruct st as [h e], s as [objs e']. intros I. pose proof I as (E & LN & BL & R). cbn [fst snd] in *. subst e'.
  assert (K : forall ob d, related (Ok (h, e) ob d) (Ok (objs, e) ob d)) by (intros; repeat split; auto).
  assert (CP : forall x y k k', owning k = true -> owning k' = true ->
     related (with_var x k e (fun p => bind_var y k' (std_copy p h) e)) (var x k e (fun p => add y k' p (objs, e)))).
  { intros x y k k' O O'. apply with_related. intros p L. eapply copy_related; eauto.
    - intros ->. reflexivity.
    - intros a v s w -> N Cs Cw B. cbn. rewrite B, O'. destruct (owner_counted _ _ _ _ L O) as [s' Q]. rewrite Cs in Q. subst s.
      rewrite Q. reflexivity. }
  assert (WK : forall x y k k', (owning k = true \/ owning k = false) -> owning k' = false ->
     related (with_var x k e (fun p => bind_var y k' (std_weak p h) e)) (var x k e (fun p => add y k' p (objs, e)))).
  { intros x y k k' _ O'. apply with_related. intros p L. eapply copy_related; eauto.
    - intros ->. reflexivity.
    - intros a v s w -> N Cs Cw B. cbn. rewrite B, O'. subst s w. destruct (owning k) eqn:O.
      + destruct (owner_counted _ _ _ _ L O) as [s' ->]. reflexivity.
      + destruct (weak_counted _ _ _ _ L O) as [s' ->]. destruct (count true a e); reflexivity. }
  destruct o; cbn [step sstep].
  - now apply add_null.
  - unfold s_new, cxx_uninit, std_adopt.
    assert (X : init_object (List.length h) v (h ++ [Block 1 0 Uninit]) = Some (h ++ [Block 1 0 (Live v)])).
    { unfold init_object. rewrite nth_error_app2, Nat.sub_diag by lia. cbn. f_equal.
      clear. induction h as [|b h IH]; cbn; [reflexivity|]. now rewrite IH. }
    rewrite X. unfold bind_var, add. cbn [snd fst]. destruct (lookup x e); [exact Logic.I|]. rewrite LN.
    assert (Z : forall b, count b (List.length objs) e = 0).
    { intros b. clear -R. induction e as [|[y [k [a|]]] e IH]; [reflexivity| |].
      - cbn [count]. rewrite hit_other, IH; [reflexivity| |].
        + intros; eapply R; right; eauto.
        + pose proof (R y k a (or_introl eq_refl)). lia.
      - cbn [count]. rewrite IH; [reflexivity|]. intros; eapply R; right; eauto. }
    repeat split; cbn [fst snd].
    + rewrite !app_length, LN. reflexivity.
    + intros a w N. cbn [count]. destruct (Nat.eqb_spec a (List.length objs)) as [->|D].
      * rewrite !hit_same, !Z. rewrite nth_error_app2, LN, Nat.sub_diag by lia.
        rewrite nth_error_app2, Nat.sub_diag in N by lia. cbn in N. inversion N; subst. reflexivity.
      * rewrite !hit_other by exact D. cbn [Nat.add].
        assert (A : a < List.length objs).
        { assert (a < List.length (objs ++ [v])) by (apply nth_error_Some; congruence). rewrite app_length in H. cbn in H. lia. }
        rewrite nth_error_app1 in N by exact A. rewrite nth_error_app1 by lia. now apply BL.
    + intros y k a [Q|J]; rewrite app_length; cbn; [inversion Q; lia|]. apply R in J. lia.
  - apply with_related. intros p L. destruct p; apply K.
  - apply with_related. intros p L. destruct (ref_related _ _ _ _ _ _ I L eq_refl) as [-> _]. apply K.
  - apply with_related. intros p L. destruct (ref_related _ _ _ _ _ _ I L eq_refl) as [-> P]. destruct p as [a|].
    + destruct (value (Some a) objs) as [v|]; [apply K|]. destruct P as [_ P]. discriminate (P eq_refl).
    + apply K.
  - now apply CP.
  - apply with_related. intros p L. eapply forget_related; eauto.
  - apply WK; auto.
  - apply with_related. intros p L. apply with_related. intros q L'.
    destruct (ref_related _ _ _ _ _ _ I L eq_refl) as [-> _], (ref_related _ _ _ _ _ _ I L' eq_refl) as [-> _]. apply K.
  - apply with_related. intros p L. apply with_related. intros q L'.
    destruct (ref_related _ _ _ _ _ _ I L eq_refl) as [-> _], (ref_related _ _ _ _ _ _ I L' eq_refl) as [-> _].
    destruct (value p objs), (value q objs); apply K.
  - now apply add_null.
  - apply with_related. intros p L. unfold w_upgrade, cxx_upgrade, lock. destruct p as [a|]; [|now apply add_null].
    rewrite alive_count. destruct (count true a e) as [|s] eqn:C; cbn [Nat.ltb Nat.leb].
    + cbn [std_lock]. destruct (object_at _ _ _ _ _ _ I L) as (v & N & B & A). rewrite B, C.
      destruct (weak_counted _ _ _ _ L eq_refl) as [w ->]. cbn. now apply add_null.
    + eapply copy_related; eauto; [discriminate|].
      intros a' v s' w Q N Cs Cw B. inversion Q; subst a'. cbn. rewrite B. rewrite C in Cs. subst s'. reflexivity.
  - apply WK; auto.
  - apply with_related. intros p L. unfold w_drop, cxx_weak_drop. destruct p as [a|]; cbn [std_release_weak].
    + destruct (object_at _ _ _ _ _ _ I L) as (v & N & B & A). rewrite B.
      pose proof (count_remove true a _ _ _ _ L) as CT. rewrite hit_same in CT. cbn in CT.
      pose proof (count_remove false a _ _ _ _ L) as CF. rewrite hit_same in CF. cbn in CF. rewrite CF.
      assert (X : exists o, blk (count true a e) (S (count false a (remove x e))) v = Block (count true a e) (S (count false a (remove x e))) o /\
                  o = match count true a e with 0 => Destroyed | S _ => Live v end).
      { destruct (count true a e); cbn; eauto. }
      destruct X as (o & -> & ->). split; [reflexivity|]. split; [reflexivity|]. unfold settle. eapply inv_set; eauto.
      * rewrite CT. destruct (count true a (remove x e)); destruct (count false a (remove x e)); reflexivity.
      * intros i b N'. rewrite (count_remove b i _ _ _ _ L), hit_other by exact N'. reflexivity.
      * now apply range_remove.
    + split; [reflexivity|]. split; [reflexivity|]. eapply inv_env; [exact I| |now apply range_remove].
      intros i b. now rewrite (count_remove b i _ _ _ _ L).
  - apply with_related. intros p L. unfold w_upgrade, cxx_upgrade, lock. destruct p as [a|]; [|apply K].
    destruct (object_at _ _ _ _ _ _ I L) as (v & N & B & A). cbn [std_lock]. rewrite B, alive_count.
    destruct (weak_counted _ _ _ _ L eq_refl) as [w Cw]. rewrite Cw.
    destruct (count true a e) as [|s] eqn:C; cbn [Nat.ltb Nat.leb blk].
    + cbn. repeat split; auto.
    + assert (A' : a < List.length h) by lia.
      unfold s_as_ref, cxx_get, read_object, s_drop, cxx_drop. rewrite (set_nth h a _ a A'), Nat.eqb_refl.
      unfold std_release. rewrite (set_nth h a _ a A'), Nat.eqb_refl. cbn [value]. rewrite N.
      split; [reflexivity|]. split; [reflexivity|]. unfold settle.
      assert (SS : forall b b', set_block a b (set_block a b' h) = set_block a b h).
      { intros b b'. clear. revert a. induction h as [|y h IH]; intros [|a]; cbn; try reflexivity. now rewrite IH. }
      rewrite SS. eapply inv_set; eauto. rewrite C, Cw. reflexivity.
  - apply with_related. intros p L. cbn [std_move]. eapply pass_related; eauto.
  - apply with_related. intros p L. cbn [std_move]. eapply pass_related; eauto.
  - apply with_related. intros p L. cbn [std_move]. eapply pass_related; eauto.
  - apply with_related. intros p L. cbn [std_move]. eapply pass_related; eauto.
  - now apply CP.
  - apply with_related. intros p L. destruct p as [a|]; [|exact Logic.I].
    destruct (object_at _ _ _ _ _ _ I L) as (old & N & B & A). unfold assign_object. rewrite B.
    destruct (owner_counted _ _ _ _ L eq_refl) as [s C]. rewrite C, N. cbn [blk].
    split; [reflexivity|]. split; [reflexivity|]. repeat split; cbn [fst snd].
    + now rewrite set_length, update_length.
    + intros i v' E. rewrite update_nth in E by exact A. rewrite set_nth by lia.
      destruct (Nat.eqb_spec i a) as [->|D]; [|now apply BL]. inversion E; subst. rewrite C. reflexivity.
    + intros y k i J. rewrite update_length. eauto.
  - apply with_related. intros p L. eapply forget_related; eauto.
Qed.

Lemma run_related ops : forall st s, inv st s ->
  related (fst (run veqb vcmp ops st)) (fst (srun veqb vcmp ops s)) /\
  snd (run veqb vcmp ops st) = snd (srun veqb vcmp ops s).
Proof.
  induction ops as [|o ops IH]; intros st s I; cbn [run srun].
  - cbn. split; [|reflexivity]. repeat split; apply I.
  - pose proof (step_related o st s I) as R.
    destruct (step veqb vcmp o st) as [| |st' ob d]; destruct (sstep veqb vcmp o s) as [| |s' ob' d']; cbn in R; try tauto.
    destruct R as (-> & -> & I'). destruct (IH st' s' I') as [A B].
    destruct (run veqb vcmp ops st') as [r t], (srun veqb vcmp ops s') as [r' t']. cbn in *. split; [exact A|]. now rewrite B.
Qed.
End Sim.
