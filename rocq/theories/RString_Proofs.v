(** Proofs about rust::String in C++. *)
From Verif Require Import Base Store_Lib RString_Model RString_Spec.
Require Import NArith Lia Permutation.

Definition r_own (r : repr) : list nat := match buf r with Some a => [a] | None => [] end.
Definition r_ok (h : list (option (list (option N)))) (r : repr) (t : list N) : Prop :=
  match buf r with
  | None => t = [] /\ len r = 0 /\ cap r = 0
  | Some a => exists b rest, cell h a = Some b /\ b = map Some t ++ rest /\ len r = List.length t /\ cap r = List.length b
  end.
Lemma r_ok_live h r t a : r_ok h r t -> In a (r_own r) -> cell h a <> None.
Proof. unfold r_ok, r_own. destruct (buf r); cbn; [|tauto]. intros (b & rest & E & _) [<-|[]]. congruence. Qed.
Lemma r_ok_frame h h' r t : r_ok h r t -> (forall a, In a (r_own r) -> cell h' a = cell h a) -> r_ok h' r t.
Proof.
  unfold r_ok, r_own. destruct (buf r); cbn; auto. intros (b & rest & E & ? & ? & ?) F. exists b, rest. rewrite F by auto. auto.
Qed.
Lemma r_own_nodup h r t : r_ok h r t -> NoDup (r_own r).
Proof. intros _. unfold r_own. destruct (buf r); repeat constructor. intros []. Qed.
Lemma r_ok_len h r t : r_ok h r t -> len r = List.length t.
Proof. unfold r_ok. destruct (buf r). - now intros (? & ? & ? & ? & ? & ?). - intros (-> & -> & _). reflexivity. Qed.
Lemma r_ok_cap h r t : r_ok h r t -> len r <= cap r.
Proof.
  unfold r_ok. destruct (buf r). - intros (b & rest & ? & E & L & ->). rewrite E, app_length, map_length. lia.
  - intros (_ & -> & ->). lia.
Qed.

Notation ginv := (inv r_own r_ok).
Notation ghost := (list (nat * (repr * option (list N)))).

Lemma all_written_map t : all_written (map Some t) = Some t.
Proof. induction t as [|b t IH]; cbn; [reflexivity|]. now rewrite IH. Qed.
Lemma firstn_map_app {A} (t : list A) rest n : n = List.length t -> firstn n (map Some t ++ rest) = map Some t.
Proof.
  intros ->. rewrite firstn_app, map_length, Nat.sub_diag, firstn_O, app_nil_r. rewrite firstn_all2; [reflexivity|]. rewrite map_length. lia.
Qed.
Lemma bytes_ok h r t : r_ok h r t -> r_bytes r h = Some t.
Proof.
  unfold r_ok, r_bytes. destruct (buf r) as [a|].
  - intros (b & rest & E & -> & L & C). rewrite E, L, app_length, map_length. rewrite (proj2 (Nat.leb_le _ _)) by lia.
    rewrite firstn_map_app by auto. apply all_written_map.
  - intros (-> & -> & _). reflexivity.
Qed.

(** a representation [r'] in [h'] in place of [r] in [h] *)
Record moves (r : list nat) (h : list (option (list (option N)))) (r' : repr) (h' : list (option (list (option N)))) (t : list N) : Prop := Moves {
  mv_ok : r_ok h' r' t;
  mv_frame : forall a, cell h a <> None -> ~ In a r -> cell h' a = cell h a;
  mv_own : forall a, In a (r_own r') -> In a r \/ cell h a = None;
  mv_all : forall a, cell h' a <> None -> In a (r_own r') \/ (cell h a <> None /\ ~ In a r) }.

Lemma moves_update h m x s r' h' t : ginv h m -> lookup x m = Some s -> moves (owned1 r_own s) h r' h' t -> ginv h' (set x (r', Some t) m).
Proof.
  intros I L [O F W A]. eapply inv_update; eauto using r_ok_live, r_ok_frame, r_own_nodup.
Qed.
Lemma moves_new h : moves [] h r_new h [].
Proof. constructor; cbn; try tauto. Qed.
Lemma moves_from bytes h r' h' : r_from bytes h = (r', h') -> moves [] h r' h' bytes.
Proof.
  unfold r_from. destruct bytes as [|b l].
  - intros E. inversion E; subst. apply moves_new.
  - set (bytes := b :: l). intros E. inversion E; subst; clear E. constructor; cbn -[map List.length].
    + exists (map Some bytes), []. rewrite cell_app_new, app_nil_r, map_length. auto.
    + intros a L _. now apply cell_app_old.
    + intros a [<-|[]]. right. destruct (cell h (List.length h)) eqn:E; [|reflexivity].
      exfalso. refine (cell_fresh h _ _ eq_refl). congruence.
    + intros a J. apply cell_app_inv in J as [->|J]; auto.
Qed.

Section P.
Variable slack : nat -> nat.
Variable valid : list N -> bool.

Lemma reserve_ok n r h t : r_ok h r t -> exists r' h', r_reserve slack n r h = Some (r', h') /\ moves (r_own r) h r' h' t /\ n <= cap r' - len r'.
Proof.
  intros O. unfold r_reserve. destruct (Nat.leb_spec n (cap r - len r)) as [L|L].
  - exists r, h. repeat split; auto; try tauto. intros a J. destruct (in_dec Nat.eq_dec a (r_own r)); auto.
  - pose proof (r_ok_len _ _ _ O) as LE. pose proof (r_ok_cap _ _ _ O) as CA.
    unfold r_ok in O. unfold r_own. destruct (buf r) as [a|] eqn:B.
    + destruct O as (b & rest & E & EB & _ & C). rewrite E. unfold free. rewrite E.
      set (k := b ++ _). cbn [alloc]. rewrite length_set.
      assert (CE : forall c, cell (set_cell a None h ++ [Some k]) c <> None -> c = List.length h \/ (cell h c <> None /\ c <> a)).
      { intros c J. apply cell_app_inv in J as [J|J].
        - left. now rewrite length_set in J.
        - right. destruct (Nat.eq_dec c a) as [->|N].
          + rewrite cell_set_same in J by congruence. congruence.
          + rewrite cell_set_other in J by auto. auto. }
      do 2 eexists. split; [reflexivity|]. split; [|cbn; lia]. constructor; cbn -[cell set_cell].
      * exists k, (rest ++ repeat None (len r + n + slack (len r + n) - List.length b)).
        rewrite <- (length_set h a None) at 1. rewrite cell_app_new. repeat split; auto.
        -- unfold k. rewrite EB at 1. now rewrite app_assoc.
        -- unfold k. rewrite app_length, repeat_length. lia.
      * intros c J N. rewrite cell_app_old; rewrite cell_set_other by (intros ->; apply N; cbn; auto); auto.
      * intros c [<-|[]]. right. apply fresh_cell.
      * intros c J. destruct (CE c J) as [->|[J1 J2]]; auto. right. split; auto. intros [->|[]]; auto.
    + destruct O as (-> & Z & CZ). rewrite Z in *. cbn [alloc]. do 2 eexists. split; [reflexivity|]. split; [|cbn; lia].
      constructor; cbn -[cell repeat].
      * exists (repeat None (n + slack n)), (repeat None (n + slack n)). rewrite cell_app_new, repeat_length. auto.
      * intros c J _. now apply cell_app_old.
      * intros c [<-|[]]. right. apply fresh_cell.
      * intros c J. apply cell_app_inv in J as [->|J]; auto.
Qed.

Lemma set_nth_length {A} i (v : A) l : List.length (set_nth i v l) = List.length l.
Proof. revert i. induction l as [|x l IH]; intros [|i]; cbn; auto. Qed.
Lemma set_nth_app1 {A} (l1 l2 : list A) i v : i < List.length l1 -> set_nth i v (l1 ++ l2) = set_nth i v l1 ++ l2.
Proof. revert i. induction l1 as [|x l IH]; intros [|i] L; cbn in *; try lia; auto. now rewrite IH by lia. Qed.
Lemma set_nth_app2 {A} (l1 l2 : list A) v x : set_nth (List.length l1) v (l1 ++ x :: l2) = l1 ++ v :: l2.
Proof. induction l1 as [|y l IH]; cbn; auto. now rewrite IH. Qed.
Lemma set_nth_replace (t : list N) i b : i < List.length t -> set_nth i (Some b) (map Some t) = map Some (replace t i b).
Proof.
  unfold replace. revert i. induction t as [|x l IH]; intros [|i] L; cbn in *; try lia; auto. now rewrite IH by lia.
Qed.
(** a write below the capacity *)
Lemma poke_ok r h t i b : r_ok h r t -> i < cap r -> exists a bytes, buf r = Some a /\ cell h a = Some bytes /\
  r_poke r i b h = Some (set_cell a (Some (set_nth i (Some b) bytes)) h).
Proof.
  unfold r_ok, r_poke, store. destruct (buf r) as [a|].
  - intros (bytes & rest & E & EB & L & C) LT. exists a, bytes. rewrite E. rewrite (proj2 (Nat.ltb_lt _ _)) by lia. auto.
  - intros (_ & _ & ->). lia.
Qed.
Lemma moves_poke r h a bytes r' t : buf r = Some a -> buf r' = Some a -> cell h a <> None ->
  (exists rest, bytes = map Some t ++ rest) -> len r' = List.length t -> cap r' = List.length bytes ->
  moves (r_own r) h r' (set_cell a (Some bytes) h) t.
Proof.
  intros B B' L (rest & E) LE C. constructor; unfold r_own; rewrite ?B, ?B'; cbn -[cell].
  - unfold r_ok. rewrite B'. exists bytes, rest. rewrite cell_set_same by auto. auto.
  - intros c _ N. apply cell_set_other. intros ->. apply N. now left.
  - auto.
  - intros c J. destruct (Nat.eq_dec c a) as [->|N]; auto. rewrite cell_set_other in J by auto. right. split; auto. intros [->|[]]; auto.
Qed.
(** two changes of one object *)
Lemma moves_trans r h r1 h1 t1 r2 h2 t2 : (forall a, In a r -> cell h a <> None) ->
  moves r h r1 h1 t1 -> moves (r_own r1) h1 r2 h2 t2 -> moves r h r2 h2 t2.
Proof.
  intros LV [O1 F1 W1 A1] [O2 F2 W2 A2]. constructor; auto.
  - intros a L N. assert (N1 : ~ In a (r_own r1)) by (intros J; destruct (W1 a J); congruence).
    rewrite F2; auto. rewrite F1; auto.
  - intros a J. destruct (W2 a J) as [K|K]; auto. destruct (in_dec Nat.eq_dec a r) as [I|I]; auto.
    right. destruct (cell h a) eqn:E; auto. exfalso. rewrite F1 in K; congruence.
  - intros a J. destruct (A2 a J) as [K|[K1 K2]]; auto. destruct (A1 a K1) as [K|K]; [contradiction|auto].
Qed.

(** * The functions of rust_string.rs on a state described by [m] *)
Notation st_of h m := ((h, reprs m) : _ * list (nat * repr)).
Lemma reprs_lookup (m : ghost) x s : lookup x m = Some s -> lookup x (reprs m) = Some (fst s).
Proof. intros L. unfold reprs. change (fun p : nat * (repr * option (list N)) => (fst p, fst (snd p))) with (fun p : nat * (repr * option (list N)) => (fst p, (fun s => fst s) (snd p))).
  rewrite (map_lookup (fun s : repr * option (list N) => fst s)), L. reflexivity. Qed.
Lemma reprs_set (m : ghost) x s : set x (fst s) (reprs m) = reprs (set x s m).
Proof. exact (map_set (fun s : repr * option (list N) => fst s) x s m). Qed.
Lemma put_reprs (m : ghost) x s h s' : lookup x m = Some s -> put x (fst s') h (reprs m) = Some (st_of h (set x s' m)).
Proof. intros L. unfold put. rewrite (reprs_lookup _ _ _ L). now rewrite reprs_set. Qed.

Lemma P_new h (m : ghost) x r : ginv h m -> lookup x m = Some (r, None) ->
  string_new x (st_of h m) = Some (st_of h (set x (r_new, Some []) m)) /\ ginv h (set x (r_new, Some []) m).
Proof.
  intros I L. split.
  - cbn. apply (put_reprs m x _ h (r_new, Some []) L).
  - eapply moves_update; eauto. cbn. apply moves_new.
Qed.
Lemma P_from h (m : ghost) x r bytes : ginv h m -> lookup x m = Some (r, None) ->
  exists r' h', r_from bytes h = (r', h') /\ put x r' h' (reprs m) = Some (st_of h' (set x (r', Some bytes) m)) /\ ginv h' (set x (r', Some bytes) m).
Proof.
  intros I L. destruct (r_from bytes h) as [r' h'] eqn:E. exists r', h'. split; auto. split.
  - apply (put_reprs m x _ h' (r', Some bytes) L).
  - eapply moves_update; eauto. cbn. now apply moves_from.
Qed.
Lemma P_clone h (m : ghost) x y r s t : ginv h m -> lookup x m = Some (r, None) -> lookup y m = Some (s, Some t) ->
  exists r' h', string_clone x y (st_of h m) = Some (st_of h' (set x (r', Some t) m)) /\ ginv h' (set x (r', Some t) m).
Proof.
  intros I L M. unfold string_clone. rewrite (reprs_lookup _ _ _ M). cbn [fst].
  rewrite (bytes_ok _ _ _ (inv_lookup _ _ _ _ _ _ _ I M)).
  destruct (P_from h m x r t I L) as (r' & h' & -> & E & J). eauto.
Qed.
Lemma P_drop h (m : ghost) x r t : ginv h m -> lookup x m = Some (r, Some t) ->
  exists h', string_drop x (st_of h m) = Some (st_of h' (set x (r, None) m)) /\ ginv h' (set x (r, None) m).
Proof.
  intros I L. unfold string_drop. rewrite (reprs_lookup _ _ _ L). cbn [fst].
  assert (E : reprs m = reprs (set x (r, None) m)).
  { rewrite <- reprs_set. cbn. symmetry. apply set_same. now rewrite (reprs_lookup _ _ _ L). }
  pose proof (inv_lookup _ _ _ _ _ _ _ I L) as O. unfold r_drop. rewrite <- E.
  assert (U : forall h', (forall a, cell h a <> None -> ~ In a (r_own r) -> cell h' a = cell h a) ->
    (forall a, cell h' a <> None -> cell h a <> None /\ ~ In a (r_own r)) -> ginv h' (set x (r, None) m)).
  { intros h' F A. eapply inv_update; eauto using r_ok_live, r_ok_frame, r_own_nodup; cbn; tauto. }
  unfold r_own in U. destruct (buf r) as [a|] eqn:B.
  - unfold r_ok in O. rewrite B in O. destruct O as (b & ? & C & _). unfold free. rewrite C. eexists. split; [reflexivity|].
    apply U.
    + intros c _ N. apply cell_set_other. intros ->. apply N. now left.
    + intros c J. destruct (Nat.eq_dec c a) as [->|N].
      * rewrite cell_set_same in J by congruence. congruence.
      * rewrite cell_set_other in J by auto. cbn. intuition.
  - eexists. split; [reflexivity|]. apply U; auto.
Qed.
Lemma P_copy h (m : ghost) x y r s : ginv h m -> x <> y -> lookup x m = Some (r, None) -> lookup y m = Some s ->
  copy_repr x y (st_of h m) = Some (st_of h (set y (fst s, None) (set x s m))) /\ ginv h (set y (fst s, None) (set x s m)).
Proof.
  intros I N L M. split.
  - unfold copy_repr. rewrite (reprs_lookup _ _ _ M). rewrite (put_reprs m x _ h s L).
    rewrite <- (reprs_set (set x s m)). cbn [fst]. rewrite (set_same y (fst s) (reprs (set x s m))); auto.
    apply (reprs_lookup _ y s). rewrite lookup_set_other; auto.
  - eapply inv_transfer; eauto using r_ok_live, r_ok_frame, r_own_nodup.
Qed.
Lemma P_reserve h (m : ghost) x r t n : ginv h m -> lookup x m = Some (r, Some t) ->
  exists r' h', string_reserve_additional slack x n (st_of h m) = Some (st_of h' (set x (r', Some t) m)) /\ ginv h' (set x (r', Some t) m) /\ n <= cap r' - len r'.
Proof.
  intros I L. unfold string_reserve_additional. rewrite (reprs_lookup _ _ _ L). cbn [fst].
  destruct (reserve_ok n r h t (inv_lookup _ _ _ _ _ _ _ I L)) as (r' & h' & E & M & C). rewrite E.
  exists r', h'. split; [|split; [|exact C]].
  - apply (put_reprs m x _ h' (r', Some t) L).
  - eapply moves_update; eauto.
Qed.

(** * Programs *)
Definition rel (st : (list (option (list (option N)))) * list (nat * repr)) (s : list (nat * list N)) : Prop :=
  exists m : ghost, st = (fst st, reprs m) /\ ginv (fst st) m /\ contents m = map (fun p => (fst p, Some (snd p))) s.
Lemma contents_lookup (m : ghost) x : lookup x (contents m) = option_map snd (lookup x m).
Proof. exact (map_lookup (fun s : repr * option (list N) => snd s) x m). Qed.
Lemma contents_cons (m : ghost) x r o : contents ((x, (r, o)) :: m) = (x, o) :: contents m.
Proof. reflexivity. Qed.
Lemma contents_set (m : ghost) x s : contents (set x s m) = set x (snd s) (contents m).
Proof. symmetry. exact (map_set (fun s : repr * option (list N) => snd s) x s m). Qed.
Lemma contents_remove (m : ghost) x : contents (remove x m) = remove x (contents m).
Proof. symmetry. exact (map_remove (fun s : repr * option (list N) => snd s) x m). Qed.
Lemma reprs_remove (m : ghost) x : remove x (reprs m) = reprs (remove x m).
Proof. exact (map_remove (fun s : repr * option (list N) => fst s) x m). Qed.
Lemma some_lookup (s : list (nat * list N)) x : lookup x (map (fun p => (fst p, Some (snd p))) s) = option_map Some (lookup x s).
Proof. exact (map_lookup Some x s). Qed.
Lemma some_set (s : list (nat * list N)) x t : map (fun p => (fst p, Some (snd p))) (set x t s) = set x (Some t) (map (fun p => (fst p, Some (snd p))) s).
Proof. symmetry. exact (map_set Some x t s). Qed.
Lemma some_remove (s : list (nat * list N)) x : map (fun p => (fst p, Some (snd p))) (remove x s) = remove x (map (fun p => (fst p, Some (snd p))) s).
Proof. symmetry. exact (map_remove Some x s). Qed.

Lemma rel_lookup st s x t : rel st s -> lookup x s = Some t -> exists m r, fst st = fst st /\ st = (fst st, reprs m) /\ ginv (fst st) m
   /\ contents m = map (fun p => (fst p, Some (snd p))) s /\ lookup x m = Some (r, Some t).
Proof.
  intros (m & E & I & C) L. pose proof (contents_lookup m x) as Q. rewrite C, some_lookup, L in Q. cbn in Q.
  destruct (lookup x m) as [[r o]|] eqn:EM; cbn in Q; [|discriminate]. injection Q as <-. eauto 10.
Qed.
Lemma rel_found st s x : rel st s -> lookup x (snd st) = None <-> lookup x s = None.
Proof.
  intros (m & E & I & C). rewrite E. cbn [snd]. pose proof (contents_lookup m x) as Q. rewrite C, some_lookup in Q.
  unfold reprs. rewrite (map_lookup (fun s : repr * option (list N) => fst s)). destruct (lookup x m), (lookup x s); cbn in *; split; congruence.
Qed.

Lemma append_ok bytes : forall h (m : ghost) x r t, ginv h m -> lookup x m = Some (r, Some t) ->
  exists r' h', rust_append slack x bytes (st_of h m) = Some (st_of h' (set x (r', Some (t ++ bytes)) m)) /\ ginv h' (set x (r', Some (t ++ bytes)) m).
Proof.
  induction bytes as [|b bytes IH]; intros h m x r t I L.
  - rewrite app_nil_r. exists r, h. rewrite set_same by auto. auto.
  - cbn [rust_append]. rewrite (reprs_lookup _ _ _ L). cbn [fst]. unfold r_push.
    pose proof (inv_lookup _ _ _ _ _ _ _ I L) as O.
    destruct (reserve_ok 1 r h t O) as (r1 & h1 & E1 & M1 & C1). rewrite E1.
    pose proof (mv_ok _ _ _ _ _ M1) as O1. pose proof (r_ok_len _ _ _ O1) as LE.
    destruct (poke_ok r1 h1 t (len r1) b O1 ltac:(lia)) as (a & k & B & CE & ->).
    unfold r_ok in O1. rewrite B in O1. destruct O1 as (k' & rest & CE' & EK & _ & CL). rewrite CE in CE'. injection CE' as <-.
    assert (M2 : moves (r_own r1) h1 (Repr (buf r1) (S (len r1)) (cap r1)) (set_cell a (Some (set_nth (len r1) (Some b) k)) h1) (t ++ [b])).
    { eapply moves_poke; eauto; cbn.
      - congruence.
      - destruct rest as [|z rest]; [rewrite app_nil_r in EK; rewrite EK, map_length in CL; lia|].
        exists rest. rewrite EK, LE, <- (map_length Some t), set_nth_app2, map_app, <- app_assoc. reflexivity.
      - rewrite app_length. cbn. lia.
      - now rewrite set_nth_length. }
    assert (LV : forall a, In a (r_own r) -> cell h a <> None) by (intros; eapply r_ok_live; eauto).
    pose proof (moves_trans _ _ _ _ _ _ _ _ LV M1 M2) as M3.
    pose proof (moves_update h m x _ _ _ _ I L M3) as J. cbv zeta.
    set (s2 := (Repr (buf r1) (S (len r1)) (cap r1), Some (t ++ [b]))) in *.
    rewrite (put_reprs m x _ _ s2 L). cbn [bind].
    destruct (IH _ _ x _ _ J ltac:(apply lookup_set_same; congruence)) as (r' & h' & E & J').
    exists r', h'. rewrite E. rewrite set_set, <- app_assoc in *. auto.
Qed.

Ltac grab H := destruct H as (m & E & I & C).
Lemma step_ok o st s : rel st s ->
  match step slack valid o st with
  | Illegal => spec_step valid o s = Illegal
  | UB => False
  | Ok st' ob => exists s', spec_step valid o s = Ok s' ob /\ rel st' s'
  end.
Proof.
  intros REL.
  assert (FND : forall x, match lookup x (snd st), lookup x s with None, None | Some _, Some _ => True | _, _ => False end).
  { intros x. pose proof (rel_found st s x REL). destruct (lookup x (snd st)), (lookup x s); intuition congruence. }
  assert (DECL : forall x, exists m : ghost, declare x st = (fst st, reprs ((x, (Repr None 0 0, None)) :: m)) /\ st = (fst st, reprs m) /\ ginv (fst st) m
     /\ ginv (fst st) ((x, (Repr None 0 0, None)) :: m) /\ contents m = map (fun p => (fst p, Some (snd p))) s).
  { intros x. destruct REL as (m & E & I & C). exists m. split; [|split; [exact E|split; [exact I|split; [|exact C]]]].
    - unfold declare. rewrite E at 2. reflexivity.
    - apply inv_declare; auto. }
  assert (HD : forall x (s0 s1 : repr * option (list N)) m, set x s1 ((x, s0) :: m) = (x, s1) :: m) by (intros; cbn; now rewrite Nat.eqb_refl).
  assert (HL : forall x (s0 : repr * option (list N)) m, lookup x ((x, s0) :: m) = Some s0) by (intros; cbn; now rewrite Nat.eqb_refl).
  assert (HL2 : forall x y (s0 : repr * option (list N)) m, x <> y -> lookup y ((x, s0) :: m) = lookup y m).
  { intros x y s0 m0 N. cbn. rewrite (proj2 (Nat.eqb_neq y x)) by auto. reflexivity. }
  assert (GL : forall m x t, contents m = map (fun p => (fst p, Some (snd p))) s -> lookup x s = Some t -> exists r, lookup x (m : ghost) = Some (r, Some t)).
  { intros m x t C L. pose proof (contents_lookup m x) as Q. rewrite C, some_lookup, L in Q. cbn in Q.
    destruct (lookup x m) as [[r o']|]; cbn in Q; [|discriminate]. injection Q as <-. eauto. }
  destruct o; cbn [step spec_step]; unfold fresh, needs.
  - (* New *) specialize (FND x). destruct (lookup x (snd st)), (lookup x s); try tauto.
    destruct (DECL x) as (m & D & _ & _ & I & C). unfold ctor_default. rewrite D.
    destruct (P_new _ _ x _ I (HL _ _ _)) as [-> J]. cbn [done]. eexists. split; [reflexivity|].
    rewrite HD in *. eexists. cbn [fst]. split; [reflexivity|]. split; [exact J|]. rewrite contents_cons, C. reflexivity.
  - (* FromBytes *) specialize (FND x). destruct (lookup x (snd st)), (lookup x s); try tauto.
    destruct (DECL x) as (m & D & ES & I0 & I & C). unfold ctor_bytes. rewrite D. unfold string_from_utf8.
    destruct (valid bytes).
    + destruct (P_from _ _ x _ bytes I (HL _ _ _)) as (r' & h' & -> & -> & J). eexists. split; [reflexivity|].
      rewrite HD in *. eexists. cbn [fst]. split; [reflexivity|]. split; [exact J|]. rewrite contents_cons, C. reflexivity.
    + cbn. rewrite Nat.eqb_refl. eexists. split; [reflexivity|]. exists m. cbn. auto.
  - (* Copy *) pose proof (FND x) as FX. pose proof (FND y) as FY.
    destruct (lookup x (snd st)), (lookup x s) eqn:LX; try tauto.
    destruct (lookup y (snd st)), (lookup y s) as [t|] eqn:LY; try tauto.
    destruct (DECL x) as (m & D & ES & I0 & I & C). unfold ctor_copy. rewrite D.
    destruct (GL m y t C LY) as (r2 & LM). assert (N : x <> y) by congruence.
    destruct (P_clone _ _ x y _ r2 t I (HL _ _ _)) as (r' & h' & -> & J). { rewrite HL2; auto. }
    eexists. split; [reflexivity|]. rewrite HD in *. eexists. cbn [fst]. split; [reflexivity|]. split; [exact J|]. rewrite contents_cons, C. reflexivity.
  - (* Move *) pose proof (FND x) as FX. pose proof (FND y) as FY.
    destruct (lookup x (snd st)), (lookup x s) eqn:LX; try tauto.
    destruct (lookup y (snd st)), (lookup y s) as [t|] eqn:LY; try tauto.
    destruct (DECL x) as (m & D & ES & I0 & I & C). unfold ctor_move. rewrite D.
    destruct (GL m y t C LY) as (r2 & LM). assert (N : x <> y) by congruence.
    destruct (P_copy _ _ x y _ (r2, Some t) I N (HL _ _ _)) as (-> & J). { rewrite HL2; auto. }
    cbn [bind]. rewrite HD in *.
    destruct (P_new _ _ y r2 J) as (-> & J2). { apply lookup_set_same. rewrite HL2; congruence. }
    rewrite set_set in *. cbn [done]. eexists. split; [reflexivity|]. eexists. cbn [fst]. split; [reflexivity|]. split; [exact J2|].
    rewrite contents_set, contents_cons, C. cbn [snd set map fst]. rewrite (proj2 (Nat.eqb_neq y x)) by auto. now rewrite some_set.
  - (* Assign *) pose proof (FND x) as FX. pose proof (FND y) as FY.
    destruct (lookup x (snd st)), (lookup x s) as [u|] eqn:LX; try tauto.
    destruct (lookup y (snd st)), (lookup y s) as [t|] eqn:LY; try tauto.
    unfold assign_copy. destruct (Nat.eqb_spec x y) as [->|N]; cbn [negb].
    + cbn. eexists. split; [reflexivity|]. rewrite set_same; auto.
    + destruct REL as (m & E & I & C). destruct (GL m y t C LY) as (r2 & LM). destruct (GL m x u C LX) as (r1 & LM1).
      rewrite E. destruct (P_drop _ _ x r1 u I LM1) as (h1 & -> & J). cbn [bind].
      destruct (P_clone _ _ x y r1 r2 t J) as (r' & h' & -> & J2).
      { apply lookup_set_same. congruence. } { rewrite lookup_set_other; auto. }
      rewrite set_set in *. eexists. split; [reflexivity|]. eexists. cbn [fst]. split; [reflexivity|]. split; [exact J2|].
      rewrite contents_set. cbn [snd]. now rewrite C, some_set.
  - (* MoveAssign *) pose proof (FND x) as FX. pose proof (FND y) as FY.
    destruct (lookup x (snd st)), (lookup x s) as [u|] eqn:LX; try tauto.
    destruct (lookup y (snd st)), (lookup y s) as [t|] eqn:LY; try tauto.
    unfold assign_move. destruct REL as (m & E & I & C). destruct (GL m y t C LY) as (r2 & LM). destruct (GL m x u C LX) as (r1 & LM1).
    rewrite E. destruct (P_drop _ _ x r1 u I LM1) as (h1 & -> & J). cbn [bind].
    destruct (Nat.eq_dec x y) as [->|N].
    + unfold copy_repr. assert (LL : lookup y (set y (r1, None) m) = Some (r1, None)) by (apply lookup_set_same; congruence).
      rewrite (reprs_lookup _ _ _ LL). rewrite (put_reprs _ y _ h1 (r1, None) LL). cbn [bind]. rewrite set_set.
      destruct (P_new _ _ y r1 J LL) as (-> & J2). rewrite set_set in *. eexists. split; [reflexivity|]. eexists. cbn [fst].
      split; [reflexivity|]. split; [exact J2|]. rewrite contents_set. cbn [snd]. now rewrite set_set, C, some_set.
    + destruct (P_copy _ _ x y r1 (r2, Some t) J N) as (-> & J2).
      { apply lookup_set_same. congruence. } { rewrite lookup_set_other; auto. }
      cbn [bind]. rewrite set_set in *.
      destruct (P_new _ _ y r2 J2) as (-> & J3). { apply lookup_set_same. rewrite lookup_set_other by auto. congruence. }
      rewrite set_set in *. eexists. split; [reflexivity|]. eexists. cbn [fst]. split; [reflexivity|]. split; [exact J3|].
      rewrite !contents_set. cbn [snd]. now rewrite C, !some_set.
  - (* Swap *) pose proof (FND x) as FX. pose proof (FND y) as FY.
    destruct (lookup x (snd st)), (lookup x s) as [u|] eqn:LX; try tauto.
    destruct (lookup y (snd st)), (lookup y s) as [t|] eqn:LY; try tauto.
    destruct REL as (m & E & I & C). destruct (GL m y t C LY) as (r2 & LM). destruct (GL m x u C LX) as (r1 & LM1).
    rewrite E. unfold swap. rewrite (reprs_lookup _ _ _ LM), (reprs_lookup _ _ _ LM1). cbn [fst].
    change r2 with (fst (r2, Some t)) at 1. rewrite reprs_set. change r1 with (fst (r1, Some u)) at 1. rewrite reprs_set. cbn [done].
    eexists. split; [reflexivity|]. eexists. cbn [fst]. split; [reflexivity|]. split.
    + destruct (Nat.eq_dec x y) as [->|N].
      * rewrite set_set. rewrite set_same; congruence.
      * eapply inv_swap; eauto.
    + rewrite !contents_set. cbn [snd]. now rewrite C, !some_set.
  - (* Destroy *) pose proof (FND x) as FX. destruct (lookup x (snd st)), (lookup x s) as [u|] eqn:LX; try tauto.
    destruct REL as (m & E & I & C). destruct (GL m x u C LX) as (r1 & LM1). unfold dtor.
    rewrite E. destruct (P_drop _ _ x r1 u I LM1) as (h1 & -> & J). cbn [bind done]. eexists. split; [reflexivity|].
    eexists. cbn [fst]. rewrite reprs_remove. split; [reflexivity|]. split.
    + eapply inv_forget; eauto. apply lookup_set_same. congruence.
    + rewrite remove_set, contents_remove, C, some_remove. reflexivity.
  - (* Text *) pose proof (FND x) as FX. destruct (lookup x (snd st)) eqn:LS, (lookup x s) as [u|] eqn:LX; try tauto.
    pose proof REL as (m & E & I & C). destruct (GL m x u C LX) as (r1 & LM1). unfold text.
    rewrite E. cbn [fst snd]. rewrite (reprs_lookup _ _ _ LM1). cbn [fst]. rewrite (bytes_ok _ _ _ (inv_lookup _ _ _ _ _ _ _ I LM1)).
    rewrite <- E. eauto.
  - (* CStr *) pose proof (FND x) as FX. destruct (lookup x (snd st)) eqn:LS, (lookup x s) as [u|] eqn:LX; try tauto.
    pose proof REL as (m & E & I & C). destruct (GL m x u C LX) as (r1 & LM1). unfold c_str.
    rewrite E. cbn [snd]. rewrite (reprs_lookup _ _ _ LM1). cbn [fst].
    destruct (P_reserve _ _ x r1 u 1 I LM1) as (r2 & h2 & -> & J & CA). cbn [bind].
    assert (L2 : lookup x (set x (r2, Some u) m) = Some (r2, Some u)) by (apply lookup_set_same; congruence).
    rewrite (reprs_lookup _ _ _ L2). cbn [bind fst].
    pose proof (inv_lookup _ _ _ _ _ _ _ I LM1) as O1. pose proof (inv_lookup _ _ _ _ _ _ _ J L2) as O2.
    rewrite (r_ok_len _ _ _ O1). pose proof (r_ok_len _ _ _ O2) as LE2.
    destruct (poke_ok r2 h2 u (List.length u) 0 O2 ltac:(lia)) as (a & k & B & CE & ->). cbn [bind]. rewrite B.
    rewrite cell_set_same by congruence.
    pose proof O2 as O3. unfold r_ok in O3. rewrite B in O3. destruct O3 as (k' & rest & CE' & EK & _ & CL). rewrite CE in CE'. injection CE' as <-.
    destruct rest as [|z rest]; [rewrite app_nil_r in EK; rewrite EK, map_length in CL; lia|].
    assert (SN : set_nth (List.length u) (Some 0%N) k = map Some (u ++ [0%N]) ++ rest).
    { rewrite EK, <- (map_length Some u), set_nth_app2, map_app, <- app_assoc. reflexivity. }
    rewrite SN. rewrite firstn_map_app by (rewrite app_length; cbn; lia). rewrite all_written_map. cbn [bind].
    eexists. split; [reflexivity|]. eexists. cbn [fst]. split; [reflexivity|]. split.
    + rewrite <- SN. assert (M2 : moves (r_own r2) h2 r2 (set_cell a (Some (set_nth (List.length u) (Some 0%N) k)) h2) u).
      { eapply moves_poke; eauto; try congruence. 2: now rewrite set_nth_length.
        exists (Some 0%N :: rest). rewrite SN, map_app, <- app_assoc. reflexivity. }
      pose proof (moves_update _ _ x _ _ _ _ J L2 M2) as J2. rewrite set_set in J2. exact J2.
    + rewrite contents_set. cbn [snd]. rewrite C, <- some_set. now rewrite set_same.
  - (* Reserve *) pose proof (FND x) as FX. destruct (lookup x (snd st)) eqn:LS, (lookup x s) as [u|] eqn:LX; try tauto.
    pose proof REL as (m & E & I & C). destruct (GL m x u C LX) as (r1 & LM1). unfold reserve, string_reserve_total.
    rewrite E. rewrite (reprs_lookup _ _ _ LM1). cbn [fst]. destruct (Nat.ltb (cap r1) n).
    + destruct (P_reserve _ _ x r1 u (n - len r1) I LM1) as (r2 & h2 & -> & J & CA). cbn [done].
      eexists. split; [reflexivity|]. eexists. cbn [fst]. split; [reflexivity|]. split; [exact J|].
      rewrite contents_set. cbn [snd]. rewrite C, <- some_set. now rewrite set_same.
    + cbn [done]. eexists. split; [reflexivity|]. now rewrite <- E.
  - (* Write *) pose proof (FND x) as FX. destruct (lookup x (snd st)) as [r0|] eqn:LS, (lookup x s) as [u|] eqn:LX; try tauto.
    pose proof REL as (m & E & I & C). destruct (GL m x u C LX) as (r1 & LM1). unfold write_byte.
    rewrite E in LS |- *. cbn [snd] in LS. rewrite (reprs_lookup _ _ _ LM1) in LS |- *. cbn [fst] in *. injection LS as <-.
    pose proof (inv_lookup _ _ _ _ _ _ _ I LM1) as O1. rewrite (r_ok_len _ _ _ O1).
    destruct (Nat.ltb_spec i (List.length u)) as [LT|]; [|reflexivity].
    pose proof (r_ok_cap _ _ _ O1) as CA. rewrite (r_ok_len _ _ _ O1) in CA.
    destruct (poke_ok r1 (fst st) u i b O1 ltac:(lia)) as (a & k & B & CE & ->). cbn [done].
    pose proof O1 as O3. unfold r_ok in O3. rewrite B in O3. destruct O3 as (k' & rest & CE' & EK & LE & CL). rewrite CE in CE'. injection CE' as <-.
    eexists. split; [reflexivity|]. exists (set x (r1, Some (replace u i b)) m). cbn [fst]. split; [|split].
    + rewrite <- reprs_set. cbn [fst]. rewrite set_same; [reflexivity|]. now rewrite (reprs_lookup _ _ _ LM1).
    + eapply moves_update; eauto. cbn. eapply moves_poke; eauto; try congruence. 3: now rewrite set_nth_length.
      * exists rest. rewrite EK, set_nth_app1 by (rewrite map_length; lia). now rewrite set_nth_replace.
      * unfold replace. rewrite app_length, firstn_length. cbn [List.length]. rewrite skipn_length. lia.
    + rewrite contents_set. cbn [snd]. now rewrite C, some_set.
  - (* Append *) pose proof (FND x) as FX. destruct (lookup x (snd st)) eqn:LS, (lookup x s) as [u|] eqn:LX; try tauto.
    pose proof REL as (m & E & I & C). destruct (GL m x u C LX) as (r1 & LM1).
    rewrite E. destruct (append_ok bytes _ _ x r1 u I LM1) as (r2 & h2 & -> & J). cbn [done].
    eexists. split; [reflexivity|]. eexists. cbn [fst]. split; [reflexivity|]. split; [exact J|].
    rewrite contents_set. cbn [snd]. now rewrite C, some_set.
Qed.

Lemma run_ok ops : forall st s, rel st s ->
  match run slack valid ops st with
  | (Illegal, t) => spec_run valid ops s = (Illegal, t)
  | (UB, _) => False
  | (Ok st' ob, t) => exists s', spec_run valid ops s = (Ok s' ob, t) /\ rel st' s'
  end.
Proof.
  induction ops as [|o ops IH]; intros st s R; cbn [run spec_run].
  - eauto.
  - pose proof (step_ok o st s R) as S. destruct (step slack valid o st) as [| |st' ob].
    + now rewrite S.
    + exact S.
    + destruct S as (s' & -> & R'). specialize (IH st' s' R').
      destruct (run slack valid ops st') as [[| |st2 ob2] t].
      * now rewrite IH.
      * exact IH.
      * destruct IH as (s2 & -> & R2). eauto.
Qed.
End P.
Lemma rel_init : rel ([], []) [].
Proof. exists []. cbn. repeat split; auto; try constructor. intros a. unfold cell. destruct a; cbn; congruence. Qed.
