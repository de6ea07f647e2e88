(** Proofs about rust::Vec in C++. *)
From Verif Require Import Base Store_Lib RVec_Model RVec_Spec.
Require Import Lia.

Notation hp := (list (option (list (option nat)))).
Definition v_own (r : repr) : list nat := match buf r with Some a => [a] | None => [] end.
Definition v_ok (h : hp) (r : repr) (t : list nat) : Prop :=
  match buf r with
  | None => t = [] /\ len r = 0 /\ cap r = 0
  | Some a => exists b rest, cell h a = Some b /\ b = map Some t ++ rest /\ len r = List.length t /\ cap r = List.length b
  end.
Lemma v_ok_live h r t a : v_ok h r t -> In a (v_own r) -> cell h a <> None.
Proof. unfold v_ok, v_own. destruct (buf r); cbn; [|tauto]. intros (b & rest & E & _) [<-|[]]. congruence. Qed.
Lemma v_ok_frame h h' r t : v_ok h r t -> (forall a, In a (v_own r) -> cell h' a = cell h a) -> v_ok h' r t.
Proof.
  unfold v_ok, v_own. destruct (buf r); cbn; auto. intros (b & rest & E & ? & ? & ?) F. exists b, rest. rewrite F by auto. auto.
Qed.
Lemma v_own_nodup h r t : v_ok h r t -> NoDup (v_own r).
Proof. intros _. unfold v_own. destruct (buf r); repeat constructor. intros []. Qed.
Lemma v_ok_len h r t : v_ok h r t -> len r = List.length t.
Proof. unfold v_ok. destruct (buf r). - now intros (? & ? & ? & ? & ? & ?). - intros (-> & -> & _). reflexivity. Qed.
Lemma v_ok_cap h r t : v_ok h r t -> len r <= cap r.
Proof.
  unfold v_ok. destruct (buf r). - intros (b & rest & ? & E & L & ->). rewrite E, app_length, map_length. lia.
  - intros (_ & -> & ->). lia.
Qed.
Notation ginv := (inv v_own v_ok).
Notation ghost := (list (nat * (repr * option (list nat)))).

Lemma all_objects_map t : all_objects (map Some t) = Some t.
Proof. induction t as [|b t IH]; cbn; [reflexivity|]. now rewrite IH. Qed.
Lemma firstn_map_app {A} (t : list A) rest n : n = List.length t -> firstn n (map Some t ++ rest) = map Some t.
Proof.
  intros ->. rewrite firstn_app, map_length, Nat.sub_diag, firstn_O, app_nil_r. rewrite firstn_all2; [reflexivity|]. rewrite map_length. lia.
Qed.
Lemma skipn_map' {A B} (f : A -> B) n l : skipn n (map f l) = map f (skipn n l).
Proof. revert n. induction l as [|x l IH]; intros [|n]; cbn; auto. Qed.
Lemma tail_ok n h r t : v_ok h r t -> v_tail n r h = Some (skipn n t).
Proof.
  unfold v_ok, v_tail. destruct (buf r) as [a|].
  - intros (b & rest & E & -> & L & C). rewrite E, L, app_length, map_length. rewrite (proj2 (Nat.leb_le _ _)) by lia.
    rewrite firstn_map_app by auto. rewrite skipn_map'. apply all_objects_map.
  - intros (-> & -> & _). now rewrite skipn_nil.
Qed.

(** a representation [r'] in [h'] in place of [r] in [h] *)
Record moves (r : list nat) (h : hp) (r' : repr) (h' : hp) (t : list nat) : Prop := Moves {
  mv_ok : v_ok h' r' t;
  mv_frame : forall a, cell h a <> None -> ~ In a r -> cell h' a = cell h a;
  mv_own : forall a, In a (v_own r') -> In a r \/ cell h a = None;
  mv_all : forall a, cell h' a <> None -> In a (v_own r') \/ (cell h a <> None /\ ~ In a r) }.
Lemma moves_update h m x s r' h' t : ginv h m -> lookup x m = Some s -> moves (owned1 v_own s) h r' h' t -> ginv h' (set x (r', Some t) m).
Proof. intros I L [O F W A]. eapply inv_update; eauto using v_ok_live, v_ok_frame, v_own_nodup. Qed.
Lemma moves_new h : moves [] h v_new h [].
Proof. constructor; cbn; try tauto. Qed.
Lemma moves_refl h r t : v_ok h r t -> moves (v_own r) h r h t.
Proof. intros O. constructor; auto. intros a J. destruct (in_dec Nat.eq_dec a (v_own r)); auto. Qed.
Lemma moves_trans r h r1 h1 t1 r2 h2 t2 : (forall a, In a r -> cell h a <> None) ->
  moves r h r1 h1 t1 -> moves (v_own r1) h1 r2 h2 t2 -> moves r h r2 h2 t2.
Proof.
  intros LV [O1 F1 W1 A1] [O2 F2 W2 A2]. constructor; auto.
  - intros a L N. assert (N1 : ~ In a (v_own r1)) by (intros J; destruct (W1 a J); congruence).
    rewrite F2; auto. rewrite F1; auto.
  - intros a J. destruct (W2 a J) as [K|K]; auto. destruct (in_dec Nat.eq_dec a r) as [I|I]; auto.
    right. destruct (cell h a) eqn:E; auto. exfalso. rewrite F1 in K; congruence.
  - intros a J. destruct (A2 a J) as [K|[K1 K2]]; auto. destruct (A1 a K1) as [K|K]; [contradiction|auto].
Qed.

Lemma set_nth_length {A} i (v : A) l : List.length (set_nth i v l) = List.length l.
Proof. revert i. induction l as [|x l IH]; intros [|i]; cbn; auto. Qed.
Lemma set_nth_app1 {A} (l1 l2 : list A) i v : i < List.length l1 -> set_nth i v (l1 ++ l2) = set_nth i v l1 ++ l2.
Proof. revert i. induction l1 as [|x l IH]; intros [|i] L; cbn in *; try lia; auto. now rewrite IH by lia. Qed.
Lemma set_nth_app2 {A} (l1 l2 : list A) v x : set_nth (List.length l1) v (l1 ++ x :: l2) = l1 ++ v :: l2.
Proof. induction l1 as [|y l IH]; cbn; auto. now rewrite IH. Qed.
Lemma set_nth_replace t i b : i < List.length t -> set_nth i (Some b) (map Some t) = map Some (replace t i b).
Proof. unfold replace. revert i. induction t as [|x l IH]; intros [|i] L; cbn in *; try lia; auto. now rewrite IH by lia. Qed.
Lemma poke_ok r h t i b : v_ok h r t -> i < cap r -> exists a bytes, buf r = Some a /\ cell h a = Some bytes /\
  v_poke r i b h = Some (set_cell a (Some (set_nth i (Some b) bytes)) h).
Proof.
  unfold v_ok, v_poke, store. destruct (buf r) as [a|]; cbn [bind].
  - intros (bytes & rest & E & EB & L & C) LT. exists a, bytes. rewrite E. cbn [bind]. rewrite (proj2 (Nat.ltb_lt _ _)) by lia. auto.
  - intros (_ & _ & ->). lia.
Qed.
Lemma moves_poke r h a bytes r' t : buf r = Some a -> buf r' = Some a -> cell h a <> None ->
  (exists rest, bytes = map Some t ++ rest) -> len r' = List.length t -> cap r' = List.length bytes ->
  moves (v_own r) h r' (set_cell a (Some bytes) h) t.
Proof.
  intros B B' L (rest & E) LE C. constructor; unfold v_own; rewrite ?B, ?B'; cbn -[cell].
  - unfold v_ok. rewrite B'. exists bytes, rest. rewrite cell_set_same by auto. auto.
  - intros c _ N. apply cell_set_other. intros ->. apply N. now left.
  - auto.
  - intros c J. destruct (Nat.eq_dec c a) as [->|N]; auto. rewrite cell_set_other in J by auto. right. split; auto. intros [->|[]]; auto.
Qed.
Lemma put_reprs (m : ghost) x s h r o : lookup x m = Some s -> put x r h (reprs m) = Some (h, reprs (set x (r, o) m)).
Proof. intros L. unfold put. rewrite (g_reprs_found _ _ _ L). now rewrite <- (g_reprs_set m x (r, o)). Qed.
Lemma Forall2_impl {A B} (P Q : A -> B -> Prop) l1 l2 : (forall a b, P a b -> Q a b) -> Forall2 P l1 l2 -> Forall2 Q l1 l2.
Proof. intros H F. induction F; constructor; auto. Qed.

Section P.
Variable slack : nat -> nat.

Lemma reserve_ok n r h t : v_ok h r t -> exists r' h', v_reserve slack n r h = Some (r', h') /\ moves (v_own r) h r' h' t /\ n <= cap r' - len r'.
Proof.
  intros O. unfold v_reserve. destruct (Nat.leb_spec n (cap r - len r)) as [L|L].
  - exists r, h. repeat split; auto; try tauto. intros a J. destruct (in_dec Nat.eq_dec a (v_own r)); auto.
  - pose proof (v_ok_len _ _ _ O) as LE. pose proof (v_ok_cap _ _ _ O) as CA.
    unfold v_ok in O. unfold v_own. destruct (buf r) as [a|] eqn:B.
    + destruct O as (b & rest & E & EB & _ & C). rewrite E. unfold free. cbn [bind]. rewrite E. cbn [bind].
      set (k := b ++ _). cbn [alloc]. rewrite length_set.
      assert (CE : forall c, cell (set_cell a None h ++ [Some k]) c <> None -> c = List.length h \/ (cell h c <> None /\ c <> a)).
      { intros c J. apply cell_app_inv in J as [J|J].
        - left. now rewrite length_set in J.
        - right. destruct (Nat.eq_dec c a) as [->|N].
          + rewrite cell_set_same in J by congruence. congruence.
          + rewrite cell_set_other in J by auto. auto. }
      do 2 eexists. split; [reflexivity|]. split; [|cbn; lia]. constructor; cbn -[cell set_cell].
      * exists k, (rest ++ repeat None (len r + n + slack (len r + n) - List.length b)).
        rewrite <- (length_set h a None) at 1. rewrite cell_app_new. repeat split; auto.
        -- unfold k. rewrite EB at 1. now rewrite app_assoc.
        -- unfold k. rewrite app_length, repeat_length. lia.
      * intros c J N. rewrite cell_app_old; rewrite cell_set_other by (intros ->; apply N; cbn; auto); auto.
      * intros c [<-|[]]. right. apply fresh_cell.
      * intros c J. destruct (CE c J) as [->|[J1 J2]]; auto. right. split; auto. intros [->|[]]; auto.
    + destruct O as (-> & Z & CZ). rewrite Z in *. cbn [alloc]. do 2 eexists. split; [reflexivity|]. split; [|cbn; lia].
      constructor; cbn -[cell repeat].
      * exists (repeat None (n + slack n)), (repeat None (n + slack n)). rewrite cell_app_new, repeat_length. auto.
      * intros c J _. now apply cell_app_old.
      * intros c [<-|[]]. right. apply fresh_cell.
      * intros c J. apply cell_app_inv in J as [->|J]; auto.
Qed.

(** the functions on a state described by [m]; all say what happens to the cells of others *)
Lemma V_new h (m : ghost) x r : ginv h m -> lookup x m = Some (r, None) ->
  vec_new x (h, reprs m) = Some (h, reprs (set x (v_new, Some []) m)) /\ ginv h (set x (v_new, Some []) m).
Proof.
  intros I L. split.
  - cbn. apply (put_reprs m x _ h (v_new) (Some []) L).
  - eapply moves_update; eauto. cbn. apply moves_new.
Qed.
Lemma V_drop h (m : ghost) x r t : ginv h m -> lookup x m = Some (r, Some t) ->
  exists h', vec_drop x (h, reprs m) = Some ((h', reprs (set x (r, None) m)), t) /\ ginv h' (set x (r, None) m).
Proof.
  intros I L. unfold vec_drop. rewrite (g_reprs_found _ _ _ L). cbn [fst bind].
  rewrite (g_reprs_keep m x r _ None L).
  pose proof (inv_lookup _ _ _ _ _ _ _ I L) as O. unfold v_drop. rewrite (tail_ok 0 _ _ _ O). cbn [bind skipn].
  assert (U : forall h', (forall a, cell h a <> None -> ~ In a (v_own r) -> cell h' a = cell h a) ->
    (forall a, cell h' a <> None -> cell h a <> None /\ ~ In a (v_own r)) -> ginv h' (set x (r, None) m)).
  { intros h' F A. eapply inv_update; eauto using v_ok_live, v_ok_frame, v_own_nodup; cbn; tauto. }
  unfold v_own in U. destruct (buf r) as [a|] eqn:B.
  - unfold v_ok in O. rewrite B in O. destruct O as (b & ? & C & _). unfold free. rewrite C. cbn [bind]. eexists. split; [reflexivity|].
    apply U.
    + intros c _ N. apply cell_set_other. intros ->. apply N. now left.
    + intros c J. destruct (Nat.eq_dec c a) as [->|N].
      * rewrite cell_set_same in J by congruence. congruence.
      * rewrite cell_set_other in J by auto. cbn. intuition.
  - eexists. split; [reflexivity|]. apply U; auto.
Qed.
Lemma V_reserve h (m : ghost) x r t n : ginv h m -> lookup x m = Some (r, Some t) ->
  exists r' h', reserve_total slack x n (h, reprs m) = Some (h', reprs (set x (r', Some t) m)) /\ moves (v_own r) h r' h' t
    /\ n <= cap r' /\ (n <= cap r -> r' = r /\ h' = h).
Proof.
  intros I L. unfold reserve_total. rewrite (g_reprs_found _ _ _ L). cbn [fst bind]. pose proof (inv_lookup _ _ _ _ _ _ _ I L) as O.
  pose proof (v_ok_cap _ _ _ O) as CA. pose proof (v_ok_len _ _ _ O) as LE.
  destruct (Nat.ltb_spec (cap r) n) as [LT|GE].
  - destruct (reserve_ok (n - len r) r h t O) as (r' & h' & E & M & C). rewrite E. cbn [bind].
    exists r', h'. split; [|split; [exact M|split]].
    + apply (put_reprs m x _ h' (r') (Some t) L).
    + pose proof (v_ok_len _ _ _ (mv_ok _ _ _ _ _ M)). pose proof (v_ok_cap _ _ _ (mv_ok _ _ _ _ _ M)). lia.
    + lia.
  - exists r, h. split; [|split; [|split]]; auto.
    + now rewrite (set_same x _ m).
    + now apply moves_refl.
Qed.
(** an argument that stays readable while [x] grows *)
Definition stable (h : hp) (own : list nat) (r : ref) (v : nat) : Prop :=
  match r with
  | Temp w => v = w
  | Slot a i => ~ In a own /\ exists b, cell h a = Some b /\ nth_error b i = Some (Some v)
  end.
Lemma stable_read h h' own r v : stable h own r v -> (forall a, cell h a <> None -> ~ In a own -> cell h' a = cell h a) -> read r h' = Some v.
Proof.
  destruct r as [w|a i]; cbn -[cell].
  - now intros ->.
  - intros (N & b & C & E) F. rewrite F by (auto; congruence). rewrite C. cbn. now rewrite E.
Qed.
Lemma stable_moves h own r v r' h' t : stable h own r v -> moves own h r' h' t -> stable h' (v_own r') r v.
Proof.
  destruct r as [w|a i]; cbn -[cell]; auto. intros (N & b & C & E) [O F W A]. split.
  - intros J. destruct (W a J); congruence.
  - exists b. rewrite F; auto. congruence.
Qed.
Lemma V_emplace h (m : ghost) x r t rf v (throws : bool) : ginv h m -> lookup x m = Some (r, Some t) ->
  (stable h (v_own r) rf v \/ (len r < cap r /\ read rf h = Some v)) ->
  exists r' h', let t' := if throws then t else t ++ [v] in
    emplace_back slack x rf throws (h, reprs m) = Some ((h', reprs (set x (r', Some t') m)), throws) /\ moves (v_own r) h r' h' t'.
Proof.
  intros I L ST. unfold emplace_back. cbn [snd]. rewrite (g_reprs_found _ _ _ L). cbn [fst bind].
  pose proof (inv_lookup _ _ _ _ _ _ _ I L) as O.
  destruct (V_reserve h m x r t (len r + 1) I L) as (r1 & h1 & -> & M1 & C1 & S1). cbn [bind].
  assert (RD : read rf h1 = Some v).
  { destruct ST as [ST|[LT RD]].
    - eapply stable_read; eauto. apply (mv_frame _ _ _ _ _ M1).
    - destruct S1 as [_ ->]; auto. lia. }
  rewrite RD. cbn [bind]. destruct throws; [eauto|].
  assert (L1 : lookup x (set x (r1, Some t) m) = Some (r1, Some t)) by (apply lookup_set_same; congruence).
  rewrite (g_reprs_found _ _ _ L1). cbn [fst bind].
  pose proof (mv_ok _ _ _ _ _ M1) as O1. pose proof (v_ok_len _ _ _ O) as LE. pose proof (v_ok_len _ _ _ O1) as LE1.
  destruct (poke_ok r1 h1 t (len r) v O1 ltac:(lia)) as (a & k & B & CE & ->). cbn [bind].
  unfold v_ok in O1. rewrite B in O1. destruct O1 as (k' & rest & CE' & EK & _ & CL). rewrite CE in CE'. injection CE' as <-.
  assert (M2 : moves (v_own r1) h1 (Repr (buf r1) (len r + 1) (cap r1)) (set_cell a (Some (set_nth (len r) (Some v) k)) h1) (t ++ [v])).
  { eapply moves_poke; eauto; cbn.
    - congruence.
    - destruct rest as [|z rest]; [rewrite app_nil_r in EK; rewrite EK, map_length in CL; lia|].
      exists rest. rewrite EK, LE, <- (map_length Some t), set_nth_app2, map_app, <- app_assoc. reflexivity.
    - rewrite app_length. cbn. lia.
    - now rewrite set_nth_length. }
  unfold set_len. rewrite (g_reprs_found _ _ _ L1). cbn [fst bind].
  rewrite (put_reprs _ x _ _ (Repr (buf r1) (len r + 1) (cap r1)) (Some (t ++ [v])) L1). cbn [bind]. rewrite set_set.
  do 2 eexists. split; [reflexivity|]. eapply moves_trans; eauto. intros c J. eapply v_ok_live; eauto.
Qed.
Lemma V_push_all refs : forall vals h (m : ghost) x r t limit, ginv h m -> lookup x m = Some (r, Some t) ->
  Forall2 (stable h (v_own r)) refs vals ->
  exists r' h', let t' := t ++ match copied vals limit with Some l => l | None => vals end in
    push_all slack x refs limit (h, reprs m) = Some ((h', reprs (set x (r', Some t') m)), match copied vals limit with Some _ => true | None => false end)
    /\ moves (v_own r) h r' h' t'.
Proof.
  induction refs as [|rf refs IH]; intros vals h m x r t limit I L F; inversion F as [|? v ? vals' SV F']; subst.
  - assert (CN : copied [] limit = None) by (destruct limit; reflexivity). rewrite CN. cbv zeta. cbn [push_all]. rewrite app_nil_r.
    exists r, h. rewrite (set_same x _ m) by auto. split; auto. apply moves_refl. eapply inv_lookup; eauto.
  - assert (STEP : forall lim, exists r' h', let t' := t ++ v :: match copied vals' lim with Some l => l | None => vals' end in
      bind (emplace_back slack x rf false (h, reprs m)) (fun '(st, _) => push_all slack x refs lim st)
       = Some ((h', reprs (set x (r', Some t') m)), match copied vals' lim with Some _ => true | None => false end) /\ moves (v_own r) h r' h' t').
    { intros lim. destruct (V_emplace h m x r t rf v false I L (or_introl SV)) as (r1 & h1 & E1 & M1). cbv zeta in E1, M1. rewrite E1. cbn [bind].
      pose proof (moves_update h m x _ _ _ _ I L M1) as I1.
      assert (L1 : lookup x (set x (r1, Some (t ++ [v])) m) = Some (r1, Some (t ++ [v]))) by (apply lookup_set_same; congruence).
      destruct (IH vals' h1 _ x r1 _ lim I1 L1) as (r2 & h2 & E2 & M2).
      { eapply Forall2_impl; [|exact F']. intros a b S. eapply stable_moves; eauto. }
      cbv zeta in E2, M2. rewrite set_set in E2. rewrite <- !app_assoc in *. cbn [app] in *. rewrite E2. do 2 eexists. split; [reflexivity|].
      eapply moves_trans; eauto. intros c J. eapply v_ok_live; eauto. eapply inv_lookup; eauto. }
    cbn [push_all]. destruct limit as [[|k]|].
    + destruct (V_emplace h m x r t rf v true I L (or_introl SV)) as (r1 & h1 & E1 & M1). cbv zeta in E1, M1. rewrite E1.
      cbn. rewrite app_nil_r. eauto.
    + destruct (STEP (Some k)) as (r2 & h2 & E2 & M2). cbv zeta in E2, M2. rewrite E2.
      unfold copied in *. cbn [List.length]. change (Nat.ltb (S k) (S (List.length vals'))) with (Nat.ltb k (List.length vals')).
      destruct (Nat.ltb k (List.length vals')); cbn [firstn] in *; eauto.
    + destruct (STEP None) as (r2 & h2 & E2 & M2). cbv zeta in E2, M2. rewrite E2. cbn [copied] in *. eauto.
Qed.
Lemma V_construct refs vals h (m : ghost) x r limit : ginv h m -> lookup x m = Some (r, None) ->
  Forall2 (stable h []) refs vals ->
  exists r' h',
    match copied vals limit with
    | None => construct slack x refs limit (h, reprs m) = Some ((h', reprs (set x (r', Some vals) m)), [], false) /\ ginv h' (set x (r', Some vals) m)
    | Some gone => construct slack x refs limit (h, reprs m) = Some ((h', reprs (set x (r', None) m)), gone, true) /\ ginv h' (set x (r', None) m)
    end.
Proof.
  intros I L F. unfold construct. destruct (V_new h m x r I L) as [-> I0]. cbn [bind].
  assert (L0 : lookup x (set x (v_new, Some []) m) = Some (v_new, Some [])) by (apply lookup_set_same; congruence).
  destruct (V_reserve h _ x _ _ (List.length refs) I0 L0) as (r1 & h1 & -> & M1 & _). cbn [bind]. rewrite set_set.
  pose proof (moves_update _ _ x _ _ _ _ I0 L0 M1) as I1. rewrite set_set in I1.
  assert (L1 : lookup x (set x (r1, Some []) m) = Some (r1, Some [])) by (apply lookup_set_same; congruence).
  assert (F1 : Forall2 (stable h1 (v_own r1)) refs vals).
  { eapply Forall2_impl; [|exact F]. intros a b S. eapply stable_moves; eauto. }
  destruct (V_push_all refs vals h1 _ x r1 [] limit I1 L1 F1) as (r2 & h2 & E2 & M2). cbv zeta in E2, M2. rewrite set_set in E2. rewrite E2. cbn [bind app] in *.
  pose proof (moves_update _ _ x _ _ _ _ I1 L1 M2) as I2. rewrite set_set in I2.
  destruct (copied vals limit) as [gone|].
  - assert (L2 : lookup x (set x (r2, Some gone) m) = Some (r2, Some gone)) by (apply lookup_set_same; congruence).
    destruct (V_drop _ _ x r2 _ I2 L2) as (h3 & -> & I3). cbn [bind]. rewrite set_set in *. eauto.
  - eauto.
Qed.
Lemma V_truncate h (m : ghost) x r t n : ginv h m -> lookup x m = Some (r, Some t) ->
  exists r' h', vec_truncate x n (h, reprs m) = Some ((h', reprs (set x (r', Some (firstn n t)) m)), skipn n t) /\ ginv h' (set x (r', Some (firstn n t)) m).
Proof.
  intros I L. unfold vec_truncate, v_truncate. rewrite (g_reprs_found _ _ _ L). cbn [fst bind].
  pose proof (inv_lookup _ _ _ _ _ _ _ I L) as O. pose proof (v_ok_len _ _ _ O) as LE.
  destruct (Nat.leb_spec (len r) n) as [GE|LT].
  - cbn [bind]. rewrite firstn_all2, skipn_all2 by lia. rewrite (put_reprs m x _ h (r) (Some t) L). cbn [bind].
    exists r, h. rewrite (set_same x _ m) by auto. auto.
  - rewrite (tail_ok n _ _ _ O). cbn [bind]. pose proof O as O'. unfold v_ok in O'. destruct (buf r) as [a|] eqn:B; [|destruct O' as (-> & ?); cbn in LE; lia].
    destruct O' as (b & rest & CE & EB & _ & CA). cbn [bind]. rewrite CE. cbn [bind]. unfold store. rewrite CE. cbn [bind].
    rewrite (put_reprs m x _ _ (Repr (Some a) n (cap r)) (Some (firstn n t)) L). cbn [bind]. do 2 eexists. split; [reflexivity|].
    assert (LB : List.length b = List.length t + List.length rest) by (rewrite EB, app_length, map_length; reflexivity).
    eapply moves_update; eauto. cbn. eapply moves_poke; eauto; cbn.
    + congruence.
    + eexists. rewrite EB at 1. rewrite firstn_app, map_length. replace (n - List.length t) with 0 by lia.
      rewrite firstn_O, app_nil_r, firstn_map. reflexivity.
    + rewrite firstn_length. lia.
    + rewrite !app_length, firstn_length, repeat_length, skipn_length. lia.
Qed.

(** references to the elements of a vector are stable for the others *)
Lemma elem_stable h (m : ghost) y r t own : ginv h m -> lookup y m = Some (r, Some t) -> (forall a, In a (v_own r) -> ~ In a own) ->
  exists refs, refs_of y (h, reprs m) = Some refs /\ Forall2 (stable h own) refs t.
Proof.
  intros I L D. unfold refs_of. cbn [snd]. rewrite (g_reprs_found _ _ _ L). cbn [fst bind].
  pose proof (inv_lookup _ _ _ _ _ _ _ I L) as O. unfold v_ok in O. unfold v_own in D. destruct (buf r) as [a|].
  - destruct O as (b & rest & CE & EB & LE & _). eexists. split; [reflexivity|]. rewrite LE.
    assert (G : forall pre t0, t = pre ++ t0 -> Forall2 (stable h own) (map (Slot a) (seq (List.length pre) (List.length t0))) t0).
    { intros pre t0. revert pre. induction t0 as [|v t0 IH]; intros pre E; cbn [List.length seq map]; [constructor|]. constructor.
      - cbn -[cell]. split; [apply D; now left|]. exists b. split; auto. rewrite EB, E, map_app, <- app_assoc.
        rewrite nth_error_app2 by (rewrite map_length; lia). rewrite map_length, Nat.sub_diag. reflexivity.
      - specialize (IH (pre ++ [v])). rewrite app_length in IH. cbn in IH. rewrite Nat.add_1_r in IH. apply IH. rewrite E, <- app_assoc. reflexivity. }
    apply (G [] t eq_refl).
  - destruct O as (-> & -> & _). eauto.
Qed.
Lemma index_ok h (m : ghost) x r t i v : ginv h m -> lookup x m = Some (r, Some t) -> nth_error t i = Some v ->
  exists a, buf r = Some a /\ index x i (h, reprs m) = Some (Slot a i) /\ read (Slot a i) h = Some v
    /\ exists b, cell h a = Some b /\ nth_error b i = Some (Some v).
Proof.
  intros I L E. unfold index. cbn [snd]. rewrite (g_reprs_found _ _ _ L). cbn [fst bind].
  pose proof (inv_lookup _ _ _ _ _ _ _ I L) as O. unfold v_ok in O. destruct (buf r) as [a|].
  - destruct O as (b & rest & CE & EB & LE & _). exists a. repeat split; auto.
    + cbn [read]. rewrite CE. cbn [bind]. rewrite EB. rewrite nth_error_app1 by (rewrite map_length; apply nth_error_Some; congruence).
      now rewrite nth_error_map, E.
    + exists b. split; auto. rewrite EB. rewrite nth_error_app1 by (rewrite map_length; apply nth_error_Some; congruence).
      now rewrite nth_error_map, E.
  - destruct O as (-> & _). destruct i; discriminate.
Qed.
(** two variables own different buffers *)
Lemma own_disjoint h (m : ghost) x y r t r' t' a : x <> y -> ginv h m -> lookup x m = Some (r, Some t) -> lookup y m = Some (r', Some t') ->
  In a (v_own r') -> ~ In a (v_own r).
Proof.
  intros N [_ ND _] LX LY J J'. destruct (set_swap_perm m x y _ _ N LX LY) as (rest & P & _).
  assert (Q : NoDup (owned v_own ((x, (r, Some t)) :: (y, (r', Some t')) :: rest))).
  { eapply Permutation.Permutation_NoDup; [|exact ND]. unfold owned. now apply Permutation.Permutation_flat_map. }
  cbn in Q. unfold owned1 in Q. cbn [snd fst] in Q. unfold v_own in J, J', Q.
  destruct (buf r), (buf r'); cbn in *; try tauto. inversion Q; subst. destruct J as [->|[]], J' as [->|[]]. apply H1. now left.
Qed.

(** * Programs *)
Definition rel (st : hp * list (nat * repr)) (s : list (nat * list nat)) : Prop :=
  exists m : ghost, snd st = reprs m /\ ginv (fst st) m /\ contents m = full s.

Lemma step_ok o st s : rel st s -> careful o st = true ->
  match step slack o st with
  | Illegal => spec_step o s = Illegal
  | UB => False
  | Ok st' ob => exists s', spec_step o s = Ok s' ob /\ rel st' s'
  end.
Proof.
  destruct st as [h e]. intros (m & E & I & C) CF. cbn [fst snd] in E, I. subst e.
  assert (FND : forall x, match lookup x s with
    | Some t => exists r, lookup x m = Some (r, Some t) /\ lookup x (reprs m) = Some r /\ v_ok h r t
    | None => lookup x m = None /\ lookup x (reprs m) = None end).
  { intros x. rewrite g_reprs_lookup. destruct (lookup x s) as [t|] eqn:L.
    - destruct (g_found m s x C _ L) as (r & LM). exists r. rewrite LM. repeat split; auto. eapply inv_lookup; eauto.
    - now rewrite (g_missing m s x C L). }
  assert (ID : ginv h ((0, (v_new, None)) :: m)) by now apply inv_declare.
  assert (DECL : forall x, ginv h ((x, (v_new, None)) :: m)) by (intros; now apply inv_declare).
  clear ID.
  assert (SAME : forall x t, lookup x s = Some t -> rel (h, reprs m) s) by (intros; exists m; auto).
  destruct o; cbn [step spec_step]; unfold fresh, needs; cbn [snd fst].
  - (* New *) specialize (FND x). destruct (lookup x s); [now destruct FND as (r & _ & -> & _)|]. destruct FND as [LM ->].
    unfold declare. cbn [fst snd]. change ((x, v_new) :: reprs m) with (reprs ((x, (v_new, @None (list nat))) :: m)).
    destruct (V_new h _ x _ (DECL x) (lookup_here _ _ _)) as [-> J]. cbn [ret0]. eexists. split; [reflexivity|].
    rewrite set_here in *. eexists. split; [reflexivity|]. split; [exact J|]. rewrite g_contents_cons, full_cons. now rewrite C.
  - (* FromList *) specialize (FND x). destruct (lookup x s); [now destruct FND as (r & _ & -> & _)|]. destruct FND as [LM ->].
    unfold declare. cbn [fst snd]. change ((x, v_new) :: reprs m) with (reprs ((x, (v_new, @None (list nat))) :: m)).
    destruct (V_construct (map Temp l) l h _ x v_new limit (DECL x) (lookup_here _ _ _)) as (r' & h' & K).
    { clear. induction l; cbn; constructor; auto. reflexivity. }
    destruct (copied l limit) as [gone|]; destruct K as [-> J]; cbn [ret_ctor]; rewrite set_here in *; (eexists; split; [reflexivity|]).
    + exists m. unfold forget. cbn [fst snd]. split; [|split; [|exact C]].
      * cbn. now rewrite Nat.eqb_refl.
      * pose proof (inv_forget v_own v_ok h' _ x r' J (lookup_here _ _ _)) as J2. cbn [remove] in J2. now rewrite Nat.eqb_refl in J2.
    + eexists. split; [reflexivity|]. split; [exact J|]. rewrite g_contents_cons, full_cons. now rewrite C.
  - (* Copy *) pose proof (FND x) as FX. pose proof (FND y) as FY.
    destruct (lookup x s) eqn:LX; [now destruct FX as (r & _ & -> & _)|]. destruct FX as [LM ->].
    destruct (lookup y s) as [t|] eqn:LY; [|now destruct FY as [_ ->]]. destruct FY as (ry & LYM & -> & OY).
    destruct (elem_stable h m y ry t [] I LYM ltac:(auto)) as (refs & -> & ST). cbn [bind].
    unfold declare. cbn [fst snd]. change ((x, v_new) :: reprs m) with (reprs ((x, (v_new, @None (list nat))) :: m)).
    destruct (V_construct refs t h _ x v_new limit (DECL x) (lookup_here _ _ _) ST) as (r' & h' & K).
    destruct (copied t limit) as [gone|]; destruct K as [-> J]; cbn [ret_ctor]; rewrite set_here in *; (eexists; split; [reflexivity|]).
    + exists m. unfold forget. cbn [fst snd]. split; [|split; [|exact C]].
      * cbn. now rewrite Nat.eqb_refl.
      * pose proof (inv_forget v_own v_ok h' _ x r' J (lookup_here _ _ _)) as J2. cbn [remove] in J2. now rewrite Nat.eqb_refl in J2.
    + eexists. split; [reflexivity|]. split; [exact J|]. rewrite g_contents_cons, full_cons. now rewrite C.
  - (* Move *) pose proof (FND x) as FX. pose proof (FND y) as FY.
    destruct (lookup x s) eqn:LX; [now destruct FX as (r & _ & -> & _)|]. destruct FX as [LM ->].
    destruct (lookup y s) as [t|] eqn:LY; [|now destruct FY as [_ ->]]. destruct FY as (ry & LYM & -> & OY).
    assert (N : x <> y) by congruence. unfold ctor_move, declare. cbn [fst snd]. rewrite lookup_past by auto.
    rewrite (g_reprs_found _ _ _ LYM). cbn [bind fst].
    change ((x, v_new) :: reprs m) with (reprs ((x, (v_new, @None (list nat))) :: m)).
    rewrite (put_reprs _ x _ h (ry) (Some t) (lookup_here _ _ _)). cbn [bind].
    assert (LY1 : lookup y ((x, (v_new, None)) :: m) = Some (ry, Some t)) by (rewrite lookup_past; auto).
    pose proof (inv_transfer v_own v_ok v_ok_live v_ok_frame v_own_nodup h _ x y _ _ N (DECL x) (lookup_here _ _ _) LY1) as I2.
    rewrite set_here in *. rewrite set_past in I2 by auto. cbn [fst] in I2.
    assert (L2 : lookup y ((x, (ry, Some t)) :: set y (ry, None) m) = Some (ry, None)).
    { rewrite lookup_past by auto. apply lookup_set_same. congruence. }
    destruct (V_new h _ y ry I2 L2) as [EN I3].
    assert (RE : reprs ((x, (ry, Some t)) :: m) = reprs ((x, (ry, Some t)) :: set y (ry, None) m)).
    { change (reprs ((x, (ry, Some t)) :: m)) with ((x, ry) :: reprs m).
      change (reprs ((x, (ry, Some t)) :: set y (ry, None) m)) with ((x, ry) :: reprs (set y (ry, None) m)). now rewrite (g_reprs_keep m y ry _ None LYM). }
    rewrite RE, EN. cbn [ret0]. eexists. split; [reflexivity|]. rewrite set_past, set_set in * by auto.
    eexists. split; [reflexivity|]. split; [exact I3|]. rewrite g_contents_cons, full_cons, g_contents_set, full_set, C. reflexivity.
  - (* Assign *) pose proof (FND x) as FX. pose proof (FND y) as FY.
    destruct (lookup x s) as [tx|] eqn:LX; [|now destruct FX as [_ ->]]. destruct FX as (rx & LXM & -> & OX).
    destruct (lookup y s) as [t|] eqn:LY; [|now destruct FY as [_ ->]]. destruct FY as (ry & LYM & EY & OY). rewrite EY.
    unfold assign_copy. destruct (Nat.eqb_spec x y) as [->|N]; cbn [negb].
    + cbn. eexists. split; [reflexivity|]. eauto.
    + cbn [careful snd] in CF. assert (CN : copied t limit = None).
      { unfold copied. destruct limit as [k|]; auto. rewrite (proj2 (Nat.eqb_neq x y)) in CF by auto. rewrite EY in CF. apply Nat.leb_le in CF.
        rewrite (v_ok_len _ _ _ OY) in CF. destruct (Nat.ltb_spec k (List.length t)); [lia|reflexivity]. }
      rewrite CN. destruct (V_drop h m x rx tx I LXM) as (h1 & -> & I1). cbn [bind].
      assert (LX1 : lookup x (set x (rx, None) m) = Some (rx, None)) by (apply lookup_set_same; congruence).
      assert (LY1 : lookup y (set x (rx, None) m) = Some (ry, Some t)) by (rewrite lookup_set_other; auto).
      destruct (elem_stable h1 _ y ry t [] I1 LY1 ltac:(auto)) as (refs & -> & ST). cbn [bind].
      destruct (V_construct refs t h1 _ x rx limit I1 LX1 ST) as (r' & h' & K). rewrite CN in K. destruct K as [-> J]. cbn [bind ret2].
      rewrite set_set, app_nil_r in *. eexists. split; [reflexivity|]. eexists. split; [reflexivity|]. split; [exact J|].
      now rewrite g_contents_set, full_set, C.
  - (* MoveAssign *) pose proof (FND x) as FX. pose proof (FND y) as FY.
    destruct (lookup x s) as [tx|] eqn:LX; [|now destruct FX as [_ ->]]. destruct FX as (rx & LXM & -> & OX).
    destruct (lookup y s) as [t|] eqn:LY; [|now destruct FY as [_ ->]]. destruct FY as (ry & LYM & EY & OY). rewrite EY.
    unfold assign_move. destruct (V_drop h m x rx tx I LXM) as (h1 & -> & I1). cbn [bind].
    assert (LX1 : lookup x (set x (rx, None) m) = Some (rx, None)) by (apply lookup_set_same; congruence).
    destruct (Nat.eq_dec x y) as [->|N].
    + rewrite (g_reprs_found _ _ _ LX1). cbn [fst bind]. rewrite (put_reprs _ y _ h1 (rx) (None) LX1). cbn [bind]. rewrite set_set.
      destruct (V_new h1 _ y rx I1 LX1) as [-> I2]. cbn [bind ret1]. rewrite set_set in *. eexists. split; [reflexivity|].
      eexists. split; [reflexivity|]. split; [exact I2|]. rewrite !g_contents_set, full_set, C. cbn [snd]. now rewrite set_set.
    + assert (LY1 : lookup y (set x (rx, None) m) = Some (ry, Some t)) by (rewrite lookup_set_other; auto).
      rewrite (g_reprs_found _ _ _ LY1). cbn [fst bind]. rewrite (put_reprs _ x _ h1 (ry) (Some t) LX1). cbn [bind]. rewrite set_set.
      pose proof (inv_transfer v_own v_ok v_ok_live v_ok_frame v_own_nodup h1 _ x y _ _ N I1 LX1 LY1) as I2. rewrite set_set in I2. cbn [fst] in I2.
      assert (LY2 : lookup y (set x (ry, Some t) m) = Some (ry, Some t)) by (rewrite lookup_set_other; auto).
      rewrite <- (g_reprs_keep (set x (ry, Some t) m) y ry _ None LY2).
      destruct (V_new h1 _ y ry I2 ltac:(apply lookup_set_same; congruence)) as [-> I3]. cbn [bind ret1]. rewrite set_set in *.
      eexists. split; [reflexivity|]. eexists. split; [reflexivity|]. split; [exact I3|]. rewrite !g_contents_set, !full_set, C. reflexivity.
  - (* Swap *) pose proof (FND x) as FX. pose proof (FND y) as FY.
    destruct (lookup x s) as [tx|] eqn:LX; [|now destruct FX as [_ ->]]. destruct FX as (rx & LXM & EX & OX). rewrite EX.
    destruct (lookup y s) as [t|] eqn:LY; [|now destruct FY as [_ ->]]. destruct FY as (ry & LYM & EY & OY). rewrite EY.
    unfold vec_swap. rewrite EX, EY. cbn [bind ret0].
    change ry with (fst (ry, Some t)) at 1. rewrite g_reprs_set. change rx with (fst (rx, Some tx)) at 1. rewrite g_reprs_set.
    eexists. split; [reflexivity|]. eexists. split; [reflexivity|]. split; cbn [fst].
    + destruct (Nat.eq_dec x y) as [->|N].
      * rewrite set_set. rewrite set_same; congruence.
      * eapply inv_swap; eauto.
    + rewrite !g_contents_set, !full_set, C. reflexivity.
  - (* Destroy *) specialize (FND x). destruct (lookup x s) as [t|] eqn:LX; [|now destruct FND as [_ ->]]. destruct FND as (r & LM & -> & O).
    destruct (V_drop h m x r t I LM) as (h1 & -> & I1). cbn [bind ret1]. eexists. split; [reflexivity|].
    exists (remove x m). unfold forget. cbn [fst snd]. split; [|split].
    + rewrite g_reprs_remove. now rewrite remove_set.
    + rewrite <- (remove_set x (r, None) m). eapply inv_forget; eauto. apply lookup_set_same. congruence.
    + now rewrite g_contents_remove, full_remove, C.
  - (* Push *) pose proof (FND x) as FX. destruct (lookup x s) as [t|] eqn:LX; [|now destruct FX as [_ ->]]. destruct FX as (r & LM & EX & O). rewrite EX.
    assert (K : forall rf v, (stable h (v_own r) rf v \/ (len r < cap r /\ read rf h = Some v)) ->
      match ret2 (bind (Some rf) (fun r => bind (emplace_back slack x r throws (h, reprs m)) (fun '(st, thrown) => Some (st, [], thrown)))) with
      | Illegal => False | UB => False
      | Ok st' ob => exists s', (if throws then Ok s (Thrown []) else Ok (set x (t ++ [v]) s) (Done [])) = Ok s' ob /\ rel st' s' end).
    { intros rf v ST. destruct (V_emplace h m x r t rf v throws I LM ST) as (r' & h' & EE & M). cbv zeta in EE, M. cbn [bind]. rewrite EE. cbn [bind ret2].
      pose proof (moves_update _ _ x _ _ _ _ I LM M) as I1. destruct throws; (eexists; split; [reflexivity|]; eexists; split; [reflexivity|]; split; [exact I1|]);
      rewrite g_contents_set, C; cbn [snd]; rewrite <- full_set; [now rewrite set_same|reflexivity]. }
    destruct s0 as [v|y i]; cbn [resolve value].
    + specialize (K (Temp v) v (or_introl eq_refl)). destruct (ret2 _) eqn:RR; [contradiction|contradiction|exact K].
    + cbn [snd]. pose proof (FND y) as FY. destruct (lookup y s) as [ty|] eqn:LY; [|now destruct FY as [_ ->]]. destruct FY as (ry & LYM & EY & OY). rewrite EY.
      rewrite (v_ok_len _ _ _ OY). destruct (Nat.ltb_spec i (List.length ty)) as [LT|GE].
      * destruct (nth_error ty i) as [v|] eqn:NE; [|apply nth_error_None in NE; lia].
        destruct (index_ok h m y ry ty i v I LYM NE) as (a & B & -> & RD & b & CE & BE).
        assert (ST : stable h (v_own r) (Slot a i) v \/ (len r < cap r /\ read (Slot a i) h = Some v)).
        { cbn [careful snd] in CF. destruct (Nat.eqb_spec x y) as [->|N].
          - right. rewrite EX in CF. apply Nat.ltb_lt in CF. auto.
          - left. cbn -[cell]. split; eauto. eapply (own_disjoint h m x y); eauto. unfold v_own. rewrite B. now left. }
        specialize (K _ _ ST). destruct (ret2 _) eqn:RR; [contradiction|contradiction|exact K].
      * now rewrite (proj2 (nth_error_None ty i)).
  - (* Reserve *) specialize (FND x). destruct (lookup x s) as [t|] eqn:LX; [|now destruct FND as [_ ->]]. destruct FND as (r & LM & -> & O).
    destruct (V_reserve h m x r t n I LM) as (r' & h' & -> & M & _). cbn [ret0]. eexists. split; [reflexivity|].
    pose proof (moves_update _ _ x _ _ _ _ I LM M) as I1. eexists. split; [reflexivity|]. split; [exact I1|].
    rewrite g_contents_set, C. cbn [snd]. rewrite <- full_set. now rewrite set_same.
  - (* Truncate *) specialize (FND x). destruct (lookup x s) as [t|] eqn:LX; [|now destruct FND as [_ ->]]. destruct FND as (r & LM & -> & O).
    destruct (V_truncate h m x r t n I LM) as (r' & h' & -> & I1). cbn [ret1]. eexists. split; [reflexivity|].
    eexists. split; [reflexivity|]. split; [exact I1|]. now rewrite g_contents_set, full_set, C.
  - (* Clear *) specialize (FND x). destruct (lookup x s) as [t|] eqn:LX; [|now destruct FND as [_ ->]]. destruct FND as (r & LM & -> & O).
    destruct (V_truncate h m x r t 0 I LM) as (r' & h' & -> & I1). cbn [ret1]. eexists. split; [reflexivity|].
    eexists. split; [reflexivity|]. split; [exact I1|]. now rewrite g_contents_set, full_set, C.
  - (* At *) specialize (FND x). destruct (lookup x s) as [t|] eqn:LX; [|now destruct FND as [_ ->]]. destruct FND as (r & LM & -> & O).
    rewrite (v_ok_len _ _ _ O). destruct (Nat.leb_spec (List.length t) i) as [GE|LT].
    + rewrite (proj2 (nth_error_None t i)) by auto. eauto.
    + destruct (nth_error t i) as [v|] eqn:NE; [|apply nth_error_None in NE; lia].
      destruct (index_ok h m x r t i v I LM NE) as (a & B & -> & RD & _). cbn [bind get]. rewrite RD. cbn [get]. eauto.
  - (* Index *) specialize (FND x). destruct (lookup x s) as [t|] eqn:LX; [|now destruct FND as [_ ->]]. destruct FND as (r & LM & -> & O).
    rewrite (v_ok_len _ _ _ O). destruct (Nat.ltb_spec i (List.length t)) as [LT|GE].
    + destruct (nth_error t i) as [v|] eqn:NE; [|apply nth_error_None in NE; lia].
      destruct (index_ok h m x r t i v I LM NE) as (a & B & -> & RD & _). cbn [bind get]. rewrite RD. cbn [get]. eauto.
    + now rewrite (proj2 (nth_error_None t i)).
  - (* Back *) specialize (FND x). destruct (lookup x s) as [t|] eqn:LX; [|now destruct FND as [_ ->]]. destruct FND as (r & LM & -> & O).
    rewrite (v_ok_len _ _ _ O). destruct (rev t) as [|v l] eqn:RV.
    + rewrite <- (rev_involutive t), RV. reflexivity.
    + assert (ET : t = rev l ++ [v]) by (rewrite <- (rev_involutive t), RV; reflexivity).
      assert (LT : List.length t = S (List.length l)) by (rewrite <- (rev_length t), RV; reflexivity). rewrite LT. cbn [Nat.eqb].
      assert (NE : nth_error t (S (List.length l) - 1) = Some v).
      { rewrite ET. replace (S (List.length l) - 1) with (List.length (rev l)) by (rewrite rev_length; lia).
        rewrite nth_error_app2, Nat.sub_diag by lia. reflexivity. }
      destruct (index_ok h m x r t _ v I LM NE) as (a & B & -> & RD & _). cbn [bind get]. rewrite RD. cbn [get]. eauto.
  - (* Set *) specialize (FND x). destruct (lookup x s) as [t|] eqn:LX; [|now destruct FND as [_ ->]]. destruct FND as (r & LM & ER & O). rewrite ER.
    rewrite (v_ok_len _ _ _ O). destruct (Nat.ltb_spec i (List.length t)) as [LT|]; [|reflexivity].
    unfold assign_element. rewrite ER. cbn [bind]. pose proof (v_ok_cap _ _ _ O) as CA. rewrite (v_ok_len _ _ _ O) in CA.
    destruct (poke_ok r h t i v O ltac:(lia)) as (a & k & B & CE & ->). cbn [bind ret0].
    pose proof O as O3. unfold v_ok in O3. rewrite B in O3. destruct O3 as (k' & rest & CE' & EK & LE & CL). rewrite CE in CE'. injection CE' as <-.
    eexists. split; [reflexivity|]. exists (set x (r, Some (replace t i v)) m). cbn [fst snd]. split; [|split].
    + symmetry. eapply g_reprs_keep; eauto.
    + eapply moves_update; eauto. cbn. eapply moves_poke; eauto; try congruence. 3: now rewrite set_nth_length.
      * exists rest. rewrite EK, set_nth_app1 by (rewrite map_length; lia). now rewrite set_nth_replace.
      * unfold replace. rewrite app_length, firstn_length. cbn [List.length]. rewrite skipn_length. lia.
    + now rewrite g_contents_set, full_set, C.
  - (* Size *) specialize (FND x). destruct (lookup x s) as [t|] eqn:LX; [|now destruct FND as [_ ->]]. destruct FND as (r & LM & -> & O).
    rewrite (v_ok_len _ _ _ O). eauto.
  - (* All *) specialize (FND x). destruct (lookup x s) as [t|] eqn:LX; [|now destruct FND as [_ ->]]. destruct FND as (r & LM & -> & O).
    rewrite (tail_ok 0 _ _ _ O). eauto.
Qed.

Lemma run_ok ops : forall st s, rel st s -> careful_run slack ops st = true ->
  match run slack ops st with
  | (Illegal, t) => spec_run ops s = (Illegal, t)
  | (UB, _) => False
  | (Ok st' ob, t) => exists s', spec_run ops s = (Ok s' ob, t) /\ rel st' s'
  end.
Proof.
  induction ops as [|o ops IH]; intros st s R CF; cbn [run spec_run].
  - eauto.
  - cbn [careful_run] in CF. apply andb_true_iff in CF as [CF CF']. pose proof (step_ok o st s R CF) as S. destruct (step slack o st) as [| |st' ob].
    + now rewrite S.
    + exact S.
    + destruct S as (s' & -> & R'). specialize (IH st' s' R' CF').
      destruct (run slack ops st') as [[| |st2 ob2] t].
      * now rewrite IH.
      * exact IH.
      * destruct IH as (s2 & -> & R2). eauto.
Qed.

(** the first careless thing is always undefined behaviour *)
Lemma alias_ub h e s x i throws r : rel (h, e) s -> lookup x e = Some r -> i < len r -> len r = cap r ->
  step slack (Push x (Element x i) throws) (h, e) = UB.
Proof.
  intros (m & E & I & C) L LT FULL. cbn [fst snd] in E, I. subst e. cbn [step]. unfold needs. cbn [snd]. rewrite L. cbn [resolve snd]. rewrite L.
  rewrite (proj2 (Nat.ltb_lt _ _)) by auto.
  rewrite g_reprs_lookup in L. destruct (lookup x m) as [[r0 o]|] eqn:LM; cbn in L; [|discriminate]. injection L as ->.
  destruct (g_found_inv _ _ _ _ _ C LM) as (t & LS & ->). pose proof (inv_lookup _ _ _ _ _ _ _ I LM) as O.
  pose proof (v_ok_len _ _ _ O) as LE. destruct (nth_error t i) as [v|] eqn:NE; [|apply nth_error_None in NE; lia].
  destruct (index_ok h m x r t i v I LM NE) as (a & B & -> & RD & b & CE & BE). cbn [bind].
  unfold emplace_back, reserve_total. cbn [snd]. rewrite (g_reprs_found _ _ _ LM). cbn [fst bind].
  rewrite (proj2 (Nat.ltb_lt _ _)) by lia. unfold v_reserve. rewrite (proj2 (Nat.leb_gt _ _)) by lia. rewrite B, CE. cbn [bind]. unfold free. rewrite CE. cbn [bind alloc].
  unfold put. rewrite (g_reprs_found _ _ _ LM). cbn [bind read].
  assert (G : forall k, cell (set_cell a None h ++ [Some k]) a = None).
  { intros k. destruct (cell (set_cell a None h ++ [Some k]) a) eqn:EQ; [|reflexivity]. exfalso.
    assert (NN : cell (set_cell a None h ++ [Some k]) a <> None) by congruence. apply cell_app_inv in NN as [NN|NN].
    - rewrite length_set in NN. apply (cell_fresh h a); congruence.
    - rewrite cell_set_same in NN by congruence. congruence. }
  rewrite G. reflexivity.
Qed.
End P.
Lemma rel_init : rel ([], []) [].
Proof. exists []. cbn. repeat split; auto; try constructor. intros a. unfold cell. destruct a; cbn; congruence. Qed.

(** * Growth *)
Lemma put_spec x r h e st : put x r h e = Some st -> lookup x (snd st) = Some r.
Proof. unfold put. destruct (lookup x e) eqn:L; [|discriminate]. intros [= <-]. cbn. apply lookup_set_same. congruence. Qed.
Lemma reserve_grows slack x n st st' r : reserve_total slack x n st = Some st' -> lookup x (snd st) = Some r -> len r <= cap r ->
  exists r', lookup x (snd st') = Some r' /\ len r' = len r /\ (n <= cap r /\ r' = r \/ cap r < n /\ cap r' = n + slack n).
Proof.
  destruct st as [h e]. cbn [snd]. intros E L C. unfold reserve_total in E. rewrite L in E. cbn [bind] in E.
  destruct (Nat.ltb_spec (cap r) n) as [LT|GE].
  2:{ injection E as <-. cbn. exists r. auto. }
  unfold v_reserve in E. destruct (Nat.leb_spec (n - len r) (cap r - len r)) as [X|X]; [lia|].
  replace (len r + (n - len r)) with n in E by lia. destruct (buf r) as [a|].
  - destruct (cell h a) as [b|]; [|discriminate]. cbn [bind] in E. destruct (free a h) as [h1|]; [|discriminate]. cbn [bind] in E.
    destruct (alloc _ h1) as [a' h2]. cbn [bind] in E. apply put_spec in E. rewrite E. eexists. split; [reflexivity|]. split; [reflexivity|]. right. split; [lia|reflexivity].
  - destruct (alloc _ h) as [a' h2]. cbn [bind] in E. apply put_spec in E. rewrite E. eexists. split; [reflexivity|]. split; [reflexivity|]. right. split; [lia|reflexivity].
Qed.
Lemma push_grows slack x v st st' ob r : step slack (Push x (Value v) false) st = Ok st' ob -> lookup x (snd st) = Some r -> len r <= cap r ->
  exists r', lookup x (snd st') = Some r' /\ len r' = S (len r) /\
    (len r < cap r /\ cap r' = cap r /\ buf r' = buf r \/ len r = cap r /\ cap r' = S (len r) + slack (S (len r))).
Proof.
  intros E L C. cbn [step needs] in E. unfold needs in E. rewrite L in E. cbn [resolve bind] in E. unfold emplace_back in E. rewrite L in E. cbn [bind] in E.
  destruct (reserve_total slack x (len r + 1) st) as [[h1 e1]|] eqn:R; [|discriminate]. cbn [bind read] in E.
  destruct (reserve_grows _ _ _ _ _ _ R L C) as (r1 & L1 & N1 & K). cbn [snd] in L1. rewrite L1 in E. cbn [bind] in E.
  destruct (v_poke r1 (len r) v h1) as [h2|]; [|discriminate]. cbn [bind] in E. unfold set_len in E. rewrite L1 in E. cbn [bind] in E.
  destruct (put x _ h2 e1) as [st2|] eqn:P; [|discriminate]. cbn in E. injection E as <- <-. apply put_spec in P. rewrite P.
  eexists. split; [reflexivity|]. cbn [len cap buf]. split; [lia|]. destruct K as [(K & ->)|(K1 & K2)]; [left; repeat split; lia|].
  right. split; [lia|]. rewrite K2. replace (len r + 1) with (S (len r)) by lia. reflexivity.
Qed.
Lemma moved_bound slack x (D : doubling slack) vs : forall st r, lookup x (snd st) = Some r -> len r <= cap r -> moved slack x vs st <= (2 * len r - cap r) + 2 * List.length vs.
Proof.
  induction vs as [|v vs IH]; intros st r L C; cbn [moved List.length]; [lia|].
  destruct (step slack _ st) as [| |st' ob] eqn:E; try lia. rewrite L.
  destruct (push_grows _ _ _ _ _ _ _ E L C) as (r' & L' & N & K). rewrite L'.
  assert (C' : len r' <= cap r') by (destruct K as [(K1 & K2 & _)|(K1 & K2)]; lia).
  pose proof (IH st' r' L' C') as B. destruct K as [(K1 & K2 & K3)|(K1 & K2)].
  - rewrite K3. destruct (buf r) as [a|]; rewrite ?Nat.eqb_refl; lia.
  - pose proof (D (S (len r))) as G. cbn [Nat.sub] in G. destruct (buf r), (buf r'); try destruct (Nat.eqb _ _); lia.
Qed.
Lemma pushes_run slack x vs : forall st s, rel st s -> lookup x s <> None ->
  exists st' ob t, run slack (map (fun v => Push x (Value v) false) vs) st = (Ok st' ob, t).
Proof.
  induction vs as [|v vs IH]; intros st s R H; cbn [map run]; [eauto|].
  pose proof (step_ok slack (Push x (Value v) false) st s R eq_refl) as K. destruct (lookup x s) as [l|] eqn:L; [|congruence].
  cbn [spec_step] in K. rewrite L in K. cbn [value] in K. destruct (step slack _ st) as [| |st' ob]; [discriminate K|destruct K|].
  destruct K as (s' & E & R'). injection E as <- <-. destruct (IH st' _ R') as (st2 & ob2 & t & ->); [rewrite lookup_set_same; congruence|]. eauto.
Qed.
