From Verif Require Import Base Lossy_Spec Lossy_Proofs Construct_Model Construct_Proofs Settings_Model Settings_Spec Settings_Proofs.
Require Import NArith Lia.

Section Proofs.
Variable pkg : option (list N).
Notation current := (current pkg). Notation cfg_current := (cfg_current pkg). Notation step := (step pkg). Notation run := (run pkg).
Notation inv := (inv pkg). Notation exact_ := (exact). Notation cfg_of := (cfg_of pkg).

Lemma inv_ext s g h h' : inv s (World g h) -> (forall x, h' x = h x) -> inv s (World g h').
Proof. intros [C P O A H J L] E. constructor; cbn [settings handles] in *; try assumption; [intros x; rewrite E; apply O|]. intros x v G. rewrite E. exact (L x v G). Qed.
Lemma exact_ext s g h h' : exact_ s (World g h) -> (forall x, h' x = h x) -> exact_ s (World g h').
Proof.
  intros [F T] E. constructor; cbn [handles] in *; [intros t a b Q; destruct (F _ _ _ Q) as (x & o & c & K); exists x, o, c; rewrite E; exact K|].
  intros x o c G Q. rewrite E in Q. exact (T _ _ _ G Q).
Qed.
Lemma put_same x v (h : nat -> option view) : h x = v -> forall y, put x v h y = h y.
Proof. intros E y. unfold put. destruct (Nat.eqb y x) eqn:Q; [apply Nat.eqb_eq in Q as ->; now symmetry|reflexivity]. Qed.

(** what the outcome of a step has to be *)
Definition good (o : op) (s : state) (w : world) (r : res) : Prop :=
  match r with
  | Impossible => True
  | UB => False
  | Ok s' b => exists b' w', does w o b' w' /\ inv s' w' /\ (is_read o \/ b = b') /\ (exact_ s w -> in_place w o -> b = b' /\ exact_ s' w')
  end.

Lemma good_new t x a s g h : inv s (World g h) -> good (New t x a) s (World g h) (step (New t x a) s).
Proof.
  intros I. unfold good. cbn [Settings_Model.step]. destruct (get x (objs s)) as [o|] eqn:G; [exact Logic.I|]. destruct (occupied a s) eqn:F; [exact Logic.I|].
  assert (Hx : h x = None) by (pose proof (i_obj _ _ _ I x) as M; rewrite G in M; cbn in M; destruct (h x) as [[]|]; [contradiction..|reflexivity]).
  exists Silent, (World g (put x (Some Fresh) h)). split; [constructor; exact Hx|]. split; [|split; [right; reflexivity|]].
  - destruct I as [C P O A H J L]. constructor; cbn [settings handles objs derefs heap loans] in *.
    + exact C.
    + exact P.
    + intros y. destruct (Nat.eq_dec y x) as [->|N]; [rewrite put_eq, get_eq; reflexivity|]. rewrite put_ne, get_ne by exact N. apply O.
    + intros y z oy oz Gy Gz Q. destruct (Nat.eq_dec y x) as [->|Ny], (Nat.eq_dec z x) as [->|Nz]; [reflexivity| | |].
      * rewrite get_eq in Gy. injection Gy as <-. rewrite get_ne in Gz by exact Nz. destruct (free_ok _ _ _ _ F Gz). now symmetry.
      * rewrite get_eq in Gz. injection Gz as <-. rewrite get_ne in Gy by exact Ny. destruct (free_ok _ _ _ _ F Gy). exact Q.
      * rewrite get_ne in Gy by exact Ny. rewrite get_ne in Gz by exact Nz. exact (A _ _ _ _ Gy Gz Q).
    + exact H.
    + exact J.
    + intros y v Gl. destruct (L _ _ Gl) as (o & Go & K). assert (N : y <> x) by (intros ->; congruence). exists o. rewrite get_ne, put_ne by exact N. auto.
  - intros [F1 T1] _. split; [reflexivity|]. constructor; cbn [settings handles objs derefs heap loans] in *.
    + intros t' a' b Q. destruct (F1 _ _ _ Q) as (y & o & c & Gy & K1 & K2 & K3 & K4). assert (N : y <> x) by (intros ->; congruence). exists y, o, c. rewrite get_ne, put_ne by exact N. auto.
    + intros y o c Gy. destruct (Nat.eq_dec y x) as [->|N]; [rewrite put_eq; discriminate|]. rewrite put_ne by exact N. rewrite get_ne in Gy by exact N. apply T1, Gy.
Qed.

Lemma loans_ok s s' g h x o l v : inv s (World g h) -> get x (objs s) = Some o ->
  st_pool s' = st_pool s -> cur s' = cur s -> derefs s' = derefs s -> heap s' = heap s -> objs s' = objs s -> loans s' = (x, l) :: del x (loans s) ->
  match l with Some b => o_handle o = HCFG /\ derefs s (o_thread o) (o_addr o) = Some b /\ (exists c, v = Some (Seen c)) | None => exists c, o_handle o = HMut c end ->
  matches (Some o) v -> inv s' (World g (put x v h)).
Proof.
  intros [C P O A H J L] G E1 E2 E3 E4 E5 E6 K M. constructor; rewrite ?E3, ?E4, ?E5, ?E6; cbn [settings handles] in *; try assumption.
  - unfold Settings_Proofs.cfg_of in *. now rewrite E1, E2.
  - unfold pool_ok in *. now rewrite E1, E2.
  - intros y. destruct (Nat.eq_dec y x) as [->|N]; [rewrite put_eq, G; exact M|]. rewrite put_ne by exact N. apply O.
  - intros y v'. destruct (Nat.eq_dec y x) as [->|N].
    + rewrite get_eq. intros Q. injection Q as <-. exists o. split; [exact G|]. rewrite put_eq. exact K.
    + rewrite get_ne, del_ne, put_ne by exact N. apply L.
Qed.

Lemma handle_of s g h x o : inv s (World g h) -> get x (objs s) = Some o -> match o_handle o with HCFG => h x = Some Fresh \/ exists c, h x = Some (Seen c) | HMut c => h x = Some (Own c) end.
Proof.
  intros I G. pose proof (i_obj _ _ _ I x) as M. rewrite G in M. cbn [handles] in M. destruct (h x) as [[|c|c]|]; cbn [matches] in M; [| | |contradiction]; rewrite M; eauto.
Qed.

Lemma good_read x s g h : inv s (World g h) -> good (Read x) s (World g h) (step (Read x) s).
Proof.
  intros I. cbn [Settings_Model.step]. destruct (get x (objs s)) as [o|] eqn:G; [|exact Logic.I]. pose proof (handle_of _ _ _ _ _ I G) as Hx. unfold deref. destruct (o_handle o) as [c|] eqn:Ho.
  - unfold good. exists (Saw c), (World g h). split; [apply d_read_own; exact Hx|]. split; [|split; [right; reflexivity|]].
    + apply (inv_ext _ _ (put x (Some (Own c)) h)); [|intros y; symmetry; apply put_same, Hx]. eapply (loans_ok s _ g h x o None); cbn; eauto.
    + intros [F T] _. split; [reflexivity|]. constructor; assumption.
  - (* the state once there is an entry *)
    destruct (derefs s (o_thread o) (o_addr o)) as [b|] eqn:D.
    + destruct (i_heap _ _ _ I _ _ _ D) as (c & B). rewrite B. unfold good. destruct Hx as [Hx|(c' & Hx)].
      * exists (Saw g), (World g (put x (Some (Seen g)) h)). split; [apply d_read_fresh; exact Hx|]. split; [|split; [left; exact Logic.I|]].
        -- eapply (loans_ok s _ g h x o (Some b)); eauto.
        -- intros E _. exfalso. rewrite (exact_none _ _ _ _ _ _ I E G) in D; [discriminate|]. congruence.
      * exists (Saw c'), (World g h). split; [apply d_read_seen; exact Hx|]. split; [|split; [left; exact Logic.I|]].
        -- apply (inv_ext _ _ (put x (Some (Seen c')) h)); [|intros y; symmetry; apply put_same, Hx]. eapply (loans_ok s _ g h x o (Some b)); eauto.
        -- intros E _. destruct (e_from _ _ E _ _ _ D) as (y & oy & cy & Gy & _ & Ea & Hy & By). rewrite (i_addr _ _ _ I _ _ _ _ Gy G Ea) in Hy. cbn [handles] in Hy.
           split; [congruence|]. destruct E as [F T]. constructor; assumption.
    + destruct (cfg_current s) as [s1 c] eqn:Cc. destruct (cfg_current_ok pkg _ _ _ (i_pool _ _ _ I) Cc) as (-> & P1 & C1 & R1).
      cbn [heap]. rewrite box_app, Nat.eqb_refl. unfold good. cbn [st_pool cur derefs heap objs loans].
      destruct (inv_same _ _ _ _ I P1 C1 R1) as (I1 & E1). destruct R1 as (R1 & R2 & R3 & R4). rewrite <- R3 in G. rewrite <- R1 in D. pose proof (i_cur _ _ _ I1) as Cg. cbn [settings] in Cg.
      assert (Hh := i_heap _ _ _ I1). assert (Hi := i_inj _ _ _ I1).
      assert (At : forall t a b, at_ (o_thread o) (o_addr o) (Some (List.length (heap s1))) (derefs s1) t a = Some b ->
        (b = List.length (heap s1) /\ t = o_thread o /\ a = o_addr o) \/ derefs s1 t a = Some b /\ b < List.length (heap s1)).
      { intros t a b Q. destruct (at_ok (o_thread o) (o_addr o) (Some (List.length (heap s1))) (derefs s1) t a) as [(E & -> & ->)|(E & N)]; [left; split; [congruence|auto]|]. right. rewrite E in Q. split; [exact Q|].
        destruct (Hh _ _ _ Q) as (c & B). exact (box_lt _ _ _ B). }
      assert (I2 : forall v c0, v = Some (Seen c0) -> inv (State (st_pool s1) (cur s1) (at_ (o_thread o) (o_addr o) (Some (List.length (heap s1))) (derefs s1)) (heap s1 ++ [Some (cfg_of s)]) (objs s1) ((x, Some (List.length (heap s1))) :: del x (loans s1))) (World g (put x v h))).
      { intros v c0 ->. destruct I1 as [C P O A H J L]. constructor; cbn [settings handles st_pool cur derefs heap objs loans] in *; try assumption.
        - intros y. destruct (Nat.eq_dec y x) as [->|N]; [rewrite put_eq, G; exact Ho|]. rewrite put_ne by exact N. apply O.
        - intros t a b Q. apply At in Q as [(-> & _ & _)|(Q & L')]; rewrite box_app; [rewrite Nat.eqb_refl; eauto|].
          replace (Nat.eqb b (List.length (heap s1))) with false by (symmetry; apply Nat.eqb_neq; lia). exact (H _ _ _ Q).
        - intros t a t' a' b Q Q'. apply At in Q as [(-> & -> & ->)|(Q & L')]; apply At in Q' as [(Eb & -> & ->)|(Q' & L'')]; [auto|lia|lia|]. exact (J _ _ _ _ _ Q Q').
        - intros y v. destruct (Nat.eq_dec y x) as [->|N].
          + rewrite get_eq. intros Q. injection Q as <-. exists o. split; [exact G|]. rewrite put_eq. split; [exact Ho|]. split; [unfold at_; now rewrite !Nat.eqb_refl|eauto].
          + rewrite get_ne, del_ne, put_ne by exact N. intros Gl. destruct (L _ _ Gl) as (oy & Gy & K). exists oy. split; [exact Gy|]. destruct v as [b|]; [|exact K].
            destruct K as (K1 & K2 & K3). split; [exact K1|]. split; [|exact K3]. destruct (at_ok (o_thread o) (o_addr o) (Some (List.length (heap s1))) (derefs s1) (o_thread oy) (o_addr oy)) as [(_ & _ & Ea)|(-> & _)]; [|exact K2].
            destruct N. exact (A _ _ _ _ Gy G Ea). }
      destruct Hx as [Hx|(c' & Hx)].
      * exists (Saw g), (World g (put x (Some (Seen g)) h)). split; [apply d_read_fresh; exact Hx|]. split; [eapply I2; reflexivity|]. split; [left; exact Logic.I|].
        intros E _. split; [f_equal; congruence|]. destruct (E1 E) as [F T]. constructor; cbn [handles derefs heap objs] in *.
        -- intros t a b Q. rewrite box_app. apply At in Q as [(-> & -> & ->)|(Q & L')].
           ++ exists x, o, g. rewrite Nat.eqb_refl, put_eq. repeat split; [exact G|congruence].
           ++ destruct (F _ _ _ Q) as (y & oy & cy & Gy & Et & Ea & Hy & By). exists y, oy, cy. rewrite put_ne by congruence.
              replace (Nat.eqb b (List.length (heap s1))) with false by (symmetry; apply Nat.eqb_neq; lia). auto.
        -- intros y oy c Gy. destruct (Nat.eq_dec y x) as [->|N]; [intros _; rewrite G in Gy; injection Gy as <-; exists (List.length (heap s1)); unfold at_; now rewrite !Nat.eqb_refl|].
           rewrite put_ne by exact N. intros Hy. destruct (T _ _ _ Gy Hy) as (b & Q). destruct (at_ok (o_thread o) (o_addr o) (Some (List.length (heap s1))) (derefs s1) (o_thread oy) (o_addr oy)) as [(-> & _ & _)|(-> & _)]; eauto.
      * exists (Saw c'), (World g h). split; [apply d_read_seen; exact Hx|]. split; [apply (inv_ext _ _ (put x (Some (Seen c')) h)); [eapply I2; reflexivity|intros y; symmetry; apply put_same, Hx]|].
        split; [left; exact Logic.I|]. intros E _. exfalso. destruct (e_to _ _ (E1 E) x o c' G Hx) as (b & Q). congruence.
Qed.

Lemma good_look x s g h : inv s (World g h) -> good (Look x) s (World g h) (step (Look x) s).
Proof.
  intros I. cbn [Settings_Model.step]. destruct (get x (loans s)) as [[b|]|] eqn:Gl; [| |exact Logic.I]; destruct (i_loan _ _ _ I _ _ Gl) as (o & G & K).
  - destruct K as (Ho & D & (c' & Hx)). cbn [handles] in Hx. destruct (i_heap _ _ _ I _ _ _ D) as (c & B). rewrite B. exists (Saw c'), (World g h).
    split; [apply d_look_seen; exact Hx|]. split; [exact I|]. split; [left; exact Logic.I|]. intros E _. split; [|exact E].
    destruct (e_from _ _ E _ _ _ D) as (y & oy & cy & Gy & _ & Ea & Hy & By). rewrite (i_addr _ _ _ I _ _ _ _ Gy G Ea) in Hy. cbn [handles] in Hy. congruence.
  - destruct K as (c & Ho). rewrite G. pose proof (handle_of _ _ _ _ _ I G) as Hx. rewrite Ho in Hx. destruct o as [t a hd]. cbn in Ho. subst hd.
    exists (Saw c), (World g h). split; [apply d_look_own; exact Hx|]. split; [exact I|]. split; [right; reflexivity|]. intros E _. auto.
Qed.

Lemma good_write x f s g h : inv s (World g h) -> good (Write x f) s (World g h) (step (Write x f) s).
Proof.
  intros I. cbn [Settings_Model.step]. destruct (get x (objs s)) as [o|] eqn:G; [|exact Logic.I]. pose proof (handle_of _ _ _ _ _ I G) as Hx. unfold deref_mut. destruct (o_handle o) as [c|] eqn:Ho.
  - exists Silent, (World g (put x (Some (Own (f c))) h)). split; [eapply d_write_own; exact Hx|]. split; [|split; [right; reflexivity|]].
    + eapply (inv_handle pkg s _ g h g x o (Some (Obj (o_thread o) (o_addr o) (HMut (f c))))); eauto; cbn; try exact (i_cur _ _ _ I); try exact (i_pool _ _ _ I); try (intros o1 Q; injection Q as <-; left; reflexivity). reflexivity.
    + intros E _. split; [reflexivity|]. eapply (exact_handle pkg s _ g h g x o (Some (Obj (o_thread o) (o_addr o) (HMut (f c))))); eauto; cbn; try discriminate.
      eapply exact_none; eauto. congruence.
  - destruct (remove_ok pkg _ _ (o_thread o) (o_addr o) I) as (s1 & -> & R1 & R2 & R3 & R4 & R5 & R6 & R7).
    assert (P1 : pool_ok s1) by (unfold pool_ok; rewrite R1, R2; exact (i_pool _ _ _ I)).
    assert (C1 : cfg_of s1 = cfg_of s) by (unfold Settings_Proofs.cfg_of; now rewrite R1, R2).
    destruct (cfg_current s1) as [s2 c] eqn:Cc. destruct (cfg_current_ok pkg _ _ _ P1 Cc) as (-> & P2 & C2 & (Q1 & Q2 & Q3 & Q4)).
    pose proof (i_cur _ _ _ I) as Cg. cbn [settings] in Cg. exists Silent, (World g (put x (Some (Own (f g))) h)).
    split; [destruct Hx as [Hx|(c' & Hx)]; [apply d_write_fresh|eapply d_write_seen]; exact Hx|]. split; [|split; [right; reflexivity|]].
    + eapply (inv_handle pkg s _ g h g x o (Some (Obj (o_thread o) (o_addr o) (HMut (f (cfg_of s1)))))); eauto; cbn [st_pool cur derefs heap objs loans]; rewrite ?Q1, ?Q2, ?Q3, ?Q4, ?R3, ?R4; auto.
      * rewrite Cg, <- C1, <- C2. reflexivity.
      * cbn [matches o_handle]. congruence.
      * intros o1 Q. injection Q as <-. left. reflexivity.
    + intros E _. split; [reflexivity|]. eapply (exact_handle pkg s _ g h g x o (Some (Obj (o_thread o) (o_addr o) (HMut (f (cfg_of s1)))))); eauto; cbn [derefs heap objs]; rewrite ?Q1, ?Q2, ?Q3, ?R3; auto. discriminate.
Qed.

Lemma good_show x s g h : inv s (World g h) -> good (Show x) s (World g h) (step (Show x) s).
Proof.
  intros I. cbn [Settings_Model.step]. destruct (get x (objs s)) as [o|] eqn:G; [|exact Logic.I]. pose proof (handle_of _ _ _ _ _ I G) as Hx. unfold fmt. destruct (o_handle o) as [c|] eqn:Ho.
  - exists (Saw c), (World g h). split; [apply d_show_own; exact Hx|]. auto.
  - destruct (cfg_current s) as [s1 c] eqn:Cc. destruct (cfg_current_ok pkg _ _ _ (i_pool _ _ _ I) Cc) as (-> & P1 & C1 & R1). destruct (inv_same _ _ _ _ I P1 C1 R1) as (I1 & E1).
    pose proof (i_cur _ _ _ I) as Cg. cbn [settings] in Cg. rewrite <- Cg. exists (Saw g), (World g h). split; [destruct Hx as [Hx|(c' & Hx)]; [apply d_show_fresh|eapply d_show_seen]; exact Hx|]. auto.
Qed.

Lemma good_move x a s g h : inv s (World g h) -> good (Move x a) s (World g h) (step (Move x a) s).
Proof.
  intros I. cbn [Settings_Model.step]. destruct (get x (objs s)) as [o|] eqn:G; [|exact Logic.I]. destruct (occupied a s) eqn:F; [exact Logic.I|].
  pose proof (handle_of _ _ _ _ _ I G) as Hx. assert (exists v, h x = Some v) as (v & Hv) by (destruct (o_handle o); [eauto|destruct Hx as [|(? & ?)]; eauto]).
  exists Silent, (World g h). split; [eapply d_move; exact Hv|]. split; [|split; [right; reflexivity|]].
  - apply (inv_ext _ _ (put x (Some v) h)); [|intros y; symmetry; apply put_same, Hv]. eapply (inv_handle pkg s _ g h g x o (Some (Obj (o_thread o) a (o_handle o)))); eauto; cbn.
    + exact (i_cur _ _ _ I).
    + exact (i_pool _ _ _ I).
    + pose proof (i_obj _ _ _ I x) as M. rewrite G in M. cbn [handles] in M. rewrite Hv in M. exact M.
    + intros o1 Q. injection Q as <-. right. exact F.
  - cbn [in_place handles]. intros E N. split; [reflexivity|]. apply (exact_ext _ _ (put x (Some v) h)); [|intros y; symmetry; apply put_same, Hv].
    eapply (exact_handle pkg s _ g h g x o (Some (Obj (o_thread o) a (o_handle o)))); eauto; cbn.
    + intros c Q. apply (N c). congruence.
    + eapply exact_none; eauto.
Qed.
Lemma good_forget x s g h : inv s (World g h) -> good (Forget x) s (World g h) (step (Forget x) s).
Proof.
  intros I. cbn [Settings_Model.step]. destruct (get x (objs s)) as [o|] eqn:G; [|exact Logic.I].
  pose proof (handle_of _ _ _ _ _ I G) as Hx. assert (exists v, h x = Some v) as (v & Hv) by (destruct (o_handle o); [eauto|destruct Hx as [|(? & ?)]; eauto]).
  exists Silent, (World g (put x None h)). split; [eapply d_forget; exact Hv|]. split; [|split; [right; reflexivity|]].
  - eapply (inv_handle pkg s _ g h g x o None); eauto; cbn; [exact (i_cur _ _ _ I)|exact (i_pool _ _ _ I)|exact Logic.I|discriminate].
  - cbn [in_place handles]. intros E N. split; [reflexivity|]. eapply (exact_handle pkg s _ g h g x o None); eauto; cbn; [discriminate|]. eapply exact_none; eauto.
Qed.

Lemma as_text_lossy l : as_text l (to_string_lossy l).
Proof. destruct (parts_total l) as (ps & P). exists ps. split; [exact P|]. apply lossy_text, P. Qed.

Lemma good_drop x s g h : inv s (World g h) -> good (Drop x) s (World g h) (step (Drop x) s).
Proof.
  intros I. cbn [Settings_Model.step]. destruct (get x (objs s)) as [o|] eqn:G; [|exact Logic.I]. pose proof (handle_of _ _ _ _ _ I G) as Hx. unfold drop. destruct (o_handle o) as [c|] eqn:Ho.
  - destruct (current s) as [s1 c1] eqn:Cc. destruct (current_ok pkg _ _ _ (i_pool _ _ _ I) Cc) as (E1 & P1 & C1 & C1' & R1). destruct (inv_same _ _ _ _ I P1 C1 R1) as (I1 & X1). destruct R1 as (R1 & R2 & R3 & R4).
    destruct (intern (include_prefix c) (st_pool s1)) as [p1 i] eqn:N1. apply intern_ok in N1 as (L1 & S1 & G1).
    destruct (intern_vec to_string_lossy (exported_header_dirs c) p1) as [p2 ds] eqn:N2. apply intern_vec_ok in N2 as (L2 & S2 & G2).
    destruct (intern_vec (fun s => s) (exported_header_prefixes c) p2) as [p3 fs] eqn:N3. apply intern_vec_ok in N3 as (L3 & S3 & G3).
    destruct (intern_vec (fun s => s) (exported_header_links c) p3) as [p4 ls] eqn:N4. apply intern_vec_ok in N4 as (L4 & S4 & G4).
    assert (G34 := G4). assert (G24 := grows_trans _ _ _ G3 G34). assert (G14 := grows_trans _ _ _ G2 G24).
    set (cu := Current i ds fs ls (doxygen c)). rewrite map_id in S3, S4.
    assert (Q : contents p4 cu = Cfg (include_prefix c) (map to_string_lossy (exported_header_dirs c)) (exported_header_prefixes c) (exported_header_links c) (doxygen c)).
    { unfold contents, cu. cbn [c_include_prefix c_dirs c_prefixes c_links c_doxygen]. rewrite (vec_grows _ _ _ G24 L2), (vec_grows _ _ _ G34 L3), S2, S3, S4. destruct G14 as (_ & G14). rewrite (G14 _ L1), S1. reflexivity. }
    exists Silent, (World (contents p4 cu) (put x None h)). split; [|split; [|split; [right; reflexivity|]]].
    + eapply d_drop_own; [exact Hx|]. rewrite Q. constructor; cbn; try reflexivity. induction (exported_header_dirs c) as [|d l IH]; cbn; constructor; [apply as_text_lossy|].
      clear -pkg. induction l; cbn; constructor; [apply as_text_lossy|assumption].
    + rewrite <- R3 in G. eapply (inv_handle pkg s1 _ g h _ x o None); eauto; cbn; try (exact Logic.I); try discriminate; try reflexivity.
      unfold pool_ok. cbn. split; [destruct G14; cbn; lia|]. split; [exact (bound_grows _ _ _ G24 L2)|]. split; [exact (bound_grows _ _ _ G34 L3)|exact L4].
    + intros E _. split; [reflexivity|]. rewrite <- R3 in G. eapply (exact_handle pkg s1 _ g h _ x o None); eauto; cbn; [discriminate|]. eapply exact_none; [exact I1|apply X1, E|exact G|congruence].
  - destruct (remove_ok pkg _ _ (o_thread o) (o_addr o) I) as (s1 & -> & R1 & R2 & R3 & R4 & R5 & R6 & R7).
    exists Silent, (World g (put x None h)). split; [destruct Hx as [Hx|(c' & Hx)]; [apply d_drop_fresh|eapply d_drop_seen]; exact Hx|]. split; [|split; [right; reflexivity|]].
    + eapply (inv_handle pkg s _ g h g x o None); eauto; cbn [st_pool cur derefs heap objs loans]; rewrite ?R3, ?R4; auto; try exact Logic.I; try discriminate.
      * unfold Settings_Proofs.cfg_of. cbn. rewrite R1, R2. exact (i_cur _ _ _ I).
      * unfold pool_ok. cbn. rewrite R1, R2. exact (i_pool _ _ _ I).
    + intros E _. split; [reflexivity|]. eapply (exact_handle pkg s _ g h g x o None); eauto; cbn [derefs heap objs]; rewrite ?R3; auto. discriminate.
Qed.

Lemma step_good o s w : inv s w -> good o s w (step o s).
Proof.
  destruct w as [g h]. intros I. destruct o; [apply good_new|apply good_read|apply good_look|apply good_write|apply good_show|apply good_move|apply good_forget|apply good_drop]; exact I.
Qed.
End Proofs.
