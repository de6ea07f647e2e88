(** C95: the settings of a build script ([CFG]).  Specification: Settings_Spec.v. *)
From Verif Require Import Base Lossy_Spec Lossy_Proofs Construct_Model Construct_Proofs Settings_Model Settings_Spec Settings_Proofs Settings_Proofs2.
Require Import NArith Lia.

Lemma as_text_unique l a b : as_text l a -> as_text l b -> a = b.
Proof. intros (ps & P & ->) (qs & Q & ->). now rewrite (parts_unique _ _ P _ Q). Qed.
Lemma kept_unique c a b : kept c a -> kept c b -> a = b.
Proof.
  destruct a, b, c. intros [A1 A2 A3 A4 A5] [B1 B2 B3 B4 B5]. cbn in *. subst. f_equal. revert exported_header_dirs0 B2. induction A2 as [|x y l l' E F IH]; intros m B2; inversion B2; subst; [reflexivity|].
  f_equal; [eapply as_text_unique; eassumption|]. apply IH. assumption.
Qed.
Lemma does_unique w o b w1 b' w2 : does w o b w1 -> does w o b' w2 -> b = b' /\ w1 = w2.
Proof.
  intros A B. inversion A; subst; inversion B; subst;
    try match goal with H1 : ?h ?x = _, H2 : ?h ?x = _ |- _ => rewrite H1 in H2; try discriminate H2; injection H2 as H2; subst end; try (split; reflexivity).
  match goal with K1 : kept ?c ?a, K2 : kept ?c ?b |- _ => rewrite (kept_unique _ _ _ K1 K2) end. split; reflexivity.
Qed.
Lemma start_inv pkg w : first pkg w -> inv pkg start w /\ exact start w.
Proof.
  destruct w as [g h]. intros (N & prefix & E & M). cbn [handles settings] in *. split.
  - constructor; cbn; try discriminate; [|exact I|intros x; rewrite N; exact I]. rewrite E. unfold initial. f_equal. destruct pkg as [name|]; [|exact M].
    eapply as_text_unique; [exact M|apply as_text_lossy].
  - constructor; cbn; discriminate.
Qed.
Lemma run_safe pkg : forall ops s w, inv pkg s w -> run pkg ops s <> Undefined.
Proof.
  induction ops as [|o ops IH]; intros s w I; cbn [run]; [discriminate|]. pose proof (step_good pkg o s w I) as G. destruct (step pkg o s) as [| |s1 b]; [discriminate|contradiction|].
  destruct G as (b' & w1 & _ & I1 & _). specialize (IH _ _ I1). destruct (run pkg ops s1); congruence.
Qed.
Lemma run_spec pkg : forall ops s w s' l, inv pkg s w -> run pkg ops s = Done s' l -> exists l' w', history w ops l' w' /\ inv pkg s' w' /\ List.length l = List.length ops /\ List.length l' = List.length ops /\
  forall i o, nth_error ops i = Some o -> is_read o \/ nth_error l i = nth_error l' i.
Proof.
  induction ops as [|o ops IH]; intros s w s' l I E; cbn [run] in E.
  - injection E as <- <-. exists [], w. split; [constructor|]. split; [exact I|]. repeat split. intros [|i] o Q; discriminate.
  - pose proof (step_good pkg o s w I) as G. destruct (step pkg o s) as [| |s1 b]; try discriminate. destruct G as (b' & w1 & D & I1 & Q & _).
    destruct (run pkg ops s1) as [| |s2 l2] eqn:R; try discriminate. injection E as <- <-. destruct (IH _ _ _ _ I1 R) as (l' & w' & H & I2 & L & L' & K).
    exists (b' :: l'), w'. split; [econstructor; eassumption|]. split; [exact I2|]. cbn. split; [congruence|]. split; [congruence|]. intros [|i] o' Eo; cbn in *; [|auto]. injection Eo as <-. destruct Q as [Q| ->]; auto.
Qed.
Lemma run_exact pkg : forall ops s w s' l l' w', inv pkg s w -> exact s w -> run pkg ops s = Done s' l -> always in_place w ops l' w' -> l = l' /\ inv pkg s' w' /\ exact s' w'.
Proof.
  induction ops as [|o ops IH]; intros s w s' l l' w' I X E A; cbn [run] in E; inversion A; subst.
  - injection E as <- <-. auto.
  - pose proof (step_good pkg o s w I) as G. destruct (step pkg o s) as [| |s1 b1]; try discriminate. destruct G as (b' & w1' & D & I1 & _ & K).
    match goal with H : in_place w o, H' : does w o _ _ |- _ => destruct (K X H) as (-> & X1); destruct (does_unique _ _ _ _ _ _ D H') as (<- & <-) end.
    destruct (run pkg ops s1) as [| |s2 l2] eqn:R; try discriminate. injection E as <- <-. match goal with H : always _ _ _ _ _ |- _ => destruct (IH _ _ _ _ _ _ I1 X1 R H) as (-> & ?) end. auto.
Qed.

(** The full claim: whatever build scripts do with [CFG], they see what the specification says. *)
Definition C95_claim : Prop := forall pkg ops s l w, first pkg w -> run pkg ops start = Done s l -> exists w', history w ops l w'.

(** References into the table are never used after their box has been freed, and no box is freed twice, in any history. *)
Theorem C95_safe : forall pkg ops, run pkg ops start <> Undefined.
Proof.
  intros pkg ops. assert (exists w, first pkg w) as (w & F).
  { exists (World (Cfg (match pkg with Some name => to_string_lossy name | None => [] end) [] [] [] false) (fun _ => None)). split; [reflexivity|]. eexists. split; [reflexivity|].
    destruct pkg; [apply as_text_lossy|reflexivity]. }
  eapply run_safe, start_inv, F.
Qed.
Print Assumptions C95_safe.

(** In any history, the settings and the contents of changed handles are as specified: everything but what is read from unchanged handles. *)
Theorem C95_settings : forall pkg ops s l w, first pkg w -> run pkg ops start = Done s l ->
  exists l' w', history w ops l' w' /\ List.length l = List.length l' /\ forall i o, nth_error ops i = Some o -> ~ is_read o -> nth_error l i = nth_error l' i.
Proof.
  intros pkg ops s l w F R. destruct (run_spec _ _ _ _ _ _ (proj1 (start_inv _ _ F)) R) as (l' & w' & H & _ & L & L' & K). exists l', w'. split; [exact H|]. split; [congruence|].
  intros i o E N. destruct (K i o E); [contradiction|assumption].
Qed.
Print Assumptions C95_settings.

(** Everything is as specified if no handle that has been read is moved or forgotten. *)
Theorem C95_reads : forall pkg ops s l w l' w', first pkg w -> run pkg ops start = Done s l -> always in_place w ops l' w' -> l = l'.
Proof. intros pkg ops s l w l' w' F R A. destruct (start_inv _ _ F) as (I & X). exact (proj1 (run_exact _ _ _ _ _ _ _ _ I X R A)). Qed.
Print Assumptions C95_reads.

(** Build scripts that mention [CFG] once per statement: each statement sees what the ones before it left, on all threads and at all addresses. *)
Lemma history_always (P : world -> op -> Prop) : forall ops w l w', (forall w o, In o ops -> P w o) -> history w ops l w' -> always P w ops l w'.
Proof. induction ops as [|o ops IH]; intros w l w' Q H; inversion H; subst; [constructor|]. econstructor; [apply Q; left; reflexivity|eassumption|]. apply IH; [intros; apply Q; right; assumption|assumption]. Qed.
Lemma get_nil_objs s : (forall x : nat, get x (objs s) = None) -> objs s = [].
Proof. intros N. destruct (objs s) as [|[x o] l]; [reflexivity|]. specialize (N x). rewrite get_eq in N. discriminate. Qed.
Lemma run_app pkg : forall ops ops' s, run pkg (ops ++ ops') s = match run pkg ops s with Done s1 l1 => match run pkg ops' s1 with Done s2 l2 => Done s2 (l1 ++ l2) | r => r end | r => r end.
Proof.
  induction ops as [|o ops IH]; intros ops' s; cbn [run app]; [now destruct (run pkg ops' s)|]. destruct (step pkg o s) as [| |s1 b]; try reflexivity. rewrite IH.
  destruct (run pkg ops s1) as [| |s2 l2]; try reflexivity. now destruct (run pkg ops' s2).
Qed.
Lemma script_ok pkg : forall ss s w, inv pkg s w -> exact s w -> (forall x, handles w x = None) -> exists s' l g', run pkg (flat_map statement ss) s = Done s' l /\ script (settings w) ss l g'.
Proof.
  induction ss as [|[[t a] u] ss IH]; intros s w I X N; [exists s, [], (settings w); split; [reflexivity|constructor]|].
  assert (Eo : objs s = []) by (apply get_nil_objs; intros x; pose proof (i_obj _ _ _ I x) as M; rewrite N in M; destruct (get x (objs s)); [contradiction|reflexivity]).
  cbn [flat_map]. set (o2 := match u with Get => Read 0 | Set_ f => Write 0 f end).
  assert (Es : statement (t, a, u) = [New t 0 a; o2; Drop 0]) by (destruct u; reflexivity).
  assert (exists s3 l3, run pkg (statement (t, a, u)) s = Done s3 l3) as (s3 & l3 & R).
  { rewrite Es. cbn [run step]. rewrite Eo. cbn [get find option_map]. unfold occupied. rewrite Eo. cbn [existsb].
    pose proof (step_good pkg (New t 0 a) s w I) as G1. cbn [step] in G1. rewrite Eo in G1. cbn [get find option_map] in G1. unfold occupied in G1. rewrite Eo in G1. cbn [existsb] in G1.
    destruct G1 as (b1 & w1 & _ & I1 & _). set (s1 := State _ _ _ _ _ _) in *.
    assert (Q : exists s2 b2 o, step pkg o2 s1 = Ok s2 b2 /\ get 0 (objs s2) = Some o).
    { pose proof (step_good pkg o2 s1 w1 I1) as G2. subst o2. destruct u as [|f]; cbn [step] in *; change (get 0 (objs s1)) with (Some (Obj t a HCFG)) in *; cbn iota in *.
      - unfold deref in *. cbn [o_handle o_thread o_addr] in *. destruct (derefs s1 t a) as [b|] eqn:D.
        + destruct (box (heap s1) b) eqn:B; [|contradiction]. do 3 eexists. split; [reflexivity|]. reflexivity.
        + destruct (cfg_current pkg s1) as [s' c] eqn:C. destruct (cfg_current_ok _ _ _ _ (i_pool _ _ _ I1) C) as (_ & _ & _ & (_ & _ & O & _)).
          cbn [heap] in *. rewrite box_app, Nat.eqb_refl in *. do 3 eexists. split; [reflexivity|]. cbn [objs]. rewrite O. reflexivity.
      - unfold deref_mut in *. cbn [o_handle o_thread o_addr] in *. destruct (remove t a s1) as [s'|]; [|contradiction]. destruct (cfg_current pkg s') as [s'' c]. do 3 eexists. split; [reflexivity|]. cbn [objs]. apply get_eq. }
    destruct Q as (s2 & b2 & o & E2 & G). rewrite E2. rewrite G.
    pose proof (step_good pkg o2 s1 w1 I1) as G2. rewrite E2 in G2. destruct G2 as (b2' & w2 & _ & I2 & _). pose proof (step_good pkg (Drop 0) s2 w2 I2) as G3. cbn [step] in G3. rewrite G in G3.
    unfold drop in *. destruct (o_handle o) as [c|].
    - destruct (current pkg s2) as [s3 c3]. destruct (intern _ _) as [p1 i1]. destruct (intern_vec _ _ _) as [p2 i2]. destruct (intern_vec _ _ p2) as [p3 i3]. destruct (intern_vec _ _ p3) as [p4 i4]. eauto.
    - destruct (remove _ _ s2); [eauto|contradiction]. }
  rewrite run_app, R. destruct (run_spec _ _ _ _ _ _ I R) as (l' & w' & H & _).
  assert (A : always in_place w (statement (t, a, u)) l' w') by (apply history_always; [|exact H]; rewrite Es; intros w0 o [<-|[<-|[<-|[]]]]; [exact Logic.I|subst o2; destruct u; exact Logic.I|exact Logic.I]).
  destruct (run_exact _ _ _ _ _ _ _ _ I X R A) as (-> & I' & X').
  assert (Q : (forall x, handles w' x = None) /\ match u with Get => settings w' = settings w /\ l' = [Silent; Saw (settings w); Silent] | Set_ f => kept (f (settings w)) (settings w') /\ l' = [Silent; Silent; Silent] end).
  { destruct w as [g h]. cbn [settings handles] in *. clear R A. rewrite Es in H. inversion H as [|? ? ? ? ? ? ? D1 H1]; subst. inversion D1; subst.
    inversion H1 as [|? ? ? ? ? ? ? D2 H2]; subst. inversion H2 as [|? ? ? ? ? ? ? D3 H3]; subst. inversion H3; subst. clear H H1 H2 H3 D1.
    subst o2. destruct u as [|f]; inversion D2; subst; match goal with Q : put 0 (Some Fresh) h 0 = _ |- _ => rewrite put_eq in Q; try discriminate Q end;
      inversion D3; subst; match goal with Q : put 0 _ _ 0 = _ |- _ => rewrite put_eq in Q; try discriminate Q; try injection Q as Q; subst end; cbn [settings handles].
    - split; [|split; reflexivity]. intros x. unfold put. destruct (Nat.eqb x 0); [reflexivity|apply N].
    - split; [|split; [assumption|reflexivity]]. intros x. unfold put. destruct (Nat.eqb x 0); [reflexivity|apply N]. }
  destruct Q as (N' & Q). destruct (IH _ _ I' X' N') as (s' & l & g' & R' & S'). rewrite R'. destruct u as [|f]; destruct Q as (Q & ->); do 3 eexists; (split; [reflexivity|]).
  - cbn [app]. constructor. rewrite <- Q. exact S'.
  - cbn [app]. econstructor; [exact Q|exact S'].
Qed.
Theorem C95_statements : forall pkg w ss, first pkg w -> exists s l g', run pkg (flat_map statement ss) start = Done s l /\ script (settings w) ss l g'.
Proof. intros pkg w ss F. destruct (start_inv _ _ F) as (I & X). apply script_ok; [exact I|exact X|exact (proj1 F)]. Qed.
Print Assumptions C95_statements.

(** No change is lost if changes are not made on two handles at a time, and none is forgotten, and the names of directories are text. *)
Definition sum_ok (w : world) (G : cfg) : Prop :=
  textual G /\ (forall x c, handles w x = Some (Own c) -> c = G) /\ (forall x y c d, handles w x = Some (Own c) -> handles w y = Some (Own d) -> x = y) /\
  ((forall x c, handles w x <> Some (Own c)) -> settings w = G).
Lemma kept_textual c c' : textual c -> kept c c' -> c' = c.
Proof.
  destruct c, c'. unfold textual. intros T [A1 A2 A3 A4 A5]. cbn in *. subst. f_equal. induction A2 as [|x y l l' (ps & P & ->) F IH]; [reflexivity|]. inversion T as [|? ? (cs & S & ->) T']; subst.
  rewrite (IH T'). f_equal. rewrite <- (parts_unique _ _ (parts_text cs S) _ P). unfold lossy. rewrite map_map, map_id. reflexivity.
Qed.
Lemma always_sum : forall ops w l w' G, always alone w ops l w' -> sum_ok w G -> (forall f, In f (changes ops) -> forall c, textual c -> textual (f c)) -> sum_ok w' (fold_left (fun g f => f g) (changes ops) G).
Proof.
  induction ops as [|o ops IH]; intros w l w' G A S T; inversion A as [|? ? b w1 ? ? ? P D A']; subst; [exact S|]. clear A.
  assert (N : sum_ok w1 (fold_left (fun g f => f g) (changes [o]) G)).
  { destruct S as (S1 & S2 & S3 & S4). unfold changes in *. cbn [flat_map] in *. rewrite app_nil_r. inversion D; subst; cbn [fold_left settings handles alone] in *.
    all: try (unfold sum_ok; cbn [settings handles]; repeat split; solve [assumption|eapply T; [left; reflexivity|exact S1]]).
    all: try match goal with
      | K : ?h ?x = _ |- sum_ok (World ?g (put ?x ?v ?h)) ?G => 
        assert (NO : (forall c, v <> Some (Own c)) -> (forall c, h x <> Some (Own c)) -> sum_ok (World g (put x v h)) G);
        [intros V Hx; unfold sum_ok; cbn [settings handles]; split; [exact S1|]; split; [|split];
          [intros y c9 Q; destruct (Nat.eq_dec y x) as [->|Ne]; [rewrite put_eq in Q; destruct (V _ Q)|rewrite put_ne in Q by exact Ne; eauto]
          |intros y z c9 d9 Q Q'; destruct (Nat.eq_dec y x) as [->|Ne]; [rewrite put_eq in Q; destruct (V _ Q)|]; destruct (Nat.eq_dec z x) as [->|Ne']; [rewrite put_eq in Q'; destruct (V _ Q')|]; rewrite put_ne in Q, Q' by assumption; eauto
          |intros Z; apply S4; intros y c9 Q; destruct (Nat.eq_dec y x) as [->|Ne]; [exact (Hx _ Q)|]; apply (Z y c9); rewrite put_ne by exact Ne; exact Q]
        |try (apply NO; [discriminate|first [assumption|congruence]])] end.
    all: try match goal with
      | |- sum_ok (World ?g (put ?x (Some (Own (?f ?c))) ?h)) (?f ?G) =>
        assert (Ec : c = G) by (first [eapply S2; eassumption|apply S4; intros y d Q; destruct (Nat.eq_dec y x) as [->|Ne]; [congruence|exact (P y d Ne Q)]]);
        unfold sum_ok; cbn [settings handles]; split; [apply T; [left; reflexivity|exact S1]|]; split; [|split];
          [intros y d Q; destruct (Nat.eq_dec y x) as [->|Ne]; [rewrite put_eq in Q; congruence|rewrite put_ne in Q by exact Ne; destruct (P y d Ne Q)]
          |intros y z d e Q Q'; destruct (Nat.eq_dec y x) as [->|Ne]; [|rewrite put_ne in Q by exact Ne; destruct (P y d Ne Q)]; destruct (Nat.eq_dec z x) as [->|Ne']; [reflexivity|]; rewrite put_ne in Q' by assumption; destruct (P z e Ne' Q')
          |intros Z; destruct (Z x (f c)); apply put_eq] end.
    (* dropping a changed handle *)
    match goal with K : kept ?c ?g', Hx : ?h ?x = Some (Own ?c) |- _ => assert (Ec := S2 _ _ Hx); assert (Eg : g' = c) by (apply kept_textual; [rewrite Ec; exact S1|assumption]) end.
    unfold sum_ok; cbn [settings handles]. split; [exact S1|]. split; [|split]; [| |intros _; congruence].
    - intros y d Q. destruct (Nat.eq_dec y x) as [->|Ne]; [rewrite put_eq in Q; discriminate|]. rewrite put_ne in Q by exact Ne. eauto.
    - intros y z d e Q Q'. destruct (Nat.eq_dec y x) as [->|Ne]; [rewrite put_eq in Q; discriminate|]. destruct (Nat.eq_dec z x) as [->|Ne']; [rewrite put_eq in Q'; discriminate|]. rewrite put_ne in Q, Q' by assumption. eauto. }
  replace (changes (o :: ops)) with (changes [o] ++ changes ops) in * by (unfold changes; cbn; now rewrite app_nil_r). rewrite fold_left_app. eapply IH; [exact A'|exact N|]. intros f If. apply T, in_or_app. right. exact If.
Qed.
Lemma history_unique : forall ops w l w' l' w'', history w ops l w' -> history w ops l' w'' -> l = l' /\ w' = w''.
Proof.
  induction ops as [|o ops IH]; intros w l w' l' w'' A B; inversion A; subst; inversion B; subst; [auto|].
  match goal with H1 : does w o _ _, H2 : does w o _ _ |- _ => destruct (does_unique _ _ _ _ _ _ H1 H2) as (<- & <-) end.
  match goal with H1 : history ?w1 ops _ _, H2 : history ?w1 ops _ _ |- _ => destruct (IH _ _ _ _ _ H1 H2) as (<- & <-) end. auto.
Qed.
Lemma always_history (P : world -> op -> Prop) : forall ops w l w', always P w ops l w' -> history w ops l w'.
Proof. induction ops as [|o ops IH]; intros w l w' H; inversion H; subst; econstructor; eauto. Qed.
Theorem C95_no_loss : forall pkg ops s l w l' w' t x a, first pkg w -> always alone w ops l' w' -> (forall x, handles w' x = None) ->
  (forall f, In f (changes ops) -> forall c, textual c -> textual (f c)) -> run pkg (ops ++ [New t x a; Show x]) start = Done s l ->
  exists l1, l = l1 ++ [Saw (fold_left (fun g f => f g) (changes ops) (settings w))].
Proof.
  intros pkg ops s l w l' w' t x a F A N T R.
  assert (S : sum_ok w (settings w)).
  { destruct F as (F & p & E & _). split; [rewrite E; constructor|]. split; [intros y c Q; rewrite F in Q; discriminate|]. split; [intros y z c d Q; rewrite F in Q; discriminate|reflexivity]. }
  destruct (always_sum _ _ _ _ _ A S T) as (_ & _ & _ & E). rewrite <- E by (intros y c; rewrite N; discriminate).
  rewrite run_app in R. destruct (run pkg ops start) as [| |s1 l1] eqn:R1; try discriminate. destruct (run pkg _ s1) as [| |s2 l2] eqn:R2; try discriminate. injection R as <- <-.
  destruct (run_spec _ _ _ _ _ _ (proj1 (start_inv _ _ F)) R1) as (l1' & w1 & H & I1 & _).
  destruct (history_unique _ _ _ _ _ _ H (always_history _ _ _ _ _ A)) as (-> & ->). exists (l1 ++ [Silent]). rewrite <- app_assoc. f_equal. cbn [app].
  destruct (run_spec _ _ _ _ _ _ I1 R2) as (l2' & w2 & H2 & _ & L2 & _ & K). destruct w' as [g h]. cbn [settings handles] in *.
  inversion H2 as [|? ? ? ? ? ? ? D1 H3]; subst. inversion D1; subst. inversion H3 as [|? ? ? ? ? ? ? D2 H4]; subst. inversion H4; subst.
  inversion D2; subst; match goal with Q : put _ _ _ _ = _ |- _ => rewrite put_eq in Q; try discriminate Q end.
  destruct l2 as [|b1 [|b2 [|]]]; try discriminate L2. destruct (K 0 _ eq_refl) as [[]|K0]. destruct (K 1 _ eq_refl) as [[]|K1]. cbn in K0, K1. congruence.
Qed.
Print Assumptions C95_no_loss.

(** A handle that is moved after it was read (as by [drop(cfg)]) leaves its snapshot behind, and the next handle at the same address reads that. *)
Definition with_doxygen (b : bool) (c : cfg) : cfg := Cfg (include_prefix c) (exported_header_dirs c) (exported_header_prefixes c) (exported_header_links c) b.
Definition with_prefix (p : list N) (c : cfg) : cfg := Cfg p (exported_header_dirs c) (exported_header_prefixes c) (exported_header_links c) (doxygen c).
Definition with_dir (d : list N) (c : cfg) : cfg := Cfg (include_prefix c) (exported_header_dirs c ++ [d]) (exported_header_prefixes c) (exported_header_links c) (doxygen c).
Lemma kept_self c : textual c -> kept c c.
Proof.
  intros T. constructor; try reflexivity. unfold textual in T. induction (exported_header_dirs c) as [|d ds IH]; inversion T as [|? ? (cs & S & ->) T']; subst; constructor; [|apply IH, T'].
  exists (map Char cs). split; [apply parts_text, S|]. unfold lossy. rewrite map_map, map_id. reflexivity.
Qed.
Ltac run_history := repeat (first [apply h_nil|eapply h_cons; [econstructor; solve [reflexivity|apply kept_self; cbn; repeat constructor]|]]).
Theorem C95_stale_refuted : exists ops s l w l' w' i c c', first None w /\ run None ops start = Done s l /\ history w ops l' w' /\
  nth_error l i = Some (Saw c) /\ nth_error l' i = Some (Saw c') /\ doxygen c = false /\ doxygen c' = true.
Proof.
  exists [New 0 0 8; Read 0; Move 0 16; Drop 0; New 0 1 24; Write 1 (with_doxygen true); Drop 1; New 0 2 8; Read 2].
  do 2 eexists. exists (World (Cfg [] [] [] [] false) (fun _ => None)). do 2 eexists. exists 8. do 2 eexists.
  split; [split; [reflexivity|eexists; split; reflexivity]|]. split; [vm_compute; reflexivity|]. split; [run_history|]. repeat split.
Qed.
Print Assumptions C95_stale_refuted.
Theorem C95_claim_refuted : ~ C95_claim.
Proof.
  intros C. destruct C95_stale_refuted as (ops & s & l & w & l' & w' & i & c & c' & F & R & H & E & E' & D & D'). destruct (C _ _ _ _ _ F R) as (w'' & H').
  destruct (history_unique _ _ _ _ _ _ H H') as (-> & _). congruence.
Qed.
Print Assumptions C95_claim_refuted.

(** Two threads that change different settings at the same time: one change is lost. *)
Theorem C95_lost_refuted : exists p ops s l, run None (ops ++ [New 0 9 9; Show 9]) start = Done s (l ++ [Saw (Cfg p [] [] [] false)]) /\
  changes ops = [with_doxygen true; with_prefix p] /\ p <> [] /\ forall x, In (Drop x) ops <-> In x [0; 1].
Proof.
  exists [97%N], [New 0 0 8; New 1 1 16; Write 0 (with_doxygen true); Write 1 (with_prefix [97%N]); Drop 0; Drop 1]. do 2 eexists.
  split; [match goal with |- _ = Done _ (?l ++ [?z]) => let l' := constr:([Silent; Silent; Silent; Silent; Silent; Silent; Silent]) in unify l l' end; vm_compute; reflexivity|].
  split; [reflexivity|]. split; [discriminate|]. intros x. cbn. split.
  - intros [Q|[Q|[Q|[Q|[Q|[Q|[]]]]]]]; try discriminate Q; injection Q as <-; auto.
  - intros [<-|[<-|[]]]; auto 10.
Qed.
Print Assumptions C95_lost_refuted.

(** A directory whose name is not UTF-8 comes back as another directory. *)
Theorem C95_bytes_refuted : exists d s c, run None (flat_map statement [(0, 0, Set_ (with_dir d)); (0, 0, Get)]) start = Done s [Silent; Silent; Silent; Silent; Saw c; Silent] /\ exported_header_dirs c <> [d].
Proof. exists [255%N]. do 2 eexists. split; [vm_compute; reflexivity|]. discriminate. Qed.
Print Assumptions C95_bytes_refuted.

(** A build script with several handles and threads. *)
Definition busy : list op :=
  [New 0 0 8; Read 0; New 1 1 16; Write 1 (with_prefix [97%N; 47%N]); Drop 1; Look 0; Show 0; Read 0; Write 0 (with_dir [105%N]); Read 0; Look 0; Move 0 32;
   New 0 2 8; Show 2; Read 2; Drop 0; Look 2; Drop 2; New 2 3 8; Read 3; Write 3 (with_doxygen true); Write 3 (with_dir [195%N; 188%N]); Show 3; Drop 3].
Example C95_nonvacuous :
  let c := Cfg [109%N] [] [] [] false in let c1 := Cfg [97%N; 47%N] [] [] [] false in let c2 := with_dir [105%N] c1 in let c3 := with_dir [195%N; 188%N] (with_doxygen true c2) in
  let l := [Silent; Saw c; Silent; Silent; Silent; Saw c; Saw c1; Saw c; Silent; Saw c2; Saw c2; Silent; Silent; Saw c1; Saw c1; Silent; Saw c1; Silent; Silent; Saw c2; Silent; Silent; Saw c3; Silent] in
  exists w s w', first (Some [109%N]) w /\ run (Some [109%N]) (busy ++ [New 0 9 9; Show 9]) start = Done s (l ++ [Silent; Saw c3]) /\ always in_place w busy l w' /\ always alone w busy l w' /\
    (forall x, handles w' x = None) /\ (forall f, In f (changes busy) -> forall c, textual c -> textual (f c)).
Proof.
  cbv zeta. exists (World (Cfg [109%N] [] [] [] false) (fun _ => None)). eexists.
  assert (V : forall d, valid_utf8 d -> forall c, textual c -> textual (with_dir d c)) by (intros d Vd c T; unfold textual, with_dir in *; cbn; apply Forall_app; split; [exact T|constructor; [exact Vd|constructor]]).
  assert (V1 : valid_utf8 [105%N]) by (exists [105%N]; split; [repeat constructor; cbv; intuition discriminate|reflexivity]).
  assert (V2 : valid_utf8 [195%N; 188%N]) by (exists [252%N]; split; [repeat constructor; cbv; intuition discriminate|reflexivity]).
  assert (Ti : as_text [105%N] [105%N]) by (exists [Char 105%N]; split; [apply (parts_text [105%N]); repeat constructor; cbv; intuition discriminate|reflexivity]).
  assert (Tu : as_text [195%N; 188%N] [195%N; 188%N]) by (exists [Char 252%N]; split; [apply (parts_text [252%N]); repeat constructor; cbv; intuition discriminate|reflexivity]).
  assert (Tm : as_text [109%N] [109%N]) by (exists [Char 109%N]; split; [apply (parts_text [109%N]); repeat constructor; cbv; intuition discriminate|reflexivity]).
  assert (F : first (Some [109%N]) (World (Cfg [109%N] [] [] [] false) (fun _ => None))) by (split; [reflexivity|eexists; split; [reflexivity|exact Tm]]).
  eexists. split; [exact F|]. split; [vm_compute; reflexivity|].
  assert (Tx : forall c, (exported_header_dirs c = [] \/ exported_header_dirs c = [[105%N]] \/ exported_header_dirs c = [[105%N]; [195%N; 188%N]]) -> textual c).
  { intros c Q. unfold textual. destruct Q as [-> | [-> | ->]]; repeat (constructor; try assumption). }
  split; [unfold busy; repeat first [apply a_nil|eapply a_cons; [try exact Logic.I; cbn; discriminate|econstructor; solve [reflexivity|apply kept_self, Tx; cbn; auto]|]]|].
  split; [unfold busy; repeat first [apply a_nil|eapply a_cons; [try exact Logic.I; cbn [alone handles];
      let y := fresh "y" in intros y ? N; unfold put; repeat match goal with |- context [Nat.eqb y ?k] => let q := fresh in destruct (Nat.eqb y k) eqn:q; [apply Nat.eqb_eq in q; subst y; solve [discriminate|congruence]|clear q] end; discriminate
    |econstructor; solve [reflexivity|apply kept_self, Tx; cbn; auto]|]]|].
  split.
  - intros x. cbn [handles]. unfold put. repeat match goal with |- context [Nat.eqb x ?k] => destruct (Nat.eqb x k) end; reflexivity.
  - intros f. cbn. intros [<-|[<-|[<-|[<-|[]]]]]; auto.
Qed.
