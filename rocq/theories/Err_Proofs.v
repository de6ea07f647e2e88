(** Proofs about errors and exceptions that cross the bridge. *)
From Verif Require Import Base Store_Lib Err_Model Err_Spec.
Require Import NArith Lia.

Notation erepr := (kind * (ptr * nat))%type.
Notation etext := (kind * option (list N))%type.
Definition e_own (r : erepr) : list nat := match fst (snd r) with PAt a => [a] | _ => [] end.
Definition e_ok (h : heap) (r : erepr) (t : etext) : Prop :=
  fst r = fst t /\
  match fst t, snd t with
  | CppError, None => fst (snd r) = PNull
  | CppError, Some text => exists a, snd r = (PAt a, S (List.length text)) /\ cell h a = Some (InCpp, text ++ [0%N])
  | RustException, None => False
  | RustException, Some [] => snd r = (PDangling, 0)
  | RustException, Some text => exists a, snd r = (PAt a, List.length text) /\ cell h a = Some (InRust, text)
  end.
Lemma e_ok_live h r t a : e_ok h r t -> In a (e_own r) -> cell h a <> None.
Proof.
  unfold e_ok, e_own. destruct r as [k [p n]], t as [k' [text|]]; cbn [fst snd]; intros [_ E]; destruct k'.
  - destruct E as (b & E & F). injection E as -> _. intros [<-|[]]. congruence.
  - destruct text.
    + injection E as -> _. intros [].
    + destruct E as (b & E & F). injection E as -> _. intros [<-|[]]. congruence.
  - subst p. intros [].
  - destruct E.
Qed.
Lemma e_ok_frame h h' r t : e_ok h r t -> (forall a, In a (e_own r) -> cell h' a = cell h a) -> e_ok h' r t.
Proof.
  unfold e_ok, e_own. destruct r as [k [p n]], t as [k' [text|]]; cbn [fst snd]; intros [K E] F; (split; [exact K|]); destruct k'; auto.
  - destruct E as (b & E & G). injection E as -> ->. exists b. split; auto. rewrite F; [auto|now left].
  - destruct text; auto. destruct E as (b & E & G). injection E as -> ->. exists b. split; auto. rewrite F; [auto|now left].
Qed.
Lemma e_own_nodup h r t : e_ok h r t -> NoDup (e_own r).
Proof. intros _. unfold e_own. destruct (fst (snd r)); repeat constructor. intros []. Qed.

Notation einv := (inv e_own e_ok).
Notation ghost := (list (nat * (erepr * option etext))).
Local Hint Resolve e_ok_live e_ok_frame e_own_nodup : core.
Definition rel (st : heap * list (nat * erepr)) (s : list (nat * etext)) : Prop :=
  exists m : ghost, snd st = reprs m /\ einv (fst st) m /\ contents m = full s.

(** * C strings *)
Lemma c_string_nul l : c_string (l ++ [0%N]) = Some (before_nul l).
Proof. induction l as [|b l IH]; cbn; [reflexivity|]. destruct (N.eqb b 0); [reflexivity|]. now rewrite IH. Qed.
Lemma before_nul_prefix l : exists r, l ++ [0%N] = before_nul l ++ r.
Proof.
  induction l as [|b l IH]; cbn; [eauto|]. destruct (N.eqb b 0); [cbn; eauto|]. destruct IH as [r E]. exists r. cbn. now rewrite E.
Qed.
Lemma take_app a b : take (List.length a) (a ++ b) = Some a.
Proof. unfold take. rewrite app_length. rewrite (proj2 (Nat.leb_le _ _)) by lia. now rewrite firstn_app, Nat.sub_diag, firstn_all, app_nil_r. Qed.
Lemma take_all a : take (List.length a) a = Some a.
Proof. pose proof (take_app a []) as T. now rewrite app_nil_r in T. Qed.
Lemma take_nul l : take (List.length (before_nul l)) (l ++ [0%N]) = Some (before_nul l).
Proof. destruct (before_nul_prefix l) as [r ->]. apply take_app. Qed.
Lemma copy_all src h : error_copy src (List.length src) h = Some (PAt (List.length h), h ++ [Some (InCpp, src)]).
Proof. unfold error_copy. rewrite take_all. reflexivity. Qed.
Lemma length_nul l : List.length (l ++ [0%N]) = S (List.length l).
Proof. rewrite app_length. cbn. lia. Qed.

(** * Changes of the heap *)
Lemma inv_freed h (m : ghost) : einv h m -> einv (h ++ [None]) m.
Proof.
  intros [O N A]. assert (C : forall a, cell (h ++ [None]) a = cell h a).
  { intros a. destruct (cell h a) eqn:E.
    - rewrite cell_app_old; congruence.
    - destruct (cell (h ++ [None]) a) eqn:F; [|reflexivity]. exfalso.
      assert (G : cell (h ++ [None]) a <> None) by congruence. apply cell_app_inv in G as [->|G]; [|congruence].
      rewrite cell_app_new in F. discriminate. }
  constructor; auto.
  - rewrite Forall_forall in *. intros p J. eapply slot_frame; eauto.
  - intros a. rewrite C. apply A.
Qed.
Lemma set_cell_last {K} (h : list (option K)) c d : set_cell (List.length h) d (h ++ [c]) = h ++ [d].
Proof. induction h as [|x h IH]; cbn; [reflexivity|]. now rewrite IH. Qed.
Lemma set_cell_last2 {K} (h : list (option K)) c d e : set_cell (List.length h) d ((h ++ [c]) ++ [e]) = (h ++ [d]) ++ [e].
Proof. induction h as [|x h IH]; cbn; [reflexivity|]. now rewrite IH. Qed.
(** a new cell for a variable that had none *)
Lemma inv_new h (m : ghost) x r c k n t : einv h m -> lookup x m = Some (r, None) ->
  e_ok (h ++ [Some c]) (k, (PAt (List.length h), n)) t ->
  einv (h ++ [Some c]) (set x ((k, (PAt (List.length h), n)), Some t) m).
Proof.
  intros I L OK. eapply (inv_update e_own e_ok e_ok_live e_ok_frame e_own_nodup); [exact I|eassumption|..]; cbn -[cell].
  - exact OK.
  - intros a J _. now apply cell_app_old.
  - intros a [<-|[]]. right. apply fresh_cell.
  - intros a J. apply cell_app_inv in J as [->|J]; auto.
Qed.
Lemma inv_new' h (m : ghost) x c k n t : einv h m ->
  e_ok (h ++ [Some c]) (k, (PAt (List.length h), n)) t ->
  einv (h ++ [Some c]) ((x, ((k, (PAt (List.length h), n)), Some t)) :: m).
Proof.
  intros I OK. pose proof (inv_declare e_own e_ok h m x (k, (PNull, 0)) I) as I1.
  pose proof (inv_new _ _ x _ c k n t I1 (lookup_here _ _ _) OK) as I2. now rewrite set_here in I2.
Qed.
(** no cell at all *)
Lemma inv_none h (m : ghost) x r r' t : einv h m -> lookup x m = Some (r, None) -> e_own r' = [] -> e_ok h r' t ->
  einv h (set x (r', Some t) m).
Proof.
  intros I L E OK. eapply (inv_update e_own e_ok e_ok_live e_ok_frame e_own_nodup); [exact I|eassumption|..]; cbn -[cell]; rewrite ?E; auto.
Qed.
Lemma inv_none' h (m : ghost) x r' t : einv h m -> e_own r' = [] -> e_ok h r' t -> einv h ((x, (r', Some t)) :: m).
Proof.
  intros I E OK. pose proof (inv_declare e_own e_ok h m x r' I) as I1.
  pose proof (inv_none _ _ x _ r' t I1 (lookup_here _ _ _) E OK) as I2. now rewrite set_here in I2.
Qed.
Lemma inv_deleted h (m : ghost) x k a n t : einv h m -> lookup x m = Some ((k, (PAt a, n)), Some t) ->
  cell h a <> None -> einv (set_cell a None h) (set x ((k, (PAt a, n)), None) m).
Proof.
  intros I L NN. eapply (inv_update e_own e_ok e_ok_live e_ok_frame e_own_nodup); [exact I|eassumption|..]; cbn -[cell].
  - exact Logic.I.
  - intros c _ N. apply cell_set_other. intros ->. apply N. now left.
  - tauto.
  - intros c J. destruct (Nat.eq_dec c a) as [->|N].
    + rewrite cell_set_same in J by congruence. congruence.
    + rewrite cell_set_other in J by auto. right. split; auto. intros [->|[]]; auto.
Qed.
Lemma inv_deleted0 h (m : ghost) x r t : einv h m -> lookup x m = Some (r, Some t) -> e_own r = [] -> einv h (set x (r, None) m).
Proof.
  intros I L E. eapply (inv_update e_own e_ok e_ok_live e_ok_frame e_own_nodup); [exact I|eassumption|..]; cbn -[cell]; rewrite ?E; auto.
Qed.
(** the destructor of an error, also at the start of the assignments *)
Lemma E_delete h (m : ghost) x f o : einv h m -> lookup x m = Some ((CppError, f), Some (CppError, o)) ->
  exists h', delete (fst f) h = Some h' /\ einv h' (set x ((CppError, f), None) m).
Proof.
  intros I L. pose proof (inv_lookup _ _ _ _ _ _ _ I L) as [_ O]. cbn [fst snd] in O. destruct o as [text|].
  - destruct O as (a & -> & CE). cbn [fst delete]. rewrite CE. unfold free. rewrite CE. eexists. split; [reflexivity|].
    eapply inv_deleted; eauto. congruence.
  - destruct f as [p n]. cbn [fst] in *. subst p. exists h. split; [reflexivity|]. eapply inv_deleted0; eauto.
Qed.
Lemma X_drop h (m : ghost) x f o : einv h m -> lookup x m = Some ((RustException, f), Some (RustException, o)) ->
  exists h', exception_drop f h = Some h' /\ einv h' (set x ((RustException, f), None) m).
Proof.
  intros I L. pose proof (inv_lookup _ _ _ _ _ _ _ I L) as [_ O]. cbn [fst snd] in O. destruct o as [text|]; [|destruct O]. destruct text as [|b text].
  - subst f. exists h. split; [reflexivity|]. eapply inv_deleted0; eauto.
  - destruct O as (a & -> & CE). unfold exception_drop. cbn [fst snd]. rewrite CE, Nat.eqb_refl. unfold free. rewrite CE. eexists. split; [reflexivity|].
    eapply inv_deleted; eauto. congruence.
Qed.

Lemma set_fields_reprs (m : ghost) x k f g o : lookup x m = Some ((k, g), o) -> forall o', set_fields x f (reprs m) = reprs (set x ((k, f), o') m).
Proof. intros L o'. unfold set_fields. rewrite (g_reprs_found _ _ _ L). cbn [fst]. now rewrite <- g_reprs_set. Qed.
Lemma fields_reprs (m : ghost) x k f o : lookup x m = Some ((k, f), o) -> fields x (reprs m) = Some f.
Proof. intros L. unfold fields. now rewrite (g_reprs_found _ _ _ L). Qed.
Lemma move_ok n f h : move_around n f h = Some (f, h).
Proof. revert f h. induction n as [|n IH]; intros f h; cbn; [reflexivity|]. apply IH. Qed.

Section Lossy.
Variable decode : list N -> list N.
(** making an exception from a text *)
Lemma exception_ok src n text h (m : ghost) x : einv h m -> take n src = Some text ->
  exists f h', exception decode src n h = Some (f, h') /\ fst f <> PNull /\
    einv h' ((x, ((RustException, f), Some (RustException, Some (decode text)))) :: m).
Proof.
  intros I T. unfold exception. rewrite T. cbn [bind]. unfold box_str. destruct (decode text) as [|b l] eqn:E.
  - eexists. eexists. split; [reflexivity|]. split; [discriminate|]. apply inv_none'; auto. split; reflexivity.
  - cbn [alloc]. eexists. eexists. split; [reflexivity|]. split; [discriminate|]. apply inv_new'; auto. split; [reflexivity|].
    cbn -[cell]. eexists. split; [reflexivity|]. apply cell_app_new.
Qed.
(** ... while another allocation exists for the time being *)
Lemma exception_tmp src n h c f h' : exception decode src n (h ++ [None]) = Some (f, h') ->
  exists h1, exception decode src n (h ++ [Some (InCpp, c)]) = Some (f, h1) /\ delete (PAt (List.length h)) h1 = Some h'.
Proof.
  unfold exception. destruct (take n src) as [text|]; cbn [bind]; [|discriminate]. unfold box_str. destruct (decode text) as [|b l] eqn:E; cbn [alloc].
  - intros [= <- <-]. eexists. split; [reflexivity|]. cbn [delete]. unfold free. rewrite cell_app_new. now rewrite set_cell_last.
  - intros [= <- <-]. rewrite !app_length. eexists. split; [reflexivity|]. cbn [delete]. unfold free.
    rewrite cell_app_old by (rewrite cell_app_new; discriminate). rewrite cell_app_new. now rewrite set_cell_last2.
Qed.

Lemma step_ok o st s : rel st s ->
  match step decode o st with
  | Illegal => spec_step decode o s = Illegal
  | UB => spec_step decode o s = UB
  | Ok st' ob => exists s', spec_step decode o s = Ok s' ob /\ rel st' s'
  end.
Proof.
  destruct st as [h e]. intros (m & E & I & C). cbn [fst snd] in E, I. subst e.
  assert (UN : forall x, unused x (reprs m) = free_name x s).
  { intros x. unfold unused, free_name. rewrite g_reprs_lookup. destruct (lookup x s) as [t|] eqn:L.
    - destruct (g_found m s x C _ L) as (r & ->). reflexivity.
    - now rewrite (g_missing m s x C L). }
  assert (KD : forall x k o, lookup x s = Some (k, o) -> exists f, lookup x m = Some ((k, f), Some (k, o))).
  { intros x k o' L. destruct (g_found m s x C _ L) as ([k' f] & LM). pose proof (proj1 (inv_lookup _ _ _ _ _ _ _ I LM)) as K. cbn in K. subst k'. eauto. }
  assert (ER : forall x, match error x s with
     | Some o => exists f, lookup x m = Some ((CppError, f), Some (CppError, o)) /\ is_error x (reprs m) = true /\ lookup x s = Some (CppError, o)
     | None => is_error x (reprs m) = false end).
  { intros x. unfold error, is_error. rewrite g_reprs_lookup. destruct (lookup x s) as [[k o']|] eqn:L.
    - destruct (KD _ _ _ L) as (f & ->). destruct k; cbn; eauto.
    - now rewrite (g_missing m s x C L). }
  assert (FN : forall x, free_name x s = true -> lookup x s = None /\ lookup x m = None).
  { intros x. unfold free_name. destruct (lookup x s) eqn:L; [discriminate|]. intros _. split; auto. eapply g_missing; eauto. }
  assert (ADD : forall x h' f t, einv h' ((x, (f, Some t)) :: m) -> rel (h', (x, f) :: reprs m) ((x, t) :: s)).
  { intros x h' f t J. eexists. cbn [fst snd]. split; [|split; [exact J|]]; [reflexivity|]. rewrite g_contents_cons, full_cons. now rewrite C. }
  assert (SAME : rel (h, reprs m) s) by (exists m; auto).
  destruct o; cbn [step spec_step].
  - (* CallRust *) rewrite UN. destruct (free_name x s) eqn:F; [|reflexivity]. destruct r as [v|text].
    + cbn. eauto.
    + unfold rust_shim, r_try, to_c_error. rewrite copy_all. cbn [bind fst error_of snd]. rewrite move_ok. eexists. split; [reflexivity|].
      apply ADD. apply inv_new'; auto. split; [reflexivity|]. cbn -[cell]. eexists. rewrite length_nul. split; [reflexivity|]. apply cell_app_new.
  - (* CallCpp *) rewrite UN. destruct (free_name x s) eqn:F; [|reflexivity]. cbn [andb].
    assert (THR : forall src n text, take n src = Some text ->
      exists f h', exception decode src n h = Some (f, h') /\ fst f <> PNull /\ rel (h', (x, (RustException, f)) :: reprs m) ((x, (RustException, Some (decode text))) :: s)).
    { intros src n text T. destruct (exception_ok src n text h m x I T) as (f & h' & EX & NP & J). eauto 6. }
    destruct b as [v|what| |y|text]; cbn [legal].
    + cbn. eauto.
    + destruct what as [what|]; [|reflexivity]. unfold call_cxx, cxx_shim, fail_c_string. cbn [option_map bind]. rewrite c_string_nul. cbn [bind].
      destruct (THR (what ++ [0%N]) _ _ (take_nul what)) as ([p n] & h' & -> & NP & R). cbn [bind fst] in *. unfold result_exception.
      destruct p; [congruence|..]; cbn; eauto.
    + cbn. eauto.
    + pose proof (ER y) as EY. destruct (error y s) as [[text|]|]; [| |now rewrite EY]; destruct EY as (f & LM & IE & LS); rewrite IE.
      * unfold call_cxx, cxx_shim. rewrite (fields_reprs _ _ _ _ _ LM). cbn [bind].
        pose proof (inv_lookup _ _ _ _ _ _ _ I LM) as [_ (a & EF & CE)]. cbn [snd] in EF. subst f.
        unfold error_ctor_copy, memory. rewrite CE. cbn [option_map snd bind]. rewrite <- length_nul, copy_all. cbn [bind fst]. rewrite cell_app_new. cbn [option_map snd].
        unfold fail_c_string. cbn [bind]. rewrite c_string_nul. cbn [bind].
        destruct (exception_ok (text ++ [0%N]) _ _ (h ++ [None]) m x (inv_freed _ _ I) (take_nul text)) as (f & h' & EX & NP & J).
        destruct (exception_tmp _ _ _ (text ++ [0%N]) _ _ EX) as (h1 & -> & D). destruct f as [p n]. cbn [bind fst] in *. unfold error_dtor. cbn [fst]. rewrite D. cbn [bind].
        unfold result_exception. cbn [fst snd]. apply ADD in J. destruct p; [congruence|..]; cbn; eauto.
      * unfold call_cxx, cxx_shim. rewrite (fields_reprs _ _ _ _ _ LM). cbn [bind].
        pose proof (inv_lookup _ _ _ _ _ _ _ I LM) as [_ EF]. cbn [fst snd] in EF. destruct f as [p n]. cbn [fst] in EF. subst p. reflexivity.
    + unfold call_cxx, cxx_shim, fail_string.
      destruct (THR text _ _ (take_all text)) as ([p n] & h' & -> & NP & R). cbn [bind fst] in *. unfold result_exception.
      destruct p; [congruence|..]; cbn; eauto.
  - (* Copy *) rewrite UN. destruct (free_name x s) eqn:F; [|reflexivity]. destruct (FN x F) as [FS FM].
    pose proof (ER y) as EY. destruct (error y s) as [o|]; [|now rewrite EY]. destruct EY as (f & LM & IE & LS). rewrite IE. cbn [andb].
    rewrite (fields_reprs _ _ _ _ _ LM). cbn [bind]. pose proof (inv_lookup _ _ _ _ _ _ _ I LM) as [_ EF]. cbn [fst snd] in EF.
    destruct o as [text|].
    + destruct EF as (a & -> & CE). unfold error_ctor_copy. destruct oom; [eauto|]. unfold memory. rewrite CE. cbn [option_map snd bind]. rewrite <- length_nul, copy_all. cbn [bind].
      eexists. split; [reflexivity|]. apply ADD. apply inv_new'; auto. split; [reflexivity|]. cbn -[cell]. eexists. rewrite length_nul. split; [reflexivity|]. apply cell_app_new.
    + destruct f as [p n]. cbn [fst] in EF. subst p. cbn [error_ctor_copy]. eexists. split; [reflexivity|]. apply ADD. apply inv_none'; auto. split; reflexivity.
  - (* Move *) rewrite UN. destruct (free_name x s) eqn:F; [|reflexivity]. destruct (FN x F) as [FS FM].
    pose proof (ER y) as EY. destruct (error y s) as [o|]; [|now rewrite EY]. destruct EY as (f & LM & IE & LS). rewrite IE. cbn [andb].
    assert (N : x <> y) by congruence.
    rewrite (fields_reprs _ _ _ _ _ LM). cbn [error_ctor_move]. eexists. split; [reflexivity|].
    pose proof (inv_declare e_own e_ok h m x (CppError, (PNull, 0)) I) as I1.
    assert (LM1 : lookup y ((x, ((CppError, (PNull, 0)), None)) :: m) = Some ((CppError, f), Some (CppError, o))) by (rewrite lookup_past; auto).
    pose proof (inv_transfer e_own e_ok e_ok_live e_ok_frame e_own_nodup h _ x y _ _ N I1 (lookup_here _ _ _) LM1) as I2.
    assert (LM2 : lookup y (set y (fst ((CppError, f), Some (CppError, o)), None) (set x ((CppError, f), Some (CppError, o)) ((x, ((CppError, (PNull, 0)), None)) :: m))) = Some ((CppError, f), None)).
    { apply lookup_set_same. rewrite set_here. rewrite lookup_past by auto. congruence. }
    pose proof (inv_none _ _ y _ (CppError, (PNull, 0)) (CppError, None) I2 LM2 eq_refl (conj eq_refl eq_refl)) as I3. rewrite set_set, set_here, set_past in I3 by auto.
    eexists. cbn [fst snd]. split; [|split; [exact I3|]].
    + rewrite (set_fields_reprs m y CppError (PNull, 0) _ _ LM (Some (CppError, None))). reflexivity.
    + rewrite g_contents_cons, full_cons, g_contents_set, full_set, C. reflexivity.
  - (* AssignCopy *) pose proof (ER x) as EX. pose proof (ER y) as EY.
    destruct (error x s) as [ox|]; [|now rewrite EX]. destruct EX as (fx & LX & -> & SX).
    destruct (error y s) as [oy|]; [|now rewrite EY]. destruct EY as (fy & LY & -> & SY). cbn [andb].
    unfold error_assign_copy. destruct (Nat.eqb_spec x y) as [->|N]; [eauto|].
    rewrite (fields_reprs _ _ _ _ _ LX). cbn [bind]. destruct (E_delete h m x fx ox I LX) as (h1 & -> & I1). cbn [bind].
    assert (L1 : lookup x (set x ((CppError, fx), None) m) = Some ((CppError, fx), None)) by (apply lookup_set_same; congruence).
    pose proof (inv_none _ _ x _ (CppError, (PNull, snd fx)) (CppError, None) I1 L1 eq_refl (conj eq_refl eq_refl)) as I2. rewrite set_set in I2.
    rewrite (set_fields_reprs m x CppError (PNull, snd fx) _ _ LX (Some (CppError, None))).
    assert (LY1 : lookup y (set x ((CppError, (PNull, snd fx)), Some (CppError, None)) m) = Some ((CppError, fy), Some (CppError, oy))) by (rewrite lookup_set_other; auto).
    rewrite (fields_reprs _ _ _ _ _ LY1). cbn [bind].
    assert (NULLED : rel (h1, reprs (set x ((CppError, (PNull, snd fx)), Some (CppError, None)) m)) (set x (CppError, None) s)).
    { eexists. cbn [fst snd]. split; [reflexivity|]. split; [exact I2|]. now rewrite g_contents_set, full_set, C. }
    pose proof (inv_lookup _ _ _ _ _ _ _ I2 LY1) as [_ EF]. cbn [fst snd] in EF. destruct oy as [text|].
    + destruct EF as (a & -> & CE). cbn [fst snd]. destruct oom; [eauto|]. unfold memory. rewrite CE. cbn [option_map snd bind]. rewrite <- length_nul, copy_all. cbn [bind].
      eexists. split; [reflexivity|].
      assert (I3 : einv (h1 ++ [Some (InCpp, text ++ [0%N])]) (set x ((CppError, (PAt (List.length h1), List.length (text ++ [0%N]))), Some (CppError, Some text)) (set x ((CppError, fx), None) m))).
      { eapply inv_new; [exact I1|exact L1|]. split; [reflexivity|]. cbn -[cell]. eexists. rewrite length_nul. split; [reflexivity|]. apply cell_app_new. }
      rewrite set_set in I3. eexists. cbn [fst snd]. split; [|split; [exact I3|]].
      * erewrite set_fields_reprs by (apply lookup_set_same; congruence). rewrite set_set. reflexivity.
      * now rewrite g_contents_set, full_set, C.
    + destruct fy as [p n]. cbn [fst] in *. subst p. eauto.
  - (* AssignMove *) pose proof (ER x) as EX. pose proof (ER y) as EY.
    destruct (error x s) as [ox|]; [|now rewrite EX]. destruct EX as (fx & LX & -> & SX).
    destruct (error y s) as [oy|]; [|now rewrite EY]. destruct EY as (fy & LY & -> & SY). cbn [andb].
    unfold error_assign_move. rewrite (fields_reprs _ _ _ _ _ LX). cbn [bind]. destruct (E_delete h m x fx ox I LX) as (h1 & -> & I1). cbn [bind].
    assert (L1 : lookup x (set x ((CppError, fx), None) m) = Some ((CppError, fx), None)) by (apply lookup_set_same; congruence).
    rewrite (fields_reprs _ _ _ _ _ LY). cbn [bind]. destruct (Nat.eqb_spec x y) as [->|N].
    + eexists. split; [reflexivity|].
      pose proof (inv_none _ _ y _ (CppError, (PNull, 0)) (CppError, None) I1 L1 eq_refl (conj eq_refl eq_refl)) as I2. rewrite set_set in I2.
      eexists. cbn [fst snd]. split; [|split; [exact I2|]].
      * rewrite (set_fields_reprs m y CppError fy _ _ LY None). erewrite set_fields_reprs by (apply lookup_set_same; congruence). rewrite set_set. reflexivity.
      * now rewrite g_contents_set, full_set, C.
    + eexists. split; [reflexivity|].
      assert (LY1 : lookup y (set x ((CppError, fx), None) m) = Some ((CppError, fy), Some (CppError, oy))) by (rewrite lookup_set_other; auto).
      pose proof (inv_transfer e_own e_ok e_ok_live e_ok_frame e_own_nodup h1 _ x y _ _ N I1 L1 LY1) as I2. rewrite set_set in I2.
      assert (L2 : lookup y (set y (fst ((CppError, fy), Some (CppError, oy)), None) (set x ((CppError, fy), Some (CppError, oy)) m)) = Some ((CppError, fy), None)).
      { apply lookup_set_same. rewrite lookup_set_other by auto. congruence. }
      pose proof (inv_none _ _ y _ (CppError, (PNull, 0)) (CppError, None) I2 L2 eq_refl (conj eq_refl eq_refl)) as I3. rewrite set_set in I3.
      eexists. cbn [fst snd]. split; [|split; [exact I3|]].
      * rewrite (set_fields_reprs m x CppError fy _ _ LX (Some (CppError, oy))).
        erewrite set_fields_reprs by (rewrite lookup_set_other by auto; exact LY). reflexivity.
      * now rewrite !g_contents_set, !full_set, C.
  - (* What *) rewrite g_reprs_lookup. destruct (lookup x s) as [[k o]|] eqn:L; [|now rewrite (g_missing m s x C L)].
    destruct (KD _ _ _ L) as (f & LM). rewrite LM. cbn [option_map fst]. pose proof (inv_lookup _ _ _ _ _ _ _ I LM) as [_ EF]. cbn [fst snd] in EF.
    destruct k.
    + destruct o as [text|].
      * destruct EF as (a & -> & CE). unfold error_what. cbn [fst]. unfold memory. rewrite CE. cbn [option_map snd bind]. rewrite c_string_nul. cbn [bind]. eauto.
      * destruct f as [p n]. cbn [fst] in EF. subst p. cbn. eauto.
    + destruct o as [text|]; [|destruct EF]. destruct text as [|b text].
      * subst f. cbn. eauto.
      * destruct EF as (a & -> & CE). unfold exception_what. cbn [fst snd]. unfold memory. rewrite CE. cbn [option_map snd bind]. rewrite take_all. eauto.
  - (* Destroy *) rewrite g_reprs_lookup. destruct (lookup x s) as [[k o]|] eqn:L; [|now rewrite (g_missing m s x C L)].
    destruct (KD _ _ _ L) as (f & LM). rewrite LM. cbn [option_map fst].
    assert (FIN : forall h' k, einv h' (set x ((k, f), None) m) -> rel (h', remove x (reprs m)) (remove x s)).
    { intros h' k' J. exists (remove x m). cbn [fst snd]. split; [apply g_reprs_remove|]. split.
      - rewrite <- (remove_set x ((k', f), None) m). eapply inv_forget; eauto. apply lookup_set_same. congruence.
      - now rewrite g_contents_remove, full_remove, C. }
    destruct k.
    + destruct (E_delete h m x f o I LM) as (h1 & D & I1). unfold error_dtor. rewrite D. eauto.
    + destruct (X_drop h m x f o I LM) as (h1 & D & I1). rewrite D. eauto.
Qed.

Lemma run_ok ops : forall st s, rel st s ->
  match run decode ops st with
  | (Illegal, t) => spec_run decode ops s = (Illegal, t)
  | (UB, t) => spec_run decode ops s = (UB, t)
  | (Ok st' ob, t) => exists s', spec_run decode ops s = (Ok s' ob, t) /\ rel st' s'
  end.
Proof.
  induction ops as [|o ops IH]; intros st s R; cbn [run spec_run].
  - eauto.
  - pose proof (step_ok o st s R) as S. destruct (step decode o st) as [| |st' ob].
    + now rewrite S.
    + now rewrite S.
    + destruct S as (s' & -> & R'). specialize (IH st' s' R').
      destruct ob; eauto; destruct (run decode ops st') as [[| |st2 ob2] tr]; try (now rewrite IH); destruct IH as (s2 & -> & R2); eauto.
Qed.
End Lossy.
Lemma rel_init : rel ([], []) [].
Proof. exists []. cbn. repeat split; auto; try constructor. intros a. unfold cell. destruct a; cbn; congruence. Qed.
