From Verif Require Import Base Lossy_Spec Lossy_Proofs Construct_Model Construct_Proofs Settings_Model Settings_Spec.
Require Import NArith Lia.

(** * Text *)
Lemma lossy_text l ps : parts l ps -> to_string_lossy l = utf8_text (lossy ps).
Proof. intros P. apply from_utf8_lossy_spec; [apply le_n|exact P]. Qed.

(** * Interning *)
Lemma text_eqb_eq a b : text_eqb a b = true <-> a = b.
Proof. unfold text_eqb. destruct (list_eq_dec N.eq_dec a b); split; congruence. Qed.
Lemma position_ok s : forall p i, position s p = Some i -> i < List.length p /\ nth i p [] = s.
Proof.
  induction p as [|x p IH]; intros i E; [discriminate|]. cbn [position] in E. destruct (text_eqb s x) eqn:Q.
  - injection E as <-. apply text_eqb_eq in Q. cbn. split; [lia|now symmetry].
  - destruct (position s p) as [j|]; [|discriminate]. injection E as <-. destruct (IH j eq_refl). cbn. split; [lia|assumption].
Qed.
(** what has been leaked stays *)
Definition grows (p p' : pool) : Prop := List.length p <= List.length p' /\ forall i, i < List.length p -> str p' i = str p i.
Lemma grows_refl p : grows p p.
Proof. split; auto. Qed.
Lemma grows_trans p q r : grows p q -> grows q r -> grows p r.
Proof. intros (A & B) (C & D). split; [lia|]. intros i L. rewrite D, B; [reflexivity|exact L|lia]. Qed.
Lemma intern_ok s p p' i : intern s p = (p', i) -> i < List.length p' /\ str p' i = s /\ grows p p'.
Proof.
  unfold intern. destruct (position s p) as [j|] eqn:E; intros Q; injection Q as <- <-.
  - apply position_ok in E as (L & E). split; [exact L|]. split; [exact E|apply grows_refl].
  - rewrite app_length. cbn [List.length]. split; [lia|]. split; [unfold str; rewrite app_nth2, Nat.sub_diag; auto|].
    split; [rewrite app_length; lia|]. intros i L. unfold str. apply app_nth1, L.
Qed.
Lemma intern_vec_ok f : forall l p p' is, intern_vec f l p = (p', is) -> Forall (fun i => i < List.length p') is /\ vec p' is = map f l /\ grows p p'.
Proof.
  induction l as [|e l IH]; intros p p' is E; cbn [intern_vec] in E.
  - injection E as <- <-. split; [constructor|]. split; [reflexivity|apply grows_refl].
  - destruct (intern (f e) p) as [p1 i] eqn:E1. destruct (intern_vec f l p1) as [p2 is'] eqn:E2. injection E as <- <-.
    apply intern_ok in E1 as (L & S & G). apply IH in E2 as (Ls & V & G'). split; [constructor; [|exact Ls]; destruct G' as (? & _); lia|].
    split; [|apply (grows_trans _ p1); assumption]. unfold vec in *. cbn [map]. rewrite V. f_equal. destruct G' as (_ & G'). rewrite G'; assumption.
Qed.
Lemma vec_grows p p' is : grows p p' -> Forall (fun i => i < List.length p) is -> vec p' is = vec p is.
Proof. intros (_ & G) F. apply map_ext_in. intros i I. rewrite Forall_forall in F. apply G, F, I. Qed.
Lemma bound_grows p p' is : grows p p' -> Forall (fun i => i < List.length p) is -> Forall (fun i => i < List.length p') is.
Proof. intros (L & _). apply Forall_impl. intros i Hi. lia. Qed.

(** * The settings *)
Section Proofs.
Variable pkg : option (list N).
Notation current := (current pkg). Notation cfg_current := (cfg_current pkg). Notation step := (step pkg). Notation run := (run pkg).

Definition contents (p : pool) (c : current_cfg) : cfg :=
  Cfg (str p (c_include_prefix c)) (vec p (c_dirs c)) (vec p (c_prefixes c)) (vec p (c_links c)) (c_doxygen c).
Definition bounded (p : pool) (c : current_cfg) : Prop :=
  c_include_prefix c < List.length p /\ Forall (fun i => i < List.length p) (c_dirs c) /\ Forall (fun i => i < List.length p) (c_prefixes c) /\ Forall (fun i => i < List.length p) (c_links c).
Definition initial : cfg := Cfg (match pkg with Some pkg => to_string_lossy pkg | None => [] end) [] [] [] false.
Definition cfg_of (s : state) : cfg := match cur s with Some c => contents (st_pool s) c | None => initial end.
Definition pool_ok (s : state) : Prop := match cur s with Some c => bounded (st_pool s) c | None => True end.
Definition same_rest (s s' : state) : Prop := derefs s' = derefs s /\ heap s' = heap s /\ objs s' = objs s /\ loans s' = loans s.

Lemma current_ok s s' c : pool_ok s -> current s = (s', c) -> cur s' = Some c /\ pool_ok s' /\ cfg_of s' = cfg_of s /\ contents (st_pool s') c = cfg_of s /\ same_rest s s'.
Proof.
  unfold pool_ok, cfg_of, Settings_Model.current. intros B E. destruct (cur s) as [c0|] eqn:C.
  - injection E as <- <-. rewrite C. split; [reflexivity|]. split; [exact B|]. split; [reflexivity|]. split; [reflexivity|]. repeat split.
  - unfold default in E. destruct (intern _ (st_pool s)) as [p i] eqn:I. injection E as <- <-. apply intern_ok in I as (L & S & G). cbn [cur st_pool].
    assert (Q : contents p (Current i [] [] [] false) = initial) by (unfold contents, initial; cbn; now rewrite S).
    split; [reflexivity|]. split; [repeat split; cbn; auto|]. split; [exact Q|]. split; [exact Q|]. repeat split.
Qed.
Lemma cfg_current_ok s s' c : pool_ok s -> cfg_current s = (s', c) -> c = cfg_of s /\ pool_ok s' /\ cfg_of s' = cfg_of s /\ same_rest s s'.
Proof.
  unfold Settings_Model.cfg_current. intros B E. destruct (current s) as [s1 c1] eqn:C. injection E as <- <-.
  destruct (current_ok _ _ _ B C) as (_ & B' & Q & Q' & R). split; [exact Q'|]. auto.
Qed.

(** * Tables *)
Lemma get_cons {A} x y (v : A) l : get x ((y, v) :: l) = if Nat.eqb y x then Some v else get x l.
Proof. unfold get. cbn. destruct (Nat.eqb y x); reflexivity. Qed.
Lemma get_del {A} x y (l : list (nat * A)) : get x (del y l) = if Nat.eqb x y then None else get x l.
Proof.
  induction l as [|[z v] l IH]; [now destruct (Nat.eqb x y)|]. unfold del in *. cbn [filter fst negb]. destruct (Nat.eqb z y) eqn:E; cbn [negb].
  - apply Nat.eqb_eq in E as ->. rewrite IH, get_cons. destruct (Nat.eqb x y) eqn:F; [reflexivity|]. rewrite Nat.eqb_sym, F. reflexivity.
  - rewrite !get_cons, IH. destruct (Nat.eqb z x) eqn:F; [|reflexivity]. apply Nat.eqb_eq in F as ->. now rewrite E.
Qed.
Lemma get_in {A} x (v : A) l : get x l = Some v -> exists y, In (y, v) l.
Proof. unfold get. destruct (find _ l) as [[y w]|] eqn:E; [|discriminate]. intros Q. injection Q as <-. apply find_some in E as (I & _). exists y. exact I. Qed.
Lemma free_ok a s x o : occupied a s = false -> get x (objs s) = Some o -> o_addr o <> a.
Proof.
  intros F G Q. apply get_in in G as (y & I). unfold occupied in F. assert (T : existsb (fun e => Nat.eqb (o_addr (snd e)) a) (objs s) = true); [|congruence].
  apply existsb_exists. exists (y, o). split; [exact I|]. cbn. apply Nat.eqb_eq, Q.
Qed.
Lemma at_ok t a v d t' a' : at_ t a v d t' a' = v /\ t' = t /\ a' = a \/ at_ t a v d t' a' = d t' a' /\ (t' <> t \/ a' <> a).
Proof.
  unfold at_. destruct (Nat.eqb t' t) eqn:E; destruct (Nat.eqb a' a) eqn:F; cbn; rewrite ?Nat.eqb_eq, ?Nat.eqb_neq in *; auto.
Qed.
Lemma box_set b c h b' : b < List.length h -> box (set_heap b c h) b' = if Nat.eqb b' b then c else box h b'.
Proof.
  intros L. unfold box, set_heap. destruct (Nat.eqb b' b) eqn:E; rewrite ?Nat.eqb_eq, ?Nat.eqb_neq in E.
  - subst b'. rewrite nth_error_app2; rewrite firstn_length_le by lia; [|lia]. now rewrite Nat.sub_diag.
  - destruct (Nat.lt_ge_cases b' b) as [H|H].
    + rewrite nth_error_app1 by (rewrite firstn_length_le; lia). f_equal. clear -H. revert b' h H. induction b as [|b IH]; intros b' h H; [lia|].
      destruct h as [|x h]; [now destruct b'|]. destruct b'; [reflexivity|]. cbn. apply IH. lia.
    + rewrite nth_error_app2; rewrite firstn_length_le by lia; [|lia]. replace (b' - b) with (S (b' - S b)) by lia. cbn [nth_error].
      assert (Q : nth_error h b' = nth_error (skipn (S b) h) (b' - S b)); [|now rewrite Q].
      replace b' with (S b + (b' - S b)) at 1 by lia. generalize (b' - S b). intros k. clear. revert h. generalize (S b). induction n as [|n IH]; intros h; [reflexivity|]. destruct h as [|x h]; [now destruct k|]. cbn. apply IH.
Qed.
Lemma box_app h c b : box (h ++ [c]) b = if Nat.eqb b (List.length h) then c else box h b.
Proof.
  unfold box. destruct (Nat.eqb b (List.length h)) eqn:E; rewrite ?Nat.eqb_eq, ?Nat.eqb_neq in E.
  - subst. now rewrite nth_error_app2, Nat.sub_diag by lia.
  - destruct (Nat.lt_ge_cases b (List.length h)) as [H|H]; [now rewrite nth_error_app1|].
    rewrite (proj2 (nth_error_None (h ++ [c]) b)) by (rewrite app_length; cbn; lia). now rewrite (proj2 (nth_error_None h b)).
Qed.
Lemma box_lt h b c : box h b = Some c -> b < List.length h.
Proof. unfold box. intros E. apply nth_error_Some. destruct (nth_error h b); congruence. Qed.

(** * The invariant *)
Definition matches (o : option obj) (v : option view) : Prop :=
  match o, v with
  | None, None => True
  | Some o, Some Fresh | Some o, Some (Seen _) => o_handle o = HCFG
  | Some o, Some (Own c) => o_handle o = HMut c
  | _, _ => False
  end.
Record inv (s : state) (w : world) : Prop := {
  i_cur : settings w = cfg_of s;
  i_pool : pool_ok s;
  i_obj : forall x, matches (get x (objs s)) (handles w x);
  i_addr : forall x y o o', get x (objs s) = Some o -> get y (objs s) = Some o' -> o_addr o = o_addr o' -> x = y;
  i_heap : forall t a b, derefs s t a = Some b -> exists c, box (heap s) b = Some c;
  i_inj : forall t a t' a' b, derefs s t a = Some b -> derefs s t' a' = Some b -> t = t' /\ a = a';
  i_loan : forall x v, get x (loans s) = Some v -> exists o, get x (objs s) = Some o /\
      match v with Some b => o_handle o = HCFG /\ derefs s (o_thread o) (o_addr o) = Some b /\ (exists c, handles w x = Some (Seen c)) | None => exists c, o_handle o = HMut c end }.
(** every snapshot in the table belongs to a handle that has been read, and the other way round *)
Record exact (s : state) (w : world) : Prop := {
  e_from : forall t a b, derefs s t a = Some b -> exists x o c, get x (objs s) = Some o /\ o_thread o = t /\ o_addr o = a /\ handles w x = Some (Seen c) /\ box (heap s) b = Some c;
  e_to : forall x o c, get x (objs s) = Some o -> handles w x = Some (Seen c) -> exists b, derefs s (o_thread o) (o_addr o) = Some b }.

Lemma inv_same s s' w : inv s w -> pool_ok s' -> cfg_of s' = cfg_of s -> same_rest s s' -> inv s' w /\ (exact s w -> exact s' w).
Proof.
  intros [C P O A H J L] P' C' (R1 & R2 & R3 & R4). split.
  - constructor; rewrite ?R1, ?R2, ?R3, ?R4; try assumption. now rewrite C'.
  - intros [F T]. constructor; rewrite ?R1, ?R2, ?R3, ?R4; assumption.
Qed.

(** removing an entry of the table *)
Lemma remove_ok s w t a : inv s w -> exists s1, remove t a s = Some s1 /\ cur s1 = cur s /\ st_pool s1 = st_pool s /\ objs s1 = objs s /\ loans s1 = loans s /\
  derefs s1 t a = None /\ (forall t' a', t' <> t \/ a' <> a -> derefs s1 t' a' = derefs s t' a') /\
  (forall t' a' b, derefs s1 t' a' = Some b -> derefs s t' a' = Some b /\ box (heap s1) b = box (heap s) b).
Proof.
  intros I. unfold remove. destruct (derefs s t a) as [b|] eqn:D.
  - destruct (i_heap _ _ I _ _ _ D) as (c & B). rewrite B. eexists. split; [reflexivity|]. cbn. do 4 (split; [reflexivity|]).
    split; [destruct (at_ok t a None (derefs s) t a) as [(E & _)|(_ & [X|X])]; congruence|]. split.
    + intros t' a' N. destruct (at_ok t a None (derefs s) t' a') as [(_ & -> & ->)|(E & _)]; [intuition congruence|exact E].
    + intros t' a' b' E. destruct (at_ok t a None (derefs s) t' a') as [(E' & _)|(E' & N)]; [congruence|]. rewrite E' in E. split; [exact E|].
      rewrite box_set by (eapply box_lt; eassumption). destruct (Nat.eqb b' b) eqn:Q; [|reflexivity]. apply Nat.eqb_eq in Q as ->.
      destruct (i_inj _ _ I _ _ _ _ _ D E). intuition congruence.
  - exists s. do 5 (split; [reflexivity|]). split; [exact D|]. split; auto.
Qed.


Lemma put_eq x v h : put x v h x = v.
Proof. unfold put. now rewrite Nat.eqb_refl. Qed.
Lemma put_ne x v h y : y <> x -> put x v h y = h y.
Proof. unfold put. intros N. apply Nat.eqb_neq in N. now rewrite N. Qed.
Lemma get_eq {A} x (v : A) l : get x ((x, v) :: l) = Some v.
Proof. now rewrite get_cons, Nat.eqb_refl. Qed.
Lemma get_ne {A} x y (v : A) l : y <> x -> get y ((x, v) :: l) = get y l.
Proof. rewrite get_cons. intros N. apply Nat.neq_sym, Nat.eqb_neq in N. now rewrite N. Qed.
Lemma del_eq {A} x (l : list (nat * A)) : get x (del x l) = None.
Proof. now rewrite get_del, Nat.eqb_refl. Qed.
Lemma del_ne {A} x y (l : list (nat * A)) : y <> x -> get y (del x l) = get y l.
Proof. rewrite get_del. intros N. apply Nat.eqb_neq in N. now rewrite N. Qed.

(** A step on the handle [x], which is replaced by [o'], or taken away, with the table changed at its place only. *)
Lemma inv_handle s s' g h g' x o o' v' :
  inv s (World g h) -> get x (objs s) = Some o ->
  g' = cfg_of s' -> pool_ok s' ->
  objs s' = match o' with Some o' => (x, o') :: del x (objs s) | None => del x (objs s) end ->
  loans s' = del x (loans s) ->
  matches o' v' ->
  (forall o1, o' = Some o1 -> o_addr o1 = o_addr o \/ occupied (o_addr o1) s = false) ->
  (forall t a, t <> o_thread o \/ a <> o_addr o -> derefs s' t a = derefs s t a) ->
  (forall t a b, derefs s' t a = Some b -> derefs s t a = Some b /\ box (heap s') b = box (heap s) b) ->
  inv s' (World g' (put x v' h)).
Proof.
  intros [C P O A H J L] G E P' Eo El M Ad D B. constructor; cbn [settings handles] in *.
  - exact E.
  - exact P'.
  - intros y. rewrite Eo. destruct (Nat.eq_dec y x) as [->|N]; [rewrite put_eq; destruct o'; rewrite ?get_eq, ?del_eq; exact M|].
    rewrite put_ne by exact N. destruct o'; rewrite ?get_ne, ?del_ne by exact N; apply O.
  - intros y z oy oz. rewrite Eo. destruct o' as [o1|].
    + intros Gy Gz Q. destruct (Nat.eq_dec y x) as [->|Ny], (Nat.eq_dec z x) as [->|Nz]; [reflexivity| | |].
      * rewrite get_eq in Gy. injection Gy as <-. rewrite get_ne, del_ne in Gz by exact Nz. destruct (Ad _ eq_refl) as [Q'|F].
        -- apply (A _ _ _ _ G Gz). congruence.
        -- exfalso. apply (free_ok _ _ _ _ F Gz). now symmetry.
      * rewrite get_eq in Gz. injection Gz as <-. rewrite get_ne, del_ne in Gy by exact Ny. destruct (Ad _ eq_refl) as [Q'|F].
        -- apply (A _ _ _ _ Gy G). congruence.
        -- exfalso. apply (free_ok _ _ _ _ F Gy). exact Q.
      * rewrite get_ne, del_ne in Gy by exact Ny. rewrite get_ne, del_ne in Gz by exact Nz. exact (A _ _ _ _ Gy Gz Q).
    + rewrite !get_del. destruct (Nat.eqb y x), (Nat.eqb z x); try discriminate. apply A.
  - intros t a b Q. apply B in Q as (Q & ->). exact (H _ _ _ Q).
  - intros t a t' a' b Q Q'. apply B in Q as (Q & _). apply B in Q' as (Q' & _). exact (J _ _ _ _ _ Q Q').
  - intros y v. rewrite El, get_del. destruct (Nat.eqb y x) eqn:N; [discriminate|]. apply Nat.eqb_neq in N. intros Gl. destruct (L _ _ Gl) as (oy & Gy & K).
    exists oy. rewrite Eo, put_ne by exact N. split; [destruct o'; rewrite ?get_ne, ?del_ne by exact N; exact Gy|].
    destruct v as [b|]; [|exact K]. destruct K as (K1 & K2 & K3). split; [exact K1|]. split; [|exact K3]. rewrite D; [exact K2|].
    right. intros Q. apply N. exact (A _ _ _ _ Gy G Q).
Qed.
(** ... and if no entry is left at its place, and it has not been read *)
Lemma exact_handle s s' g h g' x o o' v' :
  inv s (World g h) -> exact s (World g h) -> get x (objs s) = Some o ->
  objs s' = match o' with Some o' => (x, o') :: del x (objs s) | None => del x (objs s) end ->
  (forall c, v' <> Some (Seen c)) ->
  derefs s' (o_thread o) (o_addr o) = None ->
  (forall t a, t <> o_thread o \/ a <> o_addr o -> derefs s' t a = derefs s t a) ->
  (forall t a b, derefs s' t a = Some b -> derefs s t a = Some b /\ box (heap s') b = box (heap s) b) ->
  exact s' (World g' (put x v' h)).
Proof.
  intros I [F T] G Eo V Z D B. constructor; cbn [handles] in *.
  - intros t a b Q. destruct (B _ _ _ Q) as (Q' & Eb). destruct (F _ _ _ Q') as (y & oy & c & Gy & Et & Ea & Hy & By). exists y, oy, c.
    assert (N : y <> x) by (intros ->; rewrite G in Gy; injection Gy as <-; subst; congruence).
    rewrite Eo, put_ne by exact N. split; [destruct o'; rewrite ?get_ne, ?del_ne by exact N; exact Gy|]. rewrite Eb. auto.
  - intros y oy c Gy. destruct (Nat.eq_dec y x) as [->|N]; [rewrite put_eq; intros Q; destruct (V _ Q)|]. rewrite put_ne by exact N. intros Hy.
    assert (Gy' : get y (objs s) = Some oy) by (rewrite Eo in Gy; destruct o'; rewrite ?get_ne, ?del_ne in Gy by exact N; exact Gy).
    destruct (T _ _ _ Gy' Hy) as (b & Q). exists b. rewrite D; [exact Q|]. right. intros E. apply N. exact (i_addr _ _ I _ _ _ _ Gy' G E).
Qed.
(** a handle that has not been read has no entry *)
Lemma exact_none s g h x o : inv s (World g h) -> exact s (World g h) -> get x (objs s) = Some o -> (forall c, h x <> Some (Seen c)) -> derefs s (o_thread o) (o_addr o) = None.
Proof.
  intros I E G N. destruct (derefs s (o_thread o) (o_addr o)) as [b|] eqn:D; [|reflexivity]. destruct (e_from _ _ E _ _ _ D) as (y & oy & c & Gy & _ & Ea & Hy & _).
  rewrite (i_addr _ _ I _ _ _ _ Gy G Ea) in Hy. destruct (N c Hy).
Qed.
End Proofs.
