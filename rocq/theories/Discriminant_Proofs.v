From Verif Require Import Base Discriminant_Model Discriminant_Spec.
From Coq Require Import Sorting.Sorted.

(** Order key: negative zero sits strictly below positive zero. *)
Definition key (d : disc) : Z :=
  match d_sign d with Negative => (-2 * Z.of_N (d_mag d) - 1)%Z | Positive => (2 * Z.of_N (d_mag d))%Z end.

Lemma disc_cmp_key a b : disc_cmp a b = Z.compare (key a) (key b).
Proof.
  destruct a as [[] m], b as [[] n]; unfold disc_cmp, key; cbn [d_sign d_mag].
  - rewrite <- N.compare_antisym, <- N2Z.inj_compare.
    destruct (Z.compare_spec (Z.of_N n) (Z.of_N m)), (Z.compare_spec (-2*Z.of_N m-1) (-2*Z.of_N n-1)); try reflexivity; lia.
  - symmetry; apply Z.compare_lt_iff; lia.
  - symmetry; apply Z.compare_gt_iff; lia.
  - rewrite <- N2Z.inj_compare.
    destruct (Z.compare_spec (Z.of_N m) (Z.of_N n)), (Z.compare_spec (2*Z.of_N m) (2*Z.of_N n)); try reflexivity; lia.
Qed.

Lemma key_inj a b : key a = key b -> a = b.
Proof. destruct a as [[] m], b as [[] n]; unfold key; cbn [d_sign d_mag]; intros; try lia; f_equal; lia. Qed.

Lemma disc_leb_key a b : disc_leb a b = (key a <=? key b)%Z.
Proof. unfold disc_leb, Z.leb. rewrite disc_cmp_key. destruct (key a ?= key b)%Z; reflexivity. Qed.
Lemma disc_ltb_key a b : disc_ltb a b = (key a <? key b)%Z.
Proof. unfold disc_ltb, Z.ltb. rewrite disc_cmp_key. reflexivity. Qed.

(** Sorted set *)
Definition sorted (l : list disc) : Prop := StronglySorted (fun a b => (key a < key b)%Z) l.

Lemma bt_insert_In d l x : In x (bt_insert d l) <-> x = d \/ In x l.
Proof.
  induction l as [|y l IH]; cbn [bt_insert]; [simpl; intuition|].
  rewrite disc_cmp_key. destruct (Z.compare_spec (key d) (key y)).
  - apply key_inj in H; subst. simpl; intuition.
  - simpl; intuition.
  - simpl. rewrite IH. intuition.
Qed.

Lemma bt_insert_sorted d l : sorted l -> sorted (bt_insert d l).
Proof.
  induction 1 as [|y l Hs IH Hall]; cbn [bt_insert]; [repeat constructor|].
  rewrite disc_cmp_key. destruct (Z.compare_spec (key d) (key y)) as [E|E|E].
  - constructor; assumption.
  - constructor; [constructor; assumption|]. constructor; [exact E|].
    rewrite Forall_forall in *. intros z Hz. specialize (Hall z Hz). lia.
  - constructor; [exact IH|]. rewrite Forall_forall in *. intros z Hz.
    apply bt_insert_In in Hz. destruct Hz; subst; [lia|auto].
Qed.

Lemma sorted_bounds x l d : sorted (x :: l) -> In d (x :: l) ->
  (key x <= key d <= key (last (x :: l) x))%Z.
Proof.
  intros Hs Hd. split.
  - inversion Hs; subst. destruct Hd; subst; [lia|].
    rewrite Forall_forall in *. specialize (H2 d H). lia.
  - assert (G : forall l x y d, sorted (x :: l) -> In d (x :: l) -> (key d <= key (last (x :: l) y))%Z).
    { clear. induction l as [|z l IH]; intros x y d Hs Hd.
      - destruct Hd as [|[]]; subst. simpl. lia.
      - inversion Hs as [|? ? Hs' Hall]; subst. rewrite Forall_forall in Hall.
        change (last (x :: z :: l) y) with (last (z :: l) y).
        destruct Hd as [<-|Hd].
        + specialize (Hall z (or_introl eq_refl)). specialize (IH z y z Hs' (or_introl eq_refl)). lia.
        + auto. }
    eapply G; eassumption.
Qed.

Lemma last_In {A} (x : A) l y : In (last (x :: l) y) (x :: l).
Proof.
  revert x; induction l as [|z l IH]; intros x; [left; reflexivity|].
  right. apply (IH z).
Qed.

(** Expressions *)
Lemma parse_int_suffix_spec s r : parse_int_suffix s = Ok r ->
  (r = None /\ s = "") \/ (exists a, r = Some a /\ s = atom_name a /\ repr_attr_ok a = true).
Proof.
  unfold parse_int_suffix. destruct (String.eqb_spec s ""); [intros H; injection H; auto|].
  destruct (atom_from_str s) as [a|] eqn:E; [|discriminate].
  apply atom_from_str_inv in E. right. exists a.
  destruct a; try discriminate; injection H; intros; subst; auto.
Qed.

Lemma parse_int_suffix_name a : repr_attr_ok a = true -> parse_int_suffix (atom_name a) = Ok (Some a).
Proof. destruct a; try discriminate; reflexivity. Qed.

Lemma expr_ok e d r : expr_to_discriminant e = Ok (d, r) ->
  expr_value e = Some (disc_Z d) /\ parse_int_suffix (expr_suffix e) = Ok r /\ (d_mag d <= u64_max)%N.
Proof.
  revert d r; induction e as [neg n s|e IH|]; intros d r; cbn [expr_to_discriminant expr_value expr_suffix].
  - unfold disc_from_lit. destruct (N.leb_spec n u64_max); [|discriminate]. cbn [bind].
    destruct (parse_int_suffix s) eqn:E; try discriminate. cbn [bind]. intros Hx; injection Hx; intros; subst.
    unfold u64_max in *. replace (Z.of_N n <? 2^64)%Z with true by (symmetry; apply Z.ltb_lt; lia).
    repeat split; [|exact H]. unfold disc_Z; cbn. destruct neg; reflexivity.
  - destruct (expr_to_discriminant e) as [[d' r']| |] eqn:E; try discriminate. cbn.
    intros Hx; injection Hx; intros; subst. destruct (IH _ _ eq_refl) as [H1 [H2 H3]].
    rewrite H1. cbn. repeat split; try assumption.
    unfold disc_Z; cbn. destruct (d_sign d'); f_equal; lia.
  - discriminate.
Qed.

Lemma expr_not_panic e m : expr_to_discriminant e <> Panic m.
Proof.
  induction e as [neg n s|e IH|]; cbn [expr_to_discriminant]; try discriminate.
  - unfold disc_from_lit. destruct (N.leb n u64_max); cbn; [|discriminate].
    unfold parse_int_suffix. destruct (String.eqb s ""); cbn; [discriminate|].
    destruct (atom_from_str s) as [[]|]; discriminate.
  - destruct (expr_to_discriminant e) as [[d' r']| |]; cbn; try discriminate. congruence.
Qed.

Lemma expr_complete e z r : expr_value e = Some z -> parse_int_suffix (expr_suffix e) = Ok r ->
  exists d, expr_to_discriminant e = Ok (d, r) /\ disc_Z d = z.
Proof.
  revert z; induction e as [neg n s|e IH|]; intros z; cbn [expr_to_discriminant expr_value expr_suffix].
  - destruct (Z.ltb_spec (Z.of_N n) (2^64)); [|discriminate]. intros Hz Hs. injection Hz; intros Hz'.
    unfold disc_from_lit, u64_max. destruct (N.leb_spec n 18446744073709551615); [|lia]. cbn [bind].
    rewrite Hs. cbn. eexists; split; [reflexivity|]. unfold disc_Z; cbn. destruct neg; exact Hz'.
  - destruct (expr_value e) as [z'|]; cbn; [|discriminate]. intros Hz Hs. injection Hz; intros Hz'.
    destruct (IH _ eq_refl Hs) as [d [-> Hd]]. cbn. eexists; split; [reflexivity|].
    unfold disc_Z in *; cbn. destruct (d_sign d); lia.
  - discriminate.
Qed.

Definition canon (d : disc) : Prop := d_sign d = Negative -> d_mag d <> 0%N.

Fixpoint nzneg (p : bool) (e : dexpr) : bool :=
  match e with
  | ELit neg n _ => xorb p neg && N.eqb n 0
  | ENeg e => nzneg (negb p) e
  | EOther => false
  end.

Lemma nzneg_negative_zero e : nzneg false e = negative_zero e /\ nzneg true e = negative_zero (ENeg e).
Proof.
  induction e as [neg n s|e [IH1 IH2]|]; cbn [nzneg negb].
  - split; cbn; destruct neg; reflexivity.
  - split; [exact IH2|]. rewrite IH1. reflexivity.
  - split; reflexivity.
Qed.

Lemma expr_canon_gen e : forall d r, expr_to_discriminant e = Ok (d, r) ->
  (nzneg false e = sign_eqb (d_sign d) Negative && N.eqb (d_mag d) 0) /\
  (nzneg true e = sign_eqb (d_sign d) Positive && N.eqb (d_mag d) 0).
Proof.
  induction e as [neg n s|e IH|]; cbn [expr_to_discriminant nzneg]; intros d r.
  - unfold disc_from_lit. destruct (N.leb n u64_max); [|discriminate]. cbn [bind].
    destruct (parse_int_suffix s); try discriminate. cbn. intros Hx; injection Hx; intros; subst.
    cbn. destruct neg; split; reflexivity.
  - destruct (expr_to_discriminant e) as [[d' r']| |] eqn:E; try discriminate. cbn.
    intros Hx; injection Hx; intros; subst. cbn [d_sign d_mag]. destruct (IH _ _ eq_refl) as [H1 H2].
    rewrite H1, H2. destruct (d_sign d'); split; reflexivity.
  - discriminate.
Qed.

Lemma expr_canon e d r : expr_to_discriminant e = Ok (d, r) -> negative_zero e = false -> canon d.
Proof.
  intros H Hn. destruct (expr_canon_gen _ _ _ H) as [H1 _].
  rewrite (proj1 (nzneg_negative_zero e)) in H1. rewrite Hn in H1.
  intros Hs Hm. rewrite Hs, Hm in H1. discriminate.
Qed.

(** Limits *)
Definition lim_ok (a : atom) (d : disc) : bool :=
  match limits_of a with
  | Some l => (key (l_min l) <=? key d)%Z && (key d <=? key (l_max l))%Z
  | None => true
  end.

Lemma lim_ok_fits a d : repr_attr_ok a = true -> (d_mag d <= u64_max)%N -> lim_ok a d = true -> fits a (disc_Z d).
Proof.
  unfold lim_ok, fits, disc_Z, key, u64_max.
  destruct a; try discriminate; intros _ Hm; cbn -[Z.leb Z.mul Z.pow]; destruct (d_sign d); cbn -[Z.leb Z.mul Z.pow Z.of_N]; intros; lia.
Qed.

Lemma fits_lim_ok a d : canon d -> fits a (disc_Z d) -> lim_ok a d = true.
Proof.
  unfold lim_ok, fits, disc_Z, key, canon.
  destruct a; cbn -[Z.leb Z.mul Z.pow]; destruct (d_sign d); cbn -[Z.leb Z.mul Z.pow Z.of_N]; intros Hc Hf; try reflexivity; try contradiction;
  try specialize (Hc eq_refl); lia.
Qed.

Lemma insert_disc_spec s d s' r : insert_disc s d = (s', r) ->
  (r = Ok d /\ s' = DSet (s_repr s) (bt_insert d (s_values s)) (Some d) /\
   forall a, s_repr s = Some a -> lim_ok a d = true)
  \/ (exists m, r = Err m /\ s' = s /\ exists a, s_repr s = Some a /\ lim_ok a d = false).
Proof.
  unfold insert_disc, lim_ok. destruct (s_repr s) as [a|].
  - destruct (limits_of a) as [l|] eqn:El.
    + rewrite !disc_ltb_key.
      destruct ((key d <? key (l_min l))%Z || (key (l_max l) <? key d)%Z) eqn:E; intros H; injection H; intros; subst.
      * right. eexists; repeat split. exists a. split; [reflexivity|]. rewrite El. lia.
      * left. repeat split. intros a' Ha; injection Ha; intros; subst. rewrite El. lia.
    + intros H; injection H; intros; subst. left. repeat split. intros a' Ha; injection Ha; intros; subst. rewrite El; reflexivity.
  - intros H; injection H; intros; subst. left. repeat split. discriminate.
Qed.

(** Invariant *)
Record inv (s : dset) : Prop := {
  inv_sorted : sorted (s_values s);
  inv_lim : forall a d, s_repr s = Some a -> In d (s_values s) -> lim_ok a d = true;
  inv_mag : forall d, In d (s_values s) -> (d_mag d <= u64_max)%N;
  inv_prev : forall d, s_previous s = Some d -> In d (s_values s);
  inv_int : forall a, s_repr s = Some a -> repr_attr_ok a = true }.

Definition prevZ (s : dset) : option Z := option_map disc_Z (s_previous s).

Definition sfx (v : rvariant) : list string :=
  match v_disc v with
  | Some e => if String.eqb (expr_suffix e) "" then [] else [expr_suffix e]
  | None => []
  end.

Definition here (prev : option Z) (v : rvariant) : option Z :=
  if v_unit v then
    match v_disc v with
    | Some e => expr_value e
    | None => match prev with None => Some 0%Z | Some z => Some (z + 1)%Z end
    end
  else None.

Definition decl (r : option atom) (sf : list string) : option string :=
  match r with Some a => Some (atom_name a) | None => hd_error sf end.

Lemma atom_name_inj a b : atom_name a = atom_name b -> a = b.
Proof. intros H. apply (f_equal atom_from_str) in H. rewrite !atom_from_name in H. congruence. Qed.

Lemma inv_insert s d s' : inv s -> insert_disc s d = (s', Ok d) -> (d_mag d <= u64_max)%N -> inv s'.
Proof.
  intros Hi H Hm. apply insert_disc_spec in H. destruct H as [[_ [-> Hl]]|[m [H _]]]; [|discriminate].
  destruct Hi. constructor; cbn.
  - apply bt_insert_sorted; assumption.
  - intros a x Ha Hx. apply bt_insert_In in Hx. destruct Hx; subst; auto. 
  - intros x Hx. apply bt_insert_In in Hx. destruct Hx; subst; auto.
  - intros x Hx. injection Hx; intros; subst. apply bt_insert_In; auto.
  - assumption.
Qed.

(** One accepted step. *)
Lemma step_ok s v s' d : inv s -> variant_disc s v = (s', Ok d) ->
  inv s' /\ here (prevZ s) v = Some (disc_Z d) /\ s_previous s' = Some d /\
  (forall x, In x (s_values s') <-> x = d \/ In x (s_values s)) /\
  option_map atom_name (s_repr s') = decl (s_repr s) (sfx v) /\
  (forall t a, In t (sfx v) -> s_repr s' = Some a -> t = atom_name a).
Proof.
  intros Hi. unfold variant_disc, here, sfx. destruct (v_unit v); [|discriminate].
  destruct (v_disc v) as [e|].
  - unfold dset_insert. destruct (expr_to_discriminant e) as [[d0 r0]| |] eqn:Ee; try discriminate.
    destruct (expr_ok _ _ _ Ee) as [Hv [Hsf Hm]].
    assert (Hd : forall s1, insert_disc s1 d0 = (s', Ok d) -> d = d0).
    { intros s1 H. apply insert_disc_spec in H. destruct H as [[H _]|[m [H _]]]; congruence. }
    pose proof (parse_int_suffix_spec _ _ Hsf) as Hps.
    destruct (s_repr s) as [p|] eqn:Er; destruct r0 as [r0|].
    + destruct (atom_eqb p r0) eqn:Ep; [|discriminate]. apply atom_eqb_eq in Ep; subst r0.
      destruct Hps as [[? _]|[a [Ha [Hs Hint]]]]; [discriminate|]. injection Ha as <-.
      intros H. pose proof (Hd _ H); subst d0. pose proof (inv_insert _ _ _ Hi H Hm) as Hi'.
      apply insert_disc_spec in H. destruct H as [[_ [-> _]]|[m [H _]]]; [|discriminate].
      cbn [s_repr s_values s_previous] in *. (split; [exact Hi'|split; [exact Hv|split; [reflexivity|split; [intros x; apply bt_insert_In|split; [try rewrite Er; reflexivity|]]]]]).
      intros t a Ht Hr. destruct (String.eqb (expr_suffix e) ""); [destruct Ht|]. destruct Ht as [<-|[]]. congruence.
    + destruct Hps as [[_ Hs]|[a [Ha _]]]; [|discriminate]. rewrite Hs. cbn [String.eqb].
      intros H. pose proof (Hd _ H); subst d0. pose proof (inv_insert _ _ _ Hi H Hm) as Hi'.
      apply insert_disc_spec in H. destruct H as [[_ [-> _]]|[m [H _]]]; [|discriminate].
      cbn [s_repr s_values s_previous] in *. (split; [exact Hi'|split; [exact Hv|split; [reflexivity|split; [intros x; apply bt_insert_In|split; [try rewrite Er; reflexivity|]]]]]); intros t a [].
    + destruct Hps as [[? _]|[a [Ha [Hs Hint]]]]; [discriminate|]. injection Ha as <-.
      match goal with |- context [if ?b then _ else _] => destruct b eqn:Hpast end; [|discriminate].
      assert (Hi2 : inv (DSet (Some r0) (s_values s) (s_previous s))).
      { destruct Hi. constructor; cbn; auto.
        - intros a x Ha' Hx. injection Ha'; intros; subst a. unfold lim_ok. destruct (limits_of r0); [|reflexivity].
          rewrite forallb_forall in Hpast. specialize (Hpast x Hx). rewrite !disc_leb_key in Hpast. exact Hpast.
        - intros a Ha'. injection Ha'; intros; subst a. assumption. }
      intros H. pose proof (Hd _ H); subst d0. pose proof (inv_insert _ _ _ Hi2 H Hm) as Hi'.
      apply insert_disc_spec in H. destruct H as [[_ [-> _]]|[m [H _]]]; [|discriminate].
      cbn [s_repr s_values s_previous] in *.
      assert (Hne : String.eqb (expr_suffix e) "" = false) by (rewrite Hs; destruct r0; reflexivity).
      rewrite Hne. (split; [exact Hi'|split; [exact Hv|split; [reflexivity|split; [intros x; apply bt_insert_In|split; [cbn; congruence|]]]]]).
      intros t a [<-|[]] Ha'. congruence.
    + destruct Hps as [[_ Hs]|[a [Ha _]]]; [|discriminate]. rewrite Hs. cbn [String.eqb].
      intros H. pose proof (Hd _ H); subst d0. pose proof (inv_insert _ _ _ Hi H Hm) as Hi'.
      apply insert_disc_spec in H. destruct H as [[_ [-> _]]|[m [H _]]]; [|discriminate].
      cbn [s_repr s_values s_previous] in *. (split; [exact Hi'|split; [exact Hv|split; [reflexivity|split; [intros x; apply bt_insert_In|split; [try rewrite Er; reflexivity|]]]]]); intros t a [].
  - unfold dset_insert_next.
    assert (G : forall d0, (d_mag d0 <= u64_max)%N -> insert_disc s d0 = (s', Ok d) ->
       d = d0 /\ inv s' /\ s_previous s' = Some d /\ (forall x, In x (s_values s') <-> x = d \/ In x (s_values s)) /\ s_repr s' = s_repr s).
    { intros d0 Hm H. pose proof H as H0. apply insert_disc_spec in H. destruct H as [[H [-> _]]|[m [H _]]]; [|discriminate].
      injection H; intros; subst d0. split; [reflexivity|]. split; [eapply inv_insert; eauto|]. repeat split; cbn; try apply bt_insert_In. }
    assert (F : forall d0, (d_mag d0 <= u64_max)%N -> insert_disc s d0 = (s', Ok d) ->
        (d = d0 -> match prevZ s with None => Some 0%Z | Some z => Some (z + 1)%Z end = Some (disc_Z d)) ->
        inv s' /\ match prevZ s with None => Some 0%Z | Some z => Some (z + 1)%Z end = Some (disc_Z d) /\ s_previous s' = Some d /\
        (forall x : disc, In x (s_values s') <-> x = d \/ In x (s_values s)) /\
        option_map atom_name (s_repr s') = decl (s_repr s) [] /\
        (forall (t : string) (a : atom), In t [] -> s_repr s' = Some a -> t = atom_name a)).
    { intros d0 Hm H Hz. destruct (G _ Hm H) as [E [E2 [E3 [E4 E5]]]]. rewrite E5.
      split; [exact E2|]. split; [auto|]. split; [exact E3|]. split; [exact E4|]. split; [destruct (s_repr s); reflexivity|intros t a []]. }
    unfold prevZ in *. destruct (s_previous s) as [p|] eqn:Ep; cbn [option_map] in *.
    + assert (Hpm : (d_mag p <= u64_max)%N) by (apply (inv_mag _ Hi), (inv_prev _ Hi), Ep).
      destruct (d_sign p) eqn:Es.
      * destruct (N.eqb_spec (d_mag p) 0); [discriminate|]. intros H.
        refine (F _ _ H _); cbn [d_mag]; [lia|]. intros ->. f_equal. unfold disc_Z; cbn [d_sign d_mag]. rewrite Es.
        destruct (N.eqb_spec (d_mag p - 1) 0); lia.
      * destruct (N.eqb_spec (d_mag p) u64_max); [discriminate|]. intros H.
        refine (F _ _ H _); cbn [d_mag]; [lia|]. intros ->. f_equal. unfold disc_Z; cbn [d_sign d_mag]. rewrite Es. lia.
    + intros H. refine (F _ _ H _); cbn [d_mag disc_zero]; [unfold u64_max; lia|]. intros ->. reflexivity.
Qed.

Lemma written_cons prev v vs : written_values prev (v :: vs) =
  match here prev v with None => None | Some z => option_map (cons z) (written_values (Some z) vs) end.
Proof. reflexivity. Qed.
Lemma suffixes_cons v vs : suffixes (v :: vs) = sfx v ++ suffixes vs.
Proof. reflexivity. Qed.

Lemma decl_app r sf sf' : decl r (sf ++ sf') = match decl r sf with Some x => Some x | None => hd_error sf' end.
Proof. destruct r; [reflexivity|]. destruct sf; reflexivity. Qed.

Lemma loop_ok vs : forall s s' ds, inv s -> variants_loop s vs = (s', ds, [], false) ->
  inv s' /\ written_values (prevZ s) vs = Some (map disc_Z ds) /\
  (forall x, In x (s_values s') <-> In x ds \/ In x (s_values s)) /\
  option_map atom_name (s_repr s') = decl (s_repr s) (suffixes vs) /\
  (forall t a, In t (suffixes vs) -> s_repr s' = Some a -> t = atom_name a).
Proof.
  induction vs as [|v vs IH]; intros s s' ds Hi; cbn [variants_loop].
  - intros H; injection H; intros; subst. split; [exact Hi|]. split; [reflexivity|]. split; [intros x; simpl; tauto|].
    split; [destruct (s_repr s'); reflexivity|intros t a []].
  - destruct (variant_disc s v) as [s1 r] eqn:Ev. destruct r as [d|m|m].
    + destruct (variants_loop s1 vs) as [[[s2 ds'] es] p] eqn:El. intros H; injection H; intros; subst.
      destruct (step_ok _ _ _ _ Hi Ev) as [Hi1 [Hh [Hp [Hv [Hr Hs]]]]].
      destruct (IH _ _ _ Hi1 El) as [Hi2 [Hw [Hv2 [Hr2 Hs2]]]].
      assert (HR : option_map atom_name (s_repr s') = decl (s_repr s) (suffixes (v :: vs))).
      { rewrite suffixes_cons, decl_app, <- Hr. rewrite Hr2.
        destruct (s_repr s1); reflexivity. }
      split; [exact Hi2|]. split; [|split; [intros x; split|split; [exact HR|]]].
      * rewrite written_cons, Hh. unfold prevZ in Hw. rewrite Hp in Hw. cbn in Hw. rewrite Hw. reflexivity.
      * intros Hx. apply Hv2 in Hx. destruct Hx as [Hx|Hx]; [left; right; assumption|]. apply Hv in Hx. destruct Hx as [->|Hx]; [left; left; reflexivity|right; assumption].
      * intros Hx. apply Hv2. rewrite Hv. destruct Hx as [[->|Hx]|Hx]; auto.
      * intros t a Ht Ha. rewrite suffixes_cons in Ht. apply in_app_or in Ht. destruct Ht as [Ht|Ht]; [|eauto].
        destruct (s_repr s1) as [a1|] eqn:E1.
        { cbn in Hr2. rewrite Ha in Hr2. cbn in Hr2. injection Hr2; intros Hn. rewrite Hn. eapply Hs; eauto. }
        { cbn in Hr. symmetry in Hr. destruct (s_repr s); [discriminate|]. cbn in Hr. destruct (sfx v); [destruct Ht|discriminate]. }
    + destruct (variants_loop s1 vs) as [[[s2 ds'] es] p]. intros H; discriminate H.
    + intros H; discriminate H.
Qed.

Lemma inv_new r : (forall a, r = Some a -> repr_attr_ok a = true) -> inv (dset_new r).
Proof. intros H. constructor; cbn; try constructor; try contradiction; try discriminate; auto. Qed.

(** inferred representation *)
Lemma infer_none s r : s_repr s = None -> inferred_repr s = Ok r -> inv s -> s_values s <> [] ->
  forall d, In d (s_values s) -> lim_ok r d = true /\ In r preference.
Proof.
  intros Hn H Hi Hne d Hd. unfold inferred_repr in H. rewrite Hn in H.
  destruct (s_values s) as [|x l] eqn:Ev; [congruence|].
  destruct (find _ LIMITS) as [lm|] eqn:Ef; [|discriminate].
  injection H; intros; subst. apply find_some in Ef. destruct Ef as [Hin Hb].
  rewrite !disc_leb_key in Hb. pose proof (inv_sorted _ Hi) as Hs. rewrite Ev in Hs.
  pose proof (sorted_bounds _ _ _ Hs Hd) as Hbd.
  assert (Hlo : limits_of (l_repr lm) = Some lm) by (cbn in Hin; intuition; subst; reflexivity).
  split.
  - unfold lim_ok. rewrite Hlo. lia.
  - cbn in Hin; intuition; subst; cbn; auto 10.
Qed.

Definition lim_in (l : limits) (d : disc) : bool :=
  (key (l_min l) <=? key d)%Z && (key d <=? key (l_max l))%Z.

Lemma find_sem (l : list limits) vals x r :
  sorted (x :: r) -> vals = x :: r ->
  find (fun l => disc_leb (l_min l) x && disc_leb (last (x :: r) x) (l_max l)) l
  = find (fun l => forallb (lim_in l) vals) l.
Proof.
  intros Hs ->. induction l as [|lm l IH]; [reflexivity|]. cbn [find].
  assert (E : disc_leb (l_min lm) x && disc_leb (last (x :: r) x) (l_max lm) = forallb (lim_in lm) (x :: r)).
  { rewrite !disc_leb_key. apply Bool.eq_iff_eq_true. rewrite forallb_forall. split.
    - intros Hb d Hd. unfold lim_in. pose proof (sorted_bounds _ _ _ Hs Hd). lia.
    - intros Hf. pose proof (Hf x (or_introl eq_refl)) as H1. pose proof (Hf _ (last_In x r x)) as H2.
      unfold lim_in in *. lia. }
  rewrite E, IH. reflexivity.
Qed.

Lemma lim_in_ok lm d : In lm LIMITS -> lim_in lm d = lim_ok (l_repr lm) d.
Proof. intros H. unfold lim_in, lim_ok. replace (limits_of (l_repr lm)) with (Some lm); [reflexivity|].
  cbn in H; intuition; subst; reflexivity. Qed.

Lemma first_fit_find zs l : first_fit zs (map l_repr l) =
  (fun a => first_fit zs (map l_repr l) a).
Proof. reflexivity. Qed.

Lemma find_first_fit ds l a :
  (forall lm, In lm l -> In lm LIMITS) ->
  (forall d, In d ds -> canon d) -> (forall d, In d ds -> (d_mag d <= u64_max)%N) ->
  (first_fit (map disc_Z ds) (map l_repr l) a <->
   exists lm, find (fun l => forallb (lim_in l) ds) l = Some lm /\ l_repr lm = a).
Proof.
  intros Hl Hc Hm. induction l as [|lm l IH]; cbn [map find].
  - split; [intros H; inversion H|intros [lm [H _]]; discriminate].
  - assert (E : forallb (lim_in lm) ds = true <-> Forall (fits (l_repr lm)) (map disc_Z ds)).
    { rewrite forallb_forall, Forall_map, Forall_forall. specialize (Hl lm (or_introl eq_refl)).
      split; intros H d Hd.
      - apply lim_ok_fits; auto. { cbn in Hl; intuition; subst; reflexivity. }
        rewrite <- lim_in_ok; auto.
      - rewrite lim_in_ok; auto. apply fits_lim_ok; auto. }
    destruct (forallb (lim_in lm) ds).
    + split.
      * intros H. inversion H as [? ? HF|? ? ? HF ?]; subst; [eauto|exfalso; apply HF, E; reflexivity].
      * intros [lm' [H <-]]. injection H; intros; subst. apply ff_here, E; reflexivity.
    + rewrite <- IH by (intros; apply Hl; right; assumption). split.
      * intros H. inversion H as [? ? HF|? ? ? HF ?]; subst; [apply E in HF; discriminate|assumption].
      * intros H. apply ff_next; [intros Hf; apply E in Hf; discriminate|exact H].
Qed.

Lemma preference_LIMITS : preference = map l_repr LIMITS.
Proof. reflexivity. Qed.

(** canonicity along the loop *)
Lemma step_canon s v s' d : variant_disc s v = (s', Ok d) ->
  (forall e, v_disc v = Some e -> negative_zero e = false) -> canon d.
Proof.
  intros H Hn. assert (Hd : forall s1 d0, insert_disc s1 d0 = (s', Ok d) -> d = d0).
  { intros s1 d0 Hx. apply insert_disc_spec in Hx. destruct Hx as [[Hx _]|[m [Hx _]]]; congruence. }
  unfold variant_disc in H. destruct (v_unit v); [|discriminate]. destruct (v_disc v) as [e|].
  - specialize (Hn e eq_refl). unfold dset_insert in H. destruct (expr_to_discriminant e) as [[d0 r0]| |] eqn:Ee; try discriminate.
    assert (d = d0); [|subst; eapply expr_canon; eauto].
    destruct (s_repr s), r0;
    repeat match type of H with context [if ?b then _ else _] => destruct b end; try discriminate; eauto.
  - unfold dset_insert_next in H. destruct (s_previous s) as [p|].
    + destruct (d_sign p).
      * destruct (N.eqb_spec (d_mag p) 0); [discriminate|]. apply Hd in H. subst d.
        intros Hs Hm. cbn in *. rewrite Hm in Hs. discriminate.
      * destruct (N.eqb_spec (d_mag p) u64_max); [discriminate|]. apply Hd in H. subst d. intros Hs; discriminate.
    + apply Hd in H. subst d. intros Hs; discriminate.
Qed.

Lemma step_state s v s' r : variant_disc s v = (s', r) -> (forall d, r <> Ok d) ->
  s_previous s' = s_previous s /\ s_values s' = s_values s.
Proof.
  assert (Hd : forall s1 d0, insert_disc s1 d0 = (s', r) -> (forall d, r <> Ok d) -> s' = s1).
  { intros s1 d0 Hx Hn. apply insert_disc_spec in Hx. destruct Hx as [[Hx _]|[m [Hx [-> _]]]]; [exfalso; eapply Hn; eauto|reflexivity]. }
  unfold variant_disc. destruct (v_unit v); [|intros H _; injection H; intros; subst; auto].
  destruct (v_disc v) as [e|].
  - unfold dset_insert. destruct (expr_to_discriminant e) as [[d0 r0]| |]; try (intros H _; injection H; intros; subst; auto; fail).
    destruct (s_repr s), r0;
    repeat match goal with |- context [if ?b then _ else _] => destruct b end;
    intros H Hn; try (apply Hd in H; [subst; auto|exact Hn]); injection H; intros; subst; auto.
  - unfold dset_insert_next. destruct (s_previous s) as [p|] eqn:Ep; [|intros H Hn; apply Hd in H; [subst; auto|exact Hn]].
    destruct (d_sign p); repeat match goal with |- context [if N.eqb ?a ?b then (s, _) else _] => destruct (N.eqb a b) end;
    intros H Hn; try (apply Hd in H; [subst; auto|exact Hn]); injection H; intros; subst; auto.
Qed.

Lemma step_panic s v s' m : variant_disc s v = (s', Panic m) ->
  exists p, s_previous s = Some p /\ d_sign p = Negative /\ d_mag p = 0%N.
Proof.
  assert (Hd : forall s1 d0, insert_disc s1 d0 <> (s', Panic m)).
  { intros s1 d0 Hx. apply insert_disc_spec in Hx. destruct Hx as [[Hx _]|[m' [Hx _]]]; congruence. }
  unfold variant_disc. destruct (v_unit v); [|discriminate]. destruct (v_disc v) as [e|].
  - unfold dset_insert. destruct (expr_to_discriminant e) as [[d0 r0]|m'|m'] eqn:Ee; try discriminate.
    + destruct (s_repr s), r0;
      repeat match goal with |- context [if ?b then _ else _] => destruct b end; try discriminate; intros H; exfalso; eapply Hd; eauto.
    + exfalso. eapply expr_not_panic; eauto.
  - unfold dset_insert_next. destruct (s_previous s) as [p|]; [|intros H; exfalso; eapply Hd; eauto].
    destruct (d_sign p) eqn:Es.
    + destruct (N.eqb_spec (d_mag p) 0); [intros _; exists p; auto|intros H; exfalso; eapply Hd; eauto].
    + destruct (N.eqb (d_mag p) u64_max); [discriminate|intros H; exfalso; eapply Hd; eauto].
Qed.

Lemma loop_no_panic vs : forall s s' ds es p, no_negative_zero vs ->
  (forall d, s_previous s = Some d -> canon d) ->
  variants_loop s vs = (s', ds, es, p) -> p = false /\ (forall d, In d ds -> canon d).
Proof.
  induction vs as [|v vs IH]; intros s s' ds es p Hn Hc; cbn [variants_loop].
  - intros H; injection H; intros; subst. split; [reflexivity|intros d []].
  - assert (Hn' : no_negative_zero vs) by (intros v' e Hv He; eapply Hn; [right; exact Hv|exact He]).
    assert (Hv : forall e, v_disc v = Some e -> negative_zero e = false) by (intros e He; eapply Hn; [left; reflexivity|exact He]).
    destruct (variant_disc s v) as [s1 r] eqn:Ev. destruct r as [d|m|m].
    + destruct (variants_loop s1 vs) as [[[s2 ds'] es'] p'] eqn:El. intros H; injection H; intros; subst.
      pose proof (step_canon _ _ _ _ Ev Hv) as Hcd.
      destruct (IH s1 s' ds' es p Hn') as [-> Hds]; auto.
      { intros x Hx. assert (x = d); [|subst; assumption].
        clear -Ev Hx. assert (Hd : forall s0 d0, insert_disc s0 d0 = (s1, Ok d) -> x = d).
        { intros s0 d0 H. apply insert_disc_spec in H. destruct H as [[H [-> _]]|[m [H _]]]; [|discriminate]. cbn in Hx. congruence. }
        unfold variant_disc, dset_insert, dset_insert_next in Ev.
        repeat match type of Ev with
        | context [match ?b with _ => _ end] => match b with insert_disc _ _ => fail 1 | _ => destruct b end
        end; try discriminate; eauto. }
      split; [reflexivity|]. intros x [<-|Hx]; auto.
    + destruct (variants_loop s1 vs) as [[[s2 ds'] es'] p'] eqn:El. intros H; injection H; intros; subst.
      apply step_state in Ev; [|discriminate]. destruct Ev as [Ev _].
      eapply (IH s1); eauto. rewrite Ev. exact Hc.
    + exfalso. apply step_panic in Ev. destruct Ev as [q [Hq [Hs Hm]]]. exact (Hc q Hq Hs Hm).
Qed.

(** completeness of one step *)
Lemma step_complete s v z (D : option atom) : inv s ->
  (forall d, s_previous s = Some d -> canon d) ->
  (forall e, v_disc v = Some e -> negative_zero e = false) ->
  here (prevZ s) v = Some z ->
  (forall a, D = Some a -> repr_attr_ok a = true /\ fits a z /\ (forall d, In d (s_values s) -> lim_ok a d = true)) ->
  (s_repr s = None \/ s_repr s = D) ->
  (forall t, In t (sfx v) -> option_map atom_name D = Some t) ->
  (- (2 ^ 64 - 1) <= z <= 2 ^ 64 - 1)%Z ->
  exists s' d, variant_disc s v = (s', Ok d) /\ disc_Z d = z /\ (s_repr s' = None \/ s_repr s' = D).
Proof.
  intros Hi Hc Hn Hh HD Hr Hs Hz.
  assert (Hins : forall s1 d0, disc_Z d0 = z -> canon d0 -> (s_repr s1 = None \/ s_repr s1 = D) ->
     exists s' d, insert_disc s1 d0 = (s', Ok d) /\ disc_Z d = z /\ (s_repr s' = None \/ s_repr s' = D)).
  { intros s1 d0 Hd0 Hcd Hr1. destruct (insert_disc s1 d0) as [s' r] eqn:E. pose proof E as E0.
    apply insert_disc_spec in E. destruct E as [[-> [-> _]]|[m [-> [-> [a [Ha Hl]]]]]].
    - exists (DSet (s_repr s1) (bt_insert d0 (s_values s1)) (Some d0)), d0. repeat split; assumption.
    - exfalso. destruct Hr1 as [Hr1|Hr1]; [congruence|]. rewrite Ha in Hr1.
      destruct (HD a) as [_ [Hf _]]; [congruence|]. rewrite fits_lim_ok in Hl; [discriminate|assumption|rewrite Hd0; exact Hf]. }
  unfold variant_disc, here in *. destruct (v_unit v); [|discriminate].
  unfold sfx in Hs. destruct (v_disc v) as [e|].
  - specialize (Hn e eq_refl). unfold dset_insert.
    assert (Hsf : exists r0, parse_int_suffix (expr_suffix e) = Ok r0 /\ (r0 = None \/ r0 = D /\ D <> None)).
    { destruct (String.eqb_spec (expr_suffix e) "") as [E|E].
      - rewrite E. exists None. split; [reflexivity|auto].
      - specialize (Hs _ (or_introl eq_refl)). destruct D as [a|]; [|discriminate]. cbn in Hs.
        injection Hs; intros Ha. destruct (HD a eq_refl) as [Hia _]. exists (Some a).
        rewrite <- Ha, parse_int_suffix_name by exact Hia. split; [reflexivity|right; split; congruence]. }
    destruct Hsf as [r0 [Hsf Hr0]].
    destruct (expr_complete _ _ _ Hh Hsf) as [d0 [He Hd0]]. rewrite He.
    pose proof (expr_canon _ _ _ He Hn) as Hcd.
    destruct (s_repr s) as [p|] eqn:Er; destruct r0 as [r0|].
    + destruct Hr as [?|Hr]; [discriminate|]. destruct Hr0 as [?|[Hr0 _]]; [discriminate|].
      assert (p = r0) by congruence. subst r0. replace (atom_eqb p p) with true by (symmetry; apply atom_eqb_eq; reflexivity).
      apply Hins; auto. right; congruence.
    + apply Hins; auto. right. destruct Hr; [discriminate|congruence].
    + destruct Hr0 as [?|[Hr0 _]]; [discriminate|].
      destruct (HD r0) as [_ [_ Hl]]; [congruence|].
      match goal with |- context [if ?b then _ else _] => replace b with true end.
      * apply Hins; auto; cbn; right; congruence.
      * symmetry. unfold lim_ok in Hl. destruct (limits_of r0); [|reflexivity]. apply forallb_forall.
        intros x Hx. rewrite !disc_leb_key. apply Hl; assumption.
    + apply Hins; auto.
  - unfold dset_insert_next. unfold prevZ in Hh. destruct (s_previous s) as [p|] eqn:Ep; cbn in Hh.
    + injection Hh; intros Hz'. specialize (Hc p eq_refl). unfold disc_Z in Hz'. destruct (d_sign p) eqn:Es.
      * specialize (Hc Es). destruct (N.eqb_spec (d_mag p) 0); [contradiction|]. apply Hins; auto.
        -- unfold disc_Z; cbn [d_sign d_mag]. destruct (N.eqb_spec (d_mag p - 1) 0); lia.
        -- intros Hsg Hm. cbn in *. rewrite Hm in Hsg. discriminate.
      * unfold u64_max. destruct (N.eqb_spec (d_mag p) 18446744073709551615); [lia|]. apply Hins; auto.
        -- unfold disc_Z; cbn [d_sign d_mag]. lia.
        -- intros Hsg; discriminate.
    + injection Hh; intros Hz'. apply Hins; auto. intros Hsg; discriminate.
Qed.

Lemma loop_complete vs : forall s zs (D : option atom), inv s ->
  (forall d, s_previous s = Some d -> canon d) -> (forall d, In d (s_values s) -> canon d) ->
  no_negative_zero vs ->
  written_values (prevZ s) vs = Some zs ->
  (forall a, D = Some a -> repr_attr_ok a = true /\ Forall (fits a) zs /\ (forall d, In d (s_values s) -> lim_ok a d = true)) ->
  (s_repr s = None \/ s_repr s = D) ->
  (forall t, In t (suffixes vs) -> option_map atom_name D = Some t) ->
  Forall (fun z => - (2 ^ 64 - 1) <= z <= 2 ^ 64 - 1)%Z zs ->
  exists s' ds, variants_loop s vs = (s', ds, [], false) /\ map disc_Z ds = zs /\ (s_repr s' = None \/ s_repr s' = D).
Proof.
  induction vs as [|v vs IH]; intros s zs D Hi Hc Hcv Hn Hw HD Hr Hs Hz.
  - cbn in Hw. injection Hw; intros; subst. cbn. exists s, []. repeat split; assumption.
  - rewrite written_cons in Hw. destruct (here (prevZ s) v) as [z|] eqn:Eh; [|discriminate].
    destruct (written_values (Some z) vs) as [zs'|] eqn:Ew; [|discriminate]. cbn in Hw. injection Hw; intros; subst zs.
    assert (Hn' : no_negative_zero vs) by (intros v' e Hv He; eapply Hn; [right; exact Hv|exact He]).
    assert (Hv : forall e, v_disc v = Some e -> negative_zero e = false) by (intros e He; eapply Hn; [left; reflexivity|exact He]).
    rewrite suffixes_cons in Hs. inversion Hz as [|? ? Hz1 Hz2]; subst.
    destruct (step_complete s v z D) as [s1 [d [E1 [E2 E3]]]]; auto.
    { intros a Ha. destruct (HD a Ha) as [H1 [H2 H3]]. inversion H2; subst. auto. }
    { intros t Ht. apply Hs. apply in_or_app; auto. }
    destruct (step_ok _ _ _ _ Hi E1) as [Hi1 [Hh [Hp [Hvv [Hr1 Hs1]]]]].
    pose proof (step_canon _ _ _ _ E1 Hv) as Hcd.
    destruct (IH s1 zs' D) as [s2 [ds [F1 [F2 F3]]]]; auto.
    { intros x Hx. rewrite Hp in Hx. injection Hx; intros; subst; assumption. }
    { intros x Hx. apply Hvv in Hx. destruct Hx; subst; auto. }
    { unfold prevZ. rewrite Hp. cbn. rewrite E2. exact Ew. }
    { intros a Ha. destruct (HD a Ha) as [H1 [H2 H3]]. inversion H2; subst. repeat split; auto.
      intros x Hx. apply Hvv in Hx. destruct Hx; subst; auto. apply fits_lim_ok; auto. }
    { intros t Ht. apply Hs. apply in_or_app; auto. }
    exists s2, (d :: ds). cbn [variants_loop]. rewrite E1, F1. cbn. rewrite E2, F2. auto.
Qed.

(** The theorems *)
Theorem enum_sound repr vs ds r :
  (forall a, repr = Some a -> repr_attr_ok a = true) ->
  parse_enum repr vs = Ok (ds, r) ->
  written_values None vs = Some (map disc_Z ds) /\ Forall (fun d => fits r (disc_Z d)) ds /\
  (forall t, declared repr vs = Some t -> t = atom_name r) /\
  (forall t, In t (suffixes vs) -> t = atom_name r).
Proof.
  intros Hrep. unfold parse_enum. destruct (variants_loop (dset_new repr) vs) as [[[s ds'] es] p] eqn:El.
  destruct p; [discriminate|]. destruct (inferred_repr s) as [r'| |] eqn:Ei; try discriminate.
  destruct es; [|discriminate]. intros H; injection H; intros; subst r' ds'.
  destruct (loop_ok _ _ _ _ (inv_new _ Hrep) El) as [Hi [Hw [Hv [Hr Hs]]]].
  split; [exact Hw|]. cbn [dset_new s_repr s_values] in *.
  assert (Hmag : forall d, In d ds -> (d_mag d <= u64_max)%N) by (intros; apply (inv_mag _ Hi), Hv; auto).
  destruct (s_repr s) as [a|] eqn:Er.
  - unfold inferred_repr in Ei. rewrite Er in Ei. injection Ei; intros; subst a.
    split; [|split].
    + apply Forall_forall. intros d Hd. apply lim_ok_fits; [eapply inv_int; eauto|auto|].
      eapply inv_lim; eauto. apply Hv; auto.
    + intros t Ht. unfold declared in Ht. unfold decl in Hr. rewrite <- Hr in Ht. cbn in Ht. congruence.
    + intros t Ht. eapply Hs; eauto.
  - cbn in Hr. unfold decl in Hr. fold (declared repr vs) in Hr. split; [|split].
    + apply Forall_forall. intros d Hd.
      assert (Hne : s_values s <> []) by (intros E; assert (In d []) by (rewrite <- E; apply Hv; auto); contradiction).
      destruct (infer_none s r Er Ei Hi Hne d) as [H1 H2]; [apply Hv; auto|].
      apply lim_ok_fits; auto. cbn in H2. intuition; subst; reflexivity.
    + intros t Ht. congruence.
    + intros t Ht. unfold declared in Hr. destruct repr; [discriminate|]. destruct (suffixes vs); [destruct Ht|discriminate].
Qed.

Theorem enum_no_panic repr vs m : no_negative_zero vs -> parse_enum repr vs <> Panic m.
Proof.
  intros Hn. unfold parse_enum. destruct (variants_loop (dset_new repr) vs) as [[[s ds'] es] p] eqn:El.
  apply loop_no_panic in El; [|exact Hn|discriminate]. destruct El as [-> _].
  unfold inferred_repr. destruct (s_repr s); [destruct es; discriminate|].
  destruct (s_values s); [destruct es; discriminate|].
  destruct (find _ LIMITS); [destruct es; discriminate|discriminate].
Qed.

Lemma fits_wide a z : fits a z -> (- (2 ^ 64 - 1) <= z <= 2 ^ 64 - 1)%Z.
Proof. unfold fits. destruct a; cbn -[Z.pow]; try contradiction; lia. Qed.

Theorem enum_complete repr vs : no_negative_zero vs ->
  (forall a, repr = Some a -> repr_attr_ok a = true) ->
  forall zs r, (exists ds, parse_enum repr vs = Ok (ds, r) /\ map disc_Z ds = zs) <-> good_enum repr vs zs r.
Proof.
  intros Hn Hrep zs r. split.
  - intros [ds [H <-]]. destruct (enum_sound _ _ _ _ Hrep H) as [Hw [Hf [Hd Hs]]].
    destruct (declared repr vs) as [t|] eqn:Ed.
    + apply good_declared; auto.
      * rewrite Ed. f_equal. auto.
      * rewrite Forall_map. exact Hf.
    + apply good_inferred; auto.
      unfold parse_enum in H. destruct (variants_loop (dset_new repr) vs) as [[[s ds'] es] p] eqn:El.
      destruct p; [discriminate|]. destruct (inferred_repr s) as [r'| |] eqn:Ei; try discriminate.
      destruct es; [|discriminate]. injection H; intros; subst r' ds'.
      destruct (loop_ok _ _ _ _ (inv_new _ Hrep) El) as [Hi [_ [Hv [Hr _]]]].
      destruct (loop_no_panic _ _ _ _ _ _ Hn (fun d (E : s_previous (dset_new repr) = Some d) => match (ltac:(discriminate E) : False) with end) El) as [_ Hc].
      cbn [dset_new s_repr s_values] in *. unfold decl in Hr. fold (declared repr vs) in Hr. rewrite Ed in Hr.
      destruct (s_repr s) eqn:Er; [discriminate|].
      unfold inferred_repr in Ei. rewrite Er in Ei. destruct (s_values s) as [|x l] eqn:Ev.
      * injection Ei; intros; subst r. destruct ds as [|d ds]; [|exfalso; apply (Hv d); left; left; reflexivity].
        apply ff_here. constructor.
      * pose proof (inv_sorted _ Hi) as Hso. rewrite Ev in Hso.
        rewrite (find_sem LIMITS _ x l Hso eq_refl) in Ei.
        rewrite preference_LIMITS. apply find_first_fit; auto.
        { intros d Hdd. apply (inv_mag _ Hi). rewrite Ev. apply Hv; auto. }
        destruct (find (fun l0 => forallb (lim_in l0) (x :: l)) LIMITS) as [lm|] eqn:Ef; [|discriminate].
        injection Ei; intros; subst r. exists lm. split; [|reflexivity]. rewrite <- Ef.
        assert (Hext : forall lm, forallb (lim_in lm) ds = forallb (lim_in lm) (x :: l)).
        { intros lm0. apply Bool.eq_iff_eq_true. rewrite !forallb_forall. split; intros Hx d Hdd.
          - apply Hx. apply Hv in Hdd. destruct Hdd as [Hdd|[]]; exact Hdd.
          - apply Hx. apply Hv; auto. }
        clear -Hext. induction LIMITS as [|y L IH]; [reflexivity|]. cbn [find]. rewrite Hext, IH. reflexivity.
  - intros G.
    assert (GC : exists D, (forall a, D = Some a -> repr_attr_ok a = true /\ Forall (fits a) zs /\ (forall d : disc, False -> lim_ok a d = true)) /\
        (repr = None \/ repr = D) /\ (forall t, In t (suffixes vs) -> option_map atom_name D = Some t) /\
        Forall (fun z => - (2 ^ 64 - 1) <= z <= 2 ^ 64 - 1)%Z zs /\ written_values None vs = Some zs /\
        match D with Some a => r = a /\ declared repr vs = Some (atom_name a) | None => first_fit zs preference r /\ declared repr vs = None end).
    { inversion G as [? ? Hw Hdc Hsx Hfit|? ? Hw Hdc Hff]; subst.
      - exists (Some r). split; [|split; [|split; [|split; [|split]]]].
        + intros a Ha. injection Ha as <-. split; [|split; [exact Hfit|intros d []]].
          destruct zs as [|z zs].
          * unfold declared in Hdc. destruct repr as [a|].
            { apply Hrep. f_equal. apply atom_name_inj. congruence. }
            destruct vs as [|v vs]; [discriminate|]. rewrite written_cons in Hw.
            destruct (here None v) as [z|]; [|discriminate]. destruct (written_values (Some z) vs); discriminate.
          * inversion Hfit as [|? ? Hz _]; subst. unfold fits in Hz. destruct r; try reflexivity; contradiction.
        + unfold declared in Hdc. destruct repr; [|auto]. right. f_equal. apply atom_name_inj. congruence.
        + intros t Ht. cbn. f_equal. symmetry; auto.
        + eapply Forall_impl; [|exact Hfit]. intros; eapply fits_wide; eauto.
        + exact Hw.
        + auto.
      - exists None. split; [discriminate|]. split; [|split; [|split; [|split]]].
        + unfold declared in Hdc. destruct repr; [discriminate|auto].
        + intros t Ht. exfalso. unfold declared in Hdc. destruct repr; [discriminate|]. destruct (suffixes vs); [destruct Ht|discriminate].
        + assert (Hall : Forall (fits r) zs).
          { clear -Hff. induction Hff; assumption. }
          eapply Forall_impl; [|exact Hall]. intros; eapply fits_wide; eauto.
        + exact Hw.
        + auto. }
    destruct GC as [D [G1 [G2 [G3 [G4 [G5 G6]]]]]].
    destruct (loop_complete vs (dset_new repr) zs D) as [s [ds [El [Hz Hr]]]]; auto.
    { apply inv_new; assumption. } { discriminate. } { intros d []. }
    exists ds. split; [|exact Hz].
    destruct (loop_ok _ _ _ _ (inv_new _ Hrep) El) as [Hi [_ [Hv [Hd _]]]].
    destruct (loop_no_panic _ _ _ _ _ _ Hn (fun d (E : s_previous (dset_new repr) = Some d) => match (ltac:(discriminate E) : False) with end) El) as [_ Hc].
    unfold parse_enum. rewrite El. cbn [dset_new s_repr s_values] in *.
    unfold decl in Hd. fold (declared repr vs) in Hd.
    destruct D as [a|].
    + destruct G6 as [-> G6]. rewrite G6 in Hd. destruct Hr as [Hr|Hr]; rewrite Hr in Hd; [discriminate|].
      unfold inferred_repr. rewrite Hr. reflexivity.
    + destruct G6 as [G6 G7]. rewrite G7 in Hd. destruct (s_repr s) eqn:Er; [discriminate|].
      unfold inferred_repr. rewrite Er. destruct (s_values s) as [|x l] eqn:Ev.
      * destruct ds as [|d ds]; [|exfalso; apply (Hv d); left; left; reflexivity].
        cbn in Hz. subst zs. inversion G6; subst; [reflexivity|]. exfalso; apply H1; constructor.
      * pose proof (inv_sorted _ Hi) as Hso. rewrite Ev in Hso.
        rewrite (find_sem LIMITS _ x l Hso eq_refl).
        rewrite preference_LIMITS in G6. rewrite <- Hz in G6. apply find_first_fit in G6; auto.
        2:{ intros d Hdd. apply (inv_mag _ Hi). rewrite Ev. apply Hv; auto. }
        destruct G6 as [lm [Hf <-]].
        assert (Hext : forall lm, forallb (lim_in lm) ds = forallb (lim_in lm) (x :: l)).
        { intros lm0. apply Bool.eq_iff_eq_true. rewrite !forallb_forall. split; intros Hx d Hdd.
          - apply Hx. apply Hv in Hdd. destruct Hdd as [Hdd|[]]; exact Hdd.
          - apply Hx. apply Hv; auto. }
        replace (find (fun l0 => forallb (lim_in l0) (x :: l)) LIMITS) with (find (fun l0 => forallb (lim_in l0) ds) LIMITS); [rewrite Hf; reflexivity|].
        clear -Hext. induction LIMITS as [|y L IH]; [reflexivity|]. cbn [find]. rewrite Hext, IH. reflexivity.
Qed.
