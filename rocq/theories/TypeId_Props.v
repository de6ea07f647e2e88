(** C34: type ids identify exactly the qualified C++ name. *)
From Verif Require Import Base TypeId_Model.
Require Import NArith Lia.
Local Open Scope N_scope.

Definition scalar (c : N) : Prop := c <= 1114111.   (* 0x10FFFF *)
Definition word (w : list N) : Prop := w <> [] /\ Forall scalar w.

Lemma id_of_char_inj bits c c' : 21 <= bits -> scalar c -> scalar c' ->
  id_of_char bits c = id_of_char bits c' -> c = c'.
Proof.
  intros B S S'. unfold id_of_char.
  assert (P : 2 ^ 21 <= 2 ^ bits) by (apply N.pow_le_mono_r; lia).
  change (2 ^ 21) with 2097152 in P. unfold scalar in *.
  destruct (is_letter c), (is_letter c'), (is_digit_or_underscore c), (is_digit_or_underscore c');
    intros E; try discriminate; try (inversion E; reflexivity);
    inversion E as [E']; rewrite !N.mod_small in E' by lia; exact E'.
Qed.
Lemma id_of_char_unit bits c : id_of_char bits c <> IUnit.
Proof. unfold id_of_char. destruct (is_letter c), (is_digit_or_underscore c); discriminate. Qed.

Lemma map_inj bits w : forall w' r r', 21 <= bits -> Forall scalar w -> Forall scalar w' ->
  (r = [] \/ exists q, r = IUnit :: q) -> (r' = [] \/ exists q, r' = IUnit :: q) ->
  map (id_of_char bits) w ++ r = map (id_of_char bits) w' ++ r' -> w = w' /\ r = r'.
Proof.
  induction w as [|c w IH]; intros [|c' w'] r r' B S S' R R' E; cbn in E.
  - auto.
  - exfalso. destruct R as [->|[q ->]]; [discriminate|]. inversion E as [[X Y]].
    symmetry in X. exact (id_of_char_unit _ _ X).
  - exfalso. destruct R' as [->|[q ->]]; [discriminate|]. inversion E as [[X Y]].
    exact (id_of_char_unit _ _ X).
  - inversion E as [[X Y]]. inversion S; inversion S'; subst.
    apply id_of_char_inj in X; auto. subst. apply IH in Y; auto. destruct Y as [-> ->]. auto.
Qed.

Fixpoint ids_rest (bits : N) (segs : list (list N)) : list id_type :=
  match segs with [] => [] | w :: segs => IUnit :: map (id_of_char bits) w ++ ids_rest bits segs end.
Lemma fold_ids bits segs : forall acc, acc <> [] ->
  fold_left (fun ids word =>
    (match ids with [] => ids | _ => ids ++ [IUnit] end) ++ map (id_of_char bits) word) segs acc
  = acc ++ ids_rest bits segs.
Proof.
  induction segs as [|w segs IH]; intros acc N; cbn; [now rewrite app_nil_r|].
  rewrite IH.
  - destruct acc as [|x acc]; [congruence|]. rewrite <- !app_assoc. reflexivity.
  - destruct acc as [|x acc]; [congruence|]. cbn. discriminate.
Qed.
Lemma type_id_cons bits w segs : word w ->
  type_id bits (w :: segs) = map (id_of_char bits) w ++ ids_rest bits segs.
Proof.
  intros [N _]. unfold type_id. cbn [fold_left]. rewrite app_nil_l, fold_ids; [reflexivity|].
  destruct w; [congruence|]. discriminate.
Qed.
Lemma ids_rest_inj bits segs : forall segs', 21 <= bits -> Forall word segs -> Forall word segs' ->
  ids_rest bits segs = ids_rest bits segs' -> segs = segs'.
Proof.
  induction segs as [|w segs IH]; intros [|w' segs'] B F F' E; cbn in E; try discriminate; [reflexivity|].
  inversion E as [E']. inversion F as [|? ? [_ W] F1]; inversion F' as [|? ? [_ W'] F1']; subst.
  assert (K : forall l, ids_rest bits l = [] \/ exists q, ids_rest bits l = IUnit :: q)
    by (intros [|x l]; cbn; eauto).
  apply map_inj in E'; auto. destruct E' as [-> E'].
  f_equal. now apply IH.
Qed.

(** Two qualified names have the same type id exactly if they are the same sequence of
    segments, on every target with at least 21-bit addresses. *)
Theorem C34_type_id : forall bits segs segs', 21 <= bits ->
  Forall word segs -> Forall word segs' ->
  type_id bits segs = type_id bits segs' <-> segs = segs'.
Proof.
  intros bits segs segs' B F F'. split; [|now intros ->].
  assert (K : forall l, ids_rest bits l = [] \/ exists q, ids_rest bits l = IUnit :: q)
    by (intros [|x l]; cbn; eauto).
  destruct segs as [|w segs], segs' as [|w' segs']; [reflexivity| | |];
    inversion F as [|? ? W F1]; inversion F' as [|? ? W' F1']; subst;
    rewrite ?type_id_cons by assumption; intros E.
  - exfalso. destruct W' as [N _]. destruct w'; [congruence|]. cbn in E. discriminate.
  - exfalso. destruct W as [N _]. destruct w; [congruence|]. cbn in E. discriminate.
  - apply map_inj in E; [| |apply W|apply W'|..]; auto. destruct E as [-> E].
    f_equal. now apply (ids_rest_inj bits).
Qed.
Print Assumptions C34_type_id.

(** An alias is accepted exactly if its target has the same C++ namespace and name. *)
Theorem C34_alias : forall bits (a b : cxx_name), 21 <= bits ->
  Forall word (namespace a) -> word (name a) -> Forall word (namespace b) -> word (name b) ->
  alias_accepted bits a b <-> namespace a = namespace b /\ name a = name b.
Proof.
  intros bits [ns n] [ns' n'] B Fa Wa Fb Wb. cbn in *. unfold alias_accepted, type_id_of. cbn [namespace name].
  rewrite C34_type_id; [|assumption| |].
  - split; [|now intros [-> ->]]. intros E. now apply app_inj_tail.
  - apply Forall_app. auto.
  - apply Forall_app. auto.
Qed.
Print Assumptions C34_alias.

(** Every enum mentioned in a type id is one of the crate's marker types. *)
Theorem C34_defined : forall bits segs n, In (IEnum n) (type_id bits segs) -> In n marker_types.
Proof.
  intros bits segs n.
  assert (C : forall c, id_of_char bits c = IEnum n -> In n marker_types).
  { intros c E. unfold id_of_char, is_letter, is_digit_or_underscore in E.
    destruct (N.leb_spec 65 c), (N.leb_spec c 90), (N.leb_spec 97 c), (N.leb_spec c 122),
      (N.leb_spec 48 c), (N.leb_spec c 57), (N.eqb_spec c 95); cbn in E; try discriminate;
      inversion E; subst; clear E; try lia;
      unfold marker_types; rewrite !in_app_iff, !in_map_iff;
      first
      [ right; left; exists c; split; [reflexivity|]; cbn; lia
      | right; right; left; exists c; split; [reflexivity|]; cbn; lia
      | left; exists c; split; [reflexivity|]; cbn; lia
      | right; right; right; left; reflexivity ]. }
  unfold type_id.
  assert (G : forall segs acc, (In (IEnum n) acc -> In n marker_types) ->
    In (IEnum n) (fold_left (fun ids word =>
      (match ids with [] => ids | _ => ids ++ [IUnit] end) ++ map (id_of_char bits) word) segs acc) ->
    In n marker_types).
  { clear segs. induction segs as [|w segs IH]; intros acc A; cbn; [exact A|]. apply IH.
    rewrite in_app_iff, in_map_iff. intros [I|(c & E & _)]; [|eauto].
    apply A. destruct acc; [exact I|]. apply in_app_iff in I. destruct I as [I|[I|[]]]; [exact I|discriminate]. }
  apply (G segs []). intros [].
Qed.
Print Assumptions C34_defined.

(** What a written path means.  [spelled] is the grammar: an optional leading [::], then
    identifiers separated by [::]. *)
Fixpoint separated (l : list ident) : list token :=
  match l with
  | [] => []
  | [i] => [KIdent i]
  | i :: l => KIdent i :: KColons :: separated l
  end.
Definition spelled (ts : list token) (l : list ident) : Prop :=
  l <> [] /\ (ts = separated l \/ ts = KColons :: separated l).

Lemma parse_loop_ok allow l : forall acc rest, l <> [] -> Forall (fun i => raw i = true -> allow = true) l ->
  match rest with KColons :: _ => False | _ => True end ->
  parse_loop allow (separated l ++ rest) acc true = inl (acc ++ map text l, false, rest).
Proof.
  induction l as [|i l IH]; intros acc rest N F R; [congruence|]. inversion F as [|? ? A F']; subst.
  assert (Q : (raw i && negb allow)%bool = false).
  { destruct (raw i) eqn:E; [|reflexivity]. now rewrite A. }
  destruct l as [|j l].
  - cbn. rewrite Q. destruct rest as [|[] ?]; try reflexivity. destruct R.
  - change (separated (i :: j :: l)) with (KIdent i :: KColons :: separated (j :: l)).
    cbn [app parse_loop]. rewrite Q. rewrite IH; auto; [|discriminate].
    cbn [map]. now rewrite <- app_assoc.
Qed.
Lemma parse_loop_inv allow ts : forall acc segs tp rest,
  parse_loop allow ts acc true = inl (segs, tp, rest) ->
  (exists l, l <> [] /\ tp = false /\ segs = acc ++ map text l /\ ts = separated l ++ rest /\
             Forall (fun i => raw i = true -> allow = true) l) \/
  tp = true.
Proof.
  induction ts as [ts IH] using (well_founded_induction (well_founded_ltof _ (@List.length token))).
  intros acc segs tp rest E. destruct ts as [|[i| |] ts].
  - right. cbn in E. inversion E. reflexivity.
  - cbn in E. destruct (raw i && negb allow)%bool eqn:Q; [discriminate|].
    assert (A : raw i = true -> allow = true).
    { intros X. rewrite X in Q. cbn in Q. now destruct allow. }
    destruct ts as [|[j| |] ts].
    + inversion E; subst. left. exists [i]. repeat split; auto; discriminate.
    + inversion E; subst. left. exists [i]. repeat split; auto; discriminate.
    + apply IH in E; [|unfold ltof; cbn; lia].
      destruct E as [(l & N & T & S & R & F)|T]; [|now right].
      left. exists (i :: l). repeat split; auto; try discriminate.
      * rewrite S, <- app_assoc. reflexivity.
      * destruct l as [|j l]; [congruence|]. rewrite R. reflexivity.
    + inversion E; subst. left. exists [i]. repeat split; auto; discriminate.
  - right. cbn in E. inversion E. reflexivity.
  - right. cbn in E. inversion E. reflexivity.
Qed.

(** The unquoted form accepts exactly the spelled paths, and yields the names of the
    identifiers with any r# removed; the quoted form accepts in addition the empty string,
    and no raw identifiers. *)
Theorem C34_parse : forall ts segs,
  (parse_macro_path ts = inl segs <-> exists l, spelled ts l /\ segs = map text l) /\
  (parse_quoted ts = inl segs <->
     (ts = [] /\ segs = []) \/
     exists l, spelled ts l /\ segs = map text l /\ Forall (fun i => raw i = false) l).
Proof.
  assert (U : forall allow ts segs,
    (exists rest, parse_unquoted allow ts = inl (segs, rest) /\ rest = []) <->
    exists l, spelled ts l /\ segs = map text l /\ Forall (fun i => raw i = true -> allow = true) l).
  { intros allow ts segs. split.
    - intros (rest & E & ->). unfold parse_unquoted in E.
      assert (D : exists lead ts', ts = (if (lead : bool) then [KColons] else []) ++ ts' /\
                  (match ts with KColons :: ts => (true, ts) | _ => (false, ts) end) = (lead, ts')).
      { destruct ts as [|[i| |] ts]; [exists false, []|exists false, (KIdent i :: ts)|exists true, ts|exists false, (KOther :: ts)]; split; reflexivity. }
      destruct D as (lead & ts' & -> & D). rewrite D in E. clear D.
      destruct (parse_loop allow ts' [] true) as [[[s tp] r]|] eqn:L; [|discriminate].
      apply parse_loop_inv in L. destruct L as [(l & N & -> & S & R & F)| ->].
      + cbn in S. rewrite app_nil_l in S || idtac. exists l. rewrite R.
        destruct s as [|a s].
        * destruct lead; cbn in E; [|discriminate]. inversion E; subst. destruct l; [congruence|discriminate].
        * cbn in E. inversion E; subst r segs.
          split; [|split; [|exact F]].
          -- split; [exact N|]. rewrite app_nil_r. destruct lead; [now right|now left].
          -- exact S.
      + destruct s; destruct lead; discriminate.
    - intros (l & [N [->| ->]] & -> & F); exists []; split; auto; unfold parse_unquoted.
      + assert (D : (match separated l with KColons :: ts => (true, ts) | _ => (false, separated l) end) = (false, separated l)).
        { destruct l as [|i [|j l]]; reflexivity. }
        rewrite D. pose proof (parse_loop_ok allow l [] [] N F I) as L. rewrite app_nil_r in L. rewrite L.
        cbn. destruct l; [congruence|]. reflexivity.
      + pose proof (parse_loop_ok allow l [] [] N F I) as L. rewrite app_nil_r in L. rewrite L.
        cbn. destruct l; [congruence|]. reflexivity. }
  intros ts segs. split.
  - unfold parse_macro_path. specialize (U true ts segs). split.
    + intros E. destruct (parse_unquoted true ts) as [[s [|]]|]; try discriminate. inversion E; subst.
      destruct (proj1 U) as (l & S & M & _); [exists []; auto|]. eauto.
    + intros (l & S & M). destruct (proj2 U) as (r & -> & ->); [|reflexivity].
      exists l. split; [exact S|]. split; [exact M|]. apply Forall_forall. auto.
  - specialize (U false ts segs). split.
    + unfold parse_quoted. destruct ts as [|t ts].
      * intros E. inversion E. auto.
      * intros E. right. destruct (parse_unquoted false (t :: ts)) as [[s [|]]|]; try discriminate. inversion E; subst.
        destruct (proj1 U) as (l & S & M & F); [exists []; auto|]. exists l. repeat split; auto.
        -- apply S.
        -- apply S.
        -- revert F. apply Forall_impl. intros i X. destruct (raw i); [|reflexivity]. now rewrite X.
    + intros [[-> ->]|(l & S & M & F)]; [reflexivity|].
      destruct (proj2 U) as (r & E & ->).
      { exists l. repeat split; auto; try apply S. revert F. apply Forall_impl. intros i X. congruence. }
      destruct ts as [|t ts].
      * exfalso. destruct S as [N [X|X]]; [|discriminate]. destruct l as [|i [|j l]]; [congruence|discriminate|discriminate].
      * cbn [parse_quoted]. now rewrite E.
Qed.
Print Assumptions C34_parse.

(** folly::File, f_1::é *)
Example C34_nonvacuous :
  type_id 32 [[102; 95; 49]; [233]] = [IEnum [102]; IEnum [95; 95]; IEnum [95; 49]; IUnit; IArray 233] /\
  Forall word [[102; 95; 49]; [233]] /\
  ~ alias_accepted 32 (CxxName [[97]] [98]) (CxxName [] [97; 98]) /\
  parse_macro_path [KColons; KIdent (Ident true [97]); KColons; KIdent (Ident false [98])] = inl [[97]; [98]] /\
  parse_quoted [KIdent (Ident true [97])] = inr RawNotAllowed /\
  parse_macro_path [KIdent (Ident true [97]); KColons] = inr ExpectedSegment.
Proof.
  repeat split; try (repeat constructor; try discriminate; unfold scalar; lia).
Qed.
