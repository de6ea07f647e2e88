From Verif Require Import Base Lossy_Model Lossy_Spec.
Require Import NArith ZArith Lia.
Local Open Scope N_scope.
Ltac Zify.zify_post_hook ::= Z.div_mod_to_equations.

Ltac tests :=
  repeat match goal with
  | |- context[N.leb ?a ?b] => destruct (N.leb_spec a b); try (exfalso; lia)
  | |- context[N.ltb ?a ?b] => destruct (N.ltb_spec a b); try (exfalso; lia)
  | |- context[N.eqb ?a ?b] => destruct (N.eqb_spec a b); try (exfalso; lia)
  | |- context[(_ && _)%bool] => progress cbn [andb]
  | |- context[(_ || _)%bool] => progress cbn [orb]
  end; cbn [andb orb negb].

Lemma encode_utf8 c : encode c = utf8 c.
Proof.
  unfold encode, utf8. tests; try reflexivity.
  - now rewrite N.div_div by discriminate.
  - rewrite !N.div_div by discriminate. reflexivity.
Qed.
Lemma utf8_len c : (1 <= List.length (utf8 c) <= 4)%nat.
Proof. unfold utf8. tests; cbn; lia. Qed.
Lemma utf8_nonempty c : utf8 c <> [].
Proof. pose proof (utf8_len c) as H. destruct (utf8 c); [cbn in H; lia|discriminate]. Qed.

(** the four shapes of a character *)
Lemma utf8_cases c : scalar c ->
  (exists a, utf8 c = [a] /\ a < 128 /\ c = a) \/
  (exists a b, utf8 c = [a; b] /\ 194 <= a <= 223 /\ 128 <= b <= 191 /\ c = (a - 192) * 64 + (b - 128)) \/
  (exists a b d, utf8 c = [a; b; d] /\ 224 <= a <= 239 /\ 128 <= b <= 191 /\ 128 <= d <= 191 /\
      (a = 224 -> 160 <= b) /\ (a = 237 -> b <= 159) /\ c = (a - 224) * 4096 + (b - 128) * 64 + (d - 128)) \/
  (exists a b d e, utf8 c = [a; b; d; e] /\ 240 <= a <= 244 /\ 128 <= b <= 191 /\ 128 <= d <= 191 /\ 128 <= e <= 191 /\
      (a = 240 -> 144 <= b) /\ (a = 244 -> b <= 143) /\
      c = (a - 240) * 262144 + (b - 128) * 4096 + (d - 128) * 64 + (e - 128)).
Proof.
  intros S. unfold scalar in S. unfold utf8. tests.
  - left. eexists. split; [reflexivity|]. lia.
  - right. left. do 2 eexists. split; [reflexivity|]. lia.
  - right. right. left. do 3 eexists. split; [reflexivity|]. lia.
  - right. right. right. do 4 eexists. split; [reflexivity|]. lia.
Qed.
(** and back *)
Lemma utf8_2 a b : 194 <= a <= 223 -> 128 <= b <= 191 -> exists c, scalar c /\ utf8 c = [a; b].
Proof.
  intros A B. exists ((a - 192) * 64 + (b - 128)). unfold scalar, utf8. split; [lia|]. tests.
  f_equal; [lia|]. f_equal. lia.
Qed.
Lemma utf8_3 a b d : 224 <= a <= 239 -> 128 <= b <= 191 -> 128 <= d <= 191 -> (a = 224 -> 160 <= b) -> (a = 237 -> b <= 159) ->
  exists c, scalar c /\ utf8 c = [a; b; d].
Proof.
  intros A B D E F. exists ((a - 224) * 4096 + (b - 128) * 64 + (d - 128)). unfold scalar, utf8. split; [lia|]. tests.
  f_equal; [lia|]. f_equal; [lia|]. f_equal. lia.
Qed.
Lemma utf8_4 a b d e : 240 <= a <= 244 -> 128 <= b <= 191 -> 128 <= d <= 191 -> 128 <= e <= 191 -> (a = 240 -> 144 <= b) -> (a = 244 -> b <= 143) ->
  exists c, scalar c /\ utf8 c = [a; b; d; e].
Proof.
  intros A B D G E F. exists ((a - 240) * 262144 + (b - 128) * 4096 + (d - 128) * 64 + (e - 128)). unfold scalar, utf8. split; [lia|]. tests.
  f_equal; [lia|]. f_equal; [lia|]. f_equal; [lia|]. f_equal. lia.
Qed.

Lemma decode_utf8 c r : scalar c -> decode (utf8 c ++ r) = (c, r).
Proof.
  intros S. destruct (utf8_cases c S) as [(a & -> & A & C)|[(a & b & -> & A & B & C)|[(a & b & d & -> & A & B & D & E & F & C)|(a & b & d & e & -> & A & B & D & G & E & F & C)]]];
    cbn [app decode]; tests; (f_equal; lia).
Qed.
Lemma utf8_inj c d : scalar c -> scalar d -> utf8 c = utf8 d -> c = d.
Proof.
  intros C D E. pose proof (decode_utf8 c [] C) as H. rewrite E, (decode_utf8 d [] D) in H. congruence.
Qed.

Lemma continues_spec b : continues b = true <-> 128 <= b <= 191.
Proof. unfold continues, in_range. rewrite andb_true_iff, !N.leb_le. lia. Qed.
Lemma second3_spec a b : 224 <= a <= 239 ->
  (second3 a b = true <-> 128 <= b <= 191 /\ (a = 224 -> 160 <= b) /\ (a = 237 -> b <= 159)).
Proof.
  intros A. unfold second3, in_range. rewrite !orb_true_iff, !andb_true_iff, !N.leb_le, !N.eqb_eq. lia.
Qed.
Lemma second4_spec a b : 240 <= a <= 244 ->
  (second4 a b = true <-> 128 <= b <= 191 /\ (a = 240 -> 144 <= b) /\ (a = 244 -> b <= 143)).
Proof.
  intros A. unfold second4, in_range. rewrite !orb_true_iff, !andb_true_iff, !N.leb_le, !N.eqb_eq. lia.
Qed.
Lemma width_spec a : width a = if (194 <=? a) && (a <=? 223) then 2%nat else if (224 <=? a) && (a <=? 239) then 3%nat
   else if (240 <=? a) && (a <=? 244) then 4%nat else 0%nat.
Proof. reflexivity. Qed.
Lemma width_cases a : (width a = 2%nat /\ 194 <= a <= 223) \/ (width a = 3%nat /\ 224 <= a <= 239) \/
  (width a = 4%nat /\ 240 <= a <= 244) \/ (width a = 0%nat /\ ~ 194 <= a <= 244).
Proof. rewrite width_spec. tests; lia. Qed.

(** soundness of one round *)
Lemma validate1_sound x rest :
  match validate1 x rest with
  | Good n => exists c r, scalar c /\ x :: rest = utf8 c ++ r /\ n = List.length (utf8 c)
  | Bad_len None => partial (x :: rest)
  | Bad_len (Some k) => exists b r, x :: rest = b ++ r /\ List.length b = k /\ (partial b \/ k = 1%nat) /\ b <> []
  end.
Proof.
  assert (ONE : exists b r, x :: rest = b ++ r /\ List.length b = 1%nat /\ (partial b \/ 1%nat = 1%nat) /\ b <> []).
  { exists [x], rest. repeat split; auto. discriminate. }
  unfold validate1. destruct (N.ltb_spec x 128) as [X|X].
  { exists x, rest. unfold scalar, utf8. tests. repeat split; auto; lia. }
  destruct (width_cases x) as [[-> W]|[[-> W]|[[-> W]|[-> W]]]].
  - destruct rest as [|b rest].
    + destruct (utf8_2 x 128) as (c & S & E); [lia|lia|]. split; [discriminate|]. exists c, [128]. rewrite E. repeat split; auto. discriminate.
    + destruct (continues b) eqn:B; [|exact ONE]. apply continues_spec in B.
      destruct (utf8_2 x b) as (c & S & E); [lia|lia|]. exists c, rest. rewrite E. auto.
  - destruct rest as [|b rest].
    + destruct (utf8_3 x (if x =? 224 then 160 else 128) 128) as (c & S & E); try (tests; lia).
      split; [discriminate|]. exists c. rewrite E. eexists [_; _]. repeat split; auto. discriminate.
    + destruct (second3 x b) eqn:B; [|exact ONE]. apply second3_spec in B; [|exact W].
      destruct rest as [|d rest].
      * destruct (utf8_3 x b 128) as (c & S & E); try lia.
        split; [discriminate|]. exists c, [128]. rewrite E. repeat split; auto. discriminate.
      * destruct (continues d) eqn:D.
        -- apply continues_spec in D. destruct (utf8_3 x b d) as (c & S & E); try lia. exists c, rest. rewrite E. auto.
        -- exists [x; b], (d :: rest). repeat split; auto; [|discriminate]. left.
           destruct (utf8_3 x b 128) as (c & S & E); try lia.
           split; [discriminate|]. exists c, [128]. rewrite E. repeat split; auto. discriminate.
  - destruct rest as [|b rest].
    + destruct (utf8_4 x (if x =? 240 then 144 else 128) 128 128) as (c & S & E); try (tests; lia).
      split; [discriminate|]. exists c. rewrite E. eexists [_; _; _]. repeat split; auto. discriminate.
    + destruct (second4 x b) eqn:B; [|exact ONE]. apply second4_spec in B; [|exact W].
      destruct rest as [|d rest].
      * destruct (utf8_4 x b 128 128) as (c & S & E); try lia.
        split; [discriminate|]. exists c, [128; 128]. rewrite E. repeat split; auto. discriminate.
      * destruct (continues d) eqn:D.
        -- apply continues_spec in D. destruct rest as [|e rest].
           ++ destruct (utf8_4 x b d 128) as (c & S & E); try lia.
              split; [discriminate|]. exists c, [128]. rewrite E. repeat split; auto. discriminate.
           ++ destruct (continues e) eqn:G.
              ** apply continues_spec in G. destruct (utf8_4 x b d e) as (c & S & E); try lia. exists c, rest. rewrite E. auto.
              ** exists [x; b; d], (e :: rest). repeat split; auto; [|discriminate]. left.
                 destruct (utf8_4 x b d 128) as (c & S & E); try lia.
                 split; [discriminate|]. exists c, [128]. rewrite E. repeat split; auto. discriminate.
        -- exists [x; b], (d :: rest). repeat split; auto; [|discriminate]. left.
           destruct (utf8_4 x b 128 128) as (c & S & E); try lia.
           split; [discriminate|]. exists c, [128; 128]. rewrite E. repeat split; auto. discriminate.
  - exact ONE.
Qed.

(** completeness *)
Lemma width_2 a : 194 <= a <= 223 -> width a = 2%nat.
Proof. intros. rewrite width_spec. tests; auto; lia. Qed.
Lemma width_3 a : 224 <= a <= 239 -> width a = 3%nat.
Proof. intros. rewrite width_spec. tests; auto; lia. Qed.
Lemma width_4 a : 240 <= a <= 244 -> width a = 4%nat.
Proof. intros. rewrite width_spec. tests; auto; lia. Qed.
Lemma validate1_char c x t r : scalar c -> utf8 c = x :: t -> validate1 x (t ++ r) = Good (List.length (utf8 c)).
Proof.
  intros S E. rewrite E.
  destruct (utf8_cases c S) as [(a & Q & A & C)|[(a & b & Q & A & B & C)|[(a & b & d & Q & A & B & D & G & F & C)|(a & b & d & e & Q & A & B & D & H & G & F & C)]]];
    rewrite Q in E; inversion E; subst x t; clear E; cbn [app List.length]; unfold validate1.
  - tests. reflexivity.
  - tests. rewrite width_2 by lia. apply continues_spec in B. now rewrite B.
  - tests. rewrite width_3 by lia. rewrite (proj2 (second3_spec a b A)) by auto. apply continues_spec in D. now rewrite D.
  - tests. rewrite width_4 by lia. rewrite (proj2 (second4_spec a b A)) by auto. apply continues_spec in D, H. now rewrite D, H.
Qed.
Lemma validate1_partial x t r : partial (x :: t) ->
  match validate1 x (t ++ r) with Bad_len (Some k) => (List.length (x :: t) <= k)%nat | _ => True end.
Proof.
  intros (_ & c & q & S & NQ & E). 
  destruct (utf8_cases c S) as [(a & Q & A & C)|[(a & b & Q & A & B & C)|[(a & b & d & Q & A & B & D & G & F & C)|(a & b & d & e & Q & A & B & D & H & G & F & C)]]];
    rewrite Q in E; cbn [app] in E; inversion E as [[X T]]; subst x; clear E; unfold validate1.
  - destruct t; [|discriminate]. destruct q; [congruence|discriminate].
  - tests. rewrite width_2 by lia. destruct t as [|y t]; cbn [app].
    + destruct r; auto. destruct (continues n); cbn; auto.
    + inversion T as [[Y T']]. destruct t; [|discriminate]. destruct q; [congruence|discriminate].
  - tests. rewrite width_3 by lia. destruct t as [|y t]; cbn [app].
    + destruct r as [|y r]; auto. destruct (second3 a y); cbn; auto. destruct r as [|z r]; auto. destruct (continues z); cbn; auto.
    + inversion T as [[Y T']]. subst y. rewrite (proj2 (second3_spec a b A)) by auto.
      destruct t as [|y t]; cbn [app].
      * destruct r as [|z r]; auto. destruct (continues z); cbn; auto.
      * inversion T'. destruct t; [|discriminate]. destruct q; [congruence|discriminate].
  - tests. rewrite width_4 by lia. destruct t as [|y t]; cbn [app].
    + destruct r as [|y r]; auto. destruct (second4 a y); cbn; auto. destruct r as [|z r]; auto. destruct (continues z); cbn; auto.
      destruct r as [|w r]; auto. destruct (continues w); cbn; auto.
    + inversion T as [[Y T']]. subst y. rewrite (proj2 (second4_spec a b A)) by auto.
      destruct t as [|y t]; cbn [app].
      * destruct r as [|z r]; auto. destruct (continues z); cbn; auto. destruct r as [|w r]; auto. destruct (continues w); cbn; auto.
      * inversion T' as [[Y' T2]]. subst y. apply continues_spec in D. rewrite D. destruct t as [|y t]; cbn [app].
        -- destruct r as [|w r]; auto. destruct (continues w); cbn; auto.
        -- inversion T2. destruct t; [|discriminate]. destruct q; [congruence|discriminate].
Qed.

(** The parts of a byte string exist and are unique. *)
Lemma app_same_length {A} (a b c d : list A) : a ++ b = c ++ d -> List.length a = List.length c -> a = c /\ b = d.
Proof.
  revert c. induction a as [|x a IH]; intros [|y c]; cbn; intros E L; try discriminate; auto.
  inversion E. destruct (IH c) as [-> ->]; auto.
Qed.
Lemma utf8_prefix_free c d r s : scalar c -> scalar d -> utf8 c ++ r = utf8 d ++ s -> c = d /\ r = s.
Proof.
  intros C D E. destruct (utf8 c) as [|x t] eqn:X; [now apply utf8_nonempty in X|].
  destruct (utf8 d) as [|y u] eqn:Y; [now apply utf8_nonempty in Y|].
  inversion E as [[H K]]. subst y.
  pose proof (validate1_char c x t r C X) as A. pose proof (validate1_char d x u s D Y) as B. rewrite K, B in A.
  assert (L : List.length (utf8 c) = List.length (utf8 d)) by congruence.
  rewrite <- X, <- Y in E. destruct (app_same_length _ _ _ _ E L) as [P ->]. split; auto. now apply utf8_inj.
Qed.
Lemma parts_inv l ps : parts l ps ->
  (l = [] /\ ps = []) \/
  (exists c r qs, l = utf8 c ++ r /\ ps = Char c :: qs /\ scalar c /\ parts r qs) \/
  (exists bad r qs, l = bad ++ r /\ ps = Bad bad :: qs /\ bad <> [] /\
    (forall c s, scalar c -> l <> utf8 c ++ s) /\ (partial bad \/ List.length bad = 1%nat) /\
    (forall b s, l = b ++ s -> partial b -> (List.length b <= List.length bad)%nat) /\ parts r qs).
Proof.
  destruct 1 as [|c r qs SC P|bad r qs NE NC PB MX P]; [left; auto|right; left|right; right].
  - exists c, r, qs. auto.
  - exists bad, r, qs. auto 10.
Qed.
Lemma parts_unique l ps : parts l ps -> forall qs, parts l qs -> ps = qs.
Proof.
  induction 1 as [|c rest ps SC P IH|bad rest ps NE NC PB MX P IH]; intros qs Q;
    destruct (parts_inv _ _ Q) as [[E ->]|[(c' & r & qs' & E & -> & SC' & Q')|(bad' & r & qs' & E & -> & NE' & NC' & PB' & MX' & Q')]].
  - reflexivity.
  - symmetry in E. apply app_eq_nil in E as [E _]. now apply utf8_nonempty in E.
  - symmetry in E. apply app_eq_nil in E as [E _]. congruence.
  - apply app_eq_nil in E as [E _]. now apply utf8_nonempty in E.
  - apply utf8_prefix_free in E as [-> ->]; auto. f_equal. auto.
  - exfalso. eapply NC'; eauto.
  - apply app_eq_nil in E as [E _]. congruence.
  - exfalso. eapply NC; eauto.
  - assert (L : List.length bad = List.length bad').
    { apply Nat.le_antisymm.
      - destruct PB as [PB|L']; [eapply MX'; eauto|]. rewrite L'. destruct bad'; [congruence|cbn; lia].
      - destruct PB' as [PB'|L']; [eapply MX; eauto|]. rewrite L'. destruct bad; [congruence|cbn; lia]. }
    destruct (app_same_length _ _ _ _ E L) as [-> ->]. f_equal. auto.
Qed.

(** What one round says about the parts *)
Lemma bad_round x rest e : validate1 x rest = Bad_len e ->
  exists bad r, x :: rest = bad ++ r /\ bad <> [] /\
    (match e with Some k => List.length bad = k | None => r = [] end) /\
    forall ps, parts r ps -> parts (x :: rest) (Bad bad :: ps).
Proof.
  intros V.
  assert (NC : forall c r, scalar c -> x :: rest <> utf8 c ++ r).
  { intros c r S E. destruct (utf8 c) as [|y t] eqn:Y; [now apply utf8_nonempty in Y|]. inversion E; subst.
    rewrite (validate1_char c y t r S Y) in V. discriminate. }
  pose proof (validate1_sound x rest) as SO. rewrite V in SO.
  destruct e as [k|].
  - destruct SO as (b & r & E & L & PB & NB). exists b, r. repeat split; auto.
    intros ps P. rewrite E. constructor; auto.
    + now rewrite <- E.
    + subst k. destruct PB; auto.
    + intros b' r' E' PB'. rewrite <- E in E'. destruct b' as [|y t]; [cbn; lia|]. inversion E'; subst.
      pose proof (validate1_partial y t r' PB') as H. now rewrite V in H.
  - exists (x :: rest), []. rewrite app_nil_r. repeat split; auto; [discriminate|].
    intros ps P. rewrite <- (app_nil_r (x :: rest)) at 1. constructor; auto.
    + discriminate.
    + now rewrite app_nil_r.
    + intros b' r' E' _. rewrite app_nil_r in E'. rewrite E', app_length. lia.
Qed.
Lemma parts_chars cs rest ps : Forall scalar cs -> parts rest ps -> parts (utf8_text cs ++ rest) (map Char cs ++ ps).
Proof.
  intros F P. induction F as [|c cs S F IH]; [exact P|]. cbn. rewrite <- app_assoc. now constructor.
Qed.

(** from_utf8 *)
Lemma skipn_len_app {A} (a b : list A) : skipn (List.length a) (a ++ b) = b.
Proof. induction a; auto. Qed.
Lemma firstn_len_app {A} (a b : list A) : firstn (List.length a) (a ++ b) = a.
Proof. induction a; cbn; congruence. Qed.
Lemma validate_spec fuel : forall i l, (List.length l <= fuel)%nat ->
  match validate fuel i l with
  | inl _ => exists cs, Forall scalar cs /\ l = utf8_text cs
  | inr (v, e) => exists cs x r, Forall scalar cs /\ l = utf8_text cs ++ x :: r /\ v = (i + List.length (utf8_text cs))%nat /\
      validate1 x r = Bad_len e
  end.
Proof.
  induction fuel as [|fuel IH]; intros i l L.
  - destruct l; [|cbn in L; lia]. exists []. auto.
  - destruct l as [|x rest]; [exists []; auto|]. cbn [validate].
    destruct (validate1 x rest) as [n|e] eqn:V.
    + pose proof (validate1_sound x rest) as SO. rewrite V in SO. destruct SO as (c & r & S & E & ->).
      rewrite E, skipn_len_app.
      specialize (IH (i + List.length (utf8 c))%nat r). rewrite E, app_length in L. pose proof (utf8_len c) as U.
      specialize (IH ltac:(lia)). destruct (validate fuel (i + List.length (utf8 c)) r) as [|[v e]].
      * destruct IH as (cs & F & ->). exists (c :: cs). split; [now constructor|]. reflexivity.
      * destruct IH as (cs & y & r' & F & -> & -> & V'). exists (c :: cs), y, r'. repeat split; auto; cbn.
        -- now rewrite <- app_assoc.
        -- rewrite app_length. fold (utf8_text cs). lia.
    + exists [], x, rest. repeat split; auto.
Qed.
Lemma from_utf8_spec l :
  match from_utf8 l with
  | inl _ => exists cs, Forall scalar cs /\ l = utf8_text cs
  | inr (v, e) => exists cs bad r, Forall scalar cs /\ l = utf8_text cs ++ bad ++ r /\ v = List.length (utf8_text cs) /\
      bad <> [] /\ match e with Some k => List.length bad = k | None => r = [] end /\
      forall ps, parts r ps -> parts l (map Char cs ++ Bad bad :: ps)
  end.
Proof.
  unfold from_utf8. pose proof (validate_spec (List.length l) 0 l (le_n _)) as H.
  destruct (validate (List.length l) 0 l) as [|[v e]]; [exact H|].
  destruct H as (cs & x & r & F & E & -> & V). destruct (bad_round x r e V) as (bad & r' & E' & NB & LE & PP).
  exists cs, bad, r'. rewrite <- E'. repeat split; auto. intros ps P. rewrite E. apply parts_chars; auto.
Qed.

(** display *)
Lemma writes_app {S} (w : S -> list N -> option S) a b f : writes w (a ++ b) f = match writes w a f with Some f => writes w b f | None => None end.
Proof. revert f. induction a as [|p a IH]; intros f; [reflexivity|]. cbn. destruct (w f p); auto. Qed.
Lemma utf8_text_app a b : utf8_text (a ++ b) = utf8_text a ++ utf8_text b.
Proof. unfold utf8_text. now rewrite map_app, concat_app. Qed.
Lemma lossy_chars cs ps : lossy (map Char cs ++ ps) = cs ++ lossy ps.
Proof. unfold lossy. rewrite map_app, map_map, map_id. reflexivity. Qed.
Lemma parts_text cs : Forall scalar cs -> parts (utf8_text cs) (map Char cs).
Proof. intros F. rewrite <- (app_nil_r (utf8_text cs)), <- (app_nil_r (map Char cs)). apply parts_chars; auto. constructor. Qed.

Lemma display_spec fuel : forall l, (List.length l < fuel)%nat ->
  exists ps pieces, parts l ps /\ List.concat pieces = utf8_text (lossy ps) /\
    forall S (w : S -> list N -> option S) f, display w fuel l f = Some (writes w pieces f).
Proof.
  induction fuel as [|fuel IH]; intros l L; [lia|]. cbn [display].
  pose proof (from_utf8_spec l) as H. destruct (from_utf8 l) as [|[v e]].
  - destruct H as (cs & F & ->). exists (map Char cs), [utf8_text cs]. split; [now apply parts_text|].
    split; [rewrite <- (app_nil_r (map Char cs)), lossy_chars; cbn; now rewrite !app_nil_r|].
    intros. cbn. now destruct (w f (utf8_text cs)).
  - destruct H as (cs & bad & r & F & E & -> & NB & LE & PP). destruct e as [k|].
    + destruct (IH r) as (ps & pieces & P & C & D).
      { rewrite E, !app_length in L. destruct bad; [congruence|]. cbn in L. lia. }
      exists (map Char cs ++ Bad bad :: ps), ([utf8_text cs; utf8 65533] ++ pieces).
      split; [auto|]. split.
      * rewrite lossy_chars, utf8_text_app. cbn [List.concat app]. rewrite C. reflexivity.
      * intros. rewrite writes_app. cbn [writes]. subst k. rewrite E at 1. rewrite firstn_len_app.
        destruct (w f (utf8_text cs)); [|reflexivity]. unfold replacement. rewrite encode_utf8.
        destruct (w s (utf8 65533)); [|reflexivity]. rewrite E, app_assoc, <- app_length, skipn_len_app. apply D.
    + subst r. exists (map Char cs ++ [Bad bad]), [utf8_text cs; utf8 65533].
      split; [apply PP; constructor|]. split.
      * rewrite lossy_chars, utf8_text_app. reflexivity.
      * intros. cbn [writes]. rewrite E at 1. rewrite firstn_len_app.
        destruct (w f (utf8_text cs)); [|reflexivity]. unfold replacement. rewrite encode_utf8.
        now destruct (w s (utf8 65533)).
Qed.

(** debug *)
Lemma number_app a b : number (a ++ b) = fold_left (fun a d => match a, unhex d with Some a, Some v => Some (a * 16 + v) | _, _ => None end) b (number a).
Proof. unfold number. apply fold_left_app. Qed.
Lemma unhex_digit d : d < 16 -> unhex (hex_digit d) = Some d.
Proof. intros. unfold unhex, hex_digit. tests; f_equal; lia. Qed.
Lemma hex_from_spec fuel : forall n acc, n < 16 ^ N.of_nat fuel -> (0 < fuel)%nat ->
  exists ds, hex_from fuel n acc = ds ++ acc /\ number ds = Some n /\ ds <> [].
Proof.
  induction fuel as [|fuel IH]; intros n acc B F; [lia|]. cbn [hex_from].
  assert (M : n mod 16 < 16) by (apply N.mod_lt; discriminate).
  destruct (N.eqb_spec (n / 16) 0) as [Z|Z].
  - exists [hex_digit (n mod 16)]. split; [reflexivity|]. split; [|discriminate]. unfold number. cbn [fold_left]. rewrite unhex_digit by exact M. f_equal. lia.
  - assert (0 < fuel)%nat. { destruct fuel; [|lia]. change (16 ^ N.of_nat 1) with 16 in B. lia. }
    destruct (IH (n / 16) (hex_digit (n mod 16) :: acc)) as (ds & E & D & NE); auto.
    { apply N.div_lt_upper_bound; [discriminate|]. rewrite Nat2N.inj_succ, N.pow_succ_r' in B. exact B. }
    exists (ds ++ [hex_digit (n mod 16)]). split; [now rewrite E, <- app_assoc|]. split; [|now destruct ds].
    rewrite number_app, D. cbn [fold_left]. rewrite unhex_digit by exact M. f_equal. lia.
Qed.
Lemma hex_spec c : scalar c -> number (hex c) = Some c.
Proof.
  intros S. destruct (hex_from_spec 8 c []) as (ds & E & D & _); [|lia|].
  { change (16 ^ N.of_nat 8) with 4294967296. unfold scalar in S. lia. }
  unfold hex. rewrite E, app_nil_r. exact D.
Qed.
Lemma hex2_spec b : b < 256 -> List.length (hex2 b) = 2%nat /\ number (hex2 b) = Some b.
Proof.
  intros B. split; [reflexivity|]. unfold number, hex2. cbn [fold_left]. rewrite !unhex_digit; [|lia|lia]. f_equal. lia.
Qed.

(** the characters written for a character *)
Definition esc_out (plain : N -> bool) (c : N) : list N :=
  if negb (Nat.eqb (List.length (escape_debug plain c)) 1) && negb (N.eqb c 39) then escape_debug plain c else [c].
Lemma esc_out_shown plain c : scalar c -> shown plain (Char c) (esc_out plain c).
Proof.
  intros S. unfold shown, esc_out, short, escape_debug.
  destruct (N.eqb_spec c 0) as [->|]; [reflexivity|]. destruct (N.eqb_spec c 9) as [->|]; [reflexivity|].
  destruct (N.eqb_spec c 13) as [->|]; [reflexivity|]. destruct (N.eqb_spec c 10) as [->|]; [reflexivity|].
  destruct (N.eqb_spec c 92) as [->|]; [reflexivity|]. destruct (N.eqb_spec c 34) as [->|]; [reflexivity|].
  destruct (N.eqb_spec c 39) as [->|]; [reflexivity|]. destruct (plain c); [reflexivity|].
  cbn [orb negb]. rewrite app_length. cbn [List.length]. cbn. exists (hex c). split; [reflexivity|]. now apply hex_spec.
Qed.

Fixpoint offsets (i : nat) (cs : list N) : list (nat * N) :=
  match cs with [] => [] | c :: cs => (i, c) :: offsets (i + List.length (utf8 c)) cs end.
Lemma char_indices_spec cs : Forall scalar cs -> forall fuel i, (List.length (utf8_text cs) <= fuel)%nat ->
  char_indices fuel i (utf8_text cs) = offsets i cs.
Proof.
  induction 1 as [|c cs S F IH]; intros fuel i L; [now destruct fuel|].
  cbn [utf8_text map List.concat] in *. fold (utf8_text cs) in *. rewrite app_length in L. pose proof (utf8_len c) as U.
  destruct fuel as [|fuel]; [lia|]. cbn [char_indices offsets].
  destruct (utf8 c ++ utf8_text cs) as [|x t] eqn:E.
  { apply app_eq_nil in E as [E _]. now apply utf8_nonempty in E. }
  rewrite <- E, decode_utf8 by exact S. f_equal. rewrite IH by lia. f_equal. rewrite app_length. lia.
Qed.

Lemma write_chars_spec esc : forall S (w : S -> list N -> option S) f, write_chars w esc f = writes w (map utf8 esc) f.
Proof. induction esc as [|c esc IH]; intros; [reflexivity|]. cbn. rewrite encode_utf8. destruct (w f (utf8 c)); cbn; auto. Qed.

Lemma char_loop_spec plain cs : forall done pending, 
  exists pieces, List.concat pieces = pending ++ utf8_text (List.concat (map (esc_out plain) cs)) /\
    forall S (w : S -> list N -> option S) f,
      char_loop w plain (done ++ pending ++ utf8_text cs) (offsets (List.length done + List.length pending) cs) (List.length done) f
      = writes w pieces f.
Proof.
  induction cs as [|c cs IH]; intros done pending.
  - exists [pending]. split; [cbn; now rewrite !app_nil_r|]. intros. cbn [offsets char_loop].
    change (utf8_text []) with (@nil N). rewrite app_nil_r, skipn_len_app. cbn. now destruct (w f pending).
  - cbn [offsets map List.concat]. rewrite utf8_text_app. unfold esc_out at 1.
    change (utf8_text (c :: cs)) with (utf8 c ++ utf8_text cs).
    destruct (negb (Nat.eqb (List.length (escape_debug plain c)) 1) && negb (N.eqb c 39)) eqn:T.
    + destruct (IH (done ++ pending ++ utf8 c) []) as (pieces & C & D).
      exists (pending :: map utf8 (escape_debug plain c) ++ pieces). split.
      * cbn [List.concat]. rewrite concat_app, C. reflexivity.
      * intros. cbn [char_loop]. rewrite T, skipn_len_app.
        replace (List.length done + List.length pending - List.length done)%nat with (List.length pending) by lia.
        rewrite firstn_len_app. cbn [writes bind]. destruct (w f pending) as [f1|]; [|reflexivity]. cbn [bind].
        rewrite write_chars_spec, writes_app. destruct (writes w (map utf8 (escape_debug plain c)) f1) as [f2|]; [|reflexivity].
        cbn [bind]. specialize (D S w f2). rewrite !app_length in D. cbn [List.length app] in D.
        rewrite Nat.add_0_r, <- !app_assoc in D. rewrite encode_utf8, <- Nat.add_assoc. exact D.
    + destruct (IH done (pending ++ utf8 c)) as (pieces & C & D).
      exists pieces. split.
      * rewrite C, <- app_assoc. f_equal. f_equal. cbn. now rewrite app_nil_r.
      * intros. cbn [char_loop]. rewrite T. specialize (D S w f).
        rewrite app_length, <- app_assoc, Nat.add_assoc in D. exact D.
Qed.

Definition bad_out (l : list N) : list N := List.concat (map (fun b => [92; 120] ++ hex2 b) l).
Lemma hex_digit_ascii d : d < 16 -> hex_digit d < 128.
Proof. intros. unfold hex_digit. tests; lia. Qed.
Lemma utf8_ascii c : c < 128 -> utf8 c = [c].
Proof. intros. unfold utf8. now tests. Qed.
Lemma utf8_text_ascii cs : Forall (fun c => c < 128) cs -> utf8_text cs = cs.
Proof. induction 1 as [|c cs L F IH]; [reflexivity|]. cbn. fold (utf8_text cs). rewrite IH, utf8_ascii by exact L. reflexivity. Qed.
Lemma hex2_ascii b : b < 256 -> Forall (fun c => c < 128) ([92; 120] ++ hex2 b).
Proof.
  intros B. cbn. repeat constructor; try (apply hex_digit_ascii; lia); lia.
Qed.
Lemma broken_loop_spec l : Forall (fun b => b < 256) l ->
  exists pieces, List.concat pieces = utf8_text (bad_out l) /\
    forall S (w : S -> list N -> option S) f, broken_loop w l f = writes w pieces f.
Proof.
  induction 1 as [|b l B F IH]; [exists []; auto|]. destruct IH as (pieces & C & D).
  exists (([92; 120] ++ hex2 b) :: pieces). split.
  - unfold bad_out. cbn [map List.concat]. rewrite utf8_text_app. rewrite (utf8_text_ascii _ (hex2_ascii b B)).
    rewrite C. reflexivity.
  - intros. cbn [broken_loop writes]. destruct (w f ([92; 120] ++ hex2 b)); cbn [bind]; auto.
Qed.
Lemma bad_out_shown plain l : Forall (fun b => b < 256) l -> shown plain (Bad l) (bad_out l).
Proof.
  intros F. exists (map hex2 l). split.
  - induction F; cbn; constructor; auto. now apply hex2_spec.
  - unfold bad_out. now rewrite map_map.
Qed.

Lemma shown_chars plain cs : Forall scalar cs -> Forall2 (shown plain) (map Char cs) (map (esc_out plain) cs).
Proof. induction 1; cbn; constructor; auto. now apply esc_out_shown. Qed.
Lemma chars_loop_spec plain cs : Forall scalar cs ->
  exists pieces, List.concat pieces = utf8_text (List.concat (map (esc_out plain) cs)) /\
    forall S (w : S -> list N -> option S) f,
      char_loop w plain (utf8_text cs) (char_indices (List.length (utf8_text cs)) 0 (utf8_text cs)) 0 f = writes w pieces f.
Proof.
  intros F. destruct (char_loop_spec plain cs [] []) as (pieces & C & D). exists pieces. split; [exact C|].
  intros. rewrite char_indices_spec by auto. apply (D S w f).
Qed.

Lemma debug_loop_spec plain fuel : forall l, (List.length l <= fuel)%nat -> Forall (fun b => b < 256) l ->
  exists ps css pieces, parts l ps /\ Forall2 (shown plain) ps css /\ List.concat pieces = utf8_text (List.concat css) /\
    forall S (w : S -> list N -> option S) f, debug_loop w plain fuel l f = Some (writes w pieces f).
Proof.
  induction fuel as [|fuel IH]; intros l L BY.
  { destruct l; [|cbn in L; lia]. exists [], [], []. repeat split; constructor. }
  destruct l as [|x0 l0] eqn:EL. { exists [], [], []. repeat split; constructor. }
  rewrite <- EL in *.
  assert (U : forall S (w : S -> list N -> option S) f, debug_loop w plain (Datatypes.S fuel) l f =
      let valid := match from_utf8 l with inl _ => l | inr (valid_up_to, _) => firstn valid_up_to l end in
      match char_loop w plain valid (char_indices (List.length valid) 0 valid) 0 f with
      | None => Some None
      | Some f =>
          match from_utf8 l with
          | inl _ => Some (Some f)
          | inr (_, error_len) =>
              let end_of_broken := match error_len with Some error_len => (List.length valid + error_len)%nat | None => List.length l end in
              match broken_loop w (firstn (end_of_broken - List.length valid) (skipn (List.length valid) l)) f with
              | None => Some None
              | Some f => debug_loop w plain fuel (skipn end_of_broken l) f
              end
          end
      end) by (intros; rewrite EL; reflexivity).
  clear EL x0 l0. pose proof (from_utf8_spec l) as H. destruct (from_utf8 l) as [|[v e]].
  - destruct H as (cs & F & ->). destruct (chars_loop_spec plain cs F) as (pieces & C & D).
    exists (map Char cs), (map (esc_out plain) cs), pieces.
    split; [now apply parts_text|]. split; [now apply shown_chars|]. split; [exact C|].
    intros. rewrite U. cbv zeta. rewrite D. now destruct (writes w pieces f).
  - destruct H as (cs & bad & r & F & E & -> & NB & LE & PP). destruct (chars_loop_spec plain cs F) as (p1 & C1 & D1).
    assert (BB : Forall (fun b => b < 256) bad /\ Forall (fun b => b < 256) r).
    { rewrite E in BY. apply Forall_app in BY as [_ BY]. now apply Forall_app in BY. }
    destruct (broken_loop_spec bad (proj1 BB)) as (p2 & C2 & D2).
    destruct (IH r) as (ps & css & p3 & P & SH & C3 & D3); [|tauto|].
    { rewrite E, !app_length in L. destruct bad; [congruence|]. cbn in L. lia. }
    exists (map Char cs ++ Bad bad :: ps), (map (esc_out plain) cs ++ bad_out bad :: css), (p1 ++ p2 ++ p3).
    split; [auto|]. split; [|split].
    + apply Forall2_app; [now apply shown_chars|]. constructor; [apply bad_out_shown; tauto|exact SH].
    + rewrite !concat_app, C1, C2, C3. cbn [List.concat]. now rewrite !utf8_text_app.
    + intros. rewrite U. cbv zeta.
      assert (V : firstn (List.length (utf8_text cs)) l = utf8_text cs) by (rewrite E; apply firstn_len_app).
      rewrite V, D1, writes_app. destruct (writes w p1 f) as [f1|]; [|reflexivity].
      assert (EOB : match e with Some k => (List.length (utf8_text cs) + k)%nat | None => List.length l end
                    = List.length (utf8_text cs ++ bad)).
      { destruct e; [subst|subst r]; rewrite ?E, ?app_nil_r, !app_length; lia. }
      rewrite EOB.
      replace (skipn (List.length (utf8_text cs)) l) with (bad ++ r) by (rewrite E, skipn_len_app; reflexivity).
      replace (List.length (utf8_text cs ++ bad) - List.length (utf8_text cs))%nat with (List.length bad) by (rewrite app_length; lia).
      rewrite firstn_len_app, D2, writes_app. destruct (writes w p2 f1) as [f2|]; [|reflexivity].
      replace (skipn (List.length (utf8_text cs ++ bad)) l) with r by (rewrite E, app_assoc, skipn_len_app; reflexivity).
      apply D3.
Qed.

(** reading back *)
Definition part_bytes (p : part) : list N := match p with Char c => utf8 c | Bad l => l end.
Lemma parts_bytes l ps : parts l ps -> l = List.concat (map part_bytes ps).
Proof. induction 1; cbn; congruence. Qed.
Lemma parts_scalar l ps : parts l ps -> Forall (fun p => match p with Char c => scalar c | Bad _ => True end) ps.
Proof. induction 1; constructor; auto. Qed.

Lemma read_hex_number ds : forall acc v cs,
  fold_left (fun a d => match a, unhex d with Some a, Some v => Some (a * 16 + v) | _, _ => None end) ds (Some acc) = Some v ->
  read_hex acc (ds ++ 125 :: cs) = Some (v, cs).
Proof.
  induction ds as [|d ds IH]; intros acc v cs H; cbn in *.
  - congruence.
  - destruct (N.eqb_spec d 125) as [->|].
    + change (unhex 125) with (@None N) in H. exfalso. clear -H. induction ds; cbn in H; [discriminate|auto].
    + destruct (unhex d); [now apply IH|]. exfalso. clear -H. induction ds; cbn in H; [discriminate|auto].
Qed.
Lemma unescape_S n cs l : unescape n cs = Some l -> forall m, (n <= m)%nat -> unescape m cs = Some l.
Proof.
  revert cs l. induction n as [|n IH]; intros cs l H m L; [discriminate|]. destruct m as [|m]; [lia|].
  assert (IH' : forall cs l, unescape n cs = Some l -> unescape m cs = Some l) by (intros; eapply IH; eauto; lia).
  cbn [unescape] in *. destruct cs as [|c cs]; [discriminate|].
  destruct (c =? 34); [exact H|]. destruct (c =? 92).
  - destruct cs as [|e cs]; [discriminate|]. destruct (e =? 120).
    + destruct cs as [|a [|b cs]]; try discriminate. destruct (unhex a); [|discriminate]. destruct (unhex b); [|discriminate].
      destruct (unescape n cs) eqn:U; [|discriminate]. now rewrite (IH' _ _ U).
    + destruct (e =? 117).
      * destruct cs as [|o cs]; [discriminate|]. destruct (o =? 123); [|discriminate]. destruct (read_hex 0 cs) as [[v cs']|]; [|discriminate].
        destruct (unescape n cs') eqn:U; [|discriminate]. now rewrite (IH' _ _ U).
      * destruct (if e =? 48 then _ else _); [|discriminate]. destruct (unescape n cs) eqn:U; [|discriminate]. now rewrite (IH' _ _ U).
  - destruct (unescape n cs) eqn:U; [|discriminate]. now rewrite (IH' _ _ U).
Qed.
Lemma number_2 ds b : List.length ds = 2%nat -> number ds = Some b -> exists x y u v, ds = [x; y] /\ unhex x = Some u /\ unhex y = Some v /\ b = u * 16 + v.
Proof.
  destruct ds as [|x [|y [|]]]; try discriminate. intros _. unfold number. cbn [fold_left].
  destruct (unhex x) as [u|] eqn:U; [|discriminate]. destruct (unhex y) as [v|] eqn:V; [|discriminate].
  intros E. exists x, y, u, v. repeat split; auto. inversion E. lia.
Qed.
Lemma unescape_part plain p cs : shown plain p cs -> match p with Char c => scalar c | Bad _ => True end ->
  exists k, (k <= List.length cs)%nat /\ forall n rest l, unescape n rest = Some l -> unescape (k + n) (cs ++ rest) = Some (part_bytes p ++ l).
Proof.
  intros SH SC. destruct p as [c|bad]; cbn [shown part_bytes] in *.
  - unfold short in SH.
    assert (SP : forall e, cs = [92; e] ->
      (if e =? 48 then Some 0 else if e =? 116 then Some 9 else if e =? 114 then Some 13
         else if e =? 110 then Some 10 else if (e =? 92) || (e =? 34) then Some e else None) = Some c ->
      e =? 120 = false -> e =? 117 = false -> utf8 c = [c] ->
      exists k, (k <= List.length cs)%nat /\ forall n rest l, unescape n rest = Some l -> unescape (k + n) (cs ++ rest) = Some (utf8 c ++ l)).
    { intros e -> T E1 E2 UC. exists 1%nat. split; [cbn; lia|]. intros n rest l U. cbn [app Nat.add unescape].
      change (92 =? 34) with false. change (92 =? 92) with true. cbv iota. rewrite E1, E2, T, U, UC. reflexivity. }
    destruct (N.eqb_spec c 0) as [->|N0]; [eapply SP; eauto|]. destruct (N.eqb_spec c 9) as [->|]; [eapply SP; eauto|].
    destruct (N.eqb_spec c 13) as [->|]; [eapply SP; eauto|]. destruct (N.eqb_spec c 10) as [->|]; [eapply SP; eauto|].
    destruct (N.eqb_spec c 92) as [->|N92]; [eapply SP; eauto|]. destruct (N.eqb_spec c 34) as [->|N34]; [eapply SP; eauto|].
    clear SP. exists 1%nat.
    destruct ((c =? 39) || plain c).
    + subst cs. split; [cbn; lia|]. intros k rest l U. cbn [app Nat.add unescape].
      apply N.eqb_neq in N34, N92. rewrite N34, N92, U. reflexivity.
    + destruct SH as (ds & -> & NU). split; [cbn; lia|]. intros k rest l U. rewrite <- !app_assoc. cbn [app Nat.add unescape].
      change (92 =? 34) with false. change (92 =? 92) with true. change (117 =? 120) with false. change (117 =? 117) with true.
      change (123 =? 123) with true. cbv iota. rewrite (read_hex_number ds 0 c rest NU), U. reflexivity.
  - destruct SH as (dss & F & ->). clear SC. induction F as [|b ds bad dss [L NU] F IH].
    + exists 0%nat. split; [cbn; lia|]. intros n rest l U. exact U.
    + destruct IH as (k & LK & IH). exists (Datatypes.S k). split; [cbn [map List.concat]; rewrite !app_length; cbn [List.length]; lia|].
      intros n rest l U. destruct (number_2 ds b L NU) as (x & y & u & v & -> & UX & UY & ->).
      change (List.concat (map (app [92; 120]) ([x; y] :: dss))) with ([92; 120; x; y] ++ List.concat (map (app [92; 120]) dss)).
      set (T := List.concat (map (app [92; 120]) dss)) in *. cbn [app Nat.add unescape].
      change (92 =? 34) with false. change (92 =? 92) with true. change (120 =? 120) with true. cbv iota.
      rewrite UX, UY, (IH n rest l U). reflexivity.
Qed.
Lemma unquote_shown plain l ps css : parts l ps -> Forall2 (shown plain) ps css ->
  unquote (34 :: List.concat css ++ [34]) = Some l.
Proof.
  intros P F. rewrite (parts_bytes l ps P). pose proof (parts_scalar l ps P) as SC. clear P. cbn [unquote]. change (34 =? 34) with true. cbv iota.
  assert (H : exists k, (k <= List.length (List.concat css))%nat /\ unescape (k + 1) (List.concat css ++ [34]) = Some (List.concat (map part_bytes ps))).
  { induction F as [|p cs ps css SH F IH]; [exists 0%nat; split; [cbn; lia|reflexivity]|].
    inversion SC; subst. destruct IH as (k & LK & IH); auto.
    destruct (unescape_part plain p cs SH) as (k' & LK' & IH'); auto.
    exists (k' + k)%nat. cbn [map List.concat]. split; [rewrite app_length; lia|]. rewrite <- app_assoc, <- Nat.add_assoc. apply IH'. exact IH. }
  destruct H as (k & LK & H). eapply unescape_S; [exact H|]. rewrite app_length. cbn. lia.
Qed.
Lemma shown_scalar plain p cs : shown plain p cs -> match p with Char c => scalar c | Bad _ => True end -> Forall scalar cs.
Proof.
  assert (A : forall c, c < 128 -> scalar c) by (intros; left; lia).
  assert (UH : forall d v, unhex d = Some v -> scalar d).
  { intros d v. unfold unhex. tests; intros; try discriminate; apply A; lia. }
  assert (NU : forall ds a v, fold_left (fun a d => match a, unhex d with Some a, Some v => Some (a * 16 + v) | _, _ => None end) ds a = Some v -> Forall scalar ds).
  { induction ds as [|d ds IH]; intros a v H; constructor; cbn in H.
    - destruct (unhex d) eqn:U; [eauto|]. exfalso. assert (N : forall ds, fold_left (fun (a : option N) d => match a, unhex d with Some a, Some v => Some (a * 16 + v) | _, _ => None end) ds None = None) by (clear; induction ds; cbn; auto).
      destruct a; rewrite N in H; discriminate.
    - eauto. }
  intros SH SC. destruct p as [c|bad]; cbn [shown] in SH.
  - unfold short in SH. revert SH. 
    repeat match goal with |- context[if c =? ?k then _ else _] => destruct (c =? k); [intros ->; repeat constructor; apply A; reflexivity|] end.
    destruct ((c =? 39) || plain c); [intros ->; auto|]. intros (ds & -> & H).
    apply Forall_app; split; [repeat constructor; apply A; reflexivity|]. apply Forall_app; split; [eapply NU; eauto|]. repeat constructor.
  - destruct SH as (dss & F & ->). induction F as [|b ds bad dss [L H] F IH]; [constructor|]. cbn [map List.concat].
    apply Forall_app; split; [|exact IH]. apply Forall_app; split; [repeat constructor; apply A; reflexivity|]. eapply NU; eauto.
Qed.
