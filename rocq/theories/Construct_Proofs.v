From Verif Require Import Base Lossy_Spec Lossy_Proofs Construct_Model Construct_Spec.
From Verif Require Lossy_Model.
Require Import NArith ZArith Lia.

(** * Memory *)
Lemma byte_at_app b (x : N) a : byte_at (b ++ Some x :: a) (List.length b) = Some x.
Proof. unfold byte_at. now rewrite nth_error_app2, Nat.sub_diag by lia. Qed.
Lemma snoc_cons {A} (b : list A) x a : b ++ x :: a = (b ++ [x]) ++ a.
Proof. now rewrite <- app_assoc. Qed.
Lemma bytes_from_app l : forall b a, bytes_from (b ++ map Some l ++ a) (List.length b) (List.length l) = Some l.
Proof.
  induction l as [|x l IH]; intros b a; cbn [List.length bytes_from map app]; auto.
  rewrite byte_at_app, snoc_cons.
  replace (S (List.length b)) with (List.length (b ++ [Some x])) by (rewrite app_length; cbn; lia). now rewrite IH.
Qed.
Lemma holds_slice m p l : holds m p l -> slice_u8 m p (List.length l) = Made l.
Proof.
  intros (Z & b & a & -> & <-). unfold slice_u8. destruct (Nat.eqb_spec (List.length b) 0); [contradiction|]. now rewrite bytes_from_app.
Qed.
Lemma skipn_app_len {A} (a b : list A) : skipn (List.length a) (a ++ b) = b.
Proof. induction a; auto. Qed.
Lemma strlen_in_app l a : ~ In 0%N l -> strlen_in (map Some (l ++ [0%N]) ++ a) = Some (List.length l).
Proof.
  induction l as [|x l IH]; intros N; [reflexivity|]. cbn [app map strlen_in List.length].
  destruct (N.eqb_spec x 0) as [->|]; [exfalso; apply N; now left|]. rewrite IH; auto. intro; apply N; now right.
Qed.
Lemma holds_strlen m p l : holds m p (l ++ [0%N]) -> ~ In 0%N l -> strlen m p = Made (List.length l).
Proof.
  intros (Z & b & a & -> & <-) N. unfold strlen. destruct (Nat.eqb_spec (List.length b) 0); [contradiction|].
  now rewrite skipn_app_len, strlen_in_app.
Qed.
Lemma holds_prefix m p l k : holds m p (l ++ k) -> holds m p l.
Proof.
  intros (Z & b & a & -> & L). split; auto. exists b, (map Some k ++ a). split; auto. now rewrite map_app, <- app_assoc.
Qed.

(** UTF-16 units *)
Lemma unit_value little u : (u < 65536)%N ->
  match unit_bytes little u with [x; y] => (if little then x + 256 * y else y + 256 * x)%N = u | _ => False end.
Proof.
  intros L. unfold unit_bytes. pose proof (N.div_mod' u 256). destruct little; lia.
Qed.
Lemma unit_two little u : exists x y, unit_bytes little u = [x; y] /\ (u = 0%N <-> (x = 0 /\ y = 0)%N).
Proof.
  assert (u = 0%N <-> (u mod 256 = 0 /\ u / 256 = 0)%N) as E.
  { split; [intros ->; split; reflexivity|]. intros [A B]. pose proof (N.div_mod' u 256). lia. }
  unfold unit_bytes. destruct little; eexists; eexists; (split; [reflexivity|]); tauto.
Qed.
Lemma units_from_app little us : Forall (fun u => (u < 65536)%N) us -> forall b a,
  units_from (b ++ map Some (List.concat (map (unit_bytes little) us)) ++ a) little (List.length b) (List.length us) = Some us.
Proof.
  induction 1 as [|u us L F IH]; intros b a; cbn [List.length units_from map List.concat]; auto.
  pose proof (unit_value little u L) as V. destruct (unit_two little u) as (x & y & E & _). rewrite E in V |- *.
  cbn [app map]. unfold unit_at. rewrite byte_at_app.
  replace (S (List.length b)) with (List.length (b ++ [Some x])) by (rewrite app_length; cbn; lia).
  rewrite (snoc_cons b (Some x)) at 1. rewrite byte_at_app.
  rewrite (snoc_cons b (Some x)), (snoc_cons (b ++ [Some x]) (Some y)).
  replace (S (List.length (b ++ [Some x]))) with (List.length ((b ++ [Some x]) ++ [Some y])) by (rewrite !app_length; cbn; lia).
  rewrite IH. now rewrite V.
Qed.
Lemma aligned_odd p : aligned p -> Nat.odd p = false.
Proof. intros [k ->]. rewrite Nat.odd_mul. reflexivity. Qed.
Lemma holds_slice16 little m p us : Forall (fun u => (u < 65536)%N) us -> aligned p -> holds16 little m p us ->
  slice_u16 m little p (List.length us) = Made us.
Proof.
  intros F A (Z & b & a & -> & <-). unfold slice_u16. rewrite (aligned_odd _ A).
  destruct (Nat.eqb_spec (List.length b) 0); [contradiction|]. cbn [orb]. now rewrite units_from_app.
Qed.
Lemma length16_in_app little us a : ~ In 0%N us ->
  length16_in (map Some (List.concat (map (unit_bytes little) (us ++ [0%N]))) ++ a) = Some (List.length us).
Proof.
  induction us as [|u us IH]; intros N.
  - destruct little; reflexivity.
  - cbn [app map List.concat List.length]. destruct (unit_two little u) as (x & y & E & Z). rewrite E. cbn [app map length16_in].
    rewrite IH by (intro; apply N; now right).
    destruct (N.eqb_spec x 0); cbn [andb]; [|reflexivity]. destruct (N.eqb_spec y 0); [|reflexivity].
    exfalso. apply N. left. tauto.
Qed.
Lemma holds_length16 little m p us : aligned p -> holds16 little m p (us ++ [0%N]) -> ~ In 0%N us -> length16 m p = Made (List.length us).
Proof.
  intros A (Z & b & a & -> & <-) N. unfold length16. rewrite (aligned_odd _ A).
  destruct (Nat.eqb_spec (List.length b) 0); [contradiction|]. cbn [orb]. now rewrite skipn_app_len, length16_in_app.
Qed.

(** * UTF-8 *)
Lemma parts_total l : exists ps, parts l ps.
Proof. destruct (display_spec (S (List.length l)) l) as (ps & _ & P & _); eauto; lia. Qed.
Lemma is_utf8_spec l : is_utf8 l = true <-> valid_utf8 l.
Proof.
  unfold is_utf8. pose proof (from_utf8_spec l) as S. destruct (Lossy_Model.from_utf8 l) as [|[v e]].
  - split; auto.
  - split; [discriminate|]. intros (cs & F & E). destruct S as (cs' & bad & r & F' & E' & _ & NB & _ & PP).
    exfalso. destruct (parts_total r) as [ps P]. specialize (PP ps P). rewrite E in PP.
    pose proof (parts_unique _ _ PP (map Char cs) (parts_text cs F)) as U.
    assert (In (Bad bad) (map Char cs)) as J by (rewrite <- U; apply in_or_app; right; now left).
    apply in_map_iff in J as (c & D & _). discriminate.
Qed.
Lemma from_utf8_lossy_spec fuel : forall l, List.length l <= fuel -> forall ps, parts l ps -> from_utf8_lossy fuel l = utf8_text (lossy ps).
Proof.
  induction fuel as [|fuel IH]; intros l L ps P; cbn [from_utf8_lossy].
  - destruct l; [|cbn in L; lia]. assert (ps = []) as -> by (apply (parts_unique [] ps P); constructor). reflexivity.
  - pose proof (from_utf8_spec l) as H. destruct (Lossy_Model.from_utf8 l) as [|[v e]].
    + destruct H as (cs & F & ->). rewrite (parts_unique _ _ P _ (parts_text cs F)).
      rewrite <- (app_nil_r (map Char cs)), lossy_chars. cbn. now rewrite app_nil_r.
    + destruct H as (cs & bad & r & F & E & -> & NB & LE & PP). destruct (parts_total r) as [qs Q].
      rewrite (parts_unique _ _ P _ (PP qs Q)), lossy_chars, utf8_text_app. rewrite E at 1. rewrite firstn_len_app, encode_utf8.
      f_equal. change (utf8_text (lossy (Bad bad :: qs))) with (utf8 65533 ++ utf8_text (lossy qs)). f_equal.
      destruct e as [k|].
      * subst k. rewrite E, skipn_len_app, skipn_len_app. apply IH; auto.
        rewrite E, !app_length in L. destruct bad; [congruence|]. cbn in L. lia.
      * subst r. assert (qs = []) as -> by (apply (parts_unique [] qs Q); constructor). reflexivity.
Qed.

(** * UTF-16 *)
Local Open Scope N_scope.
Lemma utf16_cases c : scalar c ->
  (utf16 c = [c] /\ c < 65536 /\ (c < 55296 \/ 57343 < c)) \/
  (exists u v, utf16 c = [u; v] /\ high u /\ low v /\ u mod 1024 * 1024 + v mod 1024 + 65536 = c).
Proof.
  intros S. unfold utf16. destruct (N.ltb_spec c 65536).
  - left. repeat split; auto. destruct S; lia.
  - right. eexists. eexists. split; [reflexivity|]. unfold high, low.
    assert (c - 65536 < 1048576) by (destruct S; lia).
    pose proof (N.div_mod' (c - 65536) 1024). pose proof (N.mod_lt (c - 65536) 1024).
    assert ((c - 65536) / 1024 < 1024) by (apply N.div_lt_upper_bound; lia).
    repeat split; try lia.
Qed.
Definition decoded (p : part) : option N := match p with Char c => Some c | Bad _ => None end.
Lemma decode_utf16_spec us ps : parts16 us ps -> decode_utf16 us = map decoded ps.
Proof.
  induction 1 as [|c rest ps S P IH|u rest ps L P IH|u rest ps H NL P IH]; auto.
  - destruct (utf16_cases c S) as [(E & L & D)|(u & v & E & HU & LV & C)]; rewrite E; cbn [app decode_utf16 map decoded].
    + replace (_ || _) with true by (symmetry; apply Bool.orb_true_iff; rewrite !N.ltb_lt; lia). now rewrite IH.
    + unfold high, low in *.
      destruct (N.ltb_spec u 55296); [lia|]. destruct (N.ltb_spec 57343 u); [lia|]. cbn [orb].
      destruct (N.leb_spec 56320 u); [lia|].
      destruct (N.ltb_spec v 56320); [lia|]. destruct (N.ltb_spec 57343 v); [lia|]. cbn [orb]. now rewrite C, IH.
  - unfold low in L. cbn [decode_utf16 map decoded].
    destruct (N.ltb_spec u 55296); [lia|]. destruct (N.ltb_spec 57343 u); [lia|]. cbn [orb].
    destruct (N.leb_spec 56320 u); [|lia]. now rewrite IH.
  - unfold high in H. cbn [decode_utf16 map decoded].
    destruct (N.ltb_spec u 55296); [lia|]. destruct (N.ltb_spec 57343 u); [lia|]. cbn [orb].
    destruct (N.leb_spec 56320 u); [lia|].
    destruct rest as [|v r].
    + inversion P as [|c r q S P' E| |]; subst; auto.
      exfalso. destruct (utf16_cases c S) as [(E' & _)|(a & b & E' & _)]; rewrite E' in E; discriminate.
    + specialize (NL v r eq_refl). unfold low in NL.
      replace (_ || _) with true by (symmetry; apply Bool.orb_true_iff; rewrite !N.ltb_lt; lia). now rewrite IH.
Qed.
Lemma parts16_total n : forall us, (List.length us <= n)%nat -> Forall (fun u => u < 65536) us -> exists ps, parts16 us ps.
Proof.
  induction n as [|n IH]; intros [|u us] L F; cbn in L; try lia; try (exists []; constructor).
  inversion F as [|? ? U F']; subst.
  destruct (N.ltb_spec u 55296); [|destruct (N.ltb_spec 57343 u)].
  - destruct (IH us) as [ps P]; auto; [lia|]. exists (Char u :: ps).
    assert (E : utf16 u = [u]) by (unfold utf16; destruct (N.ltb_spec u 65536); [auto|lia]).
    change (u :: us) with ([u] ++ us). rewrite <- E. constructor; auto. left; lia.
  - destruct (IH us) as [ps P]; auto; [lia|]. exists (Char u :: ps).
    assert (E : utf16 u = [u]) by (unfold utf16; destruct (N.ltb_spec u 65536); [auto|lia]).
    change (u :: us) with ([u] ++ us). rewrite <- E. constructor; auto. right; lia.
  - destruct (N.leb_spec 56320 u).
    + destruct (IH us) as [ps P]; auto; [lia|]. exists (Bad [u] :: ps). apply parts16_low; auto. unfold low; lia.
    + destruct us as [|v r].
      * exists [Bad [u]]. apply parts16_high; [unfold high; lia|discriminate|constructor].
      * destruct (N.ltb_spec v 56320); [|destruct (N.ltb_spec 57343 v)].
        -- destruct (IH (v :: r)) as [ps P]; auto; [cbn in *; lia|]. exists (Bad [u] :: ps). apply parts16_high; auto; [unfold high; lia|].
           intros ? ? [= -> ->]. unfold low. lia.
        -- destruct (IH (v :: r)) as [ps P]; auto; [cbn in *; lia|]. exists (Bad [u] :: ps). apply parts16_high; auto; [unfold high; lia|].
           intros ? ? [= -> ->]. unfold low. lia.
        -- inversion F'; subst. destruct (IH r) as [ps P]; auto; [cbn in *; lia|].
           set (c := 65536 + ((u - 55296) * 1024 + (v - 56320))). exists (Char c :: ps).
           assert (D : (u - 55296) = (c - 65536) / 1024) by (unfold c; apply (N.div_unique _ _ _ (v - 56320)); lia).
           assert (M : (v - 56320) = (c - 65536) mod 1024) by (unfold c; apply (N.mod_unique _ _ (u - 55296)); lia).
           assert (E : utf16 c = [u; v]).
           { unfold utf16. destruct (N.ltb_spec c 65536); [unfold c in *; lia|]. rewrite <- D, <- M. repeat f_equal; lia. }
           change (u :: v :: r) with ([u; v] ++ r). rewrite <- E. constructor; auto. right. unfold c. lia.
Qed.
Lemma parts16_unique us ps qs : parts16 us ps -> parts16 us qs -> map decoded ps = map decoded qs.
Proof. intros P Q. now rewrite <- (decode_utf16_spec us ps P), <- (decode_utf16_spec us qs Q). Qed.
Lemma parts16_text cs : Forall scalar cs -> parts16 (utf16_text cs) (map Char cs).
Proof. induction 1; cbn; [constructor|]. now constructor. Qed.
Lemma push_chars_all cs : forall ret, push_chars (map Some cs) ret = Some (ret ++ utf8_text cs).
Proof.
  induction cs as [|c cs IH]; intros ret; cbn [map push_chars]; [now rewrite app_nil_r|].
  rewrite IH, encode_utf8, <- app_assoc. reflexivity.
Qed.
Lemma push_chars_none l : In None l -> forall ret, push_chars l ret = None.
Proof. induction l as [|[c|] l IH]; intros J ret; [destruct J| |reflexivity]. destruct J as [J|J]; [discriminate|]. cbn. now apply IH. Qed.
Lemma parts16_all_chars us ps : parts16 us ps -> (exists cs, Forall scalar cs /\ ps = map Char cs /\ us = utf16_text cs) \/ In None (map decoded ps).
Proof.
  induction 1 as [|c rest ps S P IH|u rest ps L P IH|u rest ps H NL P IH]; try (right; now left).
  - left. exists []. auto.
  - destruct IH as [(cs & F & -> & ->)|I]; [left|right; now right]. exists (c :: cs). auto.
Qed.
Lemma from_utf16_good cs : Forall scalar cs -> from_utf16 (utf16_text cs) = Some (utf8_text cs).
Proof.
  intros F. unfold from_utf16. rewrite (decode_utf16_spec _ _ (parts16_text cs F)), map_map.
  change (map _ cs) with (map (fun c : N => Some c) cs). now rewrite push_chars_all.
Qed.
Lemma from_utf16_bad us : Forall (fun u => u < 65536) us -> ~ (exists cs, Forall scalar cs /\ us = utf16_text cs) -> from_utf16 us = None.
Proof.
  intros F N. destruct (parts16_total _ us (le_n _) F) as [ps P]. unfold from_utf16. rewrite (decode_utf16_spec _ _ P).
  apply push_chars_none. destruct (parts16_all_chars us ps P) as [(cs & S & _ & E)|I]; auto. exfalso. eauto.
Qed.
Lemma from_utf16_lossy_spec us ps : parts16 us ps -> from_utf16_lossy us = utf8_text (lossy ps).
Proof.
  intros P. unfold from_utf16_lossy. rewrite (decode_utf16_spec _ _ P). clear P.
  induction ps as [|[c|l] ps IH]; auto; cbn [map flat_map decoded]; rewrite IH, encode_utf8; reflexivity.
Qed.
