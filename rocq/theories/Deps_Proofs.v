From Verif Require Import Base Paths_Model Paths_Proofs Deps_Model Deps_Spec.
Require Import NArith Lia Permutation Sorted.

(** * Keys *)
Lemma key_eqb_eq a b : key_eqb a b = true <-> a = b.
Proof.
  revert b. induction a as [|x a IH]; intros [|y b]; cbn; try (split; [discriminate|intros E; discriminate]); [tauto|].
  rewrite andb_true_iff, IH, Ascii.eqb_eq. split; [now intros [-> ->]|]. intros E. now inversion E.
Qed.
Lemma key_eqb_refl a : key_eqb a a = true.
Proof. now apply key_eqb_eq. Qed.
Lemma key_eqb_neq a b : key_eqb a b = false <-> a <> b.
Proof. rewrite <- key_eqb_eq. destruct (key_eqb a b); split; congruence. Qed.

Lemma N_of_ascii_inj x y : N_of_ascii x = N_of_ascii y -> x = y.
Proof. intros E. rewrite <- (ascii_N_embedding x), <- (ascii_N_embedding y). now rewrite E. Qed.

Lemma key_compare_eq a b : key_compare a b = Eq <-> a = b.
Proof.
  revert b. induction a as [|x a IH]; intros [|y b]; cbn; try (split; [discriminate|intros E; discriminate]); [tauto|].
  destruct (N.compare_spec (N_of_ascii x) (N_of_ascii y)) as [E|E|E].
  - apply N_of_ascii_inj in E. subst. rewrite IH. split; [now intros ->|]. intros E. now inversion E.
  - split; [discriminate|]. intros Q. inversion Q; subst. lia.
  - split; [discriminate|]. intros Q. inversion Q; subst. lia.
Qed.
Lemma key_compare_opp a b : key_compare b a = CompOpp (key_compare a b).
Proof.
  revert b. induction a as [|x a IH]; intros [|y b]; cbn; auto.
  rewrite (N.compare_antisym (N_of_ascii x)). destruct (N.compare (N_of_ascii x) (N_of_ascii y)); cbn; auto.
Qed.
Definition key_lt (a b : key) : Prop := key_compare a b = Lt.
Lemma key_lt_trans a b c : key_lt a b -> key_lt b c -> key_lt a c.
Proof.
  unfold key_lt. revert b c. induction a as [|x a IH]; intros [|y b] [|z c]; cbn; try congruence.
  destruct (N.compare_spec (N_of_ascii x) (N_of_ascii y)) as [E|E|E];
    destruct (N.compare_spec (N_of_ascii y) (N_of_ascii z)) as [F|F|F];
    destruct (N.compare_spec (N_of_ascii x) (N_of_ascii z)) as [G|G|G]; try congruence; try lia.
  intros; eapply IH; eauto.
Qed.
Lemma key_lt_irrefl a : ~ key_lt a a.
Proof. unfold key_lt. rewrite (proj2 (key_compare_eq a a) eq_refl). discriminate. Qed.
Lemma key_compare_app p a b : key_compare (p ++ a) (p ++ b) = key_compare a b.
Proof. induction p as [|x p IH]; cbn; [reflexivity|]. now rewrite N.compare_refl. Qed.

(** * Sorted maps *)
Section Map.
  Context {V : Type} (d : V).
  Definition get (k : key) (m : list (key * V)) : option V :=
    option_map snd (find (fun e => key_eqb (fst e) k) m).
  Definition sorted (m : list (key * V)) : Prop := StronglySorted key_lt (map fst m).

  Lemma get_cons k k' v m : get k ((k', v) :: m) = if key_eqb k' k then Some v else get k m.
  Proof. unfold get. cbn. now destruct (key_eqb k' k). Qed.
  Lemma get_lt k m : Forall (key_lt k) (map fst m) -> get k m = None.
  Proof.
    induction m as [|[k' v] m IH]; intros F; [reflexivity|]. inversion F as [|? ? H1 H2]; subst. rewrite get_cons.
    destruct (key_eqb k' k) eqn:E; [|auto]. apply key_eqb_eq in E. subst. cbn in H1. now apply key_lt_irrefl in H1.
  Qed.
  Lemma update_keys k f m : forall k', In k' (map fst (update d k f m)) <-> k' = k \/ In k' (map fst m).
  Proof.
    induction m as [|[a v] m IH]; intros k'; cbn; [intuition|].
    destruct (key_compare k a) eqn:C; cbn.
    - apply key_compare_eq in C. subst. intuition.
    - intuition.
    - rewrite IH. intuition.
  Qed.
  Lemma update_sorted k f m : sorted m -> sorted (update d k f m).
  Proof.
    unfold sorted. induction m as [|[a v] m IH]; intros S; cbn; [repeat constructor|].
    cbn in S. inversion S as [|? ? S' F]; subst.
    destruct (key_compare k a) eqn:C; cbn.
    - exact S.
    - constructor; [exact S|]. constructor; [exact C|].
      revert F. apply Forall_impl. intros b. now apply key_lt_trans.
    - constructor; [now apply IH|]. apply Forall_forall. intros b I. apply update_keys in I.
      destruct I as [->|I]; [|rewrite Forall_forall in F; now apply F].
      unfold key_lt. rewrite key_compare_opp, C. reflexivity.
  Qed.
  Lemma get_update k f m k' : sorted m ->
    get k' (update d k f m) = if key_eqb k k' then Some (f (match get k m with Some v => v | None => d end)) else get k' m.
  Proof.
    unfold sorted. induction m as [|[a v] m IH]; intros S; cbn [update].
    - rewrite get_cons. reflexivity.
    - cbn in S. inversion S as [|? ? S' F]; subst. rewrite !get_cons.
      destruct (key_compare k a) eqn:C.
      + apply key_compare_eq in C. subst a. rewrite get_cons, key_eqb_refl. now destruct (key_eqb k k').
      + rewrite !get_cons.
        assert (N : get k ((a, v) :: m) = None).
        { apply get_lt. constructor; [exact C|]. revert F. apply Forall_impl. intros b. now apply key_lt_trans. }
        rewrite get_cons in N. rewrite N. reflexivity.
      + rewrite get_cons, IH by assumption.
        assert (X : key_eqb a k = false).
        { apply key_eqb_neq. intros ->. unfold key_lt in *. rewrite (proj2 (key_compare_eq k k) eq_refl) in C. discriminate. }
        rewrite X. destruct (key_eqb a k') eqn:Y; [|reflexivity].
        apply key_eqb_eq in Y. subst k'. destruct (key_eqb k a) eqn:Z; [|reflexivity].
        apply key_eqb_eq in Z. subst. rewrite key_eqb_refl in X. discriminate.
  Qed.
  Lemma sorted_ext m : forall m', sorted m -> sorted m' -> (forall k, get k m = get k m') -> m = m'.
  Proof.
    unfold sorted. induction m as [|[a v] m IH]; intros [|[b w] m'] S S' G.
    - reflexivity.
    - specialize (G b). rewrite get_cons, key_eqb_refl in G. discriminate.
    - specialize (G a). rewrite get_cons, key_eqb_refl in G. discriminate.
    - cbn in S, S'. inversion S as [|? ? S1 F1]; inversion S' as [|? ? S1' F1']; subst.
      assert (E : a = b).
      { destruct (key_compare a b) eqn:C.
        - now apply key_compare_eq.
        - exfalso. pose proof (G a) as Ga. rewrite get_cons, key_eqb_refl in Ga.
          rewrite get_lt in Ga; [discriminate|]. constructor; [exact C|].
          revert F1'. apply Forall_impl. intros c. now apply key_lt_trans.
        - exfalso. pose proof (G b) as Gb. rewrite (get_cons b b), key_eqb_refl in Gb.
          assert (L : key_lt b a) by (unfold key_lt; rewrite key_compare_opp, C; reflexivity).
          rewrite get_lt in Gb; [discriminate|]. constructor; [exact L|].
          revert F1. apply Forall_impl. intros c. now apply key_lt_trans. }
      subst b. pose proof (G a) as Ga. rewrite !get_cons, key_eqb_refl in Ga. inversion Ga; subst w.
      f_equal. apply IH; auto. intros k. destruct (key_eqb a k) eqn:E.
      + apply key_eqb_eq in E. subst k. rewrite !get_lt; auto.
      + specialize (G k). now rewrite !get_cons, E in G.
  Qed.
End Map.

(** * Suffixes *)
Lemma cut_prefix_app p k : cut_prefix p (p ++ k) = Some k.
Proof. induction p as [|a p IH]; cbn; [destruct k; reflexivity|]. now rewrite Ascii.eqb_refl. Qed.
Lemma cut_prefix_inv p : forall k r, cut_prefix p k = Some r -> k = p ++ r.
Proof.
  induction p as [|a p IH]; intros k r; cbn; [destruct k; congruence|].
  destruct k as [|b k]; [discriminate|]. destruct (Ascii.eqb_spec a b); [|discriminate]. subst.
  intros E. apply IH in E. now subst.
Qed.
Lemma cut_suffix_app s k : cut_suffix s (k ++ s) = Some k.
Proof. unfold cut_suffix. rewrite rev_app_distr, cut_prefix_app. cbn. now rewrite rev_involutive. Qed.
Lemma cut_suffix_inv s k r : cut_suffix s k = Some r -> k = r ++ s.
Proof.
  unfold cut_suffix. destruct (cut_prefix (rev s) (rev k)) as [x|] eqn:E; [|discriminate].
  intros Q. inversion Q; subst. apply cut_prefix_inv in E.
  rewrite <- (rev_involutive k), E, rev_app_distr, rev_involutive. reflexivity.
Qed.
Lemma cut_suffix_last s c k d : c <> d -> cut_suffix (s ++ [c]) (k ++ [d]) = None.
Proof.
  intros N. unfold cut_suffix. rewrite !rev_app_distr. cbn.
  destruct (Ascii.eqb_spec c d); [congruence|reflexivity].
Qed.

Lemma span_digits_app l r : Forall (fun c => is_digit c = true) l ->
  match r with [] => True | c :: _ => is_digit c = false end -> span_digits (l ++ r) = (l, r).
Proof.
  induction 1 as [|c l D _ IH]; intros R; cbn.
  - destruct r as [|c r]; [reflexivity|]. cbn. now rewrite R.
  - rewrite D, (IH R). reflexivity.
Qed.
Lemma trim_digits_app k d : Forall (fun c => is_digit c = true) d ->
  match rev k with [] => True | c :: _ => is_digit c = false end -> trim_digits (k ++ d) = (k, d).
Proof.
  intros D K. unfold trim_digits. rewrite rev_app_distr, span_digits_app; auto.
  - now rewrite !rev_involutive.
  - apply Forall_rev. exact D.
Qed.

(** * Decimal numbers *)
Lemma digit_char n : (n < 10)%N -> N_of_ascii (ascii_of_N (48 + n)) = (48 + n)%N.
Proof. intros L. apply N_ascii_embedding. lia. Qed.
Lemma decimal_digits f n : Forall (fun c => is_digit c = true) (decimal_fuel f n).
Proof.
  revert n. induction f as [|f IH]; intros n; cbn [decimal_fuel]; [constructor|].
  assert (D : is_digit (ascii_of_N (48 + n mod 10)) = true).
  { assert (n mod 10 < 10)%N by (apply N.mod_lt; discriminate).
    unfold is_digit. rewrite digit_char by assumption. apply andb_true_iff. rewrite !N.leb_le. lia. }
  destruct (n <? 10)%N; [repeat constructor; exact D|]. apply Forall_app. split; [apply IH|]. repeat constructor. exact D.
Qed.
Lemma decimal_ne n : decimal n <> [].
Proof.
  unfold decimal. cbn [decimal_fuel]. destruct (n <? 10)%N; [discriminate|]. intros E.
  now apply app_eq_nil in E as [_ E].
Qed.
Lemma parse_fold f : forall n, (N.size n < N.of_nat f)%N \/ (n < 10)%N /\ (0 < f)%nat ->
  fold_left (fun n c => n * 10 + (N_of_ascii c - 48))%N (decimal_fuel f n) 0%N = n.
Proof.
  induction f as [|f IH]; intros n L; [lia|]. cbn [decimal_fuel].
  assert (M : (n mod 10 < 10)%N) by (apply N.mod_lt; discriminate).
  destruct (N.ltb_spec n 10).
  - cbn [fold_left]. rewrite digit_char by assumption. rewrite (N.mod_small n 10) by assumption. lia.
  - rewrite fold_left_app, IH.
    + cbn [fold_left]. rewrite digit_char by assumption. pose proof (N.div_mod n 10). lia.
    + left. destruct L as [L|L]; [|lia].
      assert (D : (n / 10 <> 0)%N). { intros Z. apply N.div_small_iff in Z; lia. }
      rewrite N.size_log2 in L by lia. rewrite N.size_log2 by exact D.
      assert (X : (n / 10 <= n / 2)%N) by (apply N.div_le_compat_l; lia).
      assert (Y : (n / 2 = N.div2 n)%N) by (now rewrite N.div2_div).
      pose proof (N.log2_le_mono _ _ X) as Z. rewrite Y in Z.
      assert (W : (N.log2 n = N.succ (N.log2 (N.div2 n)))%N).
      { rewrite (N.div2_odd n) at 1. destruct (N.odd n); cbn [N.b2n].
        - rewrite N.log2_succ_double; lia.
        - rewrite N.add_0_r, N.log2_double; lia. }
      lia.
Qed.
Lemma parse_decimal n : (n <= usize_max)%N -> parse_usize (decimal n) = n.
Proof.
  intros L. unfold parse_usize, decimal. rewrite parse_fold by (left; lia).
  apply N.leb_le in L. now rewrite L.
Qed.

(** * Classification *)
Lemma cut_dep n : exists r, cut_prefix (chars "DEP_") (chars "DEP_" ++ n) = Some r.
Proof. eexists. apply cut_prefix_app. Qed.

Lemma classify_prefix n : classify (chars "DEP_" ++ n ++ chars "_" ++ chars "CXXBRIDGE_PREFIX") = Some (chars "DEP_" ++ n, KPrefix).
Proof.
  unfold classify. rewrite cut_prefix_app.
  change (chars "_" ++ chars "CXXBRIDGE_PREFIX") with (chars "_CXXBRIDGE_PREFIX").
  rewrite app_assoc, cut_suffix_app. reflexivity.
Qed.
Lemma classify_links n : classify (chars "DEP_" ++ n ++ chars "_" ++ chars "CXXBRIDGE_LINKS") = Some (chars "DEP_" ++ n, KLinks).
Proof.
  unfold classify. rewrite cut_prefix_app.
  change (chars "_" ++ chars "CXXBRIDGE_LINKS") with (chars "_CXXBRIDGE_LINKS").
  rewrite app_assoc, cut_suffix_app.
  change (chars "_CXXBRIDGE_PREFIX") with (chars "_CXXBRIDGE_PREFI" ++ chars "X").
  change (chars "_CXXBRIDGE_LINKS") with (chars "_CXXBRIDGE_LINK" ++ chars "S").
  rewrite (app_assoc (chars "DEP_" ++ n)).
  rewrite (cut_suffix_last _ "X"%char _ "S"%char) by discriminate. reflexivity.
Qed.
Lemma classify_dir n i : (i <= usize_max)%N ->
  classify (chars "DEP_" ++ n ++ chars "_" ++ chars "CXXBRIDGE_DIR" ++ decimal i) = Some (chars "DEP_" ++ n, KDir i).
Proof.
  intros L. unfold classify. rewrite cut_prefix_app.
  assert (E : chars "DEP_" ++ n ++ chars "_" ++ chars "CXXBRIDGE_DIR" ++ decimal i
              = ((chars "DEP_" ++ n) ++ chars "_CXXBRIDGE_DIR") ++ decimal i).
  { change (chars "_CXXBRIDGE_DIR") with (chars "_" ++ chars "CXXBRIDGE_DIR"). now rewrite <- !app_assoc. }
  rewrite E.
  assert (X : exists q d, decimal i = q ++ [d] /\ is_digit d = true).
  { pose proof (decimal_digits (S (N.to_nat (N.size i))) i) as D. fold (decimal i) in D.
    pose proof (decimal_ne i) as NE. destruct (decimal i) as [|d q] using rev_ind; [congruence|].
    exists q, d. split; [reflexivity|]. apply Forall_app in D. destruct D as [_ D]. now inversion D. }
  destruct X as (q & d & Q & Dd).
  assert (NX : cut_suffix (chars "_CXXBRIDGE_PREFIX") (((chars "DEP_" ++ n) ++ chars "_CXXBRIDGE_DIR") ++ decimal i) = None).
  { rewrite Q, app_assoc. change (chars "_CXXBRIDGE_PREFIX") with (chars "_CXXBRIDGE_PREFI" ++ ["X"%char]).
    apply cut_suffix_last. intros <-. discriminate. }
  assert (NS : cut_suffix (chars "_CXXBRIDGE_LINKS") (((chars "DEP_" ++ n) ++ chars "_CXXBRIDGE_DIR") ++ decimal i) = None).
  { rewrite Q, app_assoc. change (chars "_CXXBRIDGE_LINKS") with (chars "_CXXBRIDGE_LINK" ++ ["S"%char]).
    apply cut_suffix_last. intros <-. discriminate. }
  rewrite NX, NS, trim_digits_app.
  - destruct (decimal i) as [|c k] eqn:Z; [now apply decimal_ne in Z|].
    rewrite cut_suffix_app, <- Z, parse_decimal by assumption. reflexivity.
  - apply decimal_digits.
  - rewrite rev_app_distr. reflexivity.
Qed.
Lemma classify_unrelated kv : unrelated kv -> classify (fst kv) = None.
Proof.
  intros U. unfold classify. destruct (cut_prefix (chars "DEP_") (fst kv)) as [k0|]; [|reflexivity].
  clear k0. destruct (cut_suffix (chars "_CXXBRIDGE_PREFIX") (fst kv)) as [k|] eqn:E1.
  { apply cut_suffix_inv in E1. exfalso. apply (U k (chars "PREFIX")). exact E1. }
  destruct (cut_suffix (chars "_CXXBRIDGE_LINKS") (fst kv)) as [k|] eqn:E2.
  { apply cut_suffix_inv in E2. exfalso. apply (U k (chars "LINKS")). exact E2. }
  destruct (trim_digits (fst kv)) as [w c] eqn:T. destruct c as [|x c]; [reflexivity|].
  destruct (cut_suffix (chars "_CXXBRIDGE_DIR") w) as [k|] eqn:E3; [|reflexivity].
  exfalso. apply cut_suffix_inv in E3. apply (U k (chars "DIR" ++ x :: c)).
  assert (S : fst kv = w ++ x :: c).
  { clear -T. unfold trim_digits in T.
    assert (Sp : forall l d r, span_digits l = (d, r) -> l = d ++ r).
    { induction l as [|a l IH]; cbn; intros d r E; [now inversion E|].
      destruct (is_digit a); [|now inversion E]. destruct (span_digits l) as [d' r'].
      inversion E; subst. cbn. f_equal. now apply IH. }
    destruct (span_digits (rev (fst kv))) as [d r] eqn:E. apply Sp in E. inversion T; subst.
    rewrite <- (rev_involutive (fst kv)), E, rev_app_distr. congruence. }
  rewrite S, E3. rewrite <- app_assoc. reflexivity.
Qed.

(** * Events *)
Definition events (k : key) (env : list (key * string)) : list (contribution * string) :=
  flat_map (fun kv => match classify (fst kv) with
                      | Some (k', c) => if key_eqb k' k then [(c, snd kv)] else []
                      | None => [] end) env.
Definition on_crate (c : option crate) (e : contribution * string) : option crate :=
  let d := match c with Some c => c | None => no_crate end in
  match fst e with
  | KPrefix => Some (Crate (Some (snd e)) (c_links d) (c_dirs d))
  | KLinks => Some (Crate (c_prefix d) (Some (snd e)) (c_dirs d))
  | KDir _ => c
  end.
Definition on_dirs (l : option (list (N * string))) (e : contribution * string) : option (list (N * string)) :=
  match fst e with
  | KDir n => Some (match l with Some l => l | None => [] end ++ [(n, snd e)])
  | _ => l
  end.

Lemma scan_get env : forall st, sorted (fst st) -> sorted (snd st) ->
  let st' := fold_left scan_var env st in
  sorted (fst st') /\ sorted (snd st') /\
  forall k, get k (fst st') = fold_left on_crate (events k env) (get k (fst st)) /\
            get k (snd st') = fold_left on_dirs (events k env) (get k (snd st)).
Proof.
  induction env as [|[x v] env IH]; intros [cr di] S1 S2; [cbn; auto|].
  cbn [fold_left fst snd] in *.
  assert (S1' : sorted (fst (scan_var (cr, di) (x, v)))).
  { unfold scan_var. destruct (classify x) as [[k []]|]; cbn; auto using update_sorted. }
  assert (S2' : sorted (snd (scan_var (cr, di) (x, v)))).
  { unfold scan_var. destruct (classify x) as [[k []]|]; cbn; auto using update_sorted. }
  destruct (IH _ S1' S2') as (A & B & C). split; [exact A|]. split; [exact B|].
  intros k. destruct (C k) as [C1 C2]. rewrite C1, C2. clear A B C C1 C2 IH.
  unfold events. cbn [flat_map]. rewrite !fold_left_app. fold (events k env).
  split; f_equal; unfold scan_var; cbn [fst snd];
    destruct (classify x) as [[k' []]|]; cbn [fst snd fold_left]; try reflexivity;
    rewrite ?get_update by assumption; destruct (key_eqb k' k) eqn:E; cbn [fold_left]; try reflexivity;
    apply key_eqb_eq in E; subst; unfold on_crate, on_dirs; cbn [fst snd];
    try (destruct (get k cr); reflexivity); try (destruct (get k di); reflexivity).
Qed.

(** The events of one crate *)
Fixpoint dir_events (i : N) (l : list header_dir) : list (N * string) :=
  match l with
  | [] => []
  | d :: l => (if exported d then [(i, hd_path d)] else []) ++ dir_events (i + 1) l
  end.
Definition crate_events (c : crate) : list (contribution * string) :=
  match c_prefix c with Some p => [(KPrefix, p)] | None => [] end ++
  match c_links c with Some l => [(KLinks, l)] | None => [] end ++
  map (fun e => (KDir (fst e), snd e)) (dir_events 0 (c_dirs c)).

Lemma events_app k a b : events k (a ++ b) = events k a ++ events k b.
Proof. unfold events. apply flat_map_app. Qed.
Lemma events_dirs n k l : forall i, (i + N.of_nat (List.length l) <= usize_max + 1)%N ->
  events k (map (fun kv => (chars "DEP_" ++ n ++ chars "_" ++ fst kv, snd kv)) (print_dirs i l)) =
  if key_eqb (chars "DEP_" ++ n) k then map (fun e => (KDir (fst e), snd e)) (dir_events i l) else [].
Proof.
  induction l as [|d l IH]; intros i L; cbn [print_dirs dir_events].
  - now destruct (key_eqb _ k).
  - cbn [List.length] in L. rewrite !map_app, events_app, IH by lia.
    destruct (exported d); cbn [map app fst snd].
    + unfold events. cbn [flat_map fst snd]. rewrite classify_dir by lia.
      now destruct (key_eqb _ k).
    + reflexivity.
Qed.
Lemma events_crate n k c : (N.of_nat (List.length (c_dirs c)) <= usize_max)%N ->
  events k (env_of n c) = if key_eqb (chars "DEP_" ++ n) k then crate_events c else [].
Proof.
  intros L. unfold env_of, print_to_cargo, crate_events. rewrite !map_app, !events_app, events_dirs by lia.
  assert (P : events k (map (fun kv : key * string => @pair key string (chars "DEP_" ++ n ++ chars "_" ++ fst kv) (snd kv))
              match c_prefix c with Some p => [(chars "CXXBRIDGE_PREFIX", p)] | None => [] end) =
              if key_eqb (chars "DEP_" ++ n) k then match c_prefix c with Some p => [(KPrefix, p)] | None => [] end else []).
  { destruct (c_prefix c); [|now destruct (key_eqb _ k)]. unfold events.
    cbn [map flat_map fst snd]. rewrite classify_prefix, app_nil_r. reflexivity. }
  assert (Q : events k (map (fun kv : key * string => @pair key string (chars "DEP_" ++ n ++ chars "_" ++ fst kv) (snd kv))
              match c_links c with Some l => [(chars "CXXBRIDGE_LINKS", l)] | None => [] end) =
              if key_eqb (chars "DEP_" ++ n) k then match c_links c with Some p => [(KLinks, p)] | None => [] end else []).
  { destruct (c_links c); [|now destruct (key_eqb _ k)]. unfold events.
    cbn [map flat_map fst snd]. rewrite classify_links, app_nil_r. reflexivity. }
  etransitivity; [apply f_equal2; [exact P|apply f_equal2; [exact Q|reflexivity]]|].
  now destruct (key_eqb _ k).
Qed.
Lemma events_noise k noise : Forall unrelated noise -> events k noise = [].
Proof.
  induction 1 as [|kv l U _ IH]; [reflexivity|]. unfold events. cbn [flat_map].
  rewrite (classify_unrelated _ U). exact IH.
Qed.

Lemma perm_flat_map {A B} (f : A -> list B) l l' : Permutation l l' -> Permutation (flat_map f l) (flat_map f l').
Proof.
  induction 1; cbn; auto.
  - now apply Permutation_app_head.
  - rewrite !app_assoc. apply Permutation_app_tail, Permutation_app_comm.
  - etransitivity; eauto.
Qed.

(** * Folding permuted events *)
Lemma on_crate_fold p ls l : forall st,
  (forall v, In (KPrefix, v) l -> v = p) -> (forall v, In (KLinks, v) l -> ls = Some v) ->
  match st with Some c => (c_prefix c = None \/ c_prefix c = Some p) /\ (c_links c = None \/ c_links c = ls) /\ c_dirs c = [] | None => True end ->
  (In (KPrefix, p) l \/ match st with Some c => c_prefix c = Some p | None => False end) ->
  (ls = None \/ (exists v, In (KLinks, v) l) \/ match st with Some c => c_links c = ls | None => False end) ->
  fold_left on_crate l st = Some (Crate (Some p) ls []).
Proof.
  induction l as [|[k v] l IH]; intros st HP HL I EP EL.
  - cbn. destruct EP as [[]|EP]. destruct st as [[a b c]|]; [|destruct EP]. cbn in *. subst a.
    destruct I as (_ & I & ->). destruct EL as [->|[[v []]| ->]]; [|reflexivity].
    destruct I as [->| ->]; reflexivity.
  - cbn [fold_left]. apply IH.
    + intros w W. apply HP. now right.
    + intros w W. apply HL. now right.
    + destruct k; cbn; [| |exact I].
      * rewrite (HP v (or_introl eq_refl)). destruct st as [c|]; cbn; intuition.
      * rewrite (HL v (or_introl eq_refl)). destruct st as [c|]; cbn; intuition.
    + destruct EP as [[E|E]|E]; [|now left|].
      * inversion E; subst. right. cbn. reflexivity.
      * right. destruct k; cbn; [f_equal; apply HP; now left| |exact E].
        destruct st; cbn; [exact E|destruct E].
    + destruct EL as [->|[[w [E|E]]|E]]; [now left| | |].
      * inversion E; subst. right; right. cbn. symmetry. apply HL. now left.
      * right; left. eauto.
      * right; right. destruct k; cbn; [|symmetry; apply HL; now left|exact E].
        destruct st; cbn; [exact E|destruct E].
Qed.
Lemma on_crate_none l st : (forall k v, In (k, v) l -> exists n, k = KDir n) -> fold_left on_crate l st = st.
Proof.
  revert st. induction l as [|[k v] l IH]; intros st H; [reflexivity|]. cbn.
  destruct (H k v (or_introl eq_refl)) as [n ->]. cbn. apply IH. intros; eapply H; right; eauto.
Qed.
Definition dirs_of (l : list (contribution * string)) : list (N * string) :=
  flat_map (fun e => match fst e with KDir n => [(n, snd e)] | _ => [] end) l.
Lemma on_dirs_fold l : forall st, fold_left on_dirs l st =
  match dirs_of l with [] => st | d => Some (match st with Some x => x | None => [] end ++ d) end.
Proof.
  induction l as [|[k v] l IH]; intros st; [reflexivity|]. cbn [fold_left]. rewrite IH. unfold dirs_of. cbn [flat_map].
  fold (dirs_of l). destruct k; cbn; try (destruct (dirs_of l); reflexivity).
  destruct st as [x|]; cbn; destruct (dirs_of l); rewrite <- ?app_assoc; reflexivity.
Qed.

(** * Sorting *)
Definition le_key (a b : N * string) : Prop := (fst a <= fst b)%N.
Definition lt_key (a b : N * string) : Prop := (fst a < fst b)%N.
Lemma insert_perm x l : Permutation (x :: l) (insert_by_key x l).
Proof.
  induction l as [|y l IH]; cbn; [reflexivity|]. destruct (N.ltb (fst x) (fst y)); [reflexivity|].
  rewrite perm_swap. now constructor.
Qed.
Lemma insert_sorted x l : StronglySorted le_key l -> StronglySorted le_key (insert_by_key x l).
Proof.
  induction 1 as [|y l S IH F]; cbn; [repeat constructor|].
  destruct (N.ltb_spec (fst x) (fst y)) as [L|L].
  - constructor; [constructor; auto|]. constructor; [unfold le_key; lia|].
    revert F. apply Forall_impl. unfold le_key. intros; lia.
  - constructor; [exact IH|]. eapply (Permutation_Forall (insert_perm x l)). constructor; auto.
Qed.
Lemma sort_spec l : StronglySorted le_key (sort_by_key l) /\ Permutation l (sort_by_key l).
Proof.
  unfold sort_by_key.
  assert (G : forall l acc, StronglySorted le_key acc ->
    StronglySorted le_key (fold_left (fun acc x => insert_by_key x acc) l acc) /\
    Permutation (l ++ acc) (fold_left (fun acc x => insert_by_key x acc) l acc)).
  { clear l. induction l as [|x l IH]; intros acc S; cbn; [auto|].
    destruct (IH (insert_by_key x acc)) as [S' P]; [now apply insert_sorted|]. split; [exact S'|].
    rewrite <- P, <- insert_perm. apply Permutation_middle. }
  destruct (G l [] (SSorted_nil _)) as [S P]. rewrite app_nil_r in P. auto.
Qed.
Lemma sorted_unique l : forall l', StronglySorted le_key l -> StronglySorted lt_key l' -> Permutation l l' -> l = l'.
Proof.
  induction l as [|x l IH]; intros l' S S' P.
  - apply Permutation_nil in P. now subst.
  - destruct l' as [|y l']; [apply Permutation_sym, Permutation_nil in P; discriminate|].
    inversion S as [|? ? S1 F]; inversion S' as [|? ? S1' F']; subst. rewrite Forall_forall in F, F'.
    assert (E : x = y).
    { assert (Ix : In x (y :: l')) by (eapply Permutation_in; [exact P|now left]).
      assert (Iy : In y (x :: l)) by (eapply Permutation_in; [apply Permutation_sym; exact P|now left]).
      destruct Ix as [->|Ix]; [reflexivity|]. destruct Iy as [->|Iy]; [reflexivity|].
      specialize (F _ Iy). specialize (F' _ Ix). unfold le_key, lt_key in *. lia. }
    subst y. f_equal. apply IH; auto. eapply Permutation_cons_inv; eauto.
Qed.
Lemma dir_events_sorted l : forall i, StronglySorted lt_key (dir_events i l) /\ Forall (fun e => (i <= fst e)%N) (dir_events i l).
Proof.
  induction l as [|d l IH]; intros i; cbn; [split; constructor|].
  destruct (IH (i + 1)%N) as [S F].
  assert (F' : Forall (fun e => (i <= fst e)%N) (dir_events (i + 1) l)).
  { revert F. apply Forall_impl. intros; lia. }
  destruct (exported d); cbn; [|auto]. split; constructor; auto.
  - revert F. apply Forall_impl. unfold lt_key. cbn. intros; lia.
  - cbn. lia.
Qed.
Lemma dir_events_visible l : forall i, map (fun d => HeaderDir true (snd d)) (dir_events i l) = filter exported l.
Proof.
  induction l as [|[e p] l IH]; intros i; cbn; [reflexivity|]. rewrite map_app, IH. destruct e; reflexivity.
Qed.

(** * The final pass *)
Lemma final_get dirs : forall crates, NoDup (map fst dirs) -> sorted crates ->
  let r := fold_left (fun crates kd =>
    update no_crate (fst kd)
      (fun c => Crate (c_prefix c) (c_links c) (c_dirs c ++ map (fun d => HeaderDir true (snd d)) (sort_by_key (snd kd))))
      crates) dirs crates in
  sorted r /\ forall k, get k r =
    match get k dirs with
    | Some l => let c := match get k crates with Some c => c | None => no_crate end in
                Some (Crate (c_prefix c) (c_links c) (c_dirs c ++ map (fun d => HeaderDir true (snd d)) (sort_by_key l)))
    | None => get k crates
    end.
Proof.
  induction dirs as [|[x l] dirs IH]; intros crates ND S; [cbn; auto|].
  cbn [map fst] in ND. inversion ND as [|? ? NI ND']; subst. cbn [fold_left fst snd].
  destruct (IH (update no_crate x (fun c => Crate (c_prefix c) (c_links c) (c_dirs c ++ map (fun d => HeaderDir true (snd d)) (sort_by_key l))) crates) ND' (update_sorted _ _ _ _ S)) as [S' G].
  split; [exact S'|]. intros k. cbv zeta. rewrite G. rewrite get_cons, get_update by assumption.
  destruct (key_eqb x k) eqn:E; [|reflexivity]. apply key_eqb_eq in E. subst x.
  assert (N : get k dirs = None).
  { clear -NI. induction dirs as [|[a v] dirs IH]; [reflexivity|]. rewrite get_cons.
    destruct (key_eqb a k) eqn:E; [|apply IH; intros I; apply NI; now right].
    apply key_eqb_eq in E. subst. exfalso. apply NI. now left. }
  rewrite N. reflexivity.
Qed.
Lemma sorted_nodup {V} (m : list (key * V)) : sorted m -> NoDup (map fst m).
Proof.
  unfold sorted. induction 1 as [|a l S IH F]; constructor; auto.
  intros I. rewrite Forall_forall in F. apply F in I. now apply key_lt_irrefl in I.
Qed.
