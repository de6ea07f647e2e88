From Verif Require Import Base Discriminant_Model Discriminant_Spec Deps_Model Deps_Proofs EnumCxx_Model EnumCxx_Spec.
From Coq Require Import Lia.
Local Open Scope Z_scope.

Lemma digits_fold s : forall acc n, Forall (fun c => is_digit c = true) s -> acc = Z.of_N n ->
  digits 10 acc s = Some (Z.of_N (fold_left (fun n c => n * 10 + (N_of_ascii c - 48))%N s n)).
Proof.
  induction s as [|c s IH]; intros acc n F E; cbn [digits fold_left]; [congruence|]. inversion F as [|? ? D F']; subst.
  unfold is_digit in D. apply andb_true_iff in D as [D1 D2]. apply N.leb_le in D1, D2.
  destruct (Z.leb_spec 0 (Z.of_N (N_of_ascii c) - 48)); [|lia]. destruct (Z.ltb_spec (Z.of_N (N_of_ascii c) - 48) 10); [|lia]. cbn [andb].
  apply IH; [exact F'|]. lia.
Qed.
Lemma decimal_value n : digits 10 0 (decimal n) = Some (Z.of_N n).
Proof.
  rewrite (digits_fold (decimal n) 0 0%N (decimal_digits _ _) eq_refl). do 2 f_equal. apply parse_fold. left. lia.
Qed.
Lemma decimal_head n : exists c r, decimal n = c :: r /\ is_digit c = true /\ (c = "0"%char -> n = 0%N /\ r = []).
Proof.
  assert (D := decimal_digits (S (N.to_nat (N.size n))) n). fold (decimal n) in D.
  assert (X : forall f n, (N.size n < N.of_nat f)%N \/ (n < 10)%N /\ (0 < f)%nat -> forall c r, decimal_fuel f n = c :: r -> c = "0"%char -> n = 0%N /\ r = []).
  { clear. induction f as [|f IH]; intros n L c r E C; [discriminate|]. cbn [decimal_fuel] in E.
    destruct (N.ltb_spec n 10).
    - assert (E1 : ascii_of_N (48 + n mod 10) = c) by congruence. assert (r = []) as -> by congruence. split; [|reflexivity]. rewrite <- E1 in C. apply (f_equal N_of_ascii) in C. rewrite digit_char in C by (apply N.mod_lt; discriminate).
      rewrite N.mod_small in C by assumption. change (N_of_ascii "0") with 48%N in C. lia.
    - exfalso. assert (Ds : (n / 10 <> 0)%N) by (intros Z; apply N.div_small_iff in Z; lia).
      assert (L' : (N.size (n / 10) < N.of_nat f)%N \/ (n / 10 < 10)%N /\ (0 < f)%nat).
      { left. destruct L as [L|L]; [|lia].
        rewrite N.size_log2 in L by lia. rewrite N.size_log2 by exact Ds.
        assert (X : (n / 10 <= n / 2)%N) by (apply N.div_le_compat_l; lia).
        assert (Y : (n / 2 = N.div2 n)%N) by (now rewrite N.div2_div).
        pose proof (N.log2_le_mono _ _ X) as Z. rewrite Y in Z.
        assert (W : (N.log2 n = N.succ (N.log2 (N.div2 n)))%N).
        { rewrite (N.div2_odd n) at 1. destruct (N.odd n); cbn [N.b2n].
          - rewrite N.log2_succ_double; lia.
          - rewrite N.add_0_r, N.log2_double; lia. }
        lia. }
      destruct (decimal_fuel f (n / 10)) as [|c' r'] eqn:E'.
      + destruct f; [lia|]. cbn [decimal_fuel] in E'. destruct (n / 10 <? 10)%N; [discriminate|]. destruct (decimal_fuel f (n / 10 / 10)); discriminate.
      + cbn in E. injection E as -> _. destruct (IH _ L' _ _ E' C) as [Z _]. contradiction. }
  destruct (decimal n) as [|c r] eqn:E; [elim (decimal_ne n E)|]. exists c, r. inversion D; subst. split; [reflexivity|]. split; [assumption|].
  intros C. apply (X (S (N.to_nat (N.size n))) n) with (c := c); [left; lia|exact E|exact C].
Qed.
Lemma literal_decimal n : literal (decimal n) = if (Z.of_N n <? 2 ^ 63) then Some (Z.of_N n) else None.
Proof.
  assert (V := decimal_value n). destruct (decimal_head n) as (c & r & E & D & Z). rewrite E in *. unfold literal.
  destruct (Ascii.eqb_spec c "0") as [->|N].
  - destruct (Z eq_refl) as [-> ->]. reflexivity.
  - rewrite V. reflexivity.
Qed.
Lemma display_value d : constant (display d) = if (Z.abs (disc_Z d) <? 2 ^ 63) then Some (disc_Z d) else None.
Proof.
  destruct d as [[] m]; unfold display, constant, disc_Z; cbn [d_sign d_mag app].
  - change (Ascii.eqb "-" "-") with true. cbn iota. rewrite literal_decimal, Z.abs_opp, Z.abs_eq by lia.
    destruct (Z.of_N m <? 2 ^ 63); reflexivity.
  - destruct (decimal_head m) as (c & r & E & D & _). assert (L := literal_decimal m). rewrite E in *.
    destruct (Ascii.eqb_spec c "-") as [->|_]; [discriminate|]. rewrite L, Z.abs_eq by lia. reflexivity.
Qed.

(** ** bytes *)
Lemma byte_list_S n z : byte_list (S n) z = (z mod 256) :: byte_list n (z / 256).
Proof.
  unfold byte_list. cbn [seq map]. f_equal.
  - change (8 * Z.of_nat 0) with 0. rewrite Z.pow_0_r, Z.div_1_r. reflexivity.
  - rewrite <- seq_shift, map_map. apply map_ext. intros i. f_equal. rewrite Nat2Z.inj_succ.
    replace (8 * Z.succ (Z.of_nat i)) with (8 + 8 * Z.of_nat i) by lia. rewrite Z.pow_add_r by lia. change (2 ^ 8) with 256.
    rewrite Z.div_div; [reflexivity|lia|apply Z.pow_pos_nonneg; lia].
Qed.
Lemma byte_list_eq n : forall a b, byte_list n a = byte_list n b <-> a mod 2 ^ (8 * Z.of_nat n) = b mod 2 ^ (8 * Z.of_nat n).
Proof.
  induction n as [|n IH]; intros a b.
  - change (8 * Z.of_nat 0) with 0. rewrite Z.pow_0_r, !Z.mod_1_r. cbn. tauto.
  - rewrite !byte_list_S. replace (8 * Z.of_nat (S n)) with (8 + 8 * Z.of_nat n) by lia. rewrite Z.pow_add_r by lia. change (2 ^ 8) with 256.
    assert (P : 0 < 2 ^ (8 * Z.of_nat n)) by (apply Z.pow_pos_nonneg; lia).
    rewrite !Z.rem_mul_r by lia. split.
    + intros E. injection E as E1 E2. apply IH in E2. lia.
    + intros E. assert (A := Z.mod_pos_bound a 256 eq_refl). assert (B := Z.mod_pos_bound b 256 eq_refl). f_equal; [|apply IH]; lia.
Qed.
Lemma bits_fixed a : fixed_width a = true -> exists n, bits a = 8 * Z.of_nat n /\ (Z.of_nat n = bits a / 8) /\ 0 < bits a.
Proof. destruct a; try discriminate; intros _; [exists 1%nat|exists 2%nat|exists 4%nat|exists 8%nat|exists 1%nat|exists 2%nat|exists 4%nat|exists 8%nat]; repeat split. Qed.

Lemma convert_fits a v z : fixed_width a = true -> fits a z -> (convert a v = z <-> v mod 2 ^ bits a = z mod 2 ^ bits a).
Proof.
  intros F I. unfold convert.
  assert (Hb : 0 < bits a) by (destruct a; try discriminate; reflexivity).
  assert (P : 0 < 2 ^ (bits a - 1)) by (apply Z.pow_pos_nonneg; lia).
  assert (Q : 2 ^ bits a = 2 * 2 ^ (bits a - 1)) by (rewrite <- Z.pow_succ_r by lia; f_equal; lia).
  assert (M := Z.mod_pos_bound v (2 ^ bits a) ltac:(lia)).
  destruct (unsigned a) eqn:U.
  - assert (R : 0 <= z < 2 ^ bits a) by (destruct a; try discriminate; unfold fits in I; cbn in I |- *; lia).
    rewrite (Z.mod_small z) by exact R. tauto.
  - assert (R : - 2 ^ (bits a - 1) <= z < 2 ^ (bits a - 1)) by (destruct a; try discriminate; unfold fits in I; cbn in I |- *; lia).
    destruct (Z.ltb_spec (v mod 2 ^ bits a) (2 ^ (bits a - 1))); split; intros E.
    + rewrite <- E. rewrite Z.mod_mod by lia. reflexivity.
    + destruct (Z.lt_ge_cases z 0).
      * exfalso. rewrite <- (Z_mod_plus_full z 1 (2 ^ bits a)) in E. rewrite (Z.mod_small (z + 1 * 2 ^ bits a)) in E by lia. lia.
      * rewrite (Z.mod_small z) in E by lia. exact E.
    + rewrite <- E. replace (v mod 2 ^ bits a - 2 ^ bits a) with (v mod 2 ^ bits a + (-1) * 2 ^ bits a) by lia.
      rewrite Z_mod_plus_full, Z.mod_mod by lia. reflexivity.
    + destruct (Z.lt_ge_cases z 0).
      * rewrite <- (Z_mod_plus_full z 1 (2 ^ bits a)) in E. rewrite (Z.mod_small (z + 1 * 2 ^ bits a)) in E by lia. lia.
      * rewrite (Z.mod_small z) in E by lia. lia.
Qed.
Lemma equals_display a v d : fixed_width a = true -> fits a (disc_Z d) -> Z.abs (disc_Z d) < 2 ^ 63 -> (equals a v (display d) <-> v = disc_Z d).
Proof.
  intros F I L. unfold equals. rewrite display_value. destruct (Z.ltb_spec (Z.abs (disc_Z d)) (2 ^ 63)); [|lia].
  assert (X : (if (unsigned a && ((if Z.abs (disc_Z d) <? 2 ^ 31 then 32 else 64) <=? bits a))%bool then disc_Z d mod 2 ^ bits a else disc_Z d) = disc_Z d).
  { destruct (unsigned a) eqn:U; [|reflexivity]. cbn [andb]. destruct (_ <=? _); [|reflexivity]. apply Z.mod_small.
    destruct a; try discriminate; unfold fits in I; cbn in I |- *; lia. }
  split.
  - intros (z & E & V). injection E as <-. rewrite X in V. exact V.
  - intros ->. exists (disc_Z d). split; [reflexivity|]. symmetry. exact X.
Qed.
