(** C43: comparison of rust::Str and rust::String in C++. *)
From Verif Require Import Base Str_Model.
Require Import ZArith Lia.
Local Open Scope Z_scope.

(** Rust's order of strings: the first different byte decides, a proper prefix is smaller *)
Inductive rust_less : list Z -> list Z -> Prop :=
| less_prefix p x r : rust_less p (p ++ x :: r)
| less_byte p x r y s : x < y -> rust_less (p ++ x :: r) (p ++ y :: s).
Definition is_bytes (l : list Z) : Prop := Forall (fun b => 0 <= b < 256) l.

(** The same with any injective reading of the bytes *)
Lemma cv_inj sc x y : 0 <= x < 256 -> 0 <= y < 256 -> char_value sc x = char_value sc y -> x = y.
Proof. unfold char_value. destruct sc; cbn; [|auto]. destruct (Z.leb_spec 128 x), (Z.leb_spec 128 y); lia. Qed.

Ltac bytes := repeat match goal with
  | H : is_bytes (_ :: _) |- _ => inversion H; subst; clear H
  | H : Forall _ (_ :: _) |- _ => inversion H; subst; clear H
  end.
Lemma equal_spec sc a : forall b, is_bytes a -> is_bytes b -> List.length a = List.length b ->
  exists r, std_equal sc a b = Some r /\ (r = true <-> a = b).
Proof.
  induction a as [|x a IH]; intros [|y b] A B L; try discriminate L; cbn [std_equal].
  - exists true. tauto.
  - bytes. destruct (Z.eqb_spec (char_value sc x) (char_value sc y)) as [E|E].
    + destruct (IH b) as (r & -> & R); auto. exists r. split; [reflexivity|].
      apply cv_inj in E; auto. subst. rewrite R. split; congruence.
    + exists false. split; [reflexivity|]. split; [discriminate|]. intros Q. inversion Q. subst. congruence.
Qed.
Lemma eq_spec sc a b : is_bytes a -> is_bytes b -> exists r, str_eq sc a b = Some r /\ (r = true <-> a = b).
Proof.
  intros A B. unfold str_eq. destruct (Nat.eqb_spec (List.length a) (List.length b)) as [L|L].
  - now apply equal_spec.
  - exists false. split; [reflexivity|]. split; [discriminate|]. intros ->. congruence.
Qed.
Lemma le_spec sc a : forall b, is_bytes a -> is_bytes b -> (str_le sc a b = true <-> str_lt sc a b = true \/ a = b).
Proof.
  induction a as [|x a IH]; intros [|y b] A B; cbn.
  - split; auto.
  - split; auto.
  - split; [discriminate|]. intros [?|?]; discriminate.
  - bytes. destruct (Z.eqb_spec (char_value sc x) (char_value sc y)) as [E|E].
    + rewrite E, Z.ltb_irrefl. apply cv_inj in E; auto. subst. rewrite IH by auto. split; intros [?|?]; auto; right; congruence.
    + destruct (Z.ltb_spec (char_value sc x) (char_value sc y)) as [L|L].
      * split; auto. intros _. apply Z.leb_le. lia.
      * destruct (Z.ltb_spec (char_value sc y) (char_value sc x)) as [L'|L']; [|lia].
        split; [intros Q; apply Z.leb_le in Q; lia|]. intros [?|Q]; [discriminate|]. inversion Q. subst. congruence.
Qed.
Lemma lt_irrefl sc a : str_lt sc a a = false.
Proof. induction a as [|x a IH]; [reflexivity|]. cbn. now rewrite Z.ltb_irrefl. Qed.
Lemma lt_trans sc a : forall b c, str_lt sc a b = true -> str_lt sc b c = true -> str_lt sc a c = true.
Proof.
  induction a as [|x a IH]; intros [|y b] [|z c]; cbn; try discriminate; auto.
  destruct (Z.ltb_spec (char_value sc x) (char_value sc y)), (Z.ltb_spec (char_value sc y) (char_value sc x)),
    (Z.ltb_spec (char_value sc y) (char_value sc z)), (Z.ltb_spec (char_value sc z) (char_value sc y)),
    (Z.ltb_spec (char_value sc x) (char_value sc z)), (Z.ltb_spec (char_value sc z) (char_value sc x)); try discriminate; try lia; auto.
  apply IH.
Qed.
Lemma lt_total sc a : forall b, is_bytes a -> is_bytes b -> str_lt sc a b = true \/ a = b \/ str_lt sc b a = true.
Proof.
  induction a as [|x a IH]; intros [|y b] A B; cbn; auto.
  bytes. destruct (Z.ltb_spec (char_value sc x) (char_value sc y)); auto.
  destruct (Z.ltb_spec (char_value sc y) (char_value sc x)); auto.
  assert (x = y) by (apply (cv_inj sc); auto; lia). subst. destruct (IH b) as [?|[->|?]]; auto.
Qed.

(** The six operators are one total order, whatever [char] is: [==] is equality, [<] is
    irreflexive, transitive and total, and the others are what they should be in terms of
    these; comparing never reads beyond the end. *)
Theorem C43_total_order : forall signed a b c, is_bytes a -> is_bytes b -> is_bytes c ->
  (exists r, str_eq signed a b = Some r /\ str_ne signed a b = Some (negb r) /\ (r = true <-> a = b)) /\
  str_lt signed a a = false /\
  (str_lt signed a b = true -> str_lt signed b c = true -> str_lt signed a c = true) /\
  (str_lt signed a b = true \/ a = b \/ str_lt signed b a = true) /\
  (str_le signed a b = true <-> str_lt signed a b = true \/ a = b) /\
  (str_gt signed a b = str_lt signed b a) /\
  (str_ge signed a b = true <-> str_lt signed b a = true \/ a = b).
Proof.
  intros sc a b c A B C. split.
  { destruct (eq_spec sc a b A B) as (r & E & R). exists r. unfold str_ne. rewrite E. auto. }
  split; [apply lt_irrefl|]. split; [apply lt_trans|]. split; [now apply lt_total|]. split; [now apply le_spec|].
  split; [reflexivity|]. unfold str_ge. rewrite le_spec by auto. split; intros [?|?]; auto.
Qed.
Print Assumptions C43_total_order.

(** Where [char] is unsigned, it is Rust's order.  Where it is signed, it is not: *)
Lemma less_inv a b : rust_less a b ->
  (exists x r, b = a ++ x :: r) \/ (exists p x r y s, a = p ++ x :: r /\ b = p ++ y :: s /\ x < y).
Proof. destruct 1; [left|right]; eauto 10. Qed.
Lemma lt_unsigned a : forall b, str_lt false a b = true <-> rust_less a b.
Proof.
  induction a as [|x a IH]; intros b.
  - destruct b as [|y b]; cbn; split; intros H; try discriminate; auto.
    + destruct (less_inv _ _ H) as [(z & r & E)|(p & z & r & y & s & E & _)]; [discriminate|now destruct p].
    + apply (less_prefix []).
  - destruct b as [|y b].
    + cbn. split; [discriminate|]. intros H.
      destruct (less_inv _ _ H) as [(z & r & E)|(p & z & r & y & s & _ & E & _)]; [discriminate|now destruct p].
    + cbn [str_lt char_value andb]. destruct (Z.ltb_spec x y) as [L|L]; [|destruct (Z.ltb_spec y x) as [L'|L']].
      * split; auto. intros _. apply (less_byte []). exact L.
      * split; [discriminate|]. intros H.
        destruct (less_inv _ _ H) as [(z & r & E)|(p & z & r & w & s & E1 & E2 & L2)].
        -- inversion E. lia.
        -- destruct p; cbn in *; inversion E1; inversion E2; subst; lia.
      * assert (x = y) by lia. subst y. rewrite IH. split; intros H.
        -- destruct H; [apply (less_prefix (x :: p))|apply (less_byte (x :: p)); auto].
        -- destruct (less_inv _ _ H) as [(z & r & E)|(p & z & r & w & s & E1 & E2 & L2)].
           ++ inversion E. constructor.
           ++ destruct p as [|q p]; cbn in *; inversion E1; inversion E2; subst; [lia|]. now constructor.
Qed.

(** "a" and "é": Rust has a < é; with signed char C++ has é < a *)
Theorem C43_refuted : exists a b, is_bytes a /\ is_bytes b /\ rust_less a b /\
  str_lt true a b = false /\ str_lt true b a = true.
Proof.
  exists [97], [195; 169]. repeat split; try (repeat constructor; lia); try reflexivity. now apply (less_byte [] 97 [] 195).
Qed.
Print Assumptions C43_refuted.

(** Agreement holds on platforms with unsigned [char] for all strings, and everywhere for
    strings of which the first difference is between two ASCII bytes or between two others. *)
Theorem C43_agrees_partial : forall signed a b, is_bytes a -> is_bytes b ->
  (signed = false \/
   forall p x r y s, a = p ++ x :: r -> b = p ++ y :: s -> x <> y -> (x < 128 <-> y < 128)) ->
  (str_lt signed a b = true <-> rust_less a b).
Proof.
  intros [|] a b A B H; [|apply lt_unsigned]. destruct H as [H|H]; [discriminate|].
  rewrite <- lt_unsigned. revert b B H. induction a as [|x a IH]; intros [|y b] B H; try reflexivity.
  cbn [str_lt]. bytes.
  destruct (Z.eq_dec x y) as [->|N].
  - rewrite !Z.ltb_irrefl. apply IH; auto. intros p x r z s -> -> NE. apply (H (y :: p) x r z s); auto.
  - specialize (H [] x a y b eq_refl eq_refl N). unfold char_value. cbn [andb].
    destruct (Z.leb_spec 128 x), (Z.leb_spec 128 y); try lia;
    (destruct (Z.ltb_spec x y), (Z.ltb_spec y x); try lia;
      repeat match goal with |- context[Z.ltb ?u ?v] => destruct (Z.ltb_spec u v); try lia end; tauto).
Qed.
Print Assumptions C43_agrees_partial.

Example C43_nonvacuous :
  str_lt true [97; 98] [97; 98; 99] = true /\ str_le true [195; 169] [195; 170] = true /\
  str_ge false [97] [98] = false /\ str_eq true [97] [97] = Some true.
Proof. repeat split. Qed.
