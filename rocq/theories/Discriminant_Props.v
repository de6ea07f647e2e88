(** C01-C03: discriminants of shared enums.  The specification is in
    Discriminant_Spec.v. *)
From Verif Require Import Base Discriminant_Model Discriminant_Spec Discriminant_Proofs.

(** [V] / [I]: variant with / without written discriminant, for the examples. *)
Local Notation V e := (RVariant true (Some e)).
Local Notation I := (RVariant true None).
Local Notation lit n := (ELit false n "").

(** C01.  Whenever the enum is accepted, the values are those written (else
    previous + 1, else 0) and they all fit the representation. *)
Theorem C01_discriminants_as_written : forall repr vs ds r,
  (forall a, repr = Some a -> repr_attr_ok a = true) ->
  parse_enum repr vs = Ok (ds, r) ->
  written_values None vs = Some (map disc_Z ds) /\
  (fixed_width r = true -> Forall (fun d => fits r (disc_Z d)) ds).
Proof.
  intros repr vs ds r Hr H. destruct (enum_sound _ _ _ _ Hr H) as [H1 [H2 _]]. split; [exact H1|intros _; exact H2].
Qed.
Print Assumptions C01_discriminants_as_written.

Example C01_nonvacuous :
  exists ds r, parse_enum None [V (ENeg (lit 2)); I; I; I; V (lit 300); I] = Ok (ds, r)
  /\ map disc_Z ds = [-2; -1; 0; 1; 300; 301]%Z /\ r = AI16.
Proof. vm_compute. eexists _, _. repeat split. Qed.

(** C02.  Accepted enums are exactly the [good_enum]s: an explicit repr or suffix
    is respected, otherwise the first fitting type is chosen, and rejection
    happens exactly when there is none. *)
Theorem C02_repr_first_fit : forall repr vs,
  no_negative_zero vs ->
  (forall a, repr = Some a -> repr_attr_ok a = true) ->
  forall zs r,
  (exists ds, parse_enum repr vs = Ok (ds, r) /\ map disc_Z ds = zs) <-> good_enum repr vs zs r.
Proof. exact enum_complete. Qed.
Print Assumptions C02_repr_first_fit.

Example C02_nonvacuous_inferred :
  no_negative_zero [V (lit 128); V (ENeg (lit 1))] /\
  good_enum None [V (lit 128); V (ENeg (lit 1))] [128; -1]%Z AI16.
Proof.
  split.
  - intros v e [<-|[<-|[]]] H; injection H as <-; reflexivity.
  - apply good_inferred; [reflexivity|reflexivity|].
    unfold preference.
    apply ff_next. { intros H; inversion H as [|? ? _ H2]; inversion H2 as [|? ? H3 _]; destruct H3; lia. }
    apply ff_next. { intros H; inversion H as [|? ? H3 _]; destruct H3; lia. }
    apply ff_next. { intros H; inversion H as [|? ? _ H2]; inversion H2 as [|? ? H3 _]; destruct H3; lia. }
    apply ff_here. repeat constructor; unfold fits; cbn; lia.
Qed.

(** The literal [-0] is treated as strictly below 0, so it is excluded above:
    alone it makes the enum signed although 0 fits u8. *)
Theorem C02_negative_zero_refuted :
  exists vs ds r, written_values None vs = Some [0%Z] /\ parse_enum None vs = Ok (ds, r) /\
                  fits AU8 0 /\ r <> AU8 /\ hd_error preference = Some AU8.
Proof.
  exists [V (ENeg (lit 0))]. eexists _, _.
  split; [reflexivity|]. split; [vm_compute; reflexivity|]. split; [split; vm_compute; discriminate|]. split; [discriminate|reflexivity].
Qed.
Print Assumptions C02_negative_zero_refuted.

(** C03.  Full claim: [forall repr vs m, parse_enum repr vs <> Panic m].  It is
    false: the implicit variant after [-0] computes [0u64 - 1]. *)
Theorem C03_no_panic_refuted : exists repr vs m, parse_enum repr vs = Panic m.
Proof. exists None, [V (ENeg (lit 0)); I]. eexists. vm_compute. reflexivity. Qed.
Print Assumptions C03_no_panic_refuted.

(** It holds for every enum in which no discriminant is a negative zero literal. *)
Theorem C03_no_panic_partial : forall repr vs m, no_negative_zero vs -> parse_enum repr vs <> Panic m.
Proof. exact enum_no_panic. Qed.
Print Assumptions C03_no_panic_partial.

Example C03_nonvacuous :
  no_negative_zero [V (ENeg (ENeg (lit 0))); V (lit 18446744073709551615); I] /\
  parse_enum None [V (ENeg (ENeg (lit 0))); V (lit 18446744073709551615); I]
  = Err "discriminant overflow".
Proof. split; [intros v e [<-|[<-|[<-|[]]]] H; try discriminate; injection H as <-; reflexivity|vm_compute; reflexivity]. Qed.
