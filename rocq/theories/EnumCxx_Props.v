(** C80: enums have the same values in C++ as in Rust. *)
From Verif Require Import Base Discriminant_Model Discriminant_Spec Discriminant_Proofs Discriminant_Props Deps_Model EnumCxx_Model EnumCxx_Spec EnumCxx_Proofs.
From Coq Require Import Lia.

(** Every accepted enum is well-formed in C++: false, the literal for 2^63 fits no signed type. *)
Theorem C80_values_refuted : exists vs ds zs r, parse_enum None vs = Ok (ds, r) /\ written_values None vs = Some zs /\ fixed_width r = true /\
  ~ Forall2 (fun v z => enumerator r (snd v) z) (snd (write_enum r (combine ["A"] ds))) zs.
Proof.
  exists [RVariant true (Some (ELit false 9223372036854775808 ""))], [Disc Positive 9223372036854775808], [9223372036854775808%Z], AU64.
  split; [vm_compute; reflexivity|]. split; [vm_compute; reflexivity|]. split; [reflexivity|]. intros F. inversion F as [|? ? ? ? [E _] _]; subst. vm_compute in E. discriminate.
Qed.
Print Assumptions C80_values_refuted.

(** For every accepted enum of a fixed width, whatever its variants are called: if no value is 2^63 or
    more, nor -2^63, then each enumerator is well-formed and has the value written in Rust. *)
Theorem C80_values_partial : forall repr vs ds r names,
  (forall a, repr = Some a -> repr_attr_ok a = true) -> parse_enum repr vs = Ok (ds, r) -> fixed_width r = true -> List.length names = List.length ds ->
  exists zs, written_values None vs = Some zs /\
    fst (write_enum r (combine names ds)) = r /\
    map fst (snd (write_enum r (combine names ds))) = names /\
    ((forall z, In z zs -> (- 2 ^ 63 < z < 2 ^ 63)%Z) <->
     Forall2 (fun v z => enumerator r (snd v) z) (snd (write_enum r (combine names ds))) zs).
Proof.
  intros repr vs ds r names Hr P F L. destruct (C01_discriminants_as_written _ _ _ _ Hr P) as [W Fit]. specialize (Fit F).
  exists (map disc_Z ds). split; [exact W|]. split; [reflexivity|]. cbn [write_enum snd]. split.
  - rewrite map_map. cbn [fst]. clear - L. revert names L. induction ds as [|d ds IH]; destruct names; cbn; intros L; try discriminate; [reflexivity|]. f_equal. apply IH. lia.
  - clear W P. revert names L. induction Fit as [|d ds Fd Fit IH]; intros names L; destruct names as [|n names]; try discriminate.
    + cbn. split; [constructor|intros _ z []].
    + cbn [combine map snd fst]. specialize (IH names ltac:(cbn in L; lia)). assert (V := display_value d). split.
      * intros H. constructor.
        -- cbn [snd]. split; [|exact Fd]. rewrite V. assert (X := H _ (or_introl eq_refl)). destruct (Z.ltb_spec (Z.abs (disc_Z d)) (2 ^ 63)); [reflexivity|lia].
        -- apply IH. intros z I. apply H. right. exact I.
      * intros X. inversion X as [|? ? ? ? [E _] X']; subst. cbn [snd] in E. rewrite V in E.
        destruct (Z.ltb_spec (Z.abs (disc_Z d)) (2 ^ 63)); [|discriminate]. intros z [<-|I]; [lia|]. apply IH; assumption.
Qed.
Print Assumptions C80_values_partial.

(** The assertions about an enum defined by the C++ side hold exactly if it has the size of the declared
    representation, and every enumerator has the same bytes as the value declared in Rust. *)
Theorem C80_checked : forall repr vs ds r names e,
  (forall a, repr = Some a -> repr_attr_ok a = true) -> parse_enum repr vs = Ok (ds, r) -> fixed_width r = true -> List.length names = List.length ds ->
  (forall d, In d ds -> (- 2 ^ 63 < disc_Z d < 2 ^ 63)%Z) ->
  exists zs n, written_values None vs = Some zs /\ Z.of_nat n = (bits r / 8)%Z /\
    ((forall x, In x (check_enum r (combine names ds)) -> holds e x) <->
     ce_size e = Z.of_nat n /\
     Forall2 (fun name z => exists v, ce_value e name = Some v /\ byte_list n v = byte_list n z) names zs).
Proof.
  intros repr vs ds r names e Hr P F L B. destruct (C01_discriminants_as_written _ _ _ _ Hr P) as [W Fit]. specialize (Fit F).
  destruct (bits_fixed r F) as (n & E1 & E2 & _). exists (map disc_Z ds), n. split; [exact W|]. split; [exact E2|].
  unfold check_enum. clear W P.
  assert (X : (forall x, In x (map (fun v => AValue r (fst v) (display (snd v))) (combine names ds)) -> holds e x) <->
     Forall2 (fun name z => exists v, ce_value e name = Some v /\ byte_list n v = byte_list n z) names (map disc_Z ds)).
  { revert names L. induction Fit as [|d ds Fd Fit IH]; intros names L; destruct names as [|nm names]; try discriminate.
    - cbn. split; [constructor|intros _ x []].
    - cbn [combine map fst snd]. specialize (IH (fun d I => B d (or_intror I)) names ltac:(cbn in L; lia)).
      assert (Bd := B d (or_introl eq_refl)).
      assert (Y : forall v, equals r (convert r v) (display d) <-> byte_list n v = byte_list n (disc_Z d)).
      { intros v. rewrite equals_display by (auto; lia). rewrite convert_fits, byte_list_eq, <- E1 by assumption. tauto. }
      split.
      + intros H. constructor; [|apply IH; intros x I; apply H; right; exact I].
        destruct (H _ (or_introl eq_refl)) as (v & Ev & Q). exists v. split; [exact Ev|]. apply Y. exact Q.
      + intros H. inversion H as [|? ? ? ? (v & Ev & Q) H']; subst. intros x [<-|I]; [|apply IH; assumption].
        exists v. split; [exact Ev|]. apply Y. exact Q. }
  rewrite <- X. split.
  - intros H. split; [rewrite E2; exact (H _ (or_intror (or_introl eq_refl)))|]. intros x I. apply H. right. right. exact I.
  - intros [S H] x [<-|[<-|I]]; [exact Logic.I|cbn; rewrite <- E2; exact S|exact (H x I)].
Qed.
Print Assumptions C80_checked.

(** An enum with the values -128 and 5, as int8_t here and as unsigned char on the C++ side. *)
Example C80_nonvacuous :
  let vs := [RVariant true (Some (ENeg (ELit false 128 ""))); RVariant true (Some (ELit false 5 ""))] in
  let ds := [Disc Negative 128; Disc Positive 5] in
  let e := CxxEnum 1 (fun n => if String.eqb n "Low" then Some 128%Z else if String.eqb n "Five" then Some 5%Z else None) in
  parse_enum None vs = Ok (ds, AI8) /\ fixed_width AI8 = true /\
  (forall d, In d ds -> (- 2 ^ 63 < disc_Z d < 2 ^ 63)%Z) /\
  map (fun v => (fst v, constant (snd v))) (snd (write_enum AI8 (combine ["Low"; "Five"] ds))) = [("Low", Some (-128)%Z); ("Five", Some 5%Z)] /\
  (forall x, In x (check_enum AI8 (combine ["Low"; "Five"] ds)) -> holds e x) /\
  ~ (forall x, In x (check_enum AI8 (combine ["Five"; "Low"] ds)) -> holds e x).
Proof.
  cbv zeta. split; [vm_compute; reflexivity|]. split; [reflexivity|]. split; [intros d [<-|[<-|[]]]; vm_compute; split; reflexivity|].
  split; [vm_compute; reflexivity|]. split.
  - intros x [<-|[<-|[<-|[<-|[]]]]]; [exact Logic.I|reflexivity| |]; eexists; (split; [reflexivity|]); eexists; (split; [vm_compute; reflexivity|]); vm_compute; reflexivity.
  - intros H. destruct (H _ (or_intror (or_intror (or_introl eq_refl)))) as (v & E & (z & C & Q)).
    injection E as <-. vm_compute in C. injection C as <-. vm_compute in Q. discriminate.
Qed.
