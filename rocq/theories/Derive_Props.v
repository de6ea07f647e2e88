(** C32: the C++ comparison operators of shared structs agree with the Rust ones;
    C33: derived ordering is lexicographic; C64: derived Clone and Debug. *)
From Verif Require Import Base StrLib Syntax_Model Mangle_Model Derive_Model Derive_Spec Derive_Proofs.
Require Import ZArith Lia.

(** * C32 *)

(** For every struct and every derive list, and whatever the fields' own comparison functions
    answer: an operator is offered in C++ exactly when the corresponding trait is derived, and
    then it returns what the Rust operator returns on the same values. *)
Theorem C32_operators : forall (V H : Type) (impl : string -> field_impl V H) s o a b fuel,
  (2 <= fuel)%nat ->
  let offered := match o with
                 | OEq | ONe => trait_derived s DPartialEq
                 | OLt | OLe | OGt | OGe => trait_derived s DPartialOrd
                 end in
  (offered -> cxx_op impl fuel s o a b = Some (rust_op impl s o a b)) /\
  (~ offered -> cxx_op impl fuel s o a b = None /\ ~ In o (class_operators s)).
Proof.
  intros V H impl s o a b fuel F offered.
  rewrite (cxx_agrees impl s o a b fuel F). unfold offered, trait_derived, class_operators.
  pose proof (derives_In DPartialEq (st_derives s)) as HE.
  pose proof (derives_In DPartialOrd (st_derives s)) as HO.
  destruct (derives DPartialEq (st_derives s)), (derives DPartialOrd (st_derives s)); destruct o; cbn;
    (split; intros D;
     [first [reflexivity | exfalso; intuition discriminate]
     |first [exfalso; apply D; tauto | split; [reflexivity|intuition discriminate]]]).
Qed.
Print Assumptions C32_operators.

(** What the Rust operators are, in terms of equality of all fields and of the derived
    comparison: [!=] is the negation of [==], and [<], [<=], [>], [>=] are decided by the
    comparison; incomparable values satisfy none of these four. *)
Theorem C32_rust_operators : forall (V H : Type) (impl : string -> field_impl V H) s a b,
  (rust_op impl s OEq a b = true <->
   forall f, In f (map (fun f => p_rust (v_name f)) (st_fields s)) -> f_eq (impl f) (a f) (b f) = true) /\
  (rust_op impl s ONe a b = true <-> rust_op impl s OEq a b = false) /\
  (rust_op impl s OLt a b = true <-> rust_partial_cmp impl s a b = Some Lt) /\
  (rust_op impl s OGt a b = true <-> rust_partial_cmp impl s a b = Some Gt) /\
  (rust_op impl s OLe a b = true <-> rust_op impl s OLt a b = true \/ rust_partial_cmp impl s a b = Some Eq) /\
  (rust_op impl s OGe a b = true <-> rust_op impl s OGt a b = true \/ rust_partial_cmp impl s a b = Some Eq).
Proof.
  intros V H impl s a b. repeat split; cbn [rust_op]; unfold rust_eq, field_names.
  - intros E. rewrite forallb_forall in E. exact E.
  - intros E. rewrite forallb_forall. exact E.
  - now apply negb_true_iff.
  - now apply negb_true_iff.
  - destruct (rust_partial_cmp impl s a b) as [[]|]; congruence.
  - intros ->. reflexivity.
  - destruct (rust_partial_cmp impl s a b) as [[]|]; congruence.
  - intros ->. reflexivity.
  - destruct (rust_partial_cmp impl s a b) as [[]|]; intuition congruence.
  - destruct (rust_partial_cmp impl s a b) as [[]|]; intuition congruence.
  - destruct (rust_partial_cmp impl s a b) as [[]|]; intuition congruence.
  - destruct (rust_partial_cmp impl s a b) as [[]|]; intuition congruence.
Qed.
Print Assumptions C32_rust_operators.

(** std::hash exists exactly when Hash is derived, and gives equal results for values that
    [==] calls equal provided that this holds of the field types. *)
Theorem C32_hash : forall (V H : Type) (impl : string -> field_impl V H) s h0 fin a b,
  (trait_derived s DHash <-> cxx_hash impl s h0 fin a <> None) /\
  ((forall f, In f (map (fun f => p_rust (v_name f)) (st_fields s)) ->
      forall x y h, f_eq (impl f) x y = true -> f_hash (impl f) x h = f_hash (impl f) y h) ->
   rust_op impl s OEq a b = true -> cxx_hash impl s h0 fin a = cxx_hash impl s h0 fin b).
Proof.
  intros V H impl s h0 fin a b. unfold cxx_hash, trait_derived.
  pose proof (derives_In DHash (st_derives s)) as D. split.
  - unfold exports_hash. fold (derives DHash (st_derives s)).
    destruct (derives DHash (st_derives s)); intuition congruence.
  - intros L E. cbn in E. unfold rust_hash.
    rewrite (hash_eq impl (field_names s) a b L E h0). reflexivity.
Qed.
Print Assumptions C32_hash.

(** A struct of two floating point numbers-like fields: values 0, 1 and "not a number" (2) *)
Definition nan_eq (x y : nat) : bool := Nat.eqb x y && negb (Nat.eqb x 2).
Definition nan_cmp (x y : nat) : option comparison :=
  if Nat.eqb x 2 || Nat.eqb y 2 then None else Some (Nat.compare x y).
Definition nan_impl (_ : string) : field_impl nat nat :=
  FieldImpl nan_eq nan_cmp Nat.compare (fun x h => h * 7 + x) (fun x => x).
Definition fvar (n : string) := Var CUnconditional (Pair [] n n) (TIdent (Named "f64" [])).
Definition point (ds : list trait) : struct_ := Struct_ CUnconditional ds (Pair [] "P" "P") [] [fvar "x"; fvar "y"].
Definition pt (x y : nat) (f : string) : nat := if String.eqb f "x" then x else y.

Example C32_nonvacuous :
  let s := point [DPartialEq; DPartialOrd] in
  (* a NaN in the second field: neither <= nor >, so the C++ [>] must not be [!(<=)] *)
  cxx_op nan_impl 2 s OGt (pt 0 2) (pt 0 1) = Some false /\
  cxx_op nan_impl 2 s OLe (pt 0 2) (pt 0 1) = Some false /\
  cxx_op nan_impl 2 s ONe (pt 0 2) (pt 0 2) = Some true /\
  cxx_op nan_impl 2 s OLt (pt 0 2) (pt 1 2) = Some true /\
  cxx_op nan_impl 2 (point [DOrd; DPartialOrd; DEq; DPartialEq]) OGe (pt 1 0) (pt 0 1) = Some true /\
  cxx_op nan_impl 2 (point [DOrd]) OGe (pt 1 0) (pt 0 1) = None.
Proof. repeat split. Qed.

(** * C33 *)

(** cmp and partial_cmp of a struct are decided by the first field, in declaration order, at
    which the two values differ. *)
Theorem C33_lexicographic : forall (V H : Type) (impl : string -> field_impl V H) s a b,
  let fields := map (fun f => p_rust (v_name f)) (st_fields s) in
  first_decides Eq (fun f => f_cmp (impl f) (a f) (b f)) fields (rust_cmp impl s a b) /\
  (~ trait_derived s DOrd ->
   first_decides (Some Eq) (fun f => f_partial_cmp (impl f) (a f) (b f)) fields
                 (rust_partial_cmp impl s a b)) /\
  (trait_derived s DOrd -> rust_partial_cmp impl s a b = Some (rust_cmp impl s a b)).
Proof.
  intros V H impl s a b fields. repeat split.
  - exact (run_cmp_first impl _ a b).
  - intros N. unfold rust_partial_cmp, struct_partial_ord. apply derives_not in N. rewrite N.
    exact (run_partial_first impl _ a b).
  - apply partial_total.
Qed.
Print Assumptions C33_lexicographic.

(** If the comparison of every field is a lawful total order, so is that of the struct, and
    cmp, partial_cmp and == agree with each other, with or without Ord in the derive list. *)
Theorem C33_total_order : forall (V H : Type) (impl : string -> field_impl V H) s,
  (forall f, In f (st_fields s) ->
     let i := impl (p_rust (v_name f)) in lawful_ord (f_eq i) (f_partial_cmp i) (f_cmp i)) ->
  lawful_ord (rust_op impl s OEq) (rust_partial_cmp impl s) (rust_cmp impl s).
Proof.
  intros V H impl s L.
  assert (F : Forall (lawful impl) (field_names s)).
  { apply Forall_forall. intros x I. unfold field_names in I. apply in_map_iff in I.
    destruct I as (f & <- & I). exact (L f I). }
  split.
  - intros x y. exact (eq_cmp impl _ x y F).
  - intros x y. unfold rust_partial_cmp, struct_partial_ord.
    destruct (derives DOrd (st_derives s)); [reflexivity|]. exact (partial_cmp_cmp impl _ x y F).
  - intros x. exact (cmp_refl impl _ x F).
  - intros x y. exact (cmp_opp impl _ x y F).
  - intros x y z c. exact (cmp_trans impl _ x y z c F).
  - intros x y z. exact (cmp_congr impl _ x y z F).
Qed.
Print Assumptions C33_total_order.

(** If the fields are only partially ordered, equality and partial_cmp still agree, and
    exchanging the arguments reverses the answer. *)
Theorem C33_partial_order : forall (V H : Type) (impl : string -> field_impl V H) s,
  ~ trait_derived s DOrd ->
  (forall f, In f (st_fields s) ->
     let i := impl (p_rust (v_name f)) in lawful_partial (f_eq i) (f_partial_cmp i)) ->
  lawful_partial (rust_op impl s OEq) (rust_partial_cmp impl s).
Proof.
  intros V H impl s N L. apply derives_not in N.
  assert (F : Forall (fun f => lawful_partial (f_eq (impl f)) (f_partial_cmp (impl f))) (field_names s)).
  { apply Forall_forall. intros x I. unfold field_names in I. apply in_map_iff in I.
    destruct I as (f & <- & I). exact (L f I). }
  split; intros x y; unfold rust_partial_cmp, struct_partial_ord; rewrite N.
  - exact (partial_eq impl _ x y F).
  - exact (partial_opp impl _ x y F).
Qed.
Print Assumptions C33_partial_order.

(** Shared enums compare by discriminant, in Rust as with the built-in operators of the C++
    enumeration, and the order is a lawful total order. *)
Theorem C33_enum :
  lawful_ord (enum_rust_op OEq) enum_partial_cmp enum_cmp /\
  forall x y,
    (enum_rust_op OEq x y = true <-> x = y) /\ (enum_rust_op ONe x y = true <-> x <> y) /\
    (enum_rust_op OLt x y = true <-> x < y)%Z /\ (enum_rust_op OLe x y = true <-> x <= y)%Z /\
    (enum_rust_op OGt x y = true <-> x > y)%Z /\ (enum_rust_op OGe x y = true <-> x >= y)%Z.
Proof.
  split.
  - split; unfold enum_cmp, enum_partial_cmp; cbn.
    + intros x y. unfold enum_eq. now rewrite Z.eqb_eq, Z.compare_eq_iff.
    + reflexivity.
    + apply Z.compare_refl.
    + intros x y. apply Z.compare_antisym.
    + intros x y z [] A B.
      * apply Z.compare_eq_iff in A, B. subst. apply Z.compare_refl.
      * rewrite Z.compare_lt_iff in *. lia.
      * rewrite Z.compare_gt_iff in *. lia.
    + intros x y z E. apply Z.compare_eq_iff in E. now subst.
  - intros x y. cbn. unfold enum_eq, enum_partial_cmp. rewrite negb_true_iff, Z.eqb_eq, Z.eqb_neq.
    destruct (Z.compare_spec x y); repeat split; intros; try discriminate; try lia; reflexivity.
Qed.
Print Assumptions C33_enum.

Definition nat_impl (_ : string) : field_impl nat nat :=
  FieldImpl Nat.eqb (fun x y => Some (Nat.compare x y)) Nat.compare (fun x h => h * 7 + x) (fun x => x).
Example C33_nonvacuous :
  (forall f : Syntax_Model.var, let i := nat_impl (p_rust (v_name f)) in lawful_ord (f_eq i) (f_partial_cmp i) (f_cmp i)) /\
  (forall f : Syntax_Model.var, let i := nan_impl (p_rust (v_name f)) in lawful_partial (f_eq i) (f_partial_cmp i)) /\
  rust_cmp nat_impl (point [DOrd]) (pt 1 5) (pt 1 3) = Gt /\
  rust_cmp nat_impl (point [DOrd]) (pt 0 5) (pt 1 3) = Lt /\
  rust_partial_cmp nan_impl (point []) (pt 0 2) (pt 1 3) = Some Lt /\
  rust_partial_cmp nan_impl (point []) (pt 1 2) (pt 1 3) = None.
Proof.
  repeat split; cbn.
  - now rewrite Nat.eqb_eq, Nat.compare_eq_iff.
  - now rewrite Nat.eqb_eq, Nat.compare_eq_iff.
  - apply Nat.compare_refl.
  - intros x y. apply Nat.compare_antisym.
  - intros x y z [] A B.
    + apply Nat.compare_eq_iff in A, B. subst. apply Nat.compare_refl.
    + rewrite Nat.compare_lt_iff in *. lia.
    + rewrite Nat.compare_gt_iff in *. lia.
  - intros x y z E. apply Nat.compare_eq_iff in E. now subst.
  - unfold nan_eq, nan_cmp. intros E. apply andb_true_iff in E. destruct E as [E N].
    apply Nat.eqb_eq in E. subst. apply negb_true_iff in N. rewrite N. cbn. f_equal. apply Nat.compare_refl.
  - unfold nan_eq, nan_cmp. destruct (Nat.eqb x 2) eqn:N, (Nat.eqb y 2); cbn; try discriminate.
    intros E. inversion E as [E']. apply Nat.compare_eq_iff in E'. now rewrite E', Nat.eqb_refl.
  - intros x y. unfold nan_cmp. rewrite orb_comm.
    destruct (Nat.eqb x 2 || Nat.eqb y 2); cbn; [reflexivity|]. f_equal. apply Nat.compare_antisym.
Qed.

(** * C64 *)

(** The derived clone of a struct has every field of the struct, and each is a clone of the
    original's field; where Copy is derived too the fields are copied, which is the same
    thing for field types whose clone is a copy. *)
Theorem C64_clone : forall (V H : Type) (impl : string -> field_impl V H) s a f,
  (trait_derived s DCopy -> forall f, In f (st_fields s) -> forall x, f_clone (impl (p_rust (v_name f))) x = x) ->
  (In f (st_fields s) -> rust_clone impl s a (p_rust (v_name f)) =
                         Some (f_clone (impl (p_rust (v_name f))) (a (p_rust (v_name f))))).
Proof.
  intros V H impl s a f C I. unfold rust_clone, struct_clone, trait_derived in *.
  pose proof (derives_In DCopy (st_derives s)) as D.
  assert (E : existsb (String.eqb (p_rust (v_name f))) (field_names s) = true).
  { apply existsb_exists. exists (p_rust (v_name f)). split; [|apply String.eqb_refl].
    unfold field_names. apply in_map_iff. eauto. }
  destruct (derives DCopy (st_derives s)); rewrite E; [|reflexivity].
  rewrite (C (proj1 D eq_refl) f I). reflexivity.
Qed.
Print Assumptions C64_clone.

(** Debug output of a shared enum: two values print the same only if they are the same.
    Discriminants and variant names are distinct (C01, C23), names contain no parenthesis. *)
Theorem C64_enum_debug : forall show e x y,
  separates show ->
  NoDup (map (fun v => p_rust (vr_name v)) (en_variants e)) ->
  (forall v, In v (en_variants e) -> no_paren (p_rust (vr_name v))) ->
  enum_debug show e x = enum_debug show e y -> x = y.
Proof.
  intros show e x y S ND NP. unfold enum_debug.
  destruct (find _ (en_variants e)) as [v|] eqn:Ex;
    destruct (find (fun v => (vr_disc v =? y)%Z) (en_variants e)) as [w|] eqn:Ey;
    try (apply find_disc in Ex; destruct Ex as [Iv Ev]);
    try (apply find_disc in Ey; destruct Ey as [Iw Ew]).
  - intros E. assert (v = w); [|congruence].
    clear -ND Iv Iw E. induction (en_variants e) as [|z l IH]; [destruct Iv|].
    cbn in ND. inversion ND as [|? ? N ND']; subst.
    destruct Iv as [->|Iv], Iw as [->|Iw]; auto.
    + exfalso. apply N. rewrite E. apply in_map_iff. eauto.
    + exfalso. apply N. rewrite <- E. apply in_map_iff. eauto.
  - intros E. exfalso. apply (no_paren_app (p_rust (en_name e)) (show y ++ ")")). rewrite <- E. now apply NP.
  - intros E. exfalso. apply (no_paren_app (p_rust (en_name e)) (show x ++ ")")). rewrite E. now apply NP.
  - intros E. apply append_cancel_l in E. apply (append_cancel_l "(") in E.
    apply append_cancel_r in E. now apply S.
Qed.
Print Assumptions C64_enum_debug.

(** A named value prints as its variant's name. *)
Theorem C64_enum_debug_name : forall show e v,
  NoDup (map vr_disc (en_variants e)) -> In v (en_variants e) ->
  enum_debug show e (vr_disc v) = p_rust (vr_name v).
Proof.
  intros show e v ND I. unfold enum_debug.
  destruct (find _ (en_variants e)) as [w|] eqn:E.
  - apply find_disc in E. destruct E as [Iw E]. assert (v = w); [|congruence].
    clear -ND I Iw E. induction (en_variants e) as [|z l IH]; [destruct I|].
    cbn in ND. inversion ND as [|? ? N ND']; subst.
    destruct I as [->|I], Iw as [->|Iw]; auto.
    + exfalso. apply N. rewrite <- E. apply in_map_iff. eauto.
    + exfalso. apply N. rewrite E. apply in_map_iff. eauto.
  - exfalso. apply (find_none _ _ E) in I. cbn in I. rewrite Z.eqb_refl in I. discriminate.
Qed.
Print Assumptions C64_enum_debug_name.

(** Every shared enum is Copy, Clone, Eq and PartialEq, and has every derived trait, once. *)
Theorem C64_enum_traits : forall ds t,
  (In t (enum_traits ds) <-> In t ds \/ t = DCopy \/ t = DClone \/ t = DEq \/ t = DPartialEq) /\
  (NoDup ds -> NoDup (enum_traits ds)).
Proof.
  intros ds t. unfold enum_traits.
  pose proof (derives_In DCopy ds) as HC. pose proof (derives_In DClone ds) as HL.
  pose proof (derives_In DEq ds) as HE. pose proof (derives_In DPartialEq ds) as HP. split.
  - rewrite !in_app_iff.
    destruct (derives DCopy ds), (derives DClone ds), (derives DEq ds), (derives DPartialEq ds); cbn;
      split; intuition (try congruence); subst; intuition congruence.
  - intros ND.
    assert (A : forall (d : trait) l, NoDup l -> ~ In d l -> NoDup (l ++ [d])).
    { intros d l N I. apply (NoDup_Add (a := d) (l := l)).
      - pose proof (Add_app d l []) as X. now rewrite app_nil_r in X.
      - split; assumption. }
    rewrite !app_assoc.
    destruct (derives DCopy ds), (derives DClone ds), (derives DEq ds), (derives DPartialEq ds);
      cbn; rewrite ?app_nil_r; repeat (apply A; [|rewrite ?in_app_iff; cbn; intuition congruence]); exact ND.
Qed.
Print Assumptions C64_enum_traits.

Definition suits : enum_ :=
  Enum_ CUnconditional [] (Pair [] "Suit" "Suit") []
    [Variant CUnconditional (Pair [] "Clubs" "Clubs") 0%Z; Variant CUnconditional (Pair [] "Hearts" "Hearts") 7%Z]
    false AU8 false.
Example C64_nonvacuous :
  let show (z : Z) := if Z.eqb z 3 then "3" else "other" in
  NoDup (map (fun v => p_rust (vr_name v)) (en_variants suits)) /\
  NoDup (map vr_disc (en_variants suits)) /\
  enum_debug show suits 7 = "Hearts" /\ enum_debug show suits 3 = "Suit(3)" /\
  rust_clone nat_impl (point [DClone]) (pt 4 5) "y" = Some 5.
Proof.
  repeat split; try (cbn; repeat constructor; cbn; intuition discriminate).
Qed.
