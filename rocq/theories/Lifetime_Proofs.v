(** Proofs for C90. *)
From Verif Require Import Base Syntax_Model TypeEq_Model Types_Model Types_Spec Check_Model Check_Spec Check_Proofs Abi_Model Lifetime_Model Lifetime_Spec.
From Coq Require Import Lia.

Lemma subseq_refl {A} (l : list A) : subseq l l. Proof. induction l; constructor; assumption. Qed.
Lemma forall2_refl {A} (l : list (list A)) : Forall2 subseq l l. Proof. induction l; [constructor|]. constructor; [apply subseq_refl|assumption]. Qed.
Lemma subseq_nil {A} (l : list A) : subseq [] l. Proof. induction l; constructor; assumption. Qed.
Lemma nil_subseq {A} (l : list A) : subseq l [] -> l = []. Proof. inversion 1. reflexivity. Qed.
Lemma subseq_in {A} (l l' : list A) : subseq l l' -> forall x, In x l -> In x l'.
Proof. induction 1; cbn; firstorder. Qed.
Lemma subseq_one {A} (l : list A) a : subseq l [a] -> l = [] \/ l = [a].
Proof. inversion 1 as [|? ? ? H1|? ? ? H1]; subst; apply nil_subseq in H1; subst; auto. Qed.
Lemma subseq_repeat {A} (a : A) n : forall l, subseq l (repeat a n) -> exists m, l = repeat a m.
Proof.
  induction n as [|n IH]; cbn; intros l H; [apply nil_subseq in H; exists 0; exact H|]. inversion H as [|? ? ? H1|? ? ? H1]; subst.
  - destruct (IH _ H1) as (m & ->). exists (S m). reflexivity.
  - exact (IH _ H1).
Qed.

(** * Elision *)
Lemma nils_map (ws gs : list (list lifetime)) : Forall2 subseq gs ws -> Forall (eq []) ws -> Forall (eq []) gs.
Proof. induction 1 as [|g w gs ws S F IH]; intros H; [constructor|]. inversion H; subst. constructor; [symmetry; apply nil_subseq; exact S|auto]. Qed.
Lemma sole_inv ws o : sole ws o -> exists pre w post, ws = pre ++ w :: post /\ Forall (eq []) pre /\ Forall (eq []) post /\
  ((exists l, w = [l] /\ o = origin_of l (List.length pre)) \/ (exists a n, w = repeat (Some a) (S n) /\ o = FromName a)).
Proof.
  destruct 1 as [pre l post A B|pre a n post A B]; [exists pre, [l], post|exists pre, (repeat (Some a) (S n)), post]; repeat split; auto; [left|right]; eauto.
Qed.
Lemma not_nils pre (w : list lifetime) post : w <> [] -> ~ Forall (eq []) (pre ++ w :: post).
Proof. intros N H. apply Forall_app in H as (_ & H). inversion H; subst. congruence. Qed.
Lemma split_unique : forall pre (w : list lifetime) post pre' w' post', pre ++ w :: post = pre' ++ w' :: post' -> Forall (eq []) pre -> Forall (eq []) pre' ->
  w <> [] -> w' <> [] -> pre = pre' /\ w = w' /\ post = post'.
Proof.
  induction pre as [|p pre IH]; intros w post [|p' pre'] w' post' E F F' N N'; cbn in E.
  - injection E as -> ->. auto.
  - injection E as -> _. inversion F'; subst. congruence.
  - injection E as -> _. inversion F; subst. congruence.
  - injection E as -> E. inversion F; inversion F'; subst. destruct (IH _ _ _ _ _ E) as (-> & -> & ->); auto.
Qed.
(** The only lifetime, if there is one, stays the same when some lifetimes disappear. *)
Lemma sole_sub ws gs o o' : Forall2 subseq gs ws -> sole ws o -> sole gs o' -> o' = o.
Proof.
  intros S H H'. apply sole_inv in H as (pre & w & post & -> & A & B & K). apply sole_inv in H' as (pre' & g & post' & -> & A' & B' & K').
  apply Forall2_app_inv_r in S as (p1 & p2 & S1 & S2 & E). inversion S2 as [|g2 w2 p3 p4 Sg S3]; subst.
  assert (N1 := nils_map _ _ S1 A). assert (N2 := nils_map _ _ S3 B).
  assert (Ng : g <> []) by (destruct K' as [(l & -> & _)|(a & n & -> & _)]; discriminate).
  assert (Ng2 : g2 <> []).
  { intros ->. apply (not_nils pre' g post' Ng). rewrite E. apply Forall_app. split; [exact N1|constructor; [reflexivity|exact N2]]. }
  destruct (split_unique _ _ _ _ _ _ E A' N1 Ng Ng2) as (-> & -> & ->).
  assert (L : List.length p1 = List.length pre) by (clear -S1; induction S1; cbn; congruence). rewrite L in K'.
  destruct K as [(l & -> & ->)|(a & n & -> & ->)].
  - destruct (subseq_one _ _ Sg) as [->| ->]; [congruence|]. destruct K' as [(l' & E' & ->)|(a & n & E' & ->)].
    + injection E' as ->. reflexivity.
    + destruct n; [|discriminate]. injection E' as ->. reflexivity.
  - destruct (subseq_repeat _ _ _ Sg) as (m & ->). destruct K' as [(l' & E' & ->)|(a' & n' & E' & ->)].
    + destruct m as [|[|m]]; try discriminate. injection E' as <-. reflexivity.
    + destruct m; [discriminate E'|]. injection E' as -> _. reflexivity.
Qed.
(** Elements without lifetimes at the end do not matter. *)
Lemma sole_app ws zs o : Forall (eq []) zs -> (sole (ws ++ zs) o <-> sole ws o).
Proof.
  intros Z. split; intros H; apply sole_inv in H as (pre & w & post & E & A & B & K).
  - assert (N : w <> []) by (destruct K as [(l & -> & _)|(a & n & -> & _)]; discriminate).
    assert (D : exists post', ws = pre ++ w :: post' /\ Forall (eq []) post').
    { clear K. revert pre E A. induction ws as [|x ws IH]; intros pre E A.
      - cbn in E. subst zs. destruct (not_nils _ _ _ N Z).
      - destruct pre as [|p pre]; cbn in E; injection E as -> E.
        + exists ws. split; [reflexivity|]. rewrite <- E in B. apply Forall_app in B. apply B.
        + inversion A; subst. destruct (IH pre E) as (post' & -> & Q); [assumption|]. exists post'. auto. }
    destruct D as (post' & -> & Q). destruct K as [(l & -> & ->)|(a & n & -> & ->)]; constructor; assumption.
  - subst ws. rewrite <- app_assoc. cbn [app]. assert (Q : Forall (eq []) (post ++ zs)) by (apply Forall_app; auto).
    destruct K as [(l & -> & ->)|(a & n & -> & ->)]; constructor; assumption.
Qed.
Lemma elides_exists self ws outs : (exists l, elides self ws outs l) <-> (In None outs -> self = None -> exists o, sole ws o).
Proof.
  unfold elides. induction outs as [|s outs IH]; [split; [intros _ []|exists []; constructor]|]. split.
  - intros (l & H). inversion H as [|? o ? l' K F]; subst. intros [->|I] E.
    + subst. cbn in K. eauto.
    + apply IH; [eauto|exact I|exact E].
  - intros H. destruct IH as (_ & IH). destruct IH as (l & F); [intros I E; apply H; [right; exact I|exact E]|].
    destruct s as [a|]; [exists (FromName a :: l); constructor; auto|]. destruct self as [r|].
    + exists (origin_of r 0 :: l). constructor; auto.
    + destruct H as (o & Ho); [left; reflexivity|reflexivity|]. exists (o :: l). constructor; auto.
Qed.
(** The generated function has no self; the declared one may. *)
Lemma elides_sub self ws gs outs outs' l' :
  Forall2 subseq gs ws -> subseq outs' outs -> (forall r, self = Some r -> exists w ws', ws = (r :: w) :: ws' /\ exists gs', gs = (r :: w) :: gs') ->
  (exists l, elides self ws outs l) -> elides None gs outs' l' -> exists l, elides self ws outs l /\ subseq l' l.
Proof.
  intros S O Hs (l & L) G. exists l. split; [exact L|]. revert l' G l L. induction O as [|s o1 o2 O IH|s o1 o2 O IH]; intros l' G l L.
  - inversion G; inversion L; subst. constructor.
  - inversion G as [|? o' ? l1' Ho' F']; inversion L as [|? o ? l1 Ho F]; subst. assert (o' = o) as ->; [|constructor; eauto].
    destruct s as [a|]; [congruence|]. destruct self as [r|].
    + subst o. destruct (Hs r eq_refl) as (w & ws' & -> & gs' & ->). clear -Ho'. apply sole_inv in Ho' as (pre & g & post & E & A & B & K).
      destruct pre as [|p pre]; cbn in E; [|injection E as <- _; inversion A; congruence]. injection E as <- <-.
      destruct K as [(l & E & ->)|(a & n & E & ->)]; [injection E as -> _; reflexivity|]. injection E as -> _. reflexivity.
    + exact (sole_sub _ _ _ _ S Ho Ho').
  - inversion L as [|? o ? l1 Ho F]; subst. constructor. eauto.
Qed.

Section Types.
  Context (ar : string -> nat).
  Hypothesis Hown : forall x, In x own_names -> ar x = 0.
  Notation brings := (brings ar). Notation written := (written ar). Notation proper_type := (proper_type ar). Notation proper_lty := (proper_lty ar). Notation args_of := (args_of ar).
  Local Ltac own := match goal with |- context [ar ?x] => let H := fresh in assert (H : ar x = 0) by (apply Hown; cbn; auto 60); rewrite ?H end.
  Lemma lib_brings x t : In ("::cxx::" ++ x)%string own_names -> brings (lib x t) = flat_map brings t.
  Proof. intros H. unfold lib. cbn [Lifetime_Spec.brings Lifetime_Spec.args_of]. rewrite (Hown _ H). reflexivity. Qed.
  Lemma path_brings x t : In x own_names -> brings (LPath x [] t) = flat_map brings t.
  Proof. intros H. cbn [Lifetime_Spec.brings Lifetime_Spec.args_of]. rewrite (Hown _ H). reflexivity. Qed.
  Lemma raw_brings m t : brings (raw m t) = brings t.
  Proof. unfold raw. destruct m; rewrite path_brings by (cbn; auto 60); cbn [flat_map]; apply app_nil_r. Qed.
  Lemma pin_brings p t : brings (pin p t) = brings t.
  Proof. unfold pin. destruct p; [|reflexivity]. rewrite lib_brings by (cbn; auto 60). cbn [flat_map]. apply app_nil_r. Qed.
  Lemma one_brings x t : In ("::cxx::" ++ x)%string own_names -> brings (lib x [t]) = brings t.
  Proof. intros H. rewrite lib_brings by exact H. cbn [flat_map]. apply app_nil_r. Qed.
  Lemma args_own x y lts : ar x = ar y -> args_of x lts = args_of y lts.
  Proof. intros E. unfold Lifetime_Spec.args_of. rewrite E. reflexivity. Qed.
  Lemma own_ar x y : In x own_names -> In y own_names -> ar x = ar y.
  Proof. intros H H'. rewrite (Hown _ H), (Hown _ H'). reflexivity. Qed.
  Lemma print_name n : exists x, print_type (TIdent n) = LPath x (n_lts n) [] /\ ar x = ar (n_rust n).
  Proof.
    cbn [print_type]. eexists. split; [reflexivity|]. destruct (String.eqb_spec (n_rust n) "c_char") as [E|]; [rewrite E; apply own_ar; cbn; auto 60|].
    destruct (String.eqb_spec (n_rust n) "CxxString") as [E|]; [rewrite E; apply own_ar; cbn; auto 60|].
    destruct (String.eqb_spec (n_rust n) "String") as [E|]; [rewrite E; apply own_ar; cbn; auto 60|]. reflexivity.
  Qed.
  Lemma brings_print t : brings (print_type t) = written t.
  Proof.
    induction t using ty_ind'; try (cbn [print_type Lifetime_Spec.written]; rewrite ?pin_brings, ?raw_brings, ?one_brings by (cbn; auto 60); cbn [Lifetime_Spec.brings]; congruence).
    - destruct (print_name n) as (x & -> & E). cbn [Lifetime_Spec.brings flat_map Lifetime_Spec.written]. rewrite app_nil_r. apply args_own, E.
    - change (olt l :: brings (LPath "str" [] []) = [olt l]). rewrite path_brings by (cbn; auto 60). reflexivity.
    - cbn [print_type Lifetime_Spec.written]. apply path_brings. cbn; auto 60.
    - change (olt l :: brings (LPath "[]" [] [print_type t]) = olt l :: written t). rewrite path_brings by (cbn; auto 60). cbn [flat_map]. rewrite app_nil_r. congruence.
    - cbn [print_type Lifetime_Spec.written]. rewrite path_brings by (cbn; auto 60). cbn [flat_map]. rewrite app_nil_r. congruence.
  Qed.
  Lemma obrings_print t : obrings ar (option_map print_type t) = owritten ar t.
  Proof. destruct t; [apply brings_print|reflexivity]. Qed.
  Lemma brings_prints (args : list (string * ty)) : map brings (map (fun a => print_type (snd a)) args) = map (fun a => written (snd a)) args.
  Proof. rewrite map_map. apply map_ext. intros a. apply brings_print. Qed.
  Section Scope.
    Context (scope : list string).
    Lemma proper_lib x t : Forall (proper_lty scope) t -> proper_lty scope (lib x t).
    Proof. intros H. constructor; auto. Qed.
    Lemma proper_raw m t : proper_lty scope t -> proper_lty scope (raw m t).
    Proof. intros H. constructor; auto. Qed.
    Lemma proper_pin p t : proper_lty scope t -> proper_lty scope (pin p t).
    Proof. intros H. destruct p; [apply proper_lib; auto|exact H]. Qed.
    Lemma proper_print t : proper_type scope t -> proper_lty scope (print_type t).
    Proof.
      induction t using ty_ind'; intros P; inversion P; subst; try (cbn [print_type]; try apply proper_pin; try apply proper_lib; try apply proper_raw; constructor; auto; fail).
      - destruct (print_name n) as (x & -> & E). constructor; [rewrite E; assumption|assumption|constructor].
      - cbn [print_type]. apply proper_raw. auto.
      - cbn [print_type]. constructor; [assumption|]. constructor; auto.
      - change (proper_lty scope (LFnPtr (map (fun a => print_type (snd a)) args)
          (if th then Some (LPath "Result" [] [match ret with Some r => print_type r | None => LPath "()" [] [] end]) else option_map print_type ret))).
        constructor.
        + apply Forall_map. rewrite Forall_forall in *. intros a I. auto.
        + intros r. destruct th; [|destruct ret as [r0|]; [|discriminate]; intros E; injection E as <-; auto]. intros E. injection E as <-. constructor; auto. constructor; [|constructor].
          destruct ret; [auto|constructor; auto].
        + rewrite brings_prints. destruct th; [|rewrite obrings_print; assumption]. cbn [obrings]. rewrite (path_brings "Result") by (cbn; auto 60). cbn [flat_map]. rewrite app_nil_r.
          destruct ret as [r|]; [rewrite brings_print; assumption|]. rewrite path_brings by (cbn; auto 60). exists []. constructor.
      - cbn [print_type]. constructor; [assumption|]. constructor; auto.
    Qed.
    Lemma proper_extern T b t : proper_type scope t -> proper_lty scope (extern_lty T b t).
    Proof.
      assert (V : proper_lty scope c_void) by (apply proper_lib; constructor).
      induction t using ty_ind'; intros P; pose proof (proper_print _ P) as Q; inversion P; subst; cbn [extern_lty]; try exact Q; try (apply proper_lib; constructor; auto; fail).
      - destruct (String.eqb (n_rust n) "String"); [apply proper_lib; constructor|exact Q].
      - apply proper_raw. destruct (b && is_considered_improper T t); auto.
      - apply proper_raw. destruct (b && is_considered_improper T t); auto.
      - assert (D : proper_lty scope (if is_rust_string t then LRef l m (lib "private::RustString" []) else if b && is_considered_improper T t then raw m c_void else print_type (TRef p m l t))).
        { destruct (is_rust_string t); [constructor; [assumption|apply proper_lib; constructor]|]. destruct (b && is_considered_improper T t); [apply proper_raw, V|exact Q]. }
        destruct t; try exact D. constructor; [assumption|].
        assert (Q' : proper_lty scope (extern_lty T b (TVec t))) by auto. exact Q'.
      - destruct (b && is_considered_improper T t); [apply proper_raw, V|exact Q].
    Qed.
  End Scope.
  Lemma carried_sub h t : subseq (carried ar h t) (written t).
  Proof.
    induction t using ty_ind'; cbn [carried]; try apply subseq_refl; try exact IHt; try apply subseq_nil; try (destruct (h t); [apply subseq_nil|exact IHt || apply subseq_refl]; fail).
    destruct t; try (destruct (h _); [apply subseq_nil|apply subseq_refl]); [destruct (String.eqb _ _); [apply subseq_refl|]; destruct (h _); [apply subseq_nil|apply subseq_refl]|].
    cbn [Lifetime_Spec.written]. constructor. exact IHt.
  Qed.
  Lemma void_brings : brings c_void = []. Proof. apply lib_brings. cbn; auto 60. Qed.
  (** An identifier String has no lifetime arguments. *)
  Lemma string_args scope n : proper_type scope (TIdent n) -> n_rust n = "String"%string -> written (TIdent n) = [].
  Proof.
    intros P E. assert (L : n_lts n = [] \/ List.length (n_lts n) = ar (n_rust n)) by (inversion P; assumption). assert (Z : ar (n_rust n) = 0) by (rewrite E; apply Hown; cbn; auto).
    cbn [Lifetime_Spec.written]. unfold Lifetime_Spec.args_of. rewrite Z in *. destruct (n_lts n); [reflexivity|]. destruct L; discriminate.
  Qed.
  Lemma extern_carried scope T b t : proper_type scope t -> brings (extern_lty T b t) = carried ar (fun u => b && is_considered_improper T u) t.
  Proof.
    induction t using ty_ind'; intros P; pose proof (brings_print) as Q; inversion P; subst; cbn [extern_lty carried]; try apply Q; rewrite ?raw_brings, ?one_brings by (cbn; auto 60);
      try (destruct (b && is_considered_improper T t); [apply void_brings|auto]; fail); auto.
    - destruct (String.eqb_spec (n_rust n) "String") as [E|N]; [|apply Q]. rewrite (string_args _ _ P E). apply lib_brings. cbn; auto 60.
    - destruct t; try (cbn [is_rust_string]; destruct (b && is_considered_improper T _); [rewrite raw_brings; apply void_brings|apply Q]).
      + cbn [is_rust_string]. destruct (String.eqb_spec (n_rust n) "String") as [E|N].
        * cbn [Lifetime_Spec.written]. cbn [Lifetime_Spec.brings]. f_equal. rewrite lib_brings by (cbn; auto 60). symmetry. apply (string_args scope); assumption.
        * destruct (b && is_considered_improper T (TIdent n)); [rewrite raw_brings; apply void_brings|apply Q].
      + change (olt l :: brings (extern_lty T b (TVec t)) = olt l :: carried ar (fun u => b && is_considered_improper T u) (TVec t)). f_equal. auto.
    - destruct (b && is_considered_improper T t); [rewrite raw_brings; apply void_brings|]. apply Q.
    - apply lib_brings. cbn; auto 60.
    - apply lib_brings. cbn; auto 60.
  Qed.
End Types.

(** * Functions *)
Section Functions.
  Context (ar : string -> nat).
  Hypothesis Hown : forall x, In x own_names -> ar x = 0.
  Notation brings := (brings ar). Notation written := (written ar).
  Lemma receiver_brings r : brings (receiver_ty r) = olt (rc_lt r) :: args_of ar (n_rust (rc_ty r)) (n_lts (rc_ty r)).
  Proof. unfold receiver_ty. rewrite (pin_brings _ Hown). cbn [Lifetime_Spec.brings flat_map]. rewrite app_nil_r. reflexivity. Qed.
  Lemma receiver_proper scope r : proper_type ar scope (TIdent (rc_ty r)) -> (forall a, rc_lt r = Some a -> in_scope scope a) -> proper_lty ar scope (receiver_ty r).
  Proof. intros P H. inversion P; subst. apply proper_pin. constructor; [exact H|]. constructor; auto. Qed.
  Definition result_of (throws : bool) (err : lty) (ret : option ty) : option lty :=
    if throws then Some (lib "core::result::Result" [match ret with Some r => print_type r | None => LPath "()" [] [] end; err]) else option_map print_type ret.
  Lemma result_brings th err ret : brings err = [] -> obrings ar (result_of th err ret) = owritten ar ret.
  Proof.
    intros E. unfold result_of. destruct th; [|apply (obrings_print _ Hown)]. cbn [obrings]. rewrite (lib_brings _ Hown) by (cbn; auto 60). cbn [flat_map]. rewrite E, app_nil_r.
    destruct ret; cbn [owritten app]; [apply (brings_print _ Hown)|]. rewrite (path_brings _ Hown) by (cbn; auto 60). reflexivity.
  Qed.
  Lemma result_proper scope th err ret : proper_lty ar scope err -> (forall r, ret = Some r -> proper_type ar scope r) -> forall t, result_of th err ret = Some t -> proper_lty ar scope t.
  Proof.
    intros E R t. unfold result_of. destruct th.
    - intros H. injection H as <-. apply proper_lib. constructor; [|constructor; [exact E|constructor]]. destruct ret; [apply (proper_print _ Hown); auto|constructor; auto].
    - destruct ret as [r|]; [|discriminate]. intros H. injection H as <-. apply (proper_print _ Hown). auto.
  Qed.
  Lemma args_proper scope (args : list (string * ty)) : Forall (fun a => proper_type ar scope (snd a)) args -> Forall (proper_lty ar scope) (map (fun a => print_type (snd a)) args).
  Proof. intros H. apply Forall_map. rewrite Forall_forall in *. intros a I. apply (proper_print _ Hown). auto. Qed.
  Lemma self_lifetime_receiver r : self_lifetime (receiver_self r) = Some (olt (rc_lt r)).
  Proof. unfold receiver_self, pin, lib. destruct (rc_pinned r); reflexivity. Qed.

  Lemma wrapper_ok T f g : declared_ok ar f -> (forall r p lts, fn_receiver f = Some r -> try_resolve T (n_rust (rc_ty r)) = Some (p, lts) -> List.length lts = ar (n_rust (rc_ty r))) ->
    wrapper_fn T f = Some g ->
    compiles ar g /\ (forall l, means ar g l <-> declared_means ar f l) /\ map brings (l_params g) = map (fun a => written (snd a)) (fn_args f).
  Proof.
    intros [Ds Dr Da Dt Dm] Hr E. unfold wrapper_fn in E.
    set (err := lib "Exception" []) in E. change (if fn_throws f then _ else _) with (result_of (fn_throws f) err (fn_ret f)) in E.
    assert (Eb : brings err = []) by (apply (lib_brings _ Hown); cbn; auto 60).
    assert (Ep : forall s, proper_lty ar s err) by (intros s; apply proper_lib; constructor).
    assert (M : forall l, means ar g l <-> declared_means ar f l).
    { intros l. unfold means, declared_means, inputs, elides. destruct (fn_receiver f) as [r|] eqn:Er.
      - destruct (try_resolve T (n_rust (rc_ty r))) as [(p, lts)|]; [|discriminate]. cbn [option_map] in E. injection E as <-. cbn [l_self l_params l_ret option_map].
        rewrite (result_brings _ _ _ Eb), self_lifetime_receiver. reflexivity.
      - injection E as <-. cbn [l_self l_params l_ret option_map app]. rewrite (result_brings _ _ _ Eb), (brings_prints _ Hown). reflexivity. }
    split; [|split; [exact M|]].
    2: { destruct (fn_receiver f) as [r|]; [destruct (try_resolve T (n_rust (rc_ty r))) as [(p, lts)|]; [|discriminate]|]; cbn [option_map] in E; injection E as <-; apply (brings_prints _ Hown). }
    assert (Mx : exists l, means ar g l) by (destruct Dm as (l & L); exists l; apply M; exact L).
    destruct (fn_receiver f) as [r|] eqn:Er.
    - destruct (Dr r eq_refl) as (P & L). destruct (try_resolve T (n_rust (rc_ty r))) as [(p, lts)|] eqn:R; [|discriminate]. specialize (Hr r p lts eq_refl R).
      cbn [option_map snd] in E. injection E as <-. split; unfold scope_of; cbn [l_impl l_generics l_self l_params l_ret fst]; rewrite ?app_nil_r; auto.
      + intros h Eh. injection Eh as <-. split; [exact Ds|]. eexists _, _. split; [reflexivity|]. cbn [fst]. inversion P as [? C I| | | | | | | | | | | | |]; subst.
        destruct (n_lts (rc_ty r)) as [|a l0].
        * split; [rewrite map_length; exact Hr|]. apply Forall_map, Forall_forall. intros a _. left. reflexivity.
        * split; [destruct C; [discriminate|assumption]|exact I].
      + intros t Et. injection Et as <-. unfold receiver_self. apply proper_pin. constructor; [exact L|]. constructor; auto.
      + apply args_proper, Da.
      + apply result_proper; auto.
    - injection E as <-. split; unfold scope_of; cbn [l_impl l_generics l_self l_params l_ret app]; auto; try discriminate; [apply args_proper, Da|apply result_proper; auto].
  Qed.
  Lemma self_first f r : fn_receiver f = Some r -> exists w ws', inputs ar f = (olt (rc_lt r) :: w) :: ws'.
  Proof. unfold inputs. intros ->. eexists _, _. reflexivity. Qed.

  Lemma super_ok f : declared_ok ar f ->
    map brings (l_params (super_fn f)) = inputs ar f /\ (compiles ar (super_fn f) <-> (In None (owritten ar (fn_ret f)) -> exists o, sole (inputs ar f) o)) /\
    forall l, means ar (super_fn f) l -> declared_means ar f l.
  Proof.
    intros [Ds Dr Da Dt Dm]. unfold super_fn.
    set (err := LPath "impl ::cxx::core::fmt::Display" [] []). change (if fn_throws f then _ else _) with (result_of (fn_throws f) err (fn_ret f)).
    assert (Eb : brings err = []) by (apply (path_brings _ Hown); cbn; auto 60).
    assert (Ep : forall s, proper_lty ar s err) by (intros s; constructor; auto).
    assert (I : map brings (receivers (fn_sig f) ++ map (fun a => print_type (snd a)) (fn_args f)) = inputs ar f).
    { rewrite map_app, (brings_prints _ Hown). unfold inputs, receivers. cbn [fn_sig sg_receiver]. destruct (fn_receiver f); [|reflexivity]. cbn [map]. rewrite receiver_brings. reflexivity. }
    split; [exact I|]. split.
    - assert (E : (exists l, means ar (LFn None (fn_generics f) None (receivers (fn_sig f) ++ map (fun a => print_type (snd a)) (fn_args f)) (result_of (fn_throws f) err (fn_ret f))) l)
        <-> (In None (owritten ar (fn_ret f)) -> exists o, sole (inputs ar f) o)).
      { unfold means. cbn [l_self l_params l_ret app]. rewrite elides_exists, I, (result_brings _ _ _ Eb). tauto. }
      rewrite <- E. split; [intros C; apply C|]. intros M. split; unfold scope_of; cbn [l_impl l_generics l_self l_params l_ret app]; try discriminate; auto.
      + apply Forall_app. split; [|apply args_proper, Da]. unfold receivers. cbn [fn_sig sg_receiver]. destruct (fn_receiver f) as [r|]; [|constructor].
        destruct (Dr r eq_refl) as (P & L). constructor; [apply receiver_proper; assumption|constructor].
      + apply result_proper; auto.
    - intros l M. unfold means in M. cbn [l_self l_params l_ret app] in M. rewrite I, (result_brings _ _ _ Eb) in M.
      destruct (elides_sub (option_map (fun r => olt (rc_lt r)) (fn_receiver f)) (inputs ar f) (inputs ar f) (owritten ar (fn_ret f)) (owritten ar (fn_ret f)) l) as (l0 & L & S);
        auto; try apply subseq_refl.
      + apply forall2_refl.
      + intros r0 Er. destruct (fn_receiver f) as [r|] eqn:Er'; [|discriminate]. injection Er as <-. destruct (self_first _ _ Er') as (w & ws' & ->). eauto.
      + assert (l = l0) as ->; [|exact L]. assert (Q : List.length l = List.length l0).
        { assert (LL : forall self ws outs x, elides self ws outs x -> List.length x = List.length outs) by (unfold elides; intros self ws outs x H; induction H; cbn; congruence).
          rewrite (LL _ _ _ _ M), (LL _ _ _ _ L). reflexivity. }
        clear -S Q. induction S; [reflexivity| |].
        * cbn in Q. f_equal. apply IHS. congruence.
        * exfalso. assert (B : List.length l <= List.length l') by (clear -S; induction S; cbn; lia). cbn in Q. lia.
  Qed.

  (** The functions that use the C ABI *)
  Section C_abi.
    Context (n : nat) (T : types) (b : bool).
    Notation hidden := (fun u => b && is_considered_improper T u).
    Definition param_ok (scope : list string) (param : ty -> option lty) : Prop :=
      forall t e, proper_type ar scope t -> param t = Some e -> proper_lty ar scope e /\ brings e = carried ar hidden t.
    Lemma header_ok scope param extra s g (w : list (list lifetime)) :
      good_scope scope -> param_ok scope param -> Forall (proper_lty ar scope) extra -> Forall (eq []) (map brings extra) ->
      (forall r, sg_receiver s = Some r -> proper_type ar scope (TIdent (rc_ty r)) /\ forall a, rc_lt r = Some a -> in_scope scope a) ->
      Forall (fun a => proper_type ar scope (snd a)) (sg_args s) -> (forall r, sg_ret s = Some r -> proper_type ar scope r) ->
      w = map brings (receivers s) ++ map (fun a => carried ar hidden (snd a)) (sg_args s) ->
      extern_fn_header n T b param extra scope s = Some g ->
      (compiles ar g <-> (forall r, sg_throws s = false -> sg_ret s = Some r -> l_ret g <> None -> In None (carried ar hidden r) -> exists o, sole w o)) /\
      (obrings ar (l_ret g) <> [] -> exists z, map brings (l_params g) = w ++ z /\ Forall (eq []) z) /\
      subseq (obrings ar (l_ret g)) (owritten ar (sg_ret s)) /\ l_self g = None.
    Proof.
      intros Hs Hp Ee Eb Hr Ha Ht -> E. unfold extern_fn_header in E. destruct (extern_ret n T b s) as [ret|] eqn:Er; [|discriminate]. cbn [obind] in E.
      destruct (otraverse (fun a => param (snd a)) (sg_args s)) as [ps|] eqn:Ep; [|discriminate]. cbn [obind] in E.
      destruct (extern_outparam n T b s) as [out|] eqn:Eo; [|discriminate]. cbn [obind] in E. injection E as <-. cbn [l_ret l_params l_self].
      assert (Pp : Forall (proper_lty ar scope) ps /\ map brings ps = map (fun a => carried ar hidden (snd a)) (sg_args s)).
      { clear Er Eo. revert ps Ep Ha. induction (sg_args s) as [|a args IH]; intros ps Ep Ha; cbn in Ep; [injection Ep as <-; split; [constructor|reflexivity]|].
        inversion Ha; subst. destruct (param (snd a)) as [e|] eqn:Pe; [|discriminate]. cbn in Ep. destruct (otraverse _ args) as [es|]; [|discriminate]. cbn in Ep. injection Ep as <-.
        destruct (Hp _ _ ltac:(eassumption) Pe) as (A & B). destruct (IH es eq_refl ltac:(assumption)) as (C & D). split; [constructor; assumption|cbn; congruence]. }
      destruct Pp as (Pp & Pb).
      assert (Pr : Forall (proper_lty ar scope) (receivers s)).
      { unfold receivers. destruct (sg_receiver s) as [r|]; [|constructor]. destruct (Hr r eq_refl). constructor; [apply receiver_proper; assumption|constructor]. }
      assert (Po : Forall (proper_lty ar scope) out).
      { unfold extern_outparam in Eo. destruct (indirect_return n T s) as [[]|]; [|injection Eo as <-; constructor|discriminate].
        destruct (sg_ret s) as [r|]; [|discriminate]. injection Eo as <-. constructor; [apply proper_raw, (proper_extern _ Hown); auto|constructor]. }
      assert (Rb : obrings ar ret = [] \/ (out = [] /\ sg_throws s = false /\ ret <> None /\ exists r, sg_ret s = Some r /\ obrings ar ret = carried ar hidden r)).
      { unfold extern_ret in Er. unfold extern_outparam, indirect_return in Eo. destruct (sg_throws s) eqn:Th.
        - injection Er as <-. left. cbn [obrings]. apply (lib_brings _ Hown). cbn; auto 60.
        - destruct (sg_ret s) as [r|]; [|injection Er as <-; left; reflexivity]. destruct (needs_indirect_abi n T r) as [[]|]; [| |discriminate]; cbn in Er, Eo; injection Er as <-.
          + left. reflexivity.
          + right. injection Eo as <-. split; [reflexivity|]. split; [reflexivity|]. split; [discriminate|]. exists r. split; [reflexivity|]. cbn [obrings]. apply (extern_carried _ Hown scope). auto. }
      assert (Rp : forall t, ret = Some t -> proper_lty ar scope t).
      { intros t ->. unfold extern_ret in Er. destruct (sg_throws s); [injection Er as <-; apply proper_lib; constructor|].
        destruct (sg_ret s) as [r|]; [|discriminate]. destruct (needs_indirect_abi n T r) as [[]|]; try discriminate. cbn in Er. injection Er as <-. apply (proper_extern _ Hown). auto. }
      assert (Rr : forall r, sg_throws s = false -> sg_ret s = Some r -> ret <> None -> obrings ar ret = carried ar hidden r).
      { intros r Th R N. unfold extern_ret in Er. rewrite Th, R in Er. destruct (needs_indirect_abi n T r) as [[]|]; try discriminate; cbn in Er; injection Er as <-; [congruence|].
        cbn [obrings]. apply (extern_carried _ Hown scope). auto. }
      set (w := map brings (receivers s) ++ map (fun a => carried ar hidden (snd a)) (sg_args s)).
      assert (W : out = [] -> map brings (receivers s ++ ps ++ out ++ extra) = w ++ map brings extra).
      { intros ->. rewrite !map_app, Pb. unfold w. rewrite <- app_assoc. reflexivity. }
      split; [|split; [|split; [|reflexivity]]].
      - assert (M : (exists l, means ar (LFn None scope None (receivers s ++ ps ++ out ++ extra) ret) l) <->
          (forall r, sg_throws s = false -> sg_ret s = Some r -> ret <> None -> In None (carried ar hidden r) -> exists o, sole w o)).
        { unfold means. cbn [l_self l_params l_ret app]. rewrite elides_exists. split.
          - intros H r Th R N I. rewrite <- (Rr r Th R N) in I. destruct Rb as [Rb|(-> & _)]; [rewrite Rb in I; destruct I|]. destruct (H I eq_refl) as (o & Ho). exists o. rewrite W in Ho by reflexivity.
            exact (proj1 (sole_app _ _ _ Eb) Ho).
          - intros H I _. destruct Rb as [Rb|(-> & Th & N & r & R & Rb)]; [rewrite Rb in I; destruct I|]. rewrite Rb in I. destruct (H r Th R N I) as (o & Ho). exists o. rewrite W by reflexivity.
            apply sole_app; assumption. }
        rewrite <- M. split; [intros C; apply C|]. intros Mx. split; unfold scope_of; cbn [l_impl l_generics l_self l_params l_ret app]; try discriminate; auto.
        apply Forall_app. split; [exact Pr|]. apply Forall_app. split; [exact Pp|]. apply Forall_app. split; assumption.
      - intros N. destruct Rb as [Rb|(O & _)]; [congruence|]. exists (map brings extra). split; [apply W, O|exact Eb].
      - destruct Rb as [->|(_ & _ & _ & r & -> & ->)]; [apply subseq_nil|]. apply (carried_sub ar).
    Qed.
    Lemma header_means scope param extra s g self ws outs l' :
      good_scope scope -> param_ok scope param -> Forall (proper_lty ar scope) extra -> Forall (eq []) (map brings extra) ->
      (forall r, sg_receiver s = Some r -> proper_type ar scope (TIdent (rc_ty r)) /\ forall a, rc_lt r = Some a -> in_scope scope a) ->
      Forall (fun a => proper_type ar scope (snd a)) (sg_args s) -> (forall r, sg_ret s = Some r -> proper_type ar scope r) ->
      self = option_map (fun r => olt (rc_lt r)) (sg_receiver s) -> ws = map brings (receivers s) ++ map (fun a => written (snd a)) (sg_args s) -> outs = owritten ar (sg_ret s) ->
      (exists l, elides self ws outs l) ->
      extern_fn_header n T b param extra scope s = Some g -> means ar g l' -> exists l, elides self ws outs l /\ subseq l' l.
    Proof.
      intros Hs Hp Ee Eb Hr Ha Ht -> -> -> Hx E M. destruct (header_ok scope param extra s g _ Hs Hp Ee Eb Hr Ha Ht eq_refl E) as (_ & W & Sb & Ns).
      unfold means in M. rewrite Ns in M. cbn [app] in M. destruct (obrings ar (l_ret g)) as [|x rest] eqn:Eg.
      { inversion M; subst. destruct Hx as (l & L). exists l. split; [exact L|apply subseq_nil]. }
      destruct W as (z & Wz & Hz); [discriminate|]. rewrite Wz in M.
      set (gs := map brings (receivers s) ++ map (fun a => carried ar hidden (snd a)) (sg_args s)) in *.
      assert (M' : elides None gs (x :: rest) l').
      { clear -M Hz. unfold elides in *. revert M. generalize (x :: rest) as o. intros o M. induction M as [|y o1 ? ? H M IH]; constructor; [|exact IH]. destruct y; [exact H|]. apply (sole_app _ z); assumption. }
      apply (elides_sub _ _ gs _ (x :: rest) l'); auto.
      - unfold gs. apply Forall2_app; [apply forall2_refl|].
        clear. induction (sg_args s) as [|a l IH]; cbn [map]; [constructor|]. constructor; [apply (carried_sub ar)|exact IH].
      - intros r0 Er. unfold gs, receivers. destruct (sg_receiver s) as [r|]; [|discriminate]. injection Er as <-. cbn [map app]. rewrite receiver_brings. eauto 10.
    Qed.
  End C_abi.
  Lemma decl_param_ok n T scope : param_ok T true scope (decl_param n T).
  Proof.
    intros t e P. unfold decl_param. assert (Q := proper_extern _ Hown _ T true t P). assert (C := extern_carried _ Hown _ T true t P).
    assert (R : forall m, proper_lty ar scope (raw m (extern_lty T true t)) /\ brings (raw m (extern_lty T true t)) = carried ar (fun u => true && is_considered_improper T u) t).
    { intros m. split; [apply proper_raw, Q|rewrite (raw_brings _ Hown); exact C]. }
    destruct (is_rust_string t) eqn:Es; [intros E; injection E as <-; apply R|].
    assert (D : obind (needs_indirect_abi n T t) (fun i => Some (if i then raw true (extern_lty T true t) else extern_lty T true t)) = Some e ->
      proper_lty ar scope e /\ brings e = carried ar (fun u => true && is_considered_improper T u) t).
    { destruct (needs_indirect_abi n T t) as [[]|]; [| |discriminate]; cbn [obind]; intros E; injection E as <-; auto. }
    destruct t; try exact D; cbv zeta; intros E; injection E as <-; [apply R|]. split; [apply proper_lib; constructor|]. apply (lib_brings _ Hown). cbn; auto 60.
  Qed.
  Lemma shim_param_ok n T scope : param_ok T false scope (shim_param n T).
  Proof.
    intros t e P. unfold shim_param. assert (Q := proper_extern _ Hown _ T false t P). assert (C := extern_carried _ Hown _ T false t P).
    destruct (needs_indirect_abi n T t) as [[]|]; [| |discriminate]; cbv zeta; cbn [obind]; intros E; injection E as <-; [split; [apply proper_raw, Q|rewrite (raw_brings _ Hown); exact C]|auto].
  Qed.
End Functions.
