(** Proofs about the members of the generated classes. *)
From Verif Require Import Base StrLib Syntax_Model Toposort_Model Types_Model Types_Spec Types_Proofs Types_Proofs2 Types_Props
  Check_Model Check_Spec Check_Proofs Mangle_Model Mangle_Spec Mangle_Proofs Mangle_Proofs2 Abi_Model Derive_Model CxxExpr_Model CxxExpr_Spec CxxExpr_Proofs
  Expr_Proofs2 Unit_Model Unit_Spec Unit_Proofs Unit_Proofs2 Member_Model Member_Spec.
From Coq Require Import Lia.

(** * Lists *)
Lemma fop_app {A} (R : A -> A -> Prop) l l' : ForallOrdPairs R (l ++ l') <-> ForallOrdPairs R l /\ ForallOrdPairs R l' /\ forall x y, In x l -> In y l' -> R x y.
Proof.
  induction l as [|a l IH]; cbn [app].
  - split; [intros H; split; [constructor|split; [exact H|intros x y []]]|intros (_ & H & _); exact H].
  - split.
    + intros H. inversion H as [|? ? F H']; subst. apply IH in H' as (H1 & H2 & H3). rewrite Forall_app in F. destruct F as (F1 & F2).
      split; [constructor; assumption|]. split; [exact H2|]. intros x y [<-|I] J; [rewrite Forall_forall in F2; auto|auto].
    + intros (H1 & H2 & H3). inversion H1 as [|? ? F H']; subst. constructor.
      * apply Forall_app. split; [exact F|]. apply Forall_forall. intros y J. apply H3; [left; reflexivity|exact J].
      * apply IH. split; [exact H'|]. split; [exact H2|]. intros x y I J. apply H3; [right; exact I|exact J].
Qed.
Lemma fop_map {A B} (R : B -> B -> Prop) (f : A -> B) l : ForallOrdPairs R (map f l) <-> ForallOrdPairs (fun x y => R (f x) (f y)) l.
Proof.
  induction l as [|a l IH]; cbn [map]; [split; constructor|]. split; intros H; inversion H as [|? ? F H']; subst; constructor.
  - rewrite Forall_map in F. exact F.
  - apply IH, H'.
  - rewrite Forall_map. exact F.
  - apply IH, H'.
Qed.
Lemma fop_impl {A} (R S : A -> A -> Prop) l : (forall x y, In x l -> In y l -> R x y -> S x y) -> ForallOrdPairs R l -> ForallOrdPairs S l.
Proof.
  intros H F. induction F as [|a l Fa F IH]; constructor.
  - rewrite Forall_forall in *. intros y I. apply H; [left; reflexivity|right; exact I|auto].
  - apply IH. intros x y I J. apply H; right; assumption.
Qed.
Lemma fop_nodup {A} (l : list A) : ForallOrdPairs (fun x y => x <> y) l <-> NoDup l.
Proof.
  induction l as [|a l IH]; [split; constructor|]. split; intros H; inversion H as [|? ? F H']; subst; constructor.
  - intros I. rewrite Forall_forall in F. exact (F a I eq_refl).
  - apply IH, H'.
  - apply Forall_forall. intros y I ->. contradiction.
  - apply IH, H'.
Qed.
Lemma fop_forall2 {A B} (P : A -> B -> Prop) (R : A -> A -> Prop) (S : B -> B -> Prop) l l' :
  (forall a b a' b', P a b -> P a' b' -> (R a a' <-> S b b')) -> Forall2 P l l' -> (ForallOrdPairs R l <-> ForallOrdPairs S l').
Proof.
  intros H F. induction F as [|a b l l' Pab F IH]; [split; constructor|].
  assert (E : Forall (R a) l <-> Forall (S b) l').
  { clear IH. induction F as [|a' b' l l' P' F IH]; [split; constructor|]. split; intros G; inversion G; subst; constructor; try (apply (H a b a' b' Pab P'); assumption); apply IH; assumption. }
  split; intros G; inversion G; subst; constructor; try (apply E; assumption); apply IH; assumption.
Qed.
Lemma otraverse_forall2 {A B} (f : A -> option B) l r : otraverse f l = Some r -> Forall2 (fun a b => f a = Some b) l r.
Proof.
  revert r. induction l as [|a l IH]; intros r E; [injection E as <-; constructor|]. apply otraverse_inv in E as (b & bs & Ea & El & ->). constructor; auto.
Qed.
Lemma forall2_in_l {A B} (P : A -> B -> Prop) l l' a : Forall2 P l l' -> In a l -> exists b, In b l' /\ P a b.
Proof. intros F. induction F as [|x y l l' Pxy F IH]; intros []; [subst; exists y; split; [left; reflexivity|exact Pxy]|]. destruct (IH H) as (b & I & Pb). exists b. split; [right; exact I|exact Pb]. Qed.
Lemma forall2_in_r {A B} (P : A -> B -> Prop) l l' b : Forall2 P l l' -> In b l' -> exists a, In a l /\ P a b.
Proof. intros F. induction F as [|x y l l' Pxy F IH]; intros []; [subst; exists x; split; [left; reflexivity|exact Pxy]|]. destruct (IH H) as (a & I & Pa). exists a. split; [right; exact I|exact Pa]. Qed.

(** * Types in C++ *)
Lemma stands_fun apis x p q : stands_for apis x p -> stands_for apis x q -> p = q.
Proof.
  intros (pre & a & post & E & D & R & L) (pre' & b & post' & E' & D' & R' & L'). rewrite E in E'. clear E.
  revert pre' E'. induction pre as [|c pre IH]; intros [|c' pre'] E'; cbn in E'; injection E' as E1 E2.
  - subst. congruence.
  - subst. exfalso. apply (L b q); [apply in_or_app; right; left; reflexivity|exact D'|congruence].
  - subst. exfalso. apply (L' a p); [apply in_or_app; right; left; reflexivity|exact D|congruence].
  - eapply IH, E2.
Qed.
Lemma denotes_fun apis t : forall c c', denotes apis t c -> denotes apis t c' -> c = c'.
Proof.
  assert (L : forall args, Forall (fun a : string * ty => forall c c', denotes apis (snd a) c -> denotes apis (snd a) c' -> c = c') args ->
    forall cs cs', Forall2 (fun a c => denotes apis (snd a) c) args cs -> Forall2 (fun a c => denotes apis (snd a) c) args cs' -> cs = cs').
  { intros args F. induction F as [|a l H F IH]; intros cs cs' D D'; inversion D; subst; inversion D'; subst; [reflexivity|]. f_equal; auto. }
  induction t using ty_ind'; intros c c' D D'; inversion D; subst; inversion D'; subst; try reflexivity; try (f_equal; auto; fail).
  - f_equal. match goal with A : n_rust n = atom_name ?a, B : n_rust n = atom_name ?b |- _ => rewrite A in B; destruct a, b; cbn in B; congruence end.
  - exfalso. match goal with N : ~ is_primitive _, A : _ = atom_name ?a |- _ => apply N; rewrite A; exists a; destruct a; reflexivity end.
  - exfalso. match goal with N : ~ is_primitive _, A : _ = atom_name ?a |- _ => apply N; rewrite A; exists a; destruct a; reflexivity end.
  - f_equal. eapply stands_fun; eassumption.
  - f_equal. eapply L; eassumption.
  - f_equal; [eapply L; eassumption|]. f_equal. eauto.
Qed.
Lemma params_fun apis f cs cs' : cxx_params apis f cs -> cxx_params apis f cs' -> cs = cs'.
Proof.
  unfold cxx_params. intros F. revert cs'. induction F as [|a c l cs D F IH]; intros cs' F'; inversion F'; subst; [reflexivity|]. f_equal; [eapply denotes_fun; eassumption|auto].
Qed.

(** * Classes *)
Lemma methods_eq apis x : methods_for apis x = methods_on apis x.
Proof.
  unfold methods_for, methods_on, functions. induction apis as [|a l IH]; [reflexivity|]. cbn [flat_map]. rewrite IH.
  destruct a; cbn [app]; try reflexivity; cbn [filter]; unfold on_type; destruct (fn_receiver f) as [r|]; cbn [when app]; try reflexivity;
    destruct (String.eqb (n_rust (rc_ty r)) x); reflexivity.
Qed.
Lemma derives_in d l : derives d l = true <-> In d l.
Proof.
  unfold derives. rewrite existsb_exists. split.
  - intros (x & I & E). destruct d, x; cbn in E; try discriminate E; exact I.
  - intros I. exists d. split; [exact I|]. destruct d; reflexivity.
Qed.

Section Class.
  Variables (gen : generator) (ord : nat -> list string -> list string) (apis : list api) (T : types).
  Hypothesis Hacc : accepted_bridge gen ord apis T.

  Definition declared_as (f : extern_fn) (m : string * msig) : Prop :=
    fst m = p_cxx (fn_name f) /\ ms_const (snd m) = (match fn_receiver f with Some r => negb (rc_mutable r) | None => false end) /\ cxx_params apis f (ms_params (snd m)).
  Lemma shim_params f d : cxx_function_shim_decl T (fn_sig f) false = Some d -> cxx_params apis f (snd d).
  Proof using Hacc.
    unfold cxx_function_shim_decl. cbn [fn_sig sg_ret sg_args]. intros E. apply obind_inv in E as (r & _ & E). apply obind_inv in E as (cs & Ec & E). injection E as <-. cbn [snd].
    rewrite ?app_nil_r. eapply denotes_list; [exact Hacc|exact Ec].
  Qed.
  Lemma method_declared f m : method_decl T f = Some m -> declared_as f m.
  Proof using Hacc.
    unfold method_decl. intros E. apply option_map_inv in E as (d & Ed & ->). split; [reflexivity|]. split; [reflexivity|]. cbn [snd ms_params]. eapply shim_params, Ed.
  Qed.
  Lemma methods_declared x ms : otraverse (method_decl T) (methods_for apis x) = Some ms -> Forall2 declared_as (methods_on apis x) ms.
  Proof using Hacc.
    rewrite methods_eq. intros E. apply otraverse_forall2 in E. induction E as [|f m l l' E F IH]; constructor; [apply method_declared, E|exact IH].
  Qed.
  Lemma on_receiver x f : In f (methods_on apis x) -> exists r, fn_receiver f = Some r.
  Proof. intros I. apply filter_In in I as (_ & I). unfold on_type in I. destruct (fn_receiver f); [eauto|discriminate]. Qed.
  Lemma overload_iff f g m m' : declared_as f m -> declared_as g m' -> (exists r, fn_receiver f = Some r) -> (exists r, fn_receiver g = Some r) ->
    ((p_cxx (fn_name f) = p_cxx (fn_name g) -> receiver_mutable f = receiver_mutable g -> ~ same_params apis f g) <->
     coexist (MMethod (fst m) (snd m)) (MMethod (fst m') (snd m'))).
  Proof.
    intros (E1 & E2 & E3) (E1' & E2' & E3') (r & Er) (r' & Er'). unfold coexist, receiver_mutable. cbn [member_name]. rewrite Er in E2. rewrite Er' in E2'. rewrite Er, Er'.
    split.
    - intros H. destruct (string_dec (p_cxx (fn_name f)) (p_cxx (fn_name g))) as [N|N]; [right|left; congruence].
      intros (P & C). apply (H N); [rewrite E2, E2' in C; destruct (rc_mutable r), (rc_mutable r'); cbn in C; congruence|]. exists (ms_params (snd m)). split; [exact E3|rewrite P; exact E3'].
    - intros [H|H] N M (cs & S & S'); [congruence|]. apply H. split; [|congruence]. rewrite (params_fun _ _ _ _ E3 S), (params_fun _ _ _ _ E3' S'). reflexivity.
  Qed.
  Lemma overloads_iff x ms : Forall2 declared_as (methods_on apis x) ms ->
    (ForallOrdPairs (fun f g => p_cxx (fn_name f) = p_cxx (fn_name g) -> receiver_mutable f = receiver_mutable g -> ~ same_params apis f g) (methods_on apis x) <->
     ForallOrdPairs coexist (map (fun m => MMethod (fst m) (snd m)) ms)).
  Proof.
    intros F. rewrite fop_map.
    assert (F' : Forall2 (fun f m => declared_as f m /\ exists r, fn_receiver f = Some r) (methods_on apis x) ms).
    { pose proof (on_receiver x) as O. induction F as [|f m l l' D F IH]; constructor; [split; [exact D|apply O; left; reflexivity]|]. apply IH. intros g I. apply O. right. exact I. }
    eapply fop_forall2; [|exact F']. intros f m g m' (D & Rf) (D' & Rg). apply overload_iff; assumption.
  Qed.
  Lemma names_iff x ms (P : string -> Prop) : Forall2 declared_as (methods_on apis x) ms ->
    ((forall f, In f (methods_on apis x) -> P (p_cxx (fn_name f))) <-> (forall m, In m ms -> P (fst m))).
  Proof.
    intros F. split; intros H.
    - intros m I. destruct (forall2_in_r _ _ _ _ F I) as (f & J & (-> & _)). apply H, J.
    - intros f I. destruct (forall2_in_l _ _ _ _ F I) as (m & J & (<- & _)). apply H, J.
  Qed.

  Definition field_as (v : var) (f : string * cty) : Prop := fst f = p_cxx (v_name v).
  Lemma fields_declared s fs : cxx_fields T s = Some fs -> Forall2 field_as (st_fields s) fs.
  Proof.
    unfold cxx_fields. intros E. apply otraverse_forall2 in E. induction E as [|v f l l' E F IH]; constructor; [|exact IH]. apply option_map_inv in E as (c & _ & ->). reflexivity.
  Qed.
  Lemma fields_iff s fs (P : string -> Prop) : Forall2 field_as (st_fields s) fs ->
    ((forall v, In v (st_fields s) -> P (p_cxx (v_name v))) <-> (forall f, In f fs -> P (fst f))).
  Proof.
    intros F. split; intros H.
    - intros m I. destruct (forall2_in_r _ _ _ _ F I) as (f & J & E). rewrite E. apply H, J.
    - intros f I. destruct (forall2_in_l _ _ _ _ F I) as (m & J & E). rewrite <- E. apply H, J.
  Qed.
  Lemma operators_nodup s : NoDup (class_operators s).
  Proof.
    unfold class_operators. destruct (derives DPartialEq _), (derives DPartialOrd _); cbn [when app]; repeat constructor; cbn; intuition discriminate.
  Qed.
  Lemma operators_some s : (exists o, In o (class_operators s)) <-> In DPartialEq (st_derives s) \/ In DPartialOrd (st_derives s).
  Proof.
    rewrite <- !derives_in. unfold class_operators. destruct (derives DPartialEq _), (derives DPartialOrd _); cbn [when app]; split; intros H; auto; try (eexists; left; reflexivity).
    - destruct H as (o & []).
    - destruct H; discriminate.
  Qed.

  Lemma struct_class s l : struct_body T apis s = Some l -> (valid_class (p_cxx (st_name s)) l <-> struct_apart apis s).
  Proof using Hacc.
    unfold struct_body, field_members, method_members. intros E. apply obind_inv in E as (fs' & Ef & E). apply option_map_inv in Ef as (fs & Ef & ->).
    apply obind_inv in E as (ms' & Em & E). apply option_map_inv in Em as (ms & Em & ->). injection E as <-.
    apply fields_declared in Ef. apply methods_declared in Em. set (cls := p_cxx (st_name s)).
    assert (Nf : map fst fs = map (fun v => p_cxx (v_name v)) (st_fields s)) by (clear -Ef; induction Ef as [|v f l l' E F IH]; [reflexivity|]; cbn [map]; rewrite E, IH; reflexivity).
    assert (Ff : ForallOrdPairs coexist (map (fun f : string * cty => MField (fst f) (snd f)) fs) <-> NoDup (map (fun v => p_cxx (v_name v)) (st_fields s))).
    { rewrite <- Nf, <- fop_nodup, !fop_map. split; apply fop_impl; intros x y _ _; unfold coexist; cbn [member_name].
      - intros [H|[]]. congruence.
      - intros H. left. congruence. }
    unfold valid_class. rewrite !fop_app, !Forall_app, Ff, <- (overloads_iff _ _ Em). split.
    - intros ((N & (O & (_ & _ & MO) & Mo) & X) & (_ & Fm & Fo & Fa)). inversion Fa as [|? ? Fa1 _]; subst. cbn [fits] in Fa1. clear Fa.
      rewrite Forall_map, Forall_forall in Fm. cbn [fits] in Fm.
      constructor.
      + exact N.
      + intros f v I J. destruct (forall2_in_l _ _ _ _ Em I) as (m & Im & (Dm & _)). destruct (forall2_in_l _ _ _ _ Ef J) as (w & Iw & Dw). unfold field_as in Dw. rewrite <- Dm, <- Dw.
        destruct (X (MField (fst w) (snd w)) (MMethod (fst m) (snd m))) as [H|H].
        * apply (in_map (fun f => MField (fst f) (snd f))), Iw.
        * apply in_or_app. left. apply (in_map (fun m => MMethod (fst m) (snd m))), Im.
        * cbn [member_name] in H. congruence.
        * destruct H.
      + exact O.
      + apply (names_iff _ _ (fun x => x <> cls) Em). intros m I. apply Fm, I.
      + split; [intros Q; apply Fa1; symmetry; exact Q|]. split.
        * apply (fields_iff _ _ (fun x => x <> "IsRelocatable"%string) Ef). intros f I. destruct (X (MField (fst f) (snd f)) (MAlias "IsRelocatable")) as [H|H].
          -- apply (in_map (fun f => MField (fst f) (snd f))), I.
          -- apply in_or_app. right. apply in_or_app. right. left. reflexivity.
          -- cbn [member_name] in H. congruence.
          -- destruct H.
        * apply (names_iff _ _ (fun x => x <> "IsRelocatable"%string) Em). intros m I. destruct (Mo (MMethod (fst m) (snd m)) (MAlias "IsRelocatable")) as [H|H].
          -- apply (in_map (fun m => MMethod (fst m) (snd m))), I.
          -- apply in_or_app. right. left. reflexivity.
          -- cbn [member_name] in H. congruence.
          -- destruct H.
      + intros D. apply operators_some in D as (o & Io). rewrite Forall_map, Forall_forall in Fo. destruct (Fo o Io) as (_ & Z).
        apply (fields_iff _ _ (fun x => x <> cls) Ef). intros f I Q. apply (Z (snd f)). apply in_or_app. left. rewrite <- Q. apply (in_map (fun f => MField (fst f) (snd f))), I.
    - intros [N M O C (R1 & R2 & R3) Op].
      assert (M' : forall f m, In f fs -> In m ms -> fst f <> fst m).
      { intros f m I J. destruct (forall2_in_r _ _ _ _ Ef I) as (v & Iv & Dv). destruct (forall2_in_r _ _ _ _ Em J) as (g & Ig & (Dg & _)). unfold field_as in Dv. rewrite Dv, Dg. intros Q. symmetry in Q. exact (M g v Ig Iv Q). }
      assert (C' := proj1 (names_iff _ _ (fun x => x <> cls) Em) C). assert (R3' := proj1 (names_iff _ _ (fun x => x <> "IsRelocatable"%string) Em) R3).
      assert (R2' := proj1 (fields_iff _ _ (fun x => x <> "IsRelocatable"%string) Ef) R2). cbv beta in C', R2', R3'.
      split; [split; [exact N|]|].
      + split.
        * split; [exact O|]. split.
          -- split; [apply fop_map; apply (fop_impl (fun x y => x <> y)); [intros o o' _ _ H; left; cbn [member_name]; congruence|apply fop_nodup, operators_nodup]|].
             split; [repeat constructor|]. intros x y I [<-|[]]. apply in_map_iff in I as (o & <- & _). left. discriminate.
          -- intros x y I J. apply in_map_iff in I as (m & <- & I). apply in_app_or in J as [J|[<-|[]]].
             ++ apply in_map_iff in J as (o & <- & _). left. discriminate.
             ++ left. cbn [member_name]. intros Q. injection Q as Q. exact (R3' m I Q).
        * intros x y I J. apply in_map_iff in I as (f & <- & I). apply in_app_or in J as [J|J]; [|apply in_app_or in J as [J|[<-|[]]]].
          -- apply in_map_iff in J as (m & <- & J). left. cbn [member_name]. intros Q. injection Q as Q. exact (M' f m I J Q).
          -- apply in_map_iff in J as (o & <- & _). left. discriminate.
          -- left. cbn [member_name]. intros Q. injection Q as Q. exact (R2' f I Q).
      + split; [apply Forall_map, Forall_forall; intros f _; exact I|]. split; [apply Forall_map, Forall_forall; intros m I; exact (C' m I)|]. split.
        * apply Forall_map, Forall_forall. intros o Io. split; [reflexivity|]. intros t I.
          assert (Op' := proj1 (fields_iff _ _ (fun x => x <> cls) Ef) (Op (proj1 (operators_some s) (ex_intro _ o Io)))). cbv beta in Op'.
          apply in_app_or in I as [I|I]; [apply in_map_iff in I as (f & Q & I); injection Q as Q _; exact (Op' f I Q)|].
          apply in_app_or in I as [I|I]; [apply in_map_iff in I as (m & Q & _); discriminate|]. apply in_app_or in I as [I|[Q|[]]]; [apply in_map_iff in I as (m & Q & _); discriminate|discriminate].
        * repeat constructor. cbn [fits]. intros Q. apply R1. symmetry. exact Q.
  Qed.
  Lemma opaque_class t l : opaque_body T apis t = Some l -> (valid_class (p_cxx (et_name t)) l <-> opaque_apart apis t).
  Proof using Hacc.
    unfold opaque_body, method_members. intros E. apply option_map_inv in E as (ms' & Em & ->). apply option_map_inv in Em as (ms & Em & ->). apply methods_declared in Em.
    set (cls := p_cxx (et_name t)). unfold valid_class. rewrite fop_app, Forall_app, <- (overloads_iff _ _ Em). split.
    - intros ((O & _ & _) & Fm & Fl). rewrite Forall_map, Forall_forall in Fm. cbn [fits] in Fm. inversion Fl as [|? ? _ Fl']; subst. inversion Fl' as [|? ? Fl1 _]; subst. cbn [fits] in Fl1. constructor.
      + exact O.
      + apply (names_iff _ _ (fun x => x <> cls) Em). intros m I. apply Fm, I.
      + intros Q; apply (proj1 Fl1); symmetry; exact Q.
    - intros [O C L]. assert (C' := proj1 (names_iff _ _ (fun x => x <> cls) Em) C). cbv beta in C'. split.
      + split; [exact O|]. split; [apply FOP_cons; [apply Forall_cons; [left; discriminate|apply Forall_nil]|repeat constructor]|]. intros x y I J. apply in_map_iff in I as (m & <- & I). destruct J as [<-|[<-|[]]]; [left; discriminate|right; exact Logic.I].
      + split; [apply Forall_map, Forall_forall; intros m I; exact (C' m I)|]. apply Forall_cons; [reflexivity|]. apply Forall_cons; [|apply Forall_nil].
        cbn [fits]. split; [intros Q; apply L; symmetry; exact Q|]. repeat constructor; cbn; intuition discriminate.
  Qed.
End Class.
