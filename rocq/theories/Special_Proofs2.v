From Verif Require Import Base Syntax_Model Types_Model Types_Spec Types_Props Toposort_Spec Toposort_Model Check_Spec Check_Model Check_Proofs Check_Props Unit_Proofs2 Layout_Proofs
  Special_Model Special_Spec Special_Proofs.
From Verif Require Layout_Proofs2 Abi_Proofs.
From Coq Require Import Lia.
Local Open Scope nat_scope.

Section Structs.
  Variables (s : cstd) (apis : list api) (user : string -> ctype).
  Notation cty := (cxx_type s apis user).
  Notation ctys := (cxx_types s apis user).

  (** * Copying *)
  Lemma part_trans t u v : part apis t u -> part apis u v -> part apis t v.
  Proof. induction 1; intros; [assumption|eapply pt_field; eauto|constructor; auto|constructor; auto]. Qed.
  Lemma held_part t u : held apis t u -> part apis t u.
  Proof. induction 1; [constructor|eapply pt_field; eauto|constructor; auto]. Qed.
  Lemma copies_part t u : copies_all apis t u <-> part apis t u.
  Proof.
    split.
    - induction 1 as [t|t u v H _ IH]; [constructor|]. destruct H as [n st f A I E N F| |]; [eapply pt_field; [apply not_prim, A|split; eauto|exact F|exact IH]|constructor; exact IH|constructor; exact IH].
    - induction 1 as [t|n st f u N (I & E & X) F _ IH|t k u _ IH|t u _ IH]; [constructor| | |]; (eapply ca_step; [|exact IH]); econstructor; eauto. apply not_prim, N.
  Qed.
  Lemma copy_iff t : (forall x, is_cxx_type apis x -> can_destroy (user x) = true) -> (forall n, is_rust_type apis n -> ~ is_primitive n) ->
    copy_compiles s apis user t <-> forall u, part apis t u -> ~ alone apis user u.
  Proof.
    intros Hd Hp. split.
    - intros C u P Al. apply copies_part in P. specialize (C u). destruct Al as [v|v|n R|n N U E].
      + discriminate (C box_class P (ct_box _ _ _ _)).
      + discriminate (C unique_ptr_class P (ct_unique _ _ _ _)).
      + assert (X : cty (TIdent n) opaque_class) by (apply ct_rust; [apply not_prim, Hp, R|exact R]). discriminate (C _ P X).
      + assert (X : cty (TIdent n) (user (n_rust n))) by (apply ct_user; [apply not_prim, N|exact U]). specialize (C _ P X). congruence.
    - intros H u c P X. apply copies_part in P. apply (copy_held s apis user u c X Hd). intros v Hv. apply H. eapply part_trans; [exact P|apply held_part, Hv].
  Qed.
End Structs.

Section Accepted.
  Variables (gen : generator) (ord : nat -> list string -> list string) (apis : list api) (T : types) (s : cstd) (user : string -> ctype).
  Hypothesis Hacc : accepted_bridge gen ord apis T.
  Notation cty := (cxx_type s apis user).
  Notation ctys := (cxx_types s apis user).

  Lemma ex_struct_enum st n : In (AStruct st) apis -> p_rust (st_name st) = n -> is_enum apis n -> False.
  Proof using Hacc. intros I E (e & J & F). apply (Layout_Proofs2.struct_enum gen ord apis T Hacc st e I J). congruence. Qed.
  Lemma ex_struct_rust st n : In (AStruct st) apis -> p_rust (st_name st) = n -> is_rust_type apis n -> False.
  Proof using Hacc. intros I E R. destruct (rust_only gen ord apis T Hacc n R) as (N & _). apply N. exists st. auto. Qed.
  Lemma ex_enum_rust n : is_enum apis n -> is_rust_type apis n -> False.
  Proof using Hacc. intros I R. destruct (rust_only gen ord apis T Hacc n R) as (_ & N & _). auto. Qed.
  Lemma ex_cxx_rust n : is_cxx_type apis n -> is_rust_type apis n -> False.
  Proof using Hacc. intros I R. destruct (rust_only gen ord apis T Hacc n R) as (_ & _ & N & _). auto. Qed.
  Lemma ident_cases n c : cty (TIdent n) c ->
    (is_primitive (n_rust n) /\ (c = Scalar \/ c = string_class)) \/
    (exists st cs, In (AStruct st) apis /\ p_rust (st_name st) = n_rust n /\ ~ is_cxx_type apis (n_rust n) /\ ctys (map v_ty (st_fields st)) cs /\
       c = Class plain [] cs (map (fun f => default_value s (v_ty f)) (st_fields st))) \/
    (is_enum apis (n_rust n) /\ ~ is_cxx_type apis (n_rust n) /\ c = Scalar) \/
    (is_rust_type apis (n_rust n) /\ c = opaque_class) \/ (is_cxx_type apis (n_rust n) /\ c = user (n_rust n)).
  Proof. intros H. inversion H; subst; [left|left|right; left|right; right; left|right; right; right; left|right; right; right; right]; unfold is_primitive; eauto 12. Qed.
  Lemma struct_cty n c st : ~ is_primitive (n_rust n) -> defined_struct apis (n_rust n) st -> cty (TIdent n) c ->
    exists cs, ctys (map v_ty (st_fields st)) cs /\ c = Class plain [] cs (map (fun f => default_value s (v_ty f)) (st_fields st)).
  Proof using Hacc.
    intros N (I & E & X) H. apply ident_cases in H as [(P & _)|[(st' & cs & I' & E' & _ & C & ->)|[(P & _)|[(P & _)|(P & _)]]]]; try tauto.
    - assert (st' = st) as -> by (apply (struct_unique gen ord apis T Hacc); unfold struct_rust; congruence). eauto.
    - destruct (ex_struct_enum st _ I E P).
    - destruct (ex_struct_rust st _ I E P).
  Qed.

  (** The type is determined, and every value has one. *)
  Lemma cty_unique t c : cty t c -> forall c', cty t c' -> c' = c.
  Proof using Hacc.
    revert t c. enough (G : (forall t c, cty t c -> forall c', cty t c' -> c' = c) /\ forall ts cs, ctys ts cs -> forall cs', ctys ts cs' -> cs' = cs) by exact (proj1 G).
    apply cxx_type_both; try (intros; match goal with H : cxx_type _ _ _ _ _ |- _ => inversion H; reflexivity end).
    - intros n a E N1 N2 c' H. inversion H; subst; congruence.
    - intros n E c' H. inversion H; subst; congruence.
    - intros n st cs A I E N _ IH c' H. destruct (struct_cty n c' st) as (cs' & C & ->); [apply not_prim, A|split; auto|exact H|]. rewrite (IH _ C). reflexivity.
    - intros n A En N c' H. apply ident_cases in H as [((a & P) & _)|[(st' & cs & I' & E' & _ & C & ->)|[(P & _ & ->)|[(P & _)|(P & _)]]]]; try congruence; try tauto.
      + destruct (ex_struct_enum st' _ I' E' En).
      + destruct (ex_enum_rust _ En P).
    - intros n A R c' H. apply (opaque_cxx_type gen ord apis T Hacc s user n c' R), H.
    - intros n A U c' H. apply ident_cases in H as [((a & P) & _)|[(st' & cs & I' & E' & N & C & ->)|[(P & N & ->)|[(P & _)|(P & ->)]]]]; try congruence; try tauto.
      destruct (ex_cxx_rust _ U P).
    - intros t k c _ IH c1 H. inversion H as [| | | | | | | | | | | | | | |? ? c2 X|]; subst. rewrite (IH _ X). reflexivity.
    - intros cs' H. inversion H. reflexivity.
    - intros t c ts cs _ IH _ IHs cs1 H. inversion H as [|? c2 ? cs2 X Y]; subst. rewrite (IH _ X), (IHs _ Y). reflexivity.
  Qed.
  Lemma held_cty t c u : cty t c -> held apis t u -> exists cu, cty u cu.
  Proof using Hacc.
    intros H Hu. revert c H. induction Hu as [t|n st f u N D F _ IH|t k u _ IH]; intros c H; [eauto| |].
    - destruct (struct_cty n c st N D H) as (cs & C & _). destruct (types_In s apis user _ _ (v_ty f) C) as (cf & _ & Hf); [apply in_map, F|]. eauto.
    - inversion H; subst. eauto.
  Qed.
  Lemma inline_occurs u t : inline_in u t -> occurs u t.
  Proof. induction 1; [constructor|constructor; assumption]. Qed.
  Definition used (t : ty) : Prop := forall u, inline_in u t -> ~ unsized apis u /\ mentioned apis u.
  Lemma field_used st f : In (AStruct st) apis -> In f (st_fields st) -> used (v_ty f).
  Proof using Hacc.
    intros I F u H. split; [|exact (me_field _ _ st f I F (inline_occurs _ _ H))]. apply (unsized_ok gen ord apis T Hacc _ (proj2 (field_sized gen ord apis T Hacc st f I F)) u H).
  Qed.
  Lemma fields_exist fs : (forall f, In f fs -> exists c, cty (v_ty f) c) -> exists cs, ctys (map v_ty fs) cs.
  Proof.
    induction fs as [|f fs IH]; intros H; [exists []; constructor|]. destruct (H f (or_introl eq_refl)) as (c & C). destruct IH as (cs & Cs); [intros; apply H; right; assumption|].
    exists (c :: cs). constructor; assumption.
  Qed.
  Lemma cty_exists t : ~ has_cycle contains (structs_of apis) -> used t -> exists c, cty t c.
  Proof using Hacc.
    intros Hc. revert t. apply (inline_ind apis (Layout_Proofs2.nodup gen ord apis T Hacc) Hc (fun t => used t -> exists c, cty t c)).
    - intros t N1 N2 U. destruct t; try (destruct (N1 _ eq_refl)); try (destruct (N2 _ _ eq_refl)); try (eexists; constructor; fail);
        exfalso; destruct (U _ (ii_self _)) as (U1 & _); apply U1; constructor.
    - intros n Ns U. destruct (U _ (ii_self _)) as (U1 & M). destruct (atom_from_str (n_rust n)) as [a|] eqn:E.
      { destruct a; try (exists Scalar; eapply ct_prim; [exact E|discriminate|discriminate]); [|exists string_class; apply ct_string, E].
        exfalso. apply U1. constructor. exact (Abi_Proofs.atom_name_inv _ _ E). }
      destruct (proj1 (C51_names_resolve gen ord apis T Hacc) n M) as [(a & X)|(p & lts & _ & D & En)]; [congruence|].
      destruct (Layout_Proofs2.cxx_or gen ord apis T Hacc (n_rust n)) as [Cx|Nx]; [exists (user (n_rust n)); apply ct_user; assumption|].
      destruct D as [st I|e I|t I|t I|t I]; cbn in En.
      + destruct Ns. exists st. auto.
      + exists Scalar. apply ct_enum; [exact E|exists e; auto|exact Nx].
      + destruct Nx. left. eauto.
      + exfalso. apply U1. apply un_rust. exists t. auto.
      + destruct Nx. right. left. exists t. auto.
    - intros n st I E H U. destruct (atom_from_str (n_rust n)) as [a|] eqn:Ea.
      { exfalso. apply (C53_builtin_names_partial gen ord apis T (n_rust n) Hacc); [left; exists st; auto|right; exists a; exact Ea]. }
      destruct (Layout_Proofs2.cxx_or gen ord apis T Hacc (n_rust n)) as [Cx|Nx]; [exists (user (n_rust n)); apply ct_user; assumption|].
      destruct (fields_exist (st_fields st)) as (cs & Cs); [intros f F; apply (H f F), (field_used st f I F)|]. eexists. eapply ct_struct; eauto.
    - intros t k H U. destruct H as (c & C); [intros u X; apply U; constructor; exact X|]. exists (Class plain [] [c] []). constructor. exact C.
  Qed.

  (** From the whole to what is held *)
  Lemma trait_held (f : ctype -> bool) : (forall ms is_, f (Class plain [] ms is_) = true -> forallb f ms = true) ->
    forall t c u cu, cty t c -> f c = true -> held apis t u -> cty u cu -> f cu = true.
  Proof using Hacc.
    intros Hf t c u cu H C Hu. revert c H C cu. induction Hu as [t|n st g u N D F _ IH|t k u _ IH]; intros c H C cu Hcu.
    - rewrite (cty_unique t c H cu Hcu). exact C.
    - destruct (struct_cty n c st N D H) as (cs & Cs & ->). apply Hf in C. rewrite forallb_forall in C.
      destruct (types_In s apis user _ _ (v_ty g) Cs) as (cg & I & Hg); [apply in_map, F|]. exact (IH cg Hg (C cg I) cu Hcu).
    - inversion H as [| | | | | | | | | | | | | | |? ? c2 X|]; subst. apply Hf in C. cbn in C. rewrite andb_true_r in C. exact (IH c2 X C cu Hcu).
  Qed.
  Lemma copy_plain ms is_ : can_copy (Class plain [] ms is_) = true -> forallb can_copy ms = true.
  Proof. cbn. rewrite !andb_true_iff. tauto. Qed.
  Lemma assign_plain ms is_ : can_copy_assign (Class plain [] ms is_) = true -> forallb can_copy_assign ms = true.
  Proof. cbn. tauto. Qed.
  Lemma copy_trait t c u : cty t c -> can_copy c = true -> held apis t u -> ~ alone apis user u.
  Proof using Hacc.
    intros H C Hu A. destruct (held_cty t c u H Hu) as (cu & Hcu). pose proof (trait_held can_copy copy_plain t c u cu H C Hu Hcu) as X.
    destruct A as [v|v|n R|n N U E].
    - inversion Hcu; subst. discriminate X.
    - inversion Hcu; subst. discriminate X.
    - apply (opaque_cxx_type gen ord apis T Hacc s user n cu R) in Hcu as ->. discriminate X.
    - assert (Y : cty (TIdent n) (user (n_rust n))) by (apply ct_user; [apply not_prim, N|exact U]). rewrite (cty_unique _ _ Y _ Hcu) in X. congruence.
  Qed.
  Lemma assign_trait t c u : cty t c -> can_copy_assign c = true -> held apis t u -> ~ fixed apis user u.
  Proof using Hacc.
    intros H C Hu A. destruct (held_cty t c u H Hu) as (cu & Hcu). pose proof (trait_held can_copy_assign assign_plain t c u cu H C Hu Hcu) as X.
    destruct A as [p m l v|l v|v|v|n N U E]; try (inversion Hcu; subst; discriminate X).
    assert (Y : cty (TIdent n) (user (n_rust n))) by (apply ct_user; [apply not_prim, N|exact U]). rewrite (cty_unique _ _ Y _ Hcu) in X. congruence.
  Qed.
  (** Nothing that a struct holds is an opaque Rust object. *)
  Lemma held_sized t u : held apis t u -> used t -> used u.
  Proof using Hacc.
    induction 1 as [t|n st f u N (I & E & X) F _ IH|t k u _ IH]; intros U; [exact U|apply IH, (field_used st f I F)|].
    apply IH. intros v Hv. apply U. constructor. exact Hv.
  Qed.
  Lemma held_rust st n m : defined_struct apis (n_rust n) st -> ~ is_primitive (n_rust n) -> held apis (TIdent n) (TIdent m) -> ~ is_rust_type apis (n_rust m).
  Proof using Hacc.
    intros D N H R. inversion H as [t|n0 st' f u N' (I & E & X) F Hh|]; subst.
    - destruct D as (I & E & _). apply (ex_struct_rust st _ I E R).
    - destruct (held_sized _ _ Hh (field_used st' f I F) _ (ii_self _)) as (U & _). apply U. apply un_rust. exact R.
  Qed.

  (** * Initialisation *)
  Lemma default_11 fs : existsb (fun b => b) (map (fun f => default_value Cxx11 (v_ty f)) fs) = false.
  Proof. induction fs; cbn; auto. Qed.
  Lemma struct_aggregate fs cs : is_aggregate s (Class plain [] cs (map (fun f => default_value s (v_ty f)) fs)) = true.
  Proof. cbn. destruct s; try reflexivity. rewrite default_11. reflexivity. Qed.
End Accepted.

(** * Copies of values *)
Section ValInd.
  Variable P : val -> Prop.
  Hypothesis Hd : forall n, P (Data n).
  Hypothesis Ht : forall b s, P (Text b s).
  Hypothesis Hs : forall b vs, Forall P vs -> P (Seq b vs).
  Hypothesis Ho : forall a, P (Owner a).
  Hypothesis Hr : forall a, P (Refers a).
  Hypothesis Hp : forall vs, Forall P vs -> P (Parts vs).
  Fixpoint val_ind' (v : val) : P v :=
    match v with
    | Data n => Hd n
    | Text b s => Ht b s
    | Owner a => Ho a
    | Refers a => Hr a
    | Seq b vs => Hs b vs ((fix go (vs : list val) : Forall P vs := match vs with [] => Forall_nil _ | v :: vs => Forall_cons _ (val_ind' v) (go vs) end) vs)
    | Parts vs => Hp vs ((fix go (vs : list val) : Forall P vs := match vs with [] => Forall_nil _ | v :: vs => Forall_cons _ (val_ind' v) (go vs) end) vs)
    end.
End ValInd.
Definition copy_vals : nat -> list val -> option (list val * nat) :=
  fix go (next : nat) (vs : list val) : option (list val * nat) :=
    match vs with
    | [] => Some ([], next)
    | v :: vs => match copy_val next v with
                 | Some (v', next) => match go next vs with Some (vs', next) => Some (v' :: vs', next) | None => None end
                 | None => None
                 end
    end.
Lemma copy_seq next b vs : copy_val next (Seq b vs) = match copy_vals (S next) vs with Some (vs', n) => Some (Seq next vs', n) | None => None end.
Proof. reflexivity. Qed.
Lemma copy_parts next vs : copy_val next (Parts vs) = match copy_vals next vs with Some (vs', n) => Some (Parts vs', n) | None => None end.
Proof. reflexivity. Qed.
Definition good_copy (next : nat) (v v' : val) (n : nat) : Prop :=
  copy_val next v = Some (v', n) /\ next <= n /\ same v v' /\ (forall a, In a (frees v') -> next <= a < n) /\ NoDup (frees v').
Lemma NoDup_apart (l1 l2 : list nat) : NoDup l1 -> NoDup l2 -> (forall a, In a l1 -> In a l2 -> False) -> NoDup (l1 ++ l2).
Proof.
  induction l1 as [|a l1 IH]; intros N1 N2 D; [exact N2|]. inversion N1; subst. cbn. constructor.
  - rewrite in_app_iff. intros [H|H]; [contradiction|exact (D a (or_introl eq_refl) H)].
  - apply IH; [assumption|assumption|]. intros b X Y. exact (D b (or_intror X) Y).
Qed.
Lemma copy_list vs : Forall (fun v => forall next, exists v' n, good_copy next v v' n) vs -> forall next,
  exists vs' n, copy_vals next vs = Some (vs', n) /\ next <= n /\ Forall2 same vs vs' /\ (forall a, In a (flat_map frees vs') -> next <= a < n) /\ NoDup (flat_map frees vs').
Proof.
  induction 1 as [|v vs H _ IH]; intros next; [exists [], next; cbn; repeat split; auto; try contradiction; constructor|].
  destruct (H next) as (v' & n & E & L & S_ & B & N). destruct (IH n) as (vs' & n' & E' & L' & S' & B' & N').
  exists (v' :: vs'), n'. cbn [copy_vals]. fold copy_vals. rewrite E. fold copy_vals. rewrite E'. cbn [flat_map]. split; [reflexivity|]. split; [lia|]. split; [constructor; assumption|]. split.
  - intros a I. apply in_app_or in I as [I|I]; [specialize (B a I)|specialize (B' a I)]; lia.
  - apply NoDup_apart; [assumption|assumption|]. intros a X Y. specialize (B a X). specialize (B' a Y). lia.
Qed.
Lemma vals_parts apis ts vs : has_vals apis ts vs -> Forall (fun v => exists t, In t ts /\ has_val apis t v) vs.
Proof.
  induction 1 as [|t v ts vs H _ IH]; constructor; [exists t; split; [left; reflexivity|exact H]|]. eapply Forall_impl; [|exact IH]. intros w (t' & I & X). exists t'. split; [right|]; assumption.
Qed.
Lemma copy_good apis user v : forall t, has_val apis t v -> (forall u, part apis t u -> ~ alone apis user u) -> forall next, exists v' n, good_copy next v v' n.
Proof.
  unfold good_copy. induction v as [k|b l|b vs IH|a|a|vs IH] using val_ind'; intros t H A next.
  - exists (Data k), next. cbn. repeat split; auto; try contradiction; constructor.
  - exists (Text next l), (S next). cbn. repeat split; auto; try (destruct H0 as [<-|[]]; lia); constructor; [intros []|constructor].
  - inversion H as [| | | | | | |t0 b0 vs0 F|]; subst. destruct (copy_list vs) with (next := S next) as (vs' & n & E & L & S_ & B & N).
    { rewrite Forall_forall in *. intros v I next'. apply (IH v I t0 (F v I)). intros u Pu. apply A. constructor. exact Pu. }
    exists (Seq next vs'), n. rewrite copy_seq, E. cbn [frees]. split; [reflexivity|]. split; [lia|]. split; [constructor; exact S_|]. split.
    + intros a [<-|I]; [lia|specialize (B a I); lia].
    + constructor; [intros I; specialize (B _ I); lia|exact N].
  - exfalso. inversion H as [| | | |t0 a0 u0 Hu| | | |]; subst. destruct Hu as [Hu|Hu]; subst; apply (A _ (pt_self _ _)); constructor.
  - exists (Refers a), next. cbn. repeat split; auto; try contradiction; constructor.
  - destruct (copy_list vs) with (next := next) as (vs' & n & E & L & S_ & B & N).
    { inversion H as [| |n st vs0 Np D Hv| | | | | |t0 k vs0 Len F]; subst.
      - apply vals_parts in Hv. rewrite Forall_forall in *. intros v I next'. destruct (Hv v I) as (t' & It & Ht). apply in_map_iff in It as (f & <- & If).
        apply (IH v I _ Ht). intros u Pu. apply A. eapply pt_field; eauto.
      - rewrite Forall_forall in *. intros v I next'. apply (IH v I t0 (F v I)). intros u Pu. apply A. constructor. exact Pu. }
    exists (Parts vs'), n. rewrite copy_parts, E. cbn [frees]. split; [reflexivity|]. split; [lia|]. split; [constructor; exact S_|]. split; assumption.
Qed.

(** * Making structs *)
Definition make_list (D : dialect) : list init -> list ctype -> list bool -> bool :=
  fix go (l : list init) (es : list ctype) (is_ : list bool) : bool :=
    match l, es with
    | [], es => can_rest D es is_
    | i :: l, e :: es => can_make D true i e && go l es (tl is_)
    | _, [] => false
    end.
Lemma make_braces D inner i l d bs ms is_ : can_make D inner (Braces (i :: l)) (Class d bs ms is_) =
  if is_aggregate (std D) (Class d bs ms is_) then make_list D (i :: l) (bs ++ ms) (map (fun _ => false) bs ++ is_) && elements_ok D bs ms else d_other d.
Proof. reflexivity. Qed.
Lemma make_list_full D l es : Forall2 (fun i e => can_make D true i e = true) l es -> forall is_, make_list D l es is_ = true.
Proof. induction 1 as [|i e l es H _ IH]; intros is_; [reflexivity|]. cbn [make_list]. fold (make_list D). rewrite H. cbn. apply IH. Qed.
Lemma make_list_long D l : forall es is_, List.length es < List.length l -> make_list D l es is_ = false.
Proof.
  induction l as [|i l IH]; intros es is_ L; [cbn in L; lia|]. destruct es as [|e es]; [reflexivity|]. cbn [make_list]. fold (make_list D). rewrite IH; [apply andb_false_r|cbn in L; lia].
Qed.

(** * Default initialisation *)
Definition default_list : list ctype -> list bool -> bool :=
  fix go (ms : list ctype) (is_ : list bool) : bool := match ms with [] => true | m :: ms => (hd false is_ || can_default m) && go ms (tl is_) end.
Definition after_list : list ctype -> list bool -> list made :=
  fix go (ms : list ctype) (is_ : list bool) : list made := match ms with [] => [] | m :: ms => (if hd false is_ then Ready else after_default m) :: go ms (tl is_) end.
Lemma default_plain ms is_ : can_default (Class plain [] ms is_) = true -> default_list ms is_ = true.
Proof. cbn. fold default_list. rewrite !andb_true_iff. tauto. Qed.
Lemma after_plain ms is_ : after_default (Class plain [] ms is_) = ByParts (after_list ms is_).
Proof. reflexivity. Qed.
Lemma default_nth ms : forall is_ k m, default_list ms is_ = true -> nth_error ms k = Some m -> nth k is_ false = true \/ can_default m = true.
Proof.
  induction ms as [|m0 ms IH]; intros is_ [|k] m H E; try discriminate E; cbn in H; fold default_list in H; apply andb_true_iff in H as (H1 & H2).
  - injection E as <-. apply orb_true_iff in H1. destruct is_; cbn in *; tauto.
  - cbn in E. destruct (IH (tl is_) k m H2 E) as [X|X]; [left|right; exact X]. destruct is_; [destruct k; cbn in X; discriminate|exact X].
Qed.
Lemma after_nth ms : forall is_ k m, nth_error ms k = Some m -> nth_error (after_list ms is_) k = Some (if nth k is_ false then Ready else after_default m).
Proof.
  induction ms as [|m0 ms IH]; intros is_ [|k] m E; try discriminate E.
  - injection E as <-. destruct is_; reflexivity.
  - cbn in E |- *. fold after_list. rewrite (IH (tl is_) k m E). destruct is_; [destruct k|]; reflexivity.
Qed.
Lemma types_nth s apis user ts cs : cxx_types s apis user ts cs -> forall k t, nth_error ts k = Some t -> exists c, nth_error cs k = Some c /\ cxx_type s apis user t c.
Proof. induction 1 as [|t c ts cs H _ IH]; intros [|k] u E; try discriminate E; [injection E as <-; exists c; split; [reflexivity|exact H]|apply (IH k u E)]. Qed.

Section Default.
  Variables (gen : generator) (ord : nat -> list string -> list string) (apis : list api) (T : types) (s : cstd) (user : string -> ctype).
  Hypothesis Hacc : accepted_bridge gen ord apis T.
  Hypothesis Hs : s <> Cxx11.
  Notation cty := (cxx_type s apis user).

  Lemma leaf_ready u c : cty u c -> can_default c = true -> default_value s u = false -> ~ without_default apis u -> ~ is_fn_ptr u -> after_default c = Ready.
  Proof using Hs.
    intros H D V W F. destruct H; try reflexivity; try discriminate D.
    - exfalso. assert (X : default_value s (TIdent n) = true) by (unfold default_value, primitive_kind; rewrite H; destruct s; [congruence| | |]; destruct a; reflexivity || congruence). congruence.
    - destruct W. left. exists n. split; [reflexivity|]. right. right. exists st. auto.
    - destruct W. left. exists n. auto.
    - destruct W. left. exists n. auto.
    - exfalso. destruct s; cbn in V; congruence.
    - destruct W. right. eauto.
    - destruct F. repeat eexists.
  Qed.
  Lemma default_ready t p u : field_at apis t p u -> p <> [] -> forall c, cty t c -> can_default c = true -> ~ without_default apis u -> made_at (after_default c) p = Some Ready.
  Proof using Hacc Hs.
    induction 1 as [t|n st k f p u N D E H IH]; intros Np c C Dc W; [congruence|].
    destruct (struct_cty gen ord apis T s user Hacc n c st N D C) as (cs & Cs & ->). rewrite after_plain. cbn [made_at].
    assert (Et : nth_error (map v_ty (st_fields st)) k = Some (v_ty f)) by (apply map_nth_error, E).
    destruct (types_nth s apis user _ _ Cs k _ Et) as (ck & Ek & Hk). rewrite (after_nth _ _ _ _ Ek).
    assert (En : nth k (map (fun f => default_value s (v_ty f)) (st_fields st)) false = default_value s (v_ty f)).
    { apply nth_error_nth. apply (map_nth_error (fun f => default_value s (v_ty f))), E. }
    pose proof (default_nth _ _ _ _ (default_plain _ _ Dc) Ek) as X. rewrite En in *.
    pose proof (nth_error_In _ _ E) as If. destruct D as (I & _).
    destruct (default_value s (v_ty f)) eqn:V.
    - destruct p as [|k' p]; [reflexivity|]. exfalso. inversion H as [|n' st' k'' f' p' u' N' D' E' H' e1]; subst. rewrite <- e1 in V. unfold default_value, primitive_kind in V.
      apply not_prim in N'. rewrite N' in V. destruct s; discriminate V.
    - destruct X as [X|X]; [discriminate|]. destruct p as [|k' p].
      + inversion H; subst. cbn. f_equal. apply (leaf_ready (v_ty f) ck Hk X V W). exact (proj1 (field_sized gen ord apis T Hacc st f I If)).
      + apply IH; [discriminate|exact Hk|exact X|exact W].
  Qed.
End Default.

(** * Which types have a default constructor *)
Lemma default_list_all ms : forall is_, forallb can_default ms = true -> default_list ms is_ = true.
Proof. induction ms as [|m ms IH]; intros is_ H; [reflexivity|]. cbn in *. fold default_list. apply andb_true_iff in H as (-> & H). rewrite (IH _ H), orb_true_r. reflexivity. Qed.
Lemma default_held s apis user t c : cxx_type s apis user t c -> (forall x, is_cxx_type apis x -> can_destroy (user x) = true) ->
  (forall u, held apis t u -> ~ needs_value apis user u) -> can_default c = true.
Proof.
  intros H Hd. revert t c H.
  enough (G : (forall t c, cxx_type s apis user t c -> (forall u, held apis t u -> ~ needs_value apis user u) -> can_default c = true) /\
    forall ts cs, cxx_types s apis user ts cs -> (forall t u, In t ts -> held apis t u -> ~ needs_value apis user u) -> forallb can_default cs = true) by exact (proj1 G).
  apply cxx_type_both; try (intros; reflexivity).
  - intros n st cs A I E N Hs IH Hr. assert (Hr' : forall t m, In t (map v_ty (st_fields st)) -> held apis t m -> ~ needs_value apis user m).
    { intros t m It Hm. apply in_map_iff in It as (f & <- & If). apply Hr. eapply held_trans; [eapply held_struct; eauto|exact Hm]. }
    cbn. fold default_list. rewrite default_list_all by (apply IH, Hr'). rewrite (types_all s apis user can_destroy _ _ Hs); [reflexivity|]. intros t c It Ht. apply (destroy_held s apis user t c Ht Hd).
    intros m Hm R. apply (Hr' t _ It Hm). apply nv_rust. exact R.
  - intros n _ R Hr. destruct (Hr _ (hd_self apis _)). apply nv_rust. exact R.
  - intros n A U Hr. destruct (can_default (user (n_rust n))) eqn:E; [reflexivity|]. destruct (Hr _ (hd_self apis _)). apply nv_user; [apply not_prim, A|exact U|exact E].
  - intros t Hr. destruct (Hr _ (hd_self apis _)). constructor.
  - intros p m l t Hr. destruct (Hr _ (hd_self apis _)). constructor.
  - intros t k c Ht IH Hr. assert (Hr' : forall u, held apis t u -> ~ needs_value apis user u) by (intros u Hn; apply Hr; constructor; exact Hn).
    cbn. rewrite IH by exact Hr'. rewrite (destroy_held s apis user t c Ht Hd); [reflexivity|]. intros m Hm R. apply (Hr' _ Hm). apply nv_rust. exact R.
  - intros t c ts cs _ IH _ IHs Hr. cbn. rewrite IH, IHs; [reflexivity|intros u n I; apply Hr; right; exact I|intros n; apply Hr; left; reflexivity].
Qed.
Lemma default_trait gen ord apis T s user : accepted_bridge gen ord apis T -> forall t c u, cxx_type s apis user t c -> can_default c = true -> held apis t u -> ~ needs_value apis user u.
Proof.
  intros Hacc t c u H C Hu. revert c H C. induction Hu as [t|n st g u N D F Hh IH|t k u _ IH]; intros c H C.
  - intros A. destruct A as [v|p m l v|n R|n N U E]; try (inversion H; subst; discriminate C).
    + apply (opaque_cxx_type gen ord apis T Hacc s user n c R) in H as ->. discriminate C.
    + assert (Y : cxx_type s apis user (TIdent n) (user (n_rust n))) by (apply ct_user; [apply not_prim, N|exact U]). rewrite (cty_unique gen ord apis T s user Hacc _ _ Y _ H) in C. congruence.
  - destruct (struct_cty gen ord apis T s user Hacc n c st N D H) as (cs & Cs & ->).
    apply In_nth_error in F as (k & E). assert (Et : nth_error (map v_ty (st_fields st)) k = Some (v_ty g)) by (apply map_nth_error, E).
    destruct (types_nth s apis user _ _ Cs k _ Et) as (ck & Ek & Hk).
    assert (En : nth k (map (fun f => default_value s (v_ty f)) (st_fields st)) false = default_value s (v_ty g)).
    { apply nth_error_nth. apply (map_nth_error (fun f => default_value s (v_ty f))), E. }
    pose proof (default_nth _ _ _ _ (default_plain _ _ C) Ek) as X. rewrite En in X. apply (IH ck Hk). destruct X as [X|X]; [|exact X].
    unfold default_value in X. destruct Hk; try reflexivity; exfalso; unfold primitive_kind in X; try rewrite H0 in X; destruct s; discriminate X.
  - inversion H as [| | | | | | | | | | | | | | |? ? c2 X|]; subst. apply (IH c2 X). cbn in C. rewrite !andb_true_r in C. apply andb_true_iff in C as (C & _). exact C.
Qed.

(** * Fewer initialisers than fields *)
Lemma rest_nth D es : forall is_, can_rest D es is_ = true <-> forall k e, nth_error es k = Some e -> nth k is_ false = true \/ can_empty D true e = true.
Proof.
  induction es as [|e es IH]; intros is_; cbn [can_rest]; [split; [intros _ [|k] e E; discriminate E|reflexivity]|].
  rewrite andb_true_iff, orb_true_iff, IH. split.
  - intros (A & B) [|k] x E; [injection E as <-; destruct is_; cbn in *; auto|]. destruct (B k x E) as [X|X]; [left|right; exact X]. destruct is_; [destruct k; discriminate X|exact X].
  - intros H. split; [destruct (H 0 e eq_refl) as [X|X]; [left; destruct is_; exact X|auto]|]. intros k x E. destruct (H (S k) x E) as [X|X]; [left|right; exact X]. destruct is_; [discriminate X|exact X].
Qed.
Lemma make_list_split D l : forall es is_, make_list D l es is_ = true <->
  List.length l <= List.length es /\ Forall2 (fun i e => can_make D true i e = true) l (firstn (List.length l) es) /\ can_rest D (skipn (List.length l) es) (skipn (List.length l) is_) = true.
Proof.
  induction l as [|i l IH]; intros es is_.
  - cbn [make_list List.length firstn skipn]. split; [intros H; split; [lia|split; [constructor|exact H]]|intros (_ & _ & H); exact H].
  - destruct es as [|e es]; [cbn; split; [discriminate|intros (L & _); lia]|]. cbn [make_list List.length firstn]. fold (make_list D). rewrite andb_true_iff, IH.
    assert (Sk : skipn (List.length l) (tl is_) = skipn (S (List.length l)) is_) by (destruct is_; [cbn; apply skipn_nil|reflexivity]). rewrite Sk. cbn [skipn]. split.
    + intros (A & L & F & R). split; [lia|]. split; [constructor; assumption|exact R].
    + intros (L & F & R). inversion F; subst. split; [assumption|]. split; [lia|]. split; assumption.
Qed.
Definition empty_list (D : dialect) : list ctype -> list bool -> bool :=
  fix go (ms : list ctype) (is_ : list bool) : bool := match ms with [] => true | m :: ms => (hd false is_ || can_empty D true m) && go ms (tl is_) end.
Lemma empty_rest D ms : forall is_, empty_list D ms is_ = can_rest D ms is_.
Proof. induction ms as [|m ms IH]; intros is_; [reflexivity|]. cbn. fold (empty_list D). rewrite IH. reflexivity. Qed.
(** Where a default constructor exists, [{}] compiles too. *)
Lemma default_empty D : forall c inner, can_default c = true -> can_empty D inner c = true.
Proof.
  fix IH 1. intros [| |d bs ms is_] inner H; [reflexivity|discriminate H|]. cbn [can_empty]. fold (empty_list D).
  destruct (is_aggregate (std D) (Class d bs ms is_) && negb (default_first D inner)) eqn:A; [|exact H]. apply andb_true_iff in A as (A & _).
  cbn [can_default] in H. fold default_list in H.
  assert (M : forallb can_default bs = true /\ default_list ms is_ = true /\ forallb can_destroy bs = true /\ forallb can_destroy ms = true).
  { destruct (d_default d) eqn:Dd; cbn [negb declared andb] in H; try discriminate H.
    - destruct (declared (d_copy d) || declared (d_move d) || d_other d); [discriminate H|]. rewrite !andb_true_iff in H. tauto.
    - rewrite !andb_true_iff in H. tauto.
    - exfalso. cbn [is_aggregate] in A. rewrite Dd in A. destruct (std D); cbn in A; rewrite ?andb_false_r in A; discriminate A. }
  clear H A. destruct M as (B & L & Db & Dm). unfold elements_ok. rewrite Db, Dm, orb_true_r, andb_true_r. clear Db Dm.
  assert (B' : forallb (can_empty D true) bs = true).
  { clear L. induction bs as [|b bs IHb]; [reflexivity|]. cbn in *. apply andb_true_iff in B as (B1 & B2). rewrite (IH b true B1). exact (IHb B2). }
  rewrite B'. cbn [andb]. clear B B'. revert is_ L. induction ms as [|m ms IHm]; intros is_ L; [reflexivity|]. cbn in *. fold default_list in L. fold (empty_list D).
  apply andb_true_iff in L as (L1 & L2). rewrite (IHm _ L2), andb_true_r. apply orb_true_iff in L1 as [->|L1]; [reflexivity|]. rewrite (IH m true L1). apply orb_true_r.
Qed.
Lemma empty_trait gen ord apis T D user : accepted_bridge gen ord apis T -> forall t c u inner, cxx_type (std D) apis user t c -> can_empty D inner c = true -> held apis t u -> ~ never_empty u.
Proof.
  intros Hacc t c u inner H C Hu. revert c inner H C. induction Hu as [t|n st g u N Ds F Hh IH|t k u _ IH]; intros c inner H C.
  - intros A. destruct A; inversion H; subst; discriminate C.
  - destruct (struct_cty gen ord apis T (std D) user Hacc n c st N Ds H) as (cs & Cs & ->). cbn [can_empty] in C. fold (empty_list D) in C. rewrite struct_aggregate in C. cbn [andb] in C.
    assert (Hn : held apis (TIdent n) u) by (eapply hd_field; eassumption).
    destruct (default_first D inner); cbn [negb] in C.
    + intros A. apply (default_trait gen ord apis T (std D) user Hacc _ _ u H C Hn). destruct A; constructor.
    + apply andb_true_iff in C as (C & _). cbn [forallb andb] in C. rewrite empty_rest, rest_nth in C.
      apply In_nth_error in F as (k & E). assert (Et : nth_error (map v_ty (st_fields st)) k = Some (v_ty g)) by (apply map_nth_error, E).
      destruct (types_nth (std D) apis user _ _ Cs k _ Et) as (ck & Ek & Hk).
      assert (En : nth k (map (fun f => default_value (std D) (v_ty f)) (st_fields st)) false = default_value (std D) (v_ty g)).
      { apply nth_error_nth. apply (map_nth_error (fun f => default_value (std D) (v_ty f))), E. }
      specialize (C _ _ Ek). rewrite En in C. apply (IH ck true Hk). destruct C as [X|X]; [|exact X].
      unfold default_value in X. destruct Hk; try reflexivity; exfalso; unfold primitive_kind in X; try rewrite H0 in X; destruct (std D); discriminate X.
  - inversion H as [| | | | | | | | | | | | | | |? ? c2 X|]; subst. cbn [can_empty] in C.
    assert (Ag : is_aggregate (std D) (Class plain [] [c2] []) = true) by (destruct (std D); reflexivity). rewrite Ag in C. destruct (default_first D inner); cbn [andb negb] in C.
    + apply (IH c2 true X). apply default_empty. cbn in C. rewrite !andb_true_r in C. apply andb_true_iff in C as (C & _). exact C.
    + cbn in C. rewrite andb_true_r in C. apply andb_true_iff in C as (C & _). exact (IH c2 true X C).
Qed.
Lemma types_skip s apis user n : forall ts cs, cxx_types s apis user ts cs -> cxx_types s apis user (skipn n ts) (skipn n cs).
Proof. induction n as [|n IH]; intros ts cs H; [exact H|]. destruct H; [constructor|]. cbn. apply IH. assumption. Qed.
