From Verif Require Import Base Syntax_Model TypeEq_Model Toposort_Model Toposort_Spec Types_Model Types_Spec Types_Proofs Types_Proofs3 Types_Props
  Check_Model Check_Spec Check_Proofs Check_Proofs2 Check_Props Mangle_Model Mangle_Spec Mangle_Proofs Mangle_Proofs2 Abi_Model Abi_Spec.
From Coq Require Import Lia.

(** No function pointer and no unit anywhere inside. *)
Fixpoint plain_ty (t : ty) : bool :=
  match t with
  | TFn _ _ _ _ | TVoid => false
  | TBox t | TVec t | TUniquePtr t | TSharedPtr t | TWeakPtr t | TCxxVector t
  | TRef _ _ _ t | TPtr _ t | TSlice _ _ t | TArray t _ => plain_ty t
  | TIdent _ | TStr _ => true
  end.

Definition top_plain (t : ty) : bool := match t with TFn _ _ _ _ | TVoid => false | _ => true end.

Lemma cxx_type_fn T un th args ret : cxx_type T (TFn un th args ret) =
  obind (otraverse (fun a => cxx_type T (snd a)) args)
    (fun cs => option_map (CFn cs) (match ret with Some r => option_map Some (cxx_type T r) | None => Some None end)).
Proof. reflexivity. Qed.

(** For every sufficient recursion budget. *)
Definition ev (P : nat -> Prop) : Prop := exists F, forall n, F <= n -> P n.
Lemma ev_and P Q : ev P -> ev Q -> ev (fun n => P n /\ Q n).
Proof. intros (F & H) (G & K). exists (Nat.max F G). intros n L. split; [apply H|apply K]; lia. Qed.

Lemma otraverse_cons {A B} (f : A -> option B) a l b bs : f a = Some b -> otraverse f l = Some bs -> otraverse f (a :: l) = Some (b :: bs).
Proof. intros E G. change (obind (f a) (fun b => option_map (cons b) (otraverse f l)) = Some (b :: bs)). rewrite E. cbn [obind]. rewrite G. reflexivity. Qed.

Lemma alike_box apis c r : alike apis (CBox c) r -> alike apis (CPtr false c) r.
Proof. intros H. inversion H; subst. inversion H0; subst. eapply (al_address _ m); [rewrite H4; apply ca_ptr|eassumption|assumption]. Qed.
Lemma alike_unique apis c r : alike apis (CUnique c) r -> alike apis (CPtr false c) r.
Proof. intros H. inversion H; subst. inversion H0; subst. eapply (al_address _ m); [rewrite H4; apply ca_ptr|eassumption|assumption]. Qed.
Lemma alike_ref apis k c r : alike apis (CRef k c) r -> alike apis (CPtr k c) r.
Proof. intros H. inversion H; subst. inversion H0; subst. eapply (al_address _ m); [apply ca_ptr|eassumption|assumption]. Qed.

Lemma blocked_ind' apis (P : ty -> Prop) :
  (forall n a, atom_from_str (n_rust n) = Some a -> a = ACxxString \/ a = ARustString -> P (TIdent n)) ->
  (forall n, ~ is_primitive (n_rust n) -> ~ is_struct apis (n_rust n) -> ~ is_enum apis (n_rust n) -> P (TIdent n)) ->
  (forall t, (exists u, t = TBox u \/ t = TVec u \/ t = TUniquePtr u \/ t = TSharedPtr u \/ t = TWeakPtr u \/ t = TCxxVector u) -> P t) ->
  P TVoid ->
  (forall t len, blocked apis t -> P t -> P (TArray t len)) ->
  (forall s f n, ~ is_primitive (n_rust n) -> In (AStruct s) apis -> p_rust (st_name s) = n_rust n -> In f (st_fields s) ->
     scalar (v_ty f) \/ (blocked apis (v_ty f) /\ P (v_ty f)) -> P (TIdent n)) ->
  forall t, blocked apis t -> P t.
Proof.
  intros H1 H2 H3 H4 H5 H6. fix IH 2. intros t [n a A E|n A S E|u O| |u len B|s f n A S E F K].
  - exact (H1 n a A E).
  - exact (H2 n A S E).
  - exact (H3 u O).
  - exact H4.
  - exact (H5 u len B (IH u B)).
  - refine (H6 s f n A S E F _). destruct K as [K|K]; [left; exact K|right; split; [exact K|exact (IH _ K)]].
Qed.

Section One.
  Variables (gen : generator) (ord : nat -> list string -> list string) (apis : list api) (T : types).
  Hypothesis Hacc : accepted_bridge gen ord apis T.

  Lemma unsized_plain t : is_unsized T t = false -> top_plain t = true.
  Proof. destruct t; cbn; congruence. Qed.

  Lemma mentioned_plain t : mentioned apis t -> top_plain t = true -> plain_ty t = true.
  Proof.
    induction t using ty_ind'; intros M P; cbn [plain_ty]; try reflexivity; try discriminate P;
      pose proof (mentioned_checked _ _ _ _ Hacc _ M) as C; cbn [check_type] in C;
      (apply IHt; [eapply mentioned_occurs; [exact M|repeat constructor]|]).
    - destruct t; cbn in C |- *; congruence.
    - destruct t; cbn in C |- *; congruence.
    - destruct t; cbn in C |- *; congruence.
    - destruct t; cbn in C |- *; congruence.
    - destruct t; cbn in C |- *; congruence.
    - unfold check_type_ref in C. apply app_nil in C. destruct C as [_ C]. destruct t; cbn in C |- *; congruence.
    - destruct t; cbn in C |- *; congruence.
    - destruct t; cbn in C |- *; congruence.
    - unfold check_type_slice in C. apply err_if_nil in C. destruct (is_unsized T t) eqn:U; [|apply unsized_plain, U].
      destruct t; try discriminate C; reflexivity.
    - unfold check_type_array in C. apply err_if_nil in C. apply unsized_plain, C.
  Qed.

  Lemma atom_name_inv x a : atom_from_str x = Some a -> x = atom_name a.
  Proof. intros H. apply atom_from_str_inv in H. congruence. Qed.

  Lemma named_resolves n : mentioned apis (TIdent n) -> atom_from_str (n_rust n) = None ->
    exists p, resolve_name T (n_rust n) = Some p /\ stands_for apis (n_rust n) p /\ ~ is_primitive (n_rust n).
  Proof.
    intros M A. destruct (mentioned_resolves _ _ _ _ Hacc n M) as [[a E]|[p [lts E]]]; [congruence|].
    exists p. assert (R : resolve_name T (n_rust n) = Some p) by (unfold resolve_name; rewrite E; reflexivity).
    split; [exact R|]. split; [apply (resolve_stands _ _ _ _ Hacc); exact R|]. intros [a E']. congruence.
  Qed.

  Lemma cxx_type_plain t : mentioned apis t -> plain_ty t = true -> exists c, cxx_type T t = Some c.
  Proof.
    induction t using ty_ind'; intros M P; try discriminate P; cbn [cxx_type];
      try (match type of IHt with _ => idtac end; destruct IHt as (c & E); [eapply mentioned_occurs; [exact M|repeat constructor]|exact P|];
           rewrite E; cbn [option_map]; eexists; reflexivity).
    - destruct (atom_from_str (n_rust n)) as [a|] eqn:A; [eexists; reflexivity|].
      destruct (named_resolves n M A) as (p & -> & _). eexists. reflexivity.
    - eexists. reflexivity.
  Qed.
  Lemma callback_type un th args ret : simple_callbacks apis -> mentioned apis (TFn un th args ret) ->
    exists cs cr, otraverse (fun a => cxx_type T (snd a)) args = Some cs /\
      match ret with Some r => option_map Some (cxx_type T r) | None => Some None end = Some cr /\
      cxx_type T (TFn un th args ret) = Some (CFn cs cr).
  Proof.
    intros Hcb M. destruct (Hcb _ _ _ _ M) as (Ha & Hr).
    assert (G : forall t, occurs t (TFn un th args ret) -> ~ is_callback t -> t <> TVoid -> exists c, cxx_type T t = Some c).
    { intros t O N1 N2. assert (M' := mentioned_occurs _ _ _ M O). apply (cxx_type_plain t M').
      apply (mentioned_plain _ M'). destruct t; try reflexivity; [exfalso; apply N1; unfold is_callback; eauto|congruence]. }
    assert (X : exists cs, otraverse (fun a => cxx_type T (snd a)) args = Some cs).
    { assert (Y : forall l, incl l args -> exists cs, otraverse (fun a => cxx_type T (snd a)) l = Some cs).
      { induction l as [|[x t] l IH]; intros I; [exists []; reflexivity|].
        destruct IH as (cs & Ec); [intros y Hy; apply I; right; exact Hy|].
        destruct (Ha x t) as (N1 & N2 & _); [apply I; left; reflexivity|].
        destruct (G t) as (c & E); [eapply oc_arg; [apply I; left; reflexivity|constructor]|exact N1|exact N2|].
        exists (c :: cs). apply otraverse_cons; [exact E|exact Ec]. }
      apply Y. intros y Hy; exact Hy. }
    destruct X as (cs & Ec).
    assert (Z : exists cr, match ret with Some r => option_map Some (cxx_type T r) | None => Some None end = Some cr).
    { destruct ret as [r|]; [|eauto]. destruct (Hr r eq_refl) as (N1 & N2). destruct (G r) as (c & E); [apply oc_ret; constructor|exact N1|exact N2|]. rewrite E. cbn. eauto. }
    destruct Z as (cr & Er). exists cs, cr. split; [exact Ec|]. split; [exact Er|]. rewrite cxx_type_fn, Ec. cbn [obind]. rewrite Er. reflexivity.
  Qed.

  Hypothesis Hprim : primitives_unaliased apis.

  (** The text of a type in C++ and the same type quoted in Rust. *)
  Lemma quote_alike t : mentioned apis t -> plain_ty t = true -> exists c, cxx_type T t = Some c /\ alike apis c (quote_type t).
  Proof.
    induction t using ty_ind'; intros M P; try discriminate P; cbn [cxx_type quote_type];
      try (match type of IHt with _ => idtac end; destruct IHt as (c & E & A); [eapply mentioned_occurs; [exact M|repeat constructor]|exact P|];
           rewrite E; cbn [option_map]; eexists; split; [reflexivity|]).
    - destruct (atom_from_str (n_rust n)) as [a|] eqn:A.
      + eexists. split; [reflexivity|]. rewrite (atom_name_inv _ _ A). constructor.
        intros Ha. apply (Hprim _ Ha). rewrite <- (atom_name_inv _ _ A). exists a. exact A.
      + destruct (named_resolves n M A) as (p & -> & S & N). eexists. split; [reflexivity|]. constructor; assumption.
    - eapply (al_address _ true); [apply ca_box; reflexivity|apply ra_box; reflexivity|left; exact A].
    - constructor; exact A.
    - eapply (al_address _ true); [apply ca_unique; reflexivity|apply ra_unique; reflexivity|left; exact A].
    - constructor; exact A.
    - constructor; exact A.
    - eapply (al_address _ m); [apply ca_ref|apply ra_ref|left; exact A].
    - eapply (al_address _ m); [apply ca_ptr|apply ra_ptr|left; exact A].
    - eexists. split; [reflexivity|constructor].
    - constructor; exact A.
    - constructor; exact A.
    - constructor; exact A.
  Qed.

  Lemma pod_plain fuel : forall t, is_guaranteed_pod (t_structs T) (t_enums T) fuel t = Some true -> plain_data apis t.
  Proof.
    induction fuel as [|fuel IH]; [discriminate|]. intros t H. destruct t; cbn in H; try discriminate H.
    - destruct (atom_from_str (n_rust n)) as [a|] eqn:A.
      + apply (pl_atom _ _ a A); intros ->; discriminate.
      + destruct (assoc (n_rust n) (t_structs T)) as [s|] eqn:E.
        * destruct (acc_facts _ _ _ _ Hacc) as (Es & _). rewrite Es, structs_last in E. apply last_struct_In in E. destruct E as (I & N).
          apply (pl_struct _ _ s I N). intros f. clear I N. induction (st_fields s) as [|g fs IHf]; [intros []|].
          cbn in H. destruct (is_none _); [|discriminate]. destruct (is_guaranteed_pod _ _ fuel (v_ty g)) as [[]|] eqn:G; try discriminate.
          intros [<-|J]; [apply IH, G|apply IHf; assumption].
        * apply pl_enum. injection H as H. apply (enums_ok _ _ _ _ Hacc). exact H.
    - apply pl_view. left. eauto.
    - apply pl_view. right; left. eauto.
    - apply pl_view. right; right; left. eauto.
    - apply pl_view. do 4 right. eauto.
    - apply pl_view. do 3 right. left. eauto 6.
    - apply pl_array, IH, H.
  Qed.

  Lemma improper_ok t : is_considered_improper T t = true <-> improper apis t.
  Proof.
    destruct Hacc as [[Ho Hc] _]. destruct (C08_improper ord apis Ho) as (T' & errs & Hc' & G). rewrite Hc in Hc'. injection Hc' as <- <-. apply G. intros n [].
  Qed.

  Hypothesis Hacyclic : ~ has_cycle contains (structs_of apis).
  Definition goes_direct (t : ty) : Prop :=
    match t with
    | TBox _ | TUniquePtr _ | TRef _ _ _ _ | TPtr _ _ | TStr _ | TFn _ _ _ _ | TSlice _ _ _ => True
    | TArray _ _ => False
    | _ => ~ blocked apis t /\ ~ improper apis t
    end.
  Lemma indirect_decided t : exists b F, (forall n, F <= n -> needs_indirect_abi n T t = Some b) /\ (b = false <-> goes_direct t).
  Proof.
    assert (D : exists b F, (forall n, F <= n -> match is_guaranteed_pod (t_structs T) (t_enums T) n t with
         | Some pod => Some (negb pod || is_considered_improper T t) | None => None end = Some b) /\ (b = false <-> ~ blocked apis t /\ ~ improper apis t)).
    { destruct (C07_pod_partial ord apis T t (proj1 Hacc) Hacyclic) as (b & F & Hb & Hi).
      exists (negb b || is_considered_improper T t)%bool, F. split.
      - intros n L. rewrite (Hb n L). reflexivity.
      - rewrite orb_false_iff, negb_false_iff, Hi, <- improper_ok. destruct (is_considered_improper T t); intuition congruence. }
    destruct t; cbn [needs_indirect_abi goes_direct]; try exact D;
      try (exists false, 0%nat; split; [reflexivity|tauto]).
    exists true, 0%nat. split; [reflexivity|]. split; [discriminate|tauto].
  Qed.

  Lemma direct_value n t c : needs_indirect_abi n T t = Some false -> cxx_type T t = Some c -> (forall u, t <> TBox u /\ t <> TUniquePtr u) -> passed_directly apis c.
  Proof.
    intros D E N. destruct t; try rewrite cxx_type_fn in E; cbn [needs_indirect_abi] in D; cbn [cxx_type] in E; try discriminate D;
      try (destruct (is_guaranteed_pod _ _ _ _) as [[]|] eqn:P; try discriminate D; destruct n; discriminate P).
    - destruct (is_guaranteed_pod _ _ _ _) as [[]|] eqn:P; try discriminate D. pose proof P as P0. apply pod_plain in P.
      destruct (atom_from_str (n_rust n0)) as [a|] eqn:A.
      + injection E as <-. assert (Q : a <> ACxxString /\ a <> ARustString).
        { destruct n; [discriminate P0|]. cbn in P0. rewrite A in P0. destruct a; try (split; discriminate); discriminate P0. }
        apply pd_atom; apply Q.
      + destruct (resolve_name T (n_rust n0)) as [p|] eqn:R; [|discriminate]. injection E as <-.
        apply (pd_named _ n0); [apply (resolve_stands _ _ _ _ Hacc), R|exact P].
    - destruct (N t) as [F _]. congruence.
    - destruct (N t) as [_ F]. congruence.
    - destruct (cxx_type T t); [|discriminate]. injection E as <-. constructor.
    - destruct (cxx_type T t); [|discriminate]. injection E as <-. constructor.
    - injection E as <-. apply pd_words. auto.
    - destruct (otraverse _ args) as [cs|]; [|discriminate]. cbn [obind] in E. destruct (match ret with Some r => _ | None => _ end); [|discriminate].
      injection E as <-. apply pd_words. do 4 right. eauto.
    - destruct (cxx_type T t); [|discriminate]. injection E as <-. apply pd_words. do 3 right. left. eauto.
  Qed.
End One.

Section Two.
  (** The two generators work with their own tables; these classify the types in [D] in
      the same way. *)
  Variables (g1 : generator) (o1 : nat -> list string -> list string) (apis : list api) (T1 T2 : types) (D : ty -> Prop).
  Hypothesis Hacc1 : accepted_bridge g1 o1 apis T1.
  Hypothesis Hprim : primitives_unaliased apis.

  Lemma extern_alike proper t : mentioned apis t -> plain_ty t = true ->
    exists c, cxx_type T1 t = Some c /\ alike apis c (expand_extern_type T2 proper t).
  Proof.
    revert t. fix IH 1. intros t M P.
    assert (Q : exists c, cxx_type T1 t = Some c /\ alike apis c (quote_type t)) by (eapply quote_alike; eauto).
    assert (Sub : forall u, occurs u t -> mentioned apis u) by (intros u; apply (mentioned_occurs _ _ _ M)).
    destruct t; cbn [expand_extern_type]; try discriminate P; try exact Q.
    - destruct (String.eqb_spec (n_rust n) "String") as [E|_]; [|exact Q]. cbn [cxx_type]. rewrite E. exists (CAtom ARustString). split; [reflexivity|constructor].
    - destruct (IH t) as (c & E & A); [apply Sub; repeat constructor|exact P|]. cbn [cxx_type]. rewrite E. eexists. split; [reflexivity|].
      destruct (proper && is_considered_improper T2 t);
        (eapply (al_address _ true); [apply ca_box; reflexivity|apply ra_ptr|]); auto.
    - destruct (IH t) as (c & E & A); [apply Sub; repeat constructor|exact P|]. cbn [cxx_type]. rewrite E. eexists. split; [reflexivity|].
      constructor. exact A.
    - destruct (IH t) as (c & E & A); [apply Sub; repeat constructor|exact P|]. cbn [cxx_type]. rewrite E. eexists. split; [reflexivity|].
      destruct (proper && is_considered_improper T2 t);
        (eapply (al_address _ true); [apply ca_unique; reflexivity|apply ra_ptr|]); auto.
    - assert (G : exists c, cxx_type T1 (TRef pinned mutable lt t) = Some c /\
          alike apis c (if is_rust_string t then RRef mutable RRustString
                        else if proper && is_considered_improper T2 t then RPtr mutable RCVoid else quote_type (TRef pinned mutable lt t))).
      { destruct (IH t) as (c & E & A); [apply Sub; repeat constructor|exact P|]. destruct Q as (c0 & Ec & Ac). exists c0. split; [exact Ec|].
        cbn [cxx_type] in Ec. rewrite E in Ec. cbn in Ec. injection Ec as <-.
        destruct (is_rust_string t) eqn:R.
        - destruct t; try discriminate R. cbn in R. apply String.eqb_eq in R. cbn [expand_extern_type] in A. rewrite R in A. cbn in A.
          eapply (al_address _ mutable); [apply ca_ref|apply ra_ref|left; exact A].
        - destruct (proper && is_considered_improper T2 t); [|exact Ac].
          eapply (al_address _ mutable); [apply ca_ref|apply ra_ptr|right; reflexivity]. }
      destruct t; try exact G.
      destruct (IH t) as (c & E & A); [apply Sub; do 2 constructor; constructor|exact P|]. cbn [cxx_type]. rewrite E. eexists. split; [reflexivity|].
      eapply (al_address _ mutable); [apply ca_ref|apply ra_ref|left]. constructor. exact A.
    - destruct (proper && is_considered_improper T2 t); [|exact Q]. destruct Q as (c & E & A). exists c. split; [exact E|].
      cbn [cxx_type] in E. destruct (cxx_type T1 t); [|discriminate]. cbn in E. injection E as <-.
      eapply (al_address _ mutable); [apply ca_ptr|apply ra_ptr|right; reflexivity].
    - destruct Q as (c & E & A). exists c. split; [exact E|]. cbn in E. injection E as <-. constructor.
    - destruct Q as (c & E & A). exists c. split; [exact E|]. cbn in E. destruct (cxx_type T1 t); [|discriminate]. cbn in E. injection E as <-. constructor.
  Qed.

  Hypothesis Hcb : simple_callbacks apis.
  Hypothesis decided : forall t, D t -> exists b, (b = false <-> goes_direct apis t) /\
    ev (fun n => needs_indirect_abi n T1 t = Some b /\ needs_indirect_abi n T2 t = Some b).

  (** A parameter of a function implemented in Rust; also most parameters of a C++ function. *)
  Lemma arg_ok proper t : D t -> mentioned apis t -> top_plain t = true -> (forall u, t <> TCxxVector u) ->
    ev (fun n => exists c r, cxx_extern_arg n T1 t = Some c /\
      obind (needs_indirect_abi n T2 t) (fun b => Some (if b then RPtr true (expand_extern_type T2 proper t) else expand_extern_type T2 proper t)) = Some r /\
      passes apis c r).
  Proof.
    intros Dt M P V. pose proof (mentioned_plain _ _ _ _ Hacc1 _ M P) as Pt. destruct (extern_alike proper t M Pt) as (c & E & A).
    destruct (decided t Dt) as (b & Hb & F & HF). exists F. intros n L. destruct (HF n L) as (D1 & D2). unfold cxx_extern_arg. rewrite D1, D2. cbn [obind].
    assert (Base : (forall u, t <> TBox u /\ t <> TUniquePtr u) -> exists c0 r, obind (cxx_type T1 t) (fun c0 => Some (if b then CPtr false c0 else c0)) = Some c0 /\
        Some (if b then RPtr true (expand_extern_type T2 proper t) else expand_extern_type T2 proper t) = Some r /\ passes apis c0 r).
    { intros NB. rewrite E. cbn [obind]. destruct b; do 2 eexists; (split; [reflexivity|]); (split; [reflexivity|]); split.
      - eapply (al_address _ true); [apply ca_ptr|apply ra_ptr|left; exact A].
      - constructor.
      - exact A.
      - eapply direct_value; [exact Hacc1|exact D1|exact E|exact NB]. }
    assert (NB' : (exists u, t = TBox u \/ t = TUniquePtr u) -> b = false).
    { intros (u & [-> | ->]); apply Hb; exact I. }
    destruct t; try (apply Base; intros u; split; discriminate); try discriminate P.
    - assert (b = false) as -> by (apply NB'; eauto). cbn [cxx_type] in E. destruct (cxx_type T1 t) as [cu|] eqn:Eu; [|discriminate]. injection E as <-.
      do 2 eexists. split; [reflexivity|]. split; [reflexivity|]. split; [apply alike_box, A|constructor].
    - assert (b = false) as -> by (apply NB'; eauto). cbn [cxx_type] in E. destruct (cxx_type T1 t) as [cu|] eqn:Eu; [|discriminate]. injection E as <-.
      do 2 eexists. split; [reflexivity|]. split; [reflexivity|]. split; [apply alike_unique, A|constructor].
    - exfalso. eapply V. reflexivity.
  Qed.

  (** A parameter of a C++ function. *)
  Lemma shim_arg_ok t : D t -> mentioned apis t -> t <> TVoid -> (forall u, t <> TCxxVector u) ->
    ev (fun n => exists c r, cxx_shim_arg n T1 t = Some c /\ rust_decl_arg n T2 t = Some r /\ passes apis c r).
  Proof.
    intros Dt M NV V. destruct (top_plain t) eqn:P.
    - pose proof (mentioned_plain _ _ _ _ Hacc1 _ M P) as Pt. destruct (extern_alike true t M Pt) as (c & E & A).
      unfold cxx_shim_arg, rust_decl_arg. destruct (is_rust_string t) eqn:R.
      { exists 0%nat. intros n _. rewrite E. do 2 eexists. split; [reflexivity|]. split; [reflexivity|]. split; [|constructor].
        eapply (al_address _ false); [apply ca_ptr|apply ra_ptr|left; exact A]. }
      pose proof (arg_ok true t Dt M P V) as G. destruct t; try exact G; try discriminate P.
      exists 0%nat. intros n _. rewrite E. do 2 eexists. split; [reflexivity|]. split; [reflexivity|]. split; [|constructor].
      eapply (al_address _ false); [apply ca_ptr|apply ra_ptr|left; exact A].
    - destruct t; try discriminate P; [|congruence]. destruct (callback_type _ _ _ _ Hacc1 _ _ _ _ Hcb M) as (cs & cr & _ & _ & E).
      exists 0%nat. intros n _. unfold cxx_shim_arg, rust_decl_arg, cxx_extern_arg. cbn [is_rust_string]. rewrite E. cbn [obind needs_indirect_abi].
      do 2 eexists. split; [reflexivity|]. split; [reflexivity|]. split; [constructor|]. apply pd_words. do 4 right. eauto.
  Qed.

  Lemma args_ok (cf : nat -> ty -> option cty) (rf : nat -> ty -> option rty) args :
    (forall x t, In (x, t) args -> ev (fun n => exists c r, cf n t = Some c /\ rf n t = Some r /\ passes apis c r)) ->
    ev (fun n => exists cs rs, otraverse (fun a : string * ty => cf n (snd a)) args = Some cs /\ otraverse (fun a : string * ty => rf n (snd a)) args = Some rs /\
                 Forall2 (passes apis) cs rs).
  Proof.
    intros H. induction args as [|[x t] args IH].
    - exists 0%nat. intros n _. exists [], []. repeat split. constructor.
    - destruct (ev_and _ _ (H x t (or_introl eq_refl)) (IH (fun y u I => H y u (or_intror I)))) as (F & HF). exists F. intros n L.
      destruct (HF n L) as ((c & r & E1 & E2 & A) & (cs & rs & G1 & G2 & B)). exists (c :: cs), (r :: rs).
      split; [apply otraverse_cons; [exact E1|exact G1]|]. split; [apply otraverse_cons; [exact E2|exact G2]|]. constructor; assumption.
  Qed.

  (** Returning. *)
  Lemma return_ok proper s : (forall r, sg_ret s = Some r -> D r /\ mentioned apis r /\ top_plain r = true) ->
    ev (fun n => exists c r, cxx_return n T1 s = Some c /\ rust_return n T2 proper s = Some r /\ returns apis c r).
  Proof.
    intros H. unfold cxx_return, rust_return. destruct (sg_throws s).
    { exists 0%nat. intros n _. do 2 eexists. split; [reflexivity|]. split; [reflexivity|]. split; [constructor|]. apply pd_words. auto. }
    destruct (sg_ret s) as [t|] eqn:Er.
    2:{ exists 0%nat. intros n _. exists CVoid, None. repeat split. }
    destruct (H t eq_refl) as (Dt & M & P). pose proof (mentioned_plain _ _ _ _ Hacc1 _ M P) as Pt. destruct (extern_alike proper t M Pt) as (c & E & A).
    destruct (decided t Dt) as (b & Hb & F & HF). exists F. intros n L. destruct (HF n L) as (D1 & D2).
    unfold cxx_extern_return, rust_extern_return. rewrite D2. cbn [obind].
    assert (Gen : (forall u, t <> TBox u /\ t <> TUniquePtr u) -> exists c0 r,
        obind (needs_indirect_abi n T1 t) (fun b => if b then Some CVoid else cxx_type T1 t) = Some c0 /\
        Some (if b then None else Some (expand_extern_type T2 proper t)) = Some r /\ returns apis c0 r).
    { intros NB. rewrite D1. cbn [obind]. destruct b; [exists CVoid, None; repeat split|]. rewrite E. do 2 eexists. split; [reflexivity|]. split; [reflexivity|].
      split; [exact A|]. eapply direct_value; [exact Hacc1|exact D1|exact E|exact NB]. }
    assert (Db : goes_direct apis t -> b = false) by apply Hb.
    destruct t; try (apply Gen; intros u; split; discriminate); try discriminate P; rewrite (Db I).
    - cbn [cxx_type] in E. destruct (cxx_type T1 t) as [cu|] eqn:Eu; [|discriminate]. injection E as <-.
      do 2 eexists. split; [reflexivity|]. split; [reflexivity|]. split; [apply alike_box, A|constructor].
    - cbn [cxx_type] in E. destruct (cxx_type T1 t) as [cu|] eqn:Eu; [|discriminate]. injection E as <-.
      do 2 eexists. split; [reflexivity|]. split; [reflexivity|]. split; [apply alike_unique, A|constructor].
    - cbn [cxx_type] in E. destruct (cxx_type T1 t) as [cu|] eqn:Eu; [|discriminate]. injection E as <-.
      do 2 eexists. split; [reflexivity|]. split; [reflexivity|]. split; [apply alike_ref, A|constructor].
    - do 2 eexists. split; [reflexivity|]. split; [reflexivity|]. split; [constructor|]. apply pd_words. auto.
    - do 2 eexists. split; [reflexivity|]. split; [reflexivity|]. split; [constructor|]. apply pd_words. auto.
  Qed.

  Lemma outparam_ok proper pointee s :
    (forall t c, cxx_type T1 t = Some c -> exists c', pointee t = Some c' /\ forall r, alike apis c r -> alike apis c' r) ->
    (forall r, sg_ret s = Some r -> D r /\ mentioned apis r /\ top_plain r = true) ->
    ev (fun n => exists cs rs, cxx_outparam n T1 pointee s = Some cs /\ rust_outparam n T2 proper s = Some rs /\ Forall2 (passes apis) cs rs).
  Proof.
    intros Hp H. unfold cxx_outparam, rust_outparam, indirect_return. destruct (sg_ret s) as [t|] eqn:Er.
    2:{ exists 0%nat. intros n _. exists [], []. repeat split. constructor. }
    destruct (H t eq_refl) as (Dt & M & P). pose proof (mentioned_plain _ _ _ _ Hacc1 _ M P) as Pt. destruct (extern_alike proper t M Pt) as (c & E & A).
    destruct (Hp t c E) as (c' & E' & A').
    assert (Out : exists cs rs, option_map (fun c => [CPtr false c]) (pointee t) = Some cs /\ Some [RPtr true (expand_extern_type T2 proper t)] = Some rs /\ Forall2 (passes apis) cs rs).
    { rewrite E'. do 2 eexists. split; [reflexivity|]. split; [reflexivity|]. constructor; [|constructor]. split; [|constructor].
      eapply (al_address _ true); [apply ca_ptr|apply ra_ptr|left]. apply A', A. }
    destruct (decided t Dt) as (b & Hb & F & HF). exists F. intros n L. destruct (HF n L) as (D1 & D2). rewrite D1, D2.
    destruct (sg_throws s); cbn [obind]; [exact Out|]. destruct b; [exact Out|]. exists [], []. repeat split. constructor.
  Qed.

  Lemma receivers_ok s : (forall r, sg_receiver s = Some r -> exists p, resolve_name T1 (n_rust (rc_ty r)) = Some p /\ ~ is_primitive (n_rust (rc_ty r))) ->
    exists cs, cxx_receivers T1 s = Some cs /\ Forall2 (passes apis) cs (rust_receivers s).
  Proof.
    intros H. unfold cxx_receivers, rust_receivers. destruct (sg_receiver s) as [r|]; [|exists []; repeat split; constructor].
    destruct (H r eq_refl) as (p & R & N). unfold cxx_receiver. rewrite R. eexists. split; [reflexivity|]. constructor; [|constructor]. split; [|constructor].
    eapply (al_address _ (rc_mutable r)); [apply ca_ref|apply ra_ref|left]. constructor; [exact N|]. apply (resolve_stands _ _ _ _ Hacc1), R.
  Qed.

  Lemma signature_ok proper cf rf pointee cextra rextra s :
    (forall r, sg_receiver s = Some r -> exists p, resolve_name T1 (n_rust (rc_ty r)) = Some p /\ ~ is_primitive (n_rust (rc_ty r))) ->
    (forall r, sg_ret s = Some r -> D r /\ mentioned apis r /\ top_plain r = true) ->
    (forall x t, In (x, t) (sg_args s) -> ev (fun n => exists c r, cf n t = Some c /\ rf n t = Some r /\ passes apis c r)) ->
    (forall t c, cxx_type T1 t = Some c -> exists c', pointee t = Some c' /\ forall r, alike apis c r -> alike apis c' r) ->
    Forall2 (passes apis) cextra rextra ->
    ev (fun n => exists c r, cxx_signature n T1 (cf n) pointee cextra s = Some c /\ rust_signature n T2 proper (rf n) rextra s = Some r /\ same_abi apis c r).
  Proof.
    intros H1 H2 H3 H4 H5. destruct (receivers_ok s H1) as (self & Es & Fs).
    destruct (ev_and _ _ (return_ok proper s H2) (ev_and _ _ (args_ok cf rf _ H3) (outparam_ok proper pointee s H4 H2))) as (F & HF).
    exists F. intros n L. destruct (HF n L) as ((c & r & E1 & E2 & A) & (cs & rs & G1 & G2 & B) & (co & ro & K1 & K2 & C)).
    unfold cxx_signature, rust_signature. rewrite E1, E2, Es, G1, G2, K1, K2. cbn [obind]. do 2 eexists. split; [reflexivity|]. split; [reflexivity|].
    split; cbn [fst snd]; [exact A|]. repeat apply Forall2_app; assumption.
  Qed.

  (** ** Functions *)
  Lemma pointee_shim t c : cxx_type T1 t = Some c -> exists c', cxx_indirect_return_type T1 t = Some c' /\ forall r, alike apis c r -> alike apis c' r.
  Proof.
    intros E. destruct t; cbn [cxx_indirect_return_type]; try (exists c; split; [exact E|auto]);
      cbn [cxx_type] in E; (destruct (cxx_type T1 t) as [cu|]; [|discriminate]); cbn in E |- *; injection E as <-; (eexists; split; [reflexivity|]).
    - apply alike_box.
    - apply alike_unique.
    - apply alike_ref.
  Qed.
  Lemma pointee_decl t c : cxx_type T1 t = Some c -> exists c', cxx_decl_return_type T1 t = Some c' /\ forall r, alike apis c r -> alike apis c' r.
  Proof.
    intros E. destruct t; cbn [cxx_decl_return_type]; try (exists c; split; [exact E|auto]);
      cbn [cxx_type] in E; (destruct (cxx_type T1 t) as [cu|]; [|discriminate]); cbn in E |- *; injection E as <-; (eexists; split; [reflexivity|]).
    apply alike_ref.
  Qed.

  Lemma fn_receiver_ok f : all_functions apis f -> forall r, sg_receiver (fn_sig f) = Some r ->
    exists p, resolve_name T1 (n_rust (rc_ty r)) = Some p /\ ~ is_primitive (n_rust (rc_ty r)).
  Proof.
    intros Hf r Hr. destruct (receiver_resolves _ _ _ _ Hacc1 f r Hf Hr) as (p & lts & E). exists p. split; [unfold resolve_name; rewrite E; reflexivity|].
    destruct (receiver_ok _ _ _ _ Hacc1 f r Hf Hr) as (_ & Ne & K & _). intros (a & P).
    assert (B : forall x, is_struct apis x \/ is_enum apis x \/ is_rust_type apis x \/ (exists t, In (ACxxType t) apis /\ p_rust (et_name t) = x) -> ~ builtin_name x)
      by (intros x; apply (C53_builtin_names_partial _ _ _ _ x Hacc1)).
    destruct K as [K|[[K|[K|(e & K1 & K2 & _)]]|K]].
    - apply (B _ (or_introl K)). right. exists a. exact P.
    - apply (B (n_rust (rc_ty r))); [right; right; right; exact K|right; exists a; exact P].
    - apply (Hprim _ K). exists a. exact P.
    - apply Ne. exists e. auto.
    - apply (B _ (or_intror (or_intror (or_introl K)))). right. exists a. exact P.
  Qed.
  Lemma fn_ret_ok f : all_functions apis f -> forall r, sg_ret (fn_sig f) = Some r -> mentioned apis r /\ top_plain r = true.
  Proof.
    intros Hf r Hr. split; [eapply me_ret; [exact Hf|exact Hr|constructor]|].
    destruct (ret_sized _ _ _ _ Hacc1 f r Hf Hr) as (_ & U). eapply unsized_plain, U.
  Qed.
  Lemma fn_arg_ok f x t : all_functions apis f -> In (x, t) (fn_args f) ->
    mentioned apis t /\ t <> TVoid /\ (forall u, t <> TCxxVector u) /\ (top_plain t = true \/ fn_lang f = LCxx).
  Proof.
    intros Hf I. split; [eapply me_arg; [exact Hf|exact I|constructor]|].
    destruct (arg_sized _ _ _ _ Hacc1 f x t Hf I) as [((un & th & a & r & ->) & L)|U].
    - repeat split; try discriminate. right. exact L.
    - split; [intros ->; discriminate U|]. split; [intros u ->; discriminate U|]. left. eapply unsized_plain, U.
  Qed.

  (** Every type in the signature is in [D]. *)
  Definition sig_in (sg : signature) : Prop := (forall x t, In (x, t) (sg_args sg) -> D t) /\ (forall r, sg_ret sg = Some r -> D r).

  Lemma cxx_function_ok f : In (ACxxFunction f) apis -> sig_in (fn_sig f) ->
    ev (fun n => exists c r, cxx_function_shim n T1 f = Some c /\ rust_function_decl n T2 f = Some r /\ same_abi apis c r).
  Proof.
    intros If (Da & Dr). assert (Hf : all_functions apis f) by (left; exact If).
    apply (signature_ok true (fun n => cxx_shim_arg n T1) (fun n => rust_decl_arg n T2)).
    - apply fn_receiver_ok, Hf.
    - intros r E. split; [apply Dr, E|apply (fn_ret_ok f Hf), E].
    - intros x t I. destruct (fn_arg_ok f x t Hf I) as (M & N1 & N2 & _). apply shim_arg_ok; try assumption. apply (Da x), I.
    - apply pointee_shim.
    - constructor.
  Qed.
  Lemma rust_function_ok f : In (ARustFunction f) apis -> fn_lang f = LRust -> sig_in (fn_sig f) ->
    ev (fun n => exists c r, cxx_function_decl n T1 (fn_sig f) false = Some c /\ rust_function_shim n T2 (fn_sig f) false = Some r /\ same_abi apis c r).
  Proof.
    intros If L (Da & Dr). assert (Hf : all_functions apis f) by (right; exact If).
    apply (signature_ok false (fun n => cxx_extern_arg n T1) (fun n => rust_shim_arg n T2)).
    - apply fn_receiver_ok, Hf.
    - intros r E. split; [apply Dr, E|apply (fn_ret_ok f Hf), E].
    - intros x t I. destruct (fn_arg_ok f x t Hf I) as (M & N1 & N2 & [P|K]); [|congruence]. apply arg_ok; try assumption. apply (Da x), I.
    - apply pointee_decl.
    - constructor.
  Qed.
  Lemma callback_ok un th args ret : mentioned apis (TFn un th args ret) -> sig_in (ptr_sig th args ret) ->
    ev (fun n => exists c r, cxx_function_decl n T1 (ptr_sig th args ret) true = Some c /\ rust_function_shim n T2 (ptr_sig th args ret) true = Some r /\ same_abi apis c r).
  Proof.
    intros M (Da & Dr). destruct (Hcb _ _ _ _ M) as (Ha & Hr).
    apply (signature_ok false (fun n => cxx_extern_arg n T1) (fun n => rust_shim_arg n T2)).
    - intros r E. discriminate E.
    - intros r E. split; [apply Dr, E|]. cbn in E. destruct (Hr r E) as (N1 & N2). split; [eapply mentioned_occurs; [exact M|rewrite E; apply oc_ret; constructor]|].
      destruct r; try reflexivity; [exfalso; apply N1; unfold is_callback; eauto|congruence].
    - intros x t I. cbn in I. destruct (Ha x t I) as (N1 & N2 & N3). apply arg_ok; [apply (Da x), I|eapply mentioned_occurs; [exact M|eapply oc_arg; [exact I|constructor]]| |exact N3].
      destruct t; try reflexivity; [exfalso; apply N1; unfold is_callback; eauto|congruence].
    - apply pointee_decl.
    - constructor; [|constructor]. split; constructor.
  Qed.
  Lemma trampoline_ok un th args ret : mentioned apis (TFn un th args ret) ->
    exists cs cr, cxx_type T1 (TFn un th args ret) = Some (CFn cs cr) /\
      cxx_function_shim_decl T1 (ptr_sig th args ret) true = Some (cr, cs ++ [CPtr false CVoid]).
  Proof.
    intros M. destruct (callback_type _ _ _ _ Hacc1 _ _ _ _ Hcb M) as (cs & cr & E1 & E2 & E3). exists cs, cr. split; [exact E3|].
    unfold cxx_function_shim_decl. cbn [ptr_sig sg_ret sg_args]. rewrite E2. cbn [obind]. rewrite E1. reflexivity.
  Qed.
  Lemma fields_ok s : In (AStruct s) apis -> exists cs, cxx_fields T1 s = Some cs /\
    Forall2 (fun c r => alike apis (snd c) (snd r)) cs (rust_fields s) /\ map fst cs = map (fun f => p_cxx (v_name f)) (st_fields s).
  Proof.
    intros I. unfold cxx_fields, rust_fields.
    assert (G : forall l, incl l (st_fields s) -> exists cs, otraverse (fun f => option_map (pair (p_cxx (v_name f))) (cxx_type T1 (v_ty f))) l = Some cs /\
       Forall2 (fun c r => alike apis (snd c) (snd r)) cs (map (fun f => (p_rust (v_name f), quote_type (v_ty f))) l) /\ map fst cs = map (fun f => p_cxx (v_name f)) l).
    { induction l as [|f l IH]; intros Hi; [exists []; repeat split; constructor|].
      destruct IH as (cs & E & A & N); [intros y Hy; apply Hi; right; exact Hy|].
      assert (Hf : In f (st_fields s)) by (apply Hi; left; reflexivity).
      assert (M : mentioned apis (v_ty f)) by (eapply me_field; [exact I|exact Hf|constructor]).
      destruct (field_sized _ _ _ _ Hacc1 s f I Hf) as (_ & U).
      destruct (quote_alike _ _ _ _ Hacc1 Hprim (v_ty f) M) as (c & Ec & Ac); [apply (mentioned_plain _ _ _ _ Hacc1 _ M); eapply unsized_plain, U|].
      exists ((p_cxx (v_name f), c) :: cs). split; [apply otraverse_cons; [rewrite Ec; reflexivity|exact E]|]. split; [constructor; [exact Ac|exact A]|cbn; rewrite N; reflexivity]. }
    apply G. intros y Hy; exact Hy.
  Qed.
End Two.

(** * When the two generators have different views of the items *)
Section Views.
  Variables (sub big : list api).
  Hypothesis Hclosed : closed_in sub big.

  Definition declared (x : string) : Prop := exists b q, In b sub /\ decl_name b = Some q /\ p_rust q = x.

  Hypothesis Hres : forall n, mentioned sub (TIdent n) -> is_primitive (n_rust n) \/ declared (n_rust n).

  Lemma in_sub a p : In a big -> decl_name a = Some p -> declared (p_rust p) -> In a sub.
  Proof. intros Ha Hp (b & q & Hb & Hq & E). apply (proj2 Hclosed a p b q); auto. Qed.
  Lemma in_big a : In a sub -> In a big. Proof. apply Hclosed. Qed.

  Lemma struct_same x : declared x -> is_struct sub x <-> is_struct big x.
  Proof. intros D. split; intros (s & I & E); exists s; (split; [|exact E]); [apply in_big, I|]. apply (in_sub _ (st_name s) I eq_refl). rewrite E. exact D. Qed.
  Lemma enum_same x : declared x -> is_enum sub x <-> is_enum big x.
  Proof. intros D. split; intros (s & I & E); exists s; (split; [|exact E]); [apply in_big, I|]. apply (in_sub _ (en_name s) I eq_refl). rewrite E. exact D. Qed.
  Lemma rust_same x : declared x -> is_rust_type sub x <-> is_rust_type big x.
  Proof. intros D. split; intros (s & I & E); exists s; (split; [|exact E]); [apply in_big, I|]. apply (in_sub _ (et_name s) I eq_refl). rewrite E. exact D. Qed.
  Lemma alias_same x : declared x -> is_alias sub x <-> is_alias big x.
  Proof. intros D. split; intros (s & I & E); exists s; (split; [|exact E]); [apply in_big, I|]. apply (in_sub _ (ta_name s) I eq_refl). rewrite E. exact D. Qed.

  Lemma blocked_big t : blocked sub t -> mentioned sub t -> blocked big t.
  Proof.
    induction 1 as [n a A E|n P S E|t O| |t len B IH|s f n P S E F K] using blocked_ind'; intros M.
    - eapply bl_string; eassumption.
    - destruct (Hres n M) as [X|X]; [contradiction|]. apply bl_opaque; [exact P|rewrite <- struct_same; assumption|rewrite <- enum_same; assumption].
    - apply bl_owner, O.
    - apply bl_void.
    - apply bl_array, IH. eapply mentioned_occurs; [exact M|repeat constructor].
    - eapply bl_struct; [exact P|apply in_big, S|exact E|exact F|]. destruct K as [K|(_ & K)]; [left; exact K|right]. apply K. eapply me_field; [exact S|exact F|constructor].
  Qed.
  Lemma blocked_sub t : blocked big t -> mentioned sub t -> blocked sub t.
  Proof.
    induction 1 as [n a A E|n P S E|t O| |t len B IH|s f n P S E F K] using blocked_ind'; intros M.
    - eapply bl_string; eassumption.
    - destruct (Hres n M) as [X|X]; [contradiction|]. apply bl_opaque; [exact P|rewrite struct_same; assumption|rewrite enum_same; assumption].
    - apply bl_owner, O.
    - apply bl_void.
    - apply bl_array, IH. eapply mentioned_occurs; [exact M|repeat constructor].
    - destruct (Hres n M) as [X|X]; [contradiction|].
      assert (S' : In (AStruct s) sub) by (apply (in_sub _ _ S eq_refl); rewrite E; exact X).
      eapply bl_struct; [exact P|exact S'|exact E|exact F|]. destruct K as [K|(_ & K)]; [left; exact K|right]. apply K. eapply me_field; [exact S'|exact F|constructor].
  Qed.
  Lemma improper_big t : improper sub t -> mentioned sub t -> improper big t.
  Proof.
    induction 1 as [n E|n P S E|t O|p m l t I IH|m t I IH|t len I IH|s f n P S E F I IH]; intros M.
    - apply im_string, E.
    - destruct (Hres n M) as [X|X]; [contradiction|]. apply im_foreign; [exact P|rewrite <- struct_same; assumption|rewrite <- rust_same, <- alias_same; assumption].
    - apply im_rust, O.
    - apply im_ref, IH. eapply mentioned_occurs; [exact M|repeat constructor].
    - apply im_ptr, IH. eapply mentioned_occurs; [exact M|repeat constructor].
    - apply im_array, IH. eapply mentioned_occurs; [exact M|repeat constructor].
    - eapply im_struct; [exact P|apply in_big, S|exact E|exact F|]. apply IH. eapply me_field; [exact S|exact F|constructor].
  Qed.
  Lemma improper_sub t : improper big t -> mentioned sub t -> improper sub t.
  Proof.
    induction 1 as [n E|n P S E|t O|p m l t I IH|m t I IH|t len I IH|s f n P S E F I IH]; intros M.
    - apply im_string, E.
    - destruct (Hres n M) as [X|X]; [contradiction|]. apply im_foreign; [exact P|rewrite struct_same; assumption|rewrite rust_same, alias_same; assumption].
    - apply im_rust, O.
    - apply im_ref, IH. eapply mentioned_occurs; [exact M|repeat constructor].
    - apply im_ptr, IH. eapply mentioned_occurs; [exact M|repeat constructor].
    - apply im_array, IH. eapply mentioned_occurs; [exact M|repeat constructor].
    - destruct (Hres n M) as [X|X]; [contradiction|].
      assert (S' : In (AStruct s) sub) by (apply (in_sub _ _ S eq_refl); rewrite E; exact X).
      eapply im_struct; [exact P|exact S'|exact E|exact F|]. apply IH. eapply me_field; [exact S'|exact F|constructor].
  Qed.
  Lemma direct_same t : mentioned sub t -> goes_direct sub t <-> goes_direct big t.
  Proof.
    intros M. assert (B : blocked sub t <-> blocked big t) by (split; intros K; [apply blocked_big|apply blocked_sub]; assumption).
    assert (I : improper sub t <-> improper big t) by (split; intros K; [apply improper_big|apply improper_sub]; assumption).
    destruct t; cbn [goes_direct]; tauto.
  Qed.
End Views.

Lemma accepted_declared gen ord apis T n : accepted_bridge gen ord apis T -> mentioned apis (TIdent n) -> is_primitive (n_rust n) \/ declared apis (n_rust n).
Proof.
  intros H M. destruct (atom_from_str (n_rust n)) as [a|] eqn:A; [left; exists a; exact A|right].
  destruct (named_resolves _ _ _ _ H n M A) as (p & _ & (pre & b & post & -> & Hb & E & _) & _).
  exists b, p. split; [apply in_or_app; right; left; reflexivity|auto].
Qed.

(** Both views of [t] agree when [t] is mentioned in the smaller one. *)
Lemma views_decided gs os gb ob sub big Ts Tb t : accepted_bridge gs os sub Ts -> accepted_bridge gb ob big Tb -> closed_in sub big ->
  ~ has_cycle contains (structs_of sub) -> ~ has_cycle contains (structs_of big) -> mentioned sub t ->
  exists b, (b = false <-> goes_direct sub t) /\ (b = false <-> goes_direct big t) /\
    ev (fun n => needs_indirect_abi n Ts t = Some b /\ needs_indirect_abi n Tb t = Some b).
Proof.
  intros Hs Hb Hc Cs Cb M.
  destruct (indirect_decided _ _ _ _ Hs Cs t) as (b1 & F1 & H1 & I1).
  destruct (indirect_decided _ _ _ _ Hb Cb t) as (b2 & F2 & H2 & I2).
  pose proof (direct_same sub big Hc (fun n => accepted_declared _ _ _ _ n Hs) t M) as G.
  assert (b1 = b2) as <-.
  { destruct b1, b2; try reflexivity; [apply I1, G, I2|symmetry; apply I2, G, I1]; reflexivity. }
  exists b1. split; [exact I1|]. split; [exact I2|]. exists (Nat.max F1 F2). intros n L. split; [apply H1|apply H2]; lia.
Qed.
