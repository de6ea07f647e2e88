From Verif Require Import Base StrLib Syntax_Model Toposort_Spec Types_Model Types_Spec Types_Props Check_Model Check_Spec Check_Proofs Check_Proofs2 Check_Props
  Mangle_Model Abi_Model Abi_Proofs Names_Model Expr_Model Expr_Spec Shim_Props.
From Coq Require Import Lia.

(** * Relation to Abi_Model: the same types, without Pin *)
Fixpoint erase (t : xty) : rty :=
  match t with
  | XIdent x => RIdent x
  | XBox t => RBox (erase t) | XVec t => RVec (erase t) | XUnique t => RUnique (erase t) | XShared t => RShared (erase t)
  | XWeak t => RWeak (erase t) | XVector t => RVector (erase t)
  | XRef m t => RRef m (erase t)
  | XPin t => erase t
  | XPtr m t => RPtr m (erase t)
  | XStr => RStrRef
  | XSlice m t => RSliceRef m (erase t)
  | XFn _ args ret => RFn (map erase args) (match ret with XUnit => None | r => Some (erase r) end)
  | XUnit => RUnit
  | XArray t n => RArray (erase t) n
  | XRustString => RRustString | XRustVec t => RRustVec (erase t) | XRustStr => RRustStr | XRustSlice => RRustSlice
  | XFat => RFatFunction | XVoid => RCVoid | XUninit t => erase t | XReply => RResult | XResult t => erase t
  end.

Lemma erase_ref p m t : erase (x_ref p m t) = RRef m (erase t).
Proof. destruct p; reflexivity. Qed.
Lemma erase_type t : plain_ty t = true -> erase (x_type t) = quote_type t.
Proof. induction t; intros P; cbn [plain_ty] in P; cbn [x_type quote_type erase]; rewrite ?erase_ref; rewrite ?IHt by exact P; try reflexivity; discriminate. Qed.
Lemma erase_extern T b t : plain_ty t = true -> erase (x_extern T b t) = expand_extern_type T b t.
Proof.
  induction t; intros P; cbn [plain_ty] in P; pose proof P as P'; try discriminate P; cbn [x_extern expand_extern_type];
    try (cbn [erase]; rewrite <- ?erase_type by exact P'; cbn [erase x_type]; reflexivity).
  - destruct (String.eqb (n_rust n) "String"); reflexivity.
  - destruct (b && is_considered_improper T t); cbn [erase]; rewrite ?IHt by exact P; reflexivity.
  - cbn [erase]. rewrite IHt by exact P. reflexivity.
  - destruct (b && is_considered_improper T t); cbn [erase]; rewrite ?IHt by exact P; reflexivity.
  - assert (E : erase (x_type (TRef pinned mutable lt t)) = quote_type (TRef pinned mutable lt t)) by (apply erase_type; exact P).
    assert (V : forall v, t = TVec v -> erase (XRef mutable (XRustVec (x_extern T b v))) = RRef mutable (RRustVec (expand_extern_type T b v))).
    { intros v ->. cbn [x_extern expand_extern_type erase] in IHt. specialize (IHt P). injection IHt as IHt. cbn [erase]. rewrite IHt. reflexivity. }
    destruct t; try (apply V; reflexivity); cbn [is_rust_string]; try discriminate P;
      try (destruct (String.eqb (n_rust n) "String"); [reflexivity|]);
      match goal with |- context [b && ?i] => destruct (b && i) end; try reflexivity; exact E.
  - destruct (b && is_considered_improper T t); [reflexivity|]. apply (erase_type (TPtr mutable t)). exact P.
Qed.

(** * Environments *)
Lemma lookup_in {A} x (a : A) l : x <> "_" -> NoDup (map fst l) -> In (x, a) l -> lookup x l = Some a.
Proof.
  intros U. induction l as [|[y b] l IH]; intros N J; [destruct J|]. cbn [lookup]. destruct J as [E|I].
  - injection E as <- <-. rewrite String.eqb_refl, (proj2 (String.eqb_neq y "_") U). reflexivity.
  - inversion N as [|? ? N1 N2]; subst. destruct (String.eqb_spec x y) as [<-|_]; [|auto].
    exfalso. apply N1. apply (in_map fst) in I. exact I.
Qed.
Lemma lookup_none {A} x (l : list (string * A)) : ~ In x (map fst l) -> lookup x l = None.
Proof.
  induction l as [|[y b] l IH]; intros N; cbn [lookup]; [reflexivity|]. destruct (String.eqb_spec x y) as [<-|_].
  - exfalso. apply N. left. reflexivity.
  - apply IH. intros I. apply N. right. exact I.
Qed.
Lemma lookup_cons_eq {A} x (a : A) l : x <> "_" -> lookup x ((x, a) :: l) = Some a.
Proof. intros U. cbn [lookup]. rewrite String.eqb_refl, (proj2 (String.eqb_neq x "_") U). reflexivity. Qed.
Lemma lookup_cons_ne {A} x y (a : A) l : x <> y -> lookup x ((y, a) :: l) = lookup x l.
Proof. intros N. cbn [lookup]. destruct (String.eqb_spec x y); [contradiction|reflexivity]. Qed.

Lemma stmts_app F ret l1 : forall G l2 G2,
  stmts_typed F ret G (l1 ++ l2) G2 <-> exists G1, stmts_typed F ret G l1 G1 /\ stmts_typed F ret G1 l2 G2.
Proof.
  induction l1 as [|s l1 IH]; intros G l2 G2; cbn [app].
  - split; [intros H; exists G; split; [constructor|exact H]|]. intros (G1 & H1 & H2). inversion H1; subst. exact H2.
  - split.
    + intros H. inversion H; subst; match goal with K : stmts_typed _ _ _ (l1 ++ l2) _ |- _ => apply IH in K; destruct K as (G1 & K1 & K2) end;
        exists G1; (split; [|exact K2]); econstructor; eauto.
    + intros (G1 & H1 & H2). inversion H1; subst; econstructor; eauto; apply IH; eauto.
Qed.

Lemma typed_var F G x t t' : lookup x G = Some t -> typed F G (EVar x) t' <-> t' = t.
Proof. intros E. split; [intros H; inversion H; subst; congruence|intros ->; constructor; exact E]. Qed.

Lemma conv_iff F G k e a b : (forall c, typed F G e c <-> c = a) -> typed F G (EConv k e) b <-> converts k a b.
Proof.
  intros H. split; [intros K; inversion K as [|k' e' a' b' K1 K2| | | | | | | | |]; subst; apply H in K1; subst; assumption|].
  intros K. econstructor; [apply H; reflexivity|exact K].
Qed.
(** When a conversion has only one result. *)
Lemma conv_only F G k e a b : (forall c, typed F G e c <-> c = a) -> converts k a b -> (forall b', converts k a b' -> b' = b) ->
  forall c, typed F G (EConv k e) c <-> c = b.
Proof. intros H K U c. rewrite (conv_iff F G k e a c H). split; [apply U|intros ->; exact K]. Qed.

(** * Types of accepted bridges *)
(** What the checks say about a mentioned type. *)
Definition shape (t : ty) : Prop :=
  match t with
  | TBox u => exists n, u = TIdent n /\ n_rust n <> "String"
  | TVec u => (exists n, u = TIdent n) \/ exists k, u = TStr k
  | TUniquePtr u => (exists n, u = TIdent n /\ n_rust n <> "String") \/ exists v, u = TCxxVector v
  | TRef _ _ _ u => forall v, u = TVec v -> (exists n, v = TIdent n) \/ exists k, v = TStr k
  | _ => True
  end.

Lemma mentioned_shape gen ord apis T t : accepted_bridge gen ord apis T -> mentioned apis t -> shape t.
Proof.
  intros H M. destruct t; cbn [shape]; try exact Logic.I.
  - pose proof (C56_composites _ _ _ _ _ H M eq_refl) as C. inversion C; subst. exists n. split; [reflexivity|]. intros E. rewrite E in *.
    match goal with K : ~ is_primitive _ |- _ => apply K end. exists ARustString. reflexivity.
  - pose proof (mentioned_checked _ _ _ _ H _ M) as C. cbn [check_type] in C. destruct t; cbn in C; try discriminate; eauto.
  - pose proof (C56_composites _ _ _ _ _ H M eq_refl) as C. inversion C; subst; [left|right; eauto]. exists n. split; [reflexivity|]. intros E. rewrite E in *.
    match goal with K : is_primitive _ -> _ |- _ => specialize (K (ex_intro _ ARustString eq_refl)); discriminate K end.
  - intros v ->. assert (M' : mentioned apis (TVec v)) by (eapply mentioned_occurs; [exact M|repeat constructor]).
    pose proof (mentioned_checked _ _ _ _ H _ M') as C. cbn [check_type] in C. destruct v; cbn in C; try discriminate; eauto.
Qed.

Lemma extern_ident T b n : n_rust n <> "String" -> x_extern T b (TIdent n) = XIdent (n_rust n).
Proof. intros N. cbn [x_extern]. destruct (String.eqb_spec (n_rust n) "String"); [contradiction|reflexivity]. Qed.
Lemma extern_string T b n : n_rust n = "String" -> x_extern T b (TIdent n) = XRustString.
Proof. intros N. cbn [x_extern]. rewrite N. reflexivity. Qed.
Lemma extern_elem T b u : (exists n, u = TIdent n) \/ (exists k, u = TStr k) -> same_repr (x_type u) (x_extern T b u).
Proof.
  intros [(n & ->)|(k & ->)]; [|constructor]. cbn [x_type x_extern].
  destruct (String.eqb_spec (n_rust n) "String") as [->|_]; constructor.
Qed.

Lemma nc_ref p m l u : (forall n, u = TIdent n -> p = true -> n_rust n <> "String") -> (forall v, u = TVec v -> p = false /\ forall k, v <> TStr k) ->
  ~ no_conversion (TRef p m l u).
Proof.
  intros H1 H2 [(m' & l' & n & E & Es)|[(m' & l' & v & E)|(p' & m' & l' & k & E)]]; injection E as -> -> -> ->.
  - exact (H1 n eq_refl eq_refl Es).
  - destruct (H2 _ eq_refl) as (N & _). discriminate N.
  - destruct (H2 _ eq_refl) as (_ & N). exact (N k eq_refl).
Qed.
Lemma nc_other t : (forall p m l u, t <> TRef p m l u) -> ~ no_conversion t.
Proof. intros H [(m' & l' & n & E & Es)|[(m' & l' & v & E)|(p' & m' & l' & k & E)]]; exact (H _ _ _ _ E). Qed.

Lemma is_string_ident n : is_rust_string (TIdent n) = true <-> n_rust n = "String".
Proof. cbn. apply String.eqb_eq. Qed.

Section Arg.
  Variables (F : list (string * fsig)) (G : list (string * xty)).

  (** A conversion of something of type [a] into [d]. *)
  Ltac conv_by H := rewrite (conv_iff _ _ _ _ _ _ H).

  Definition var_type (b : bool) (t : ty) : xty :=
    match t with TFn _ _ _ _ => XFat | _ => if b then XUninit (x_type t) else x_type t end.

  Lemma wrapper_arg_ok T n x t b e d : shape t -> needs_indirect_abi n T t = Some b ->
    wrapper_arg n T x t = Some e -> decl_arg n T t = Some d -> lookup x G = Some (var_type b t) ->
    (typed F G e d <-> ~ no_conversion t).
  Proof.
    intros Hs Hb He Hd Hx. pose proof (fun c => typed_var F G x _ c Hx) as V.
    assert (yes : (forall p m l u, t <> TRef p m l u) -> (typed F G e d) -> (typed F G e d <-> ~ no_conversion t)).
    { intros N H. split; [intros _; apply nc_other, N|intros _; exact H]. }
    unfold wrapper_arg in He. unfold decl_arg in Hd.
    destruct (is_rust_string t) eqn:Es.
    { injection He as <-. injection Hd as <-. destruct t as [m| | | | | | | | | | | | |]; try discriminate Es.
      pose proof (indirect_string _ _ _ _ Es Hb) as ->. cbn [var_type x_type] in V. apply is_string_ident in Es. rewrite Es in V.
      apply yes; [discriminate|]. rewrite extern_string by exact Es.
      econstructor; [econstructor; [apply V; reflexivity|constructor]|]. constructor. constructor. }
    destruct t; try (rewrite Hb in He, Hd; cbn [option_map] in He, Hd; injection He as <-; injection Hd as <-;
      (apply yes; [discriminate|]); cbn [x_extern]; try (cbn [is_rust_string] in Es; rewrite Es); destruct b; cbn [var_type] in V;
      [econstructor; [apply V; reflexivity|constructor]|apply V; reflexivity]).
    - (* Box *) injection He as <-. rewrite Hb in Hd. cbn [option_map] in Hd. injection Hb as <-. injection Hd as <-. apply yes; [discriminate|].
      destruct Hs as (m & -> & Nm). cbn [var_type x_type] in V. cbn [x_extern andb].
      destruct (is_considered_improper T (TIdent m)).
      + econstructor; [econstructor; [apply V; reflexivity|constructor]|]. constructor. auto.
      + destruct (String.eqb_spec (n_rust m) "String"); [contradiction|]. econstructor; [apply V; reflexivity|constructor].
    - (* Vec *) injection He as <-. injection Hd as <-. pose proof (indirect_vec _ _ _ _ Hb) as ->. apply yes; [discriminate|].
      cbn [var_type x_type] in V. cbn [x_extern]. econstructor; [econstructor; [apply V; reflexivity|constructor]|].
      constructor. constructor. apply extern_elem. exact Hs.
    - (* UniquePtr *) injection He as <-. rewrite Hb in Hd. cbn [option_map] in Hd. injection Hb as <-. injection Hd as <-. apply yes; [discriminate|].
      cbn [var_type x_type] in V. cbn [x_extern andb].
      destruct (is_considered_improper T t) eqn:Ei.
      + econstructor; [econstructor; [apply V; reflexivity|constructor]|]. constructor. auto.
      + destruct Hs as [(m & -> & Nm)|(u & ->)]; cbn [x_extern].
        * destruct (String.eqb_spec (n_rust m) "String"); [contradiction|]. econstructor; [apply V; reflexivity|constructor].
        * econstructor; [apply V; reflexivity|constructor].
    - (* Ref *) injection He as <-. rewrite Hb in Hd. cbn [option_map] in Hd. injection Hb as <-. injection Hd as <-. cbn [var_type x_type] in V. clear yes.
      destruct (is_rust_string t) eqn:Et.
      { destruct t as [m| | | | | | | | | | | | |]; try discriminate Et. cbn [x_extern]. rewrite ?Et. pose proof Et as Em. apply is_string_ident in Em. cbn [x_type] in V. rewrite Em in V.
        conv_by V. destruct pinned; cbn [x_ref].
        - split; [intros C; inversion C|]. intros N. exfalso. apply N. left. exists mutable, lt, m. auto.
        - split; [intros _; apply nc_ref; discriminate|intros _; constructor]. }
      destruct t as [m|u|u|u|u|u|p' m' l' u|m' u|l'|u|un th args ret| |m' l' u|u len];
        try (cbn [x_extern]; rewrite ?Et; cbn [andb];
             split; [intros _; apply nc_ref; [intros k Ek _; injection Ek as <-; rewrite <- is_string_ident; congruence|discriminate]|]; intros _;
             match goal with |- context [is_considered_improper T ?u] => destruct (is_considered_improper T u) end;
             [destruct pinned; cbn [x_ref] in V;
              [econstructor; [econstructor; [econstructor; [apply V; reflexivity|constructor]|constructor]|constructor]
              |econstructor; [econstructor; [apply V; reflexivity|constructor]|constructor]]
             |apply V; reflexivity]);
        try (split; [intros _; apply nc_ref; discriminate|]; intros _; cbn [x_extern andb];
             match goal with |- context [is_considered_improper T ?u] => destruct (is_considered_improper T u) end;
             [destruct pinned; cbn [x_ref] in V;
              [econstructor; [econstructor; [econstructor; [apply V; reflexivity|constructor]|constructor]|constructor]
              |econstructor; [econstructor; [apply V; reflexivity|constructor]|constructor]]
             |apply V; reflexivity]).
      (* &Vec *) cbn [x_extern]. cbn [x_type] in V. destruct pinned; cbn [x_ref] in V.
      + split; [|intros N; exfalso; apply N; right; left; eauto]. destruct (is_rust_string u); conv_by V; intros C; inversion C.
      + destruct (Hs u eq_refl) as [(k & ->)|(k & ->)].
        * split; [intros _; apply nc_ref; [discriminate|]; intros v Ev; injection Ev as <-; split; [reflexivity|discriminate]|]. intros _.
          cbn [x_extern x_type is_rust_string] in *. destruct (String.eqb_spec (n_rust k) "String") as [Ek|Nk].
          -- rewrite Ek in V. conv_by V. constructor.
          -- conv_by V. constructor.
        * cbn [is_rust_string x_extern x_type] in *. conv_by V. split; [intros C; inversion C|]. intros N. exfalso. apply N. right. right. eauto.
    - (* Ptr *) injection He as <-. rewrite Hb in Hd. cbn [option_map] in Hd. injection Hb as <-. injection Hd as <-. apply yes; [discriminate|].
      cbn [var_type x_type] in V. cbn [x_extern andb]. destruct (is_considered_improper T t).
      + econstructor; [apply V; reflexivity|]. constructor. auto.
      + apply V. reflexivity.
    - injection He as <-. rewrite Hb in Hd. cbn [option_map] in Hd. injection Hb as <-. injection Hd as <-. apply yes; [discriminate|].
      econstructor; [apply V; reflexivity|constructor].
    - rewrite Hb in He. injection He as <-. injection Hd as <-. injection Hb as <-. apply yes; [discriminate|]. apply V. reflexivity.
    - injection He as <-. rewrite Hb in Hd. cbn [option_map] in Hd. injection Hb as <-. injection Hd as <-. apply yes; [discriminate|].
      econstructor; [apply V; reflexivity|constructor].
  Qed.
End Arg.

Lemma vs_other t : (forall u, t <> TVec u) -> ~ vec_of_str t.
Proof. intros H (k & E). exact (H _ E). Qed.
Lemma vs_ident n : ~ vec_of_str (TVec (TIdent n)).
Proof. intros (k & E). discriminate E. Qed.

Section Ret.
  Variables (F : list (string * fsig)) (G : list (string * xty)).
  Ltac conv_by H := rewrite (conv_iff _ _ _ _ _ _ H).

  Lemma wrapper_ret_ok T t call : shape t -> (forall c, typed F G call c <-> c = x_extern T true t) ->
    (typed F G (wrapper_ret T t call) (x_type t) <-> ~ no_conversion t /\ ~ vec_of_str t).
  Proof.
    intros Hs V.
    assert (yes : (forall p m l u, t <> TRef p m l u) -> (forall u, t <> TVec u) -> typed F G (wrapper_ret T t call) (x_type t) ->
      (typed F G (wrapper_ret T t call) (x_type t) <-> ~ no_conversion t /\ ~ vec_of_str t)).
    { intros N1 N2 H. split; [intros _; split; [apply nc_other, N1|apply vs_other, N2]|intros _; exact H]. }
    destruct t as [m|u|u|u|u|u|p m l u|m u|l|u|un th args ret| |m l u|u len];
      try (apply yes; [discriminate|discriminate|]; unfold wrapper_ret; cbn [is_rust_string]; cbn [x_extern] in V; apply V; reflexivity);
      try (apply yes; [discriminate|discriminate|]; unfold wrapper_ret; cbn [is_rust_string]; cbn [x_extern] in V; econstructor; [apply V; reflexivity|constructor]).
    - apply yes; [discriminate|discriminate|]. unfold wrapper_ret. cbn [is_rust_string x_type]. cbn [x_extern x_type] in V.
      destruct (String.eqb_spec (n_rust m) "String") as [->|_]; [econstructor; [apply V; reflexivity|constructor]|apply V; reflexivity].
    - apply yes; [discriminate|discriminate|]. unfold wrapper_ret. cbn [is_rust_string x_type]. cbn [x_extern x_type andb] in V.
      destruct Hs as (m & -> & Nm). destruct (is_considered_improper T (TIdent m)).
      + econstructor; [econstructor; [apply V; reflexivity|]|constructor]. constructor. auto.
      + rewrite extern_ident in V by exact Nm. econstructor; [apply V; reflexivity|constructor].
    - unfold wrapper_ret. cbn [is_rust_string x_type]. cbn [x_extern] in V. destruct Hs as [(m & ->)|(k & ->)]; cbn [is_rust_string x_type x_extern] in *.
      + split; [intros _; split; [apply nc_other; discriminate|apply vs_ident]|]. intros _.
        destruct (String.eqb_spec (n_rust m) "String") as [Em|Nm]; [rewrite Em|]; (econstructor; [apply V; reflexivity|constructor]).
      + conv_by V. split; [intros C; inversion C|]. intros (_ & N). exfalso. apply N. exists k. reflexivity.
    - apply yes; [discriminate|discriminate|]. unfold wrapper_ret. cbn [is_rust_string x_type]. cbn [x_extern x_type andb] in V.
      destruct (is_considered_improper T u).
      + econstructor; [econstructor; [apply V; reflexivity|]|constructor]. constructor. auto.
      + destruct Hs as [(m & -> & Nm)|(v & ->)]; [rewrite extern_ident in V by exact Nm|]; (econstructor; [apply V; reflexivity|constructor]).
    - assert (D : ~ vec_of_str (TRef p m l u)) by (apply vs_other; discriminate).
      unfold wrapper_ret. cbn [is_rust_string x_type].
      destruct (is_rust_string u) eqn:Et.
      { destruct u as [n| | | | | | | | | | | | |]; try discriminate Et. cbn [x_extern] in V. rewrite ?Et in V. pose proof Et as En. apply is_string_ident in En. cbn [x_type]. rewrite En.
        conv_by V. destruct p; cbn [x_ref].
        - split; [intros C; inversion C|]. intros (N & _). exfalso. apply N. left. exists m, l, n. auto.
        - split; [intros _; split; [apply nc_ref; discriminate|exact D]|intros _; constructor]. }
      assert (J : (forall v, u <> TVec v) ->
        (typed F G (if is_considered_improper T u then let r := EConv (KReborrow m) (EConv KCast call) in if p then EConv KPinNew r else r else call) (x_ref p m (x_type u))
         <-> ~ no_conversion (TRef p m l u) /\ ~ vec_of_str (TRef p m l u))).
      { intros Nv. split; [intros _; split; [apply nc_ref; [intros k -> _; rewrite <- is_string_ident; congruence|intros v E; exfalso; exact (Nv v E)]|exact D]|]. intros _.
        assert (E : x_extern T true (TRef p m l u) = if is_considered_improper T u then XPtr m XVoid else x_ref p m (x_type u)).
        { destruct u; cbn [x_extern andb]; rewrite ?Et; try reflexivity. exfalso. exact (Nv _ eq_refl). }
        rewrite E in V. destruct (is_considered_improper T u); [|apply V; reflexivity]. cbv zeta.
        destruct p; cbn [x_ref].
        - econstructor; [econstructor; [econstructor; [apply V; reflexivity|]|]|]; [|constructor|constructor]. constructor. auto.
        - econstructor; [econstructor; [apply V; reflexivity|]|]; [|constructor]. constructor. auto. }
      destruct u as [n|w|w|w|w|w|p' m' l' w|m' w|l'|w|un th args ret| |m' l' w|w len]; try (apply J; discriminate).
      cbn [x_extern] in V. cbn [x_type]. destruct p; cbn [x_ref].
      + split; [|intros (N & _); exfalso; apply N; right; left; eauto]. destruct (is_rust_string w); conv_by V; intros C; inversion C.
      + destruct (Hs w eq_refl) as [(k & ->)|(k & ->)].
        * split; [intros _; split; [apply nc_ref; [discriminate|]; intros v Ev; injection Ev as <-; split; [reflexivity|discriminate]|exact D]|]. intros _.
          cbn [x_extern x_type is_rust_string] in *. destruct (String.eqb_spec (n_rust k) "String") as [Ek|Nk].
          -- rewrite Ek. conv_by V. constructor.
          -- conv_by V. constructor.
        * cbn [is_rust_string x_extern x_type] in *. conv_by V. split; [intros C; inversion C|]. intros (N & _). exfalso. apply N. right. right. eauto.
    - apply yes; [discriminate|discriminate|]. unfold wrapper_ret. cbn [is_rust_string x_type]. cbn [x_extern x_type andb] in V.
      destruct (is_considered_improper T u); [econstructor; [apply V; reflexivity|]; constructor; auto|apply V; reflexivity].
  Qed.

  Lemma shim_var_ok T n x t b e d : shape t -> needs_indirect_abi n T t = Some b ->
    shim_var n T x t = Some e -> shim_arg n T t = Some d -> lookup x G = Some d ->
    (typed F G e (x_type t) <-> ~ no_conversion t /\ ~ vec_of_str t).
  Proof.
    intros Hs Hb He Hd Hx. pose proof (fun c => typed_var F G x _ c Hx) as V. unfold shim_arg in Hd. rewrite Hb in Hd. cbn [option_map] in Hd. injection Hd as <-.
    assert (yes : (forall p m l u, t <> TRef p m l u) -> (forall u, t <> TVec u) -> typed F G e (x_type t) ->
      (typed F G e (x_type t) <-> ~ no_conversion t /\ ~ vec_of_str t)).
    { intros N1 N2 H. split; [intros _; split; [apply nc_other, N1|apply vs_other, N2]|intros _; exact H]. }
    unfold shim_var in He.
    destruct (is_rust_string t) eqn:Es.
    { injection He as <-. destruct t as [m| | | | | | | | | | | | |]; try discriminate Es. pose proof (indirect_string _ _ _ _ Es Hb) as ->.
      apply is_string_ident in Es. apply yes; [discriminate|discriminate|]. rewrite extern_string in V by exact Es. cbn [x_type]. rewrite Es.
      econstructor; [econstructor; [econstructor; [apply V; reflexivity|constructor]|constructor]|constructor]. }
    destruct t as [m|u|u|u|u|u|p m l u|m u|l|u|un th args ret| |m l u|u len];
      try (rewrite Hb in He; cbn [option_map] in He; injection He as <-; (apply yes; [discriminate|discriminate|]); cbn [x_extern andb] in V;
           try (cbn [is_rust_string] in Es; rewrite Es in V);
           destruct b; [econstructor; [apply V; reflexivity|constructor]|apply V; reflexivity]).
    - injection He as <-. injection Hb as <-. apply yes; [discriminate|discriminate|]. cbn [x_extern andb] in V. destruct Hs as (m & -> & Nm).
      rewrite extern_ident in V by exact Nm. econstructor; [apply V; reflexivity|constructor].
    - injection He as <-. pose proof (indirect_vec _ _ _ _ Hb) as ->. cbn [x_extern] in V.
      assert (V2 : forall c, typed F G (EConv KDeref (EVar x)) c <-> c = XRef true (XRustVec (x_extern T false u))).
      { apply (conv_only _ _ _ _ _ _ V); [constructor|]. intros b' C. inversion C. reflexivity. }
      destruct Hs as [(m & ->)|(k & ->)]; cbn [is_rust_string x_type x_extern] in *.
      + split; [intros _; split; [apply nc_other; discriminate|apply vs_ident]|]. intros _.
        destruct (String.eqb_spec (n_rust m) "String") as [Em|Nm]; [rewrite Em|];
          (econstructor; [econstructor; [apply V2; reflexivity|constructor]|constructor]).
      + assert (V3 : forall c, typed F G (EConv (KAsVec_ true) (EConv KDeref (EVar x))) c <-> c = XRef true (XVec XRustStr)).
        { apply (conv_only _ _ _ _ _ _ V2); [constructor|]. intros b' C. inversion C. reflexivity. }
        conv_by V3. split; [intros C; inversion C|]. intros (_ & N). exfalso. apply N. exists k. reflexivity.
    - injection He as <-. injection Hb as <-. apply yes; [discriminate|discriminate|]. cbn [x_extern andb] in V.
      destruct Hs as [(m & -> & Nm)|(v & ->)]; [rewrite extern_ident in V by exact Nm|]; (econstructor; [apply V; reflexivity|constructor]).
    - injection He as <-. injection Hb as <-. assert (D : ~ vec_of_str (TRef p m l u)) by (apply vs_other; discriminate). cbn [x_type].
      destruct (is_rust_string u) eqn:Et.
      { destruct u as [n0| | | | | | | | | | | | |]; try discriminate Et. cbn [x_extern] in V. rewrite ?Et in V. pose proof Et as En. apply is_string_ident in En. cbn [x_type]. rewrite En.
        conv_by V. destruct p; cbn [x_ref].
        - split; [intros C; inversion C|]. intros (N & _). exfalso. apply N. left. exists m, l, n0. auto.
        - split; [intros _; split; [apply nc_ref; discriminate|exact D]|intros _; constructor]. }
      assert (J : (forall v, u <> TVec v) -> (typed F G (EVar x) (x_ref p m (x_type u)) <-> ~ no_conversion (TRef p m l u) /\ ~ vec_of_str (TRef p m l u))).
      { intros Nv. split; [intros _; split; [apply nc_ref; [intros k -> _; rewrite <- is_string_ident; congruence|intros v E; exfalso; exact (Nv v E)]|exact D]|]. intros _.
        assert (E : x_extern T false (TRef p m l u) = x_ref p m (x_type u)).
        { destruct u; cbn [x_extern andb]; rewrite ?Et; try reflexivity. exfalso. exact (Nv _ eq_refl). }
        rewrite E in V. apply V. reflexivity. }
      destruct u as [n0|w|w|w|w|w|p' m' l' w|m' w|l'|w|un th args ret| |m' l' w|w len]; try (apply J; discriminate).
      cbn [x_extern] in V. cbn [x_type]. destruct p; cbn [x_ref].
      + split; [|intros (N & _); exfalso; apply N; right; left; eauto]. destruct (is_rust_string w); conv_by V; intros C; inversion C.
      + destruct (Hs w eq_refl) as [(k & ->)|(k & ->)].
        * split; [intros _; split; [apply nc_ref; [discriminate|]; intros v Ev; injection Ev as <-; split; [reflexivity|discriminate]|exact D]|]. intros _.
          cbn [x_extern x_type is_rust_string] in *. destruct (String.eqb_spec (n_rust k) "String") as [Ek|Nk].
          -- rewrite Ek. conv_by V. constructor.
          -- conv_by V. constructor.
        * cbn [is_rust_string x_extern x_type] in *. conv_by V. split; [intros C; inversion C|]. intros (N & _). exfalso. apply N. right. right. eauto.
    - injection He as <-. injection Hb as <-. apply yes; [discriminate|discriminate|]. econstructor; [apply V; reflexivity|constructor].
    - injection He as <-. injection Hb as <-. apply yes; [discriminate|discriminate|]. econstructor; [apply V; reflexivity|constructor].
  Qed.
End Ret.

Lemma shim_conv_ok T t : shape t ->
  (match shim_conv t with Some k => converts k (x_type t) (x_extern T false t) | None => x_type t = x_extern T false t end
   <-> ~ no_conversion t /\ ~ vec_of_str t).
Proof.
  intros Hs.
  assert (yes : (forall p m l u, t <> TRef p m l u) -> (forall u, t <> TVec u) -> forall P : Prop, P -> (P <-> ~ no_conversion t /\ ~ vec_of_str t)).
  { intros N1 N2 P H. split; [intros _; split; [apply nc_other, N1|apply vs_other, N2]|intros _; exact H]. }
  unfold shim_conv.
  destruct (is_rust_string t) eqn:Es.
  { destruct t as [m| | | | | | | | | | | | |]; try discriminate Es. apply is_string_ident in Es. apply yes; [discriminate|discriminate|].
    rewrite extern_string by exact Es. cbn [x_type]. rewrite Es. constructor. }
  destruct t as [m|u|u|u|u|u|p m l u|m u|l|u|un th args ret| |m l u|u len]; try (apply yes; [discriminate|discriminate|]; first [reflexivity|constructor]).
  - apply yes; [discriminate|discriminate|]. cbn [is_rust_string] in Es. cbn [x_extern]. rewrite Es. reflexivity.
  - apply yes; [discriminate|discriminate|]. destruct Hs as (m & -> & Nm). cbn [x_extern andb x_type].
    destruct (String.eqb_spec (n_rust m) "String"); [contradiction|]. constructor.
  - destruct Hs as [(m & ->)|(k & ->)]; cbn [is_rust_string x_type x_extern] in *.
    + split; [intros _; split; [apply nc_other; discriminate|apply vs_ident]|]. intros _.
      destruct (String.eqb_spec (n_rust m) "String") as [Em|Nm]; [rewrite Em|]; constructor.
    + split; [intros C; inversion C|]. intros (_ & N). exfalso. apply N. exists k. reflexivity.
  - apply yes; [discriminate|discriminate|]. destruct Hs as [(m & -> & Nm)|(v & ->)]; cbn [x_extern andb x_type]; [|constructor].
    destruct (String.eqb_spec (n_rust m) "String"); [contradiction|]. constructor.
  - assert (D : ~ vec_of_str (TRef p m l u)) by (apply vs_other; discriminate). cbn [x_type].
    destruct (is_rust_string u) eqn:Et.
    { destruct u as [n0| | | | | | | | | | | | |]; try discriminate Et. cbn [x_extern]. rewrite ?Et. pose proof Et as En. apply is_string_ident in En. cbn [x_type]. rewrite En.
      destruct p; cbn [x_ref].
      - split; [intros C; inversion C|]. intros (N & _). exfalso. apply N. left. exists m, l, n0. auto.
      - split; [intros _; split; [apply nc_ref; discriminate|exact D]|intros _; constructor]. }
    assert (J : (forall v, u <> TVec v) -> (x_ref p m (x_type u) = x_extern T false (TRef p m l u) <-> ~ no_conversion (TRef p m l u) /\ ~ vec_of_str (TRef p m l u))).
    { intros Nv. split; [intros _; split; [apply nc_ref; [intros k -> _; rewrite <- is_string_ident; congruence|intros v E; exfalso; exact (Nv v E)]|exact D]|]. intros _.
      destruct u; cbn [x_extern andb]; rewrite ?Et; try reflexivity. exfalso. exact (Nv _ eq_refl). }
    destruct u as [n0|w|w|w|w|w|p' m' l' w|m' w|l'|w|un th args ret| |m' l' w|w len]; try (apply J; discriminate).
    cbn [x_extern x_type]. destruct p; cbn [x_ref].
    + split; [|intros (N & _); exfalso; apply N; right; left; eauto]. destruct (is_rust_string w); intros C; inversion C.
    + destruct (Hs w eq_refl) as [(k & ->)|(k & ->)].
      * split; [intros _; split; [apply nc_ref; [discriminate|]; intros v Ev; injection Ev as <-; split; [reflexivity|discriminate]|exact D]|]. intros _.
        cbn [x_extern x_type is_rust_string]. destruct (String.eqb_spec (n_rust k) "String") as [Ek|Nk]; [rewrite Ek|]; constructor.
      * cbn [is_rust_string x_extern x_type]. split; [intros C; inversion C|]. intros (N & _). exfalso. apply N. right. right. eauto.
Qed.
