(** C72: the names of a declaration.  C73: what is declared is what is written. *)
From Verif Require Import Base Syntax_Model Cfg_Model Cfg_Spec Discriminant_Model Discriminant_Spec Discriminant_Proofs Names_Model Check_Spec ParseTy_Model
  Attrs_Model Attrs_Spec Parse_Model Parse_Spec Parse_Proofs.

(** * C73 *)
(** A bridge without errors consists of declarations of the documented forms, each with the
    documented attributes, and its result is as they say, in order. *)
Theorem C73_declared_partial : forall lex keyword experimental async_fn trusted ns items outs,
  keyword "::" = false ->
  parse_items lex keyword experimental async_fn trusted ns items = Ok (outs, []) ->
  declares lex keyword experimental async_fn trusted ns items outs.
Proof. intros lex keyword experimental async_fn trusted ns items outs K H. apply items_sound; assumption. Qed.
Print Assumptions C73_declared_partial.

(** and every bridge of such declarations is without errors *)
Theorem C73_accepted : forall lex keyword experimental async_fn trusted ns items,
  keyword "::" = false ->
  ((exists outs, parse_items lex keyword experimental async_fn trusted ns items = Ok (outs, [])) <->
   (exists outs, declares lex keyword experimental async_fn trusted ns items outs)).
Proof.
  intros lex keyword experimental async_fn trusted ns items K. split.
  - intros (outs & H). exists outs. apply items_sound; assumption.
  - intros (outs & H). eapply items_complete; eassumption.
Qed.
Print Assumptions C73_accepted.

(** ** No panic *)
Definition np {A} (r : res A) : Prop := forall m, r <> Panic m.
Lemma np_bind {A B} (r : res A) (f : A -> res B) : np r -> (forall a, r = Ok a -> np (f a)) -> np (bind r f).
Proof. intros H F m. destruct r as [a|e|e]; cbn; [apply F; reflexivity|discriminate|]. intros E. exact (H e eq_refl). Qed.
Lemma np_bindR {A B} (r : res (A * list string)) (f : A -> res (B * list string)) : np r -> (forall a, np (f a)) -> np (bindR r f).
Proof.
  intros H F m. destruct r as [[a es]|e|e]; cbn; [|discriminate|].
  - specialize (F a). destruct (f a) as [[b es']|e|e]; try discriminate. intros E. injection E as ->. exact (F m eq_refl).
  - intros E. exact (H e eq_refl).
Qed.
Lemma np_bindR2 {A B} (r : res (A * list string)) (f : A -> res (B * list string)) : np r -> (forall a es, r = Ok (a, es) -> np (f a)) -> np (bindR r f).
Proof.
  intros H F m. destruct r as [[a es]|e|e]; cbn; [|discriminate|].
  - specialize (F a es eq_refl). destruct (f a) as [[b es']|e|e]; try discriminate. intros E. injection E as ->. exact (F m eq_refl).
  - intros E. exact (H e eq_refl).
Qed.
Lemma np_try {A B} (r : res A) (f : A -> res (option B * list string)) : np r -> (forall a, r = Ok a -> np (f a)) -> np (try r f).
Proof. intros H F m. destruct r as [a|e|e]; cbn; [apply F; reflexivity|discriminate|]. intros E. exact (H e eq_refl). Qed.
Lemma np_ok {A} (a : A) : np (Ok a). Proof. discriminate. Qed.
Lemma np_err {A} m : np (@Err A m). Proof. discriminate. Qed.
#[local] Hint Resolve np_ok np_err : np.
Lemma np_mapR {A B} (f : A -> res (B * list string)) l : (forall a, In a l -> np (f a)) -> np (mapR f l).
Proof.
  induction l as [|a l IH]; intros H; cbn; [apply np_ok|]. apply np_bindR; [apply H; left; reflexivity|]. intros b.
  apply np_bindR; [|intros; apply np_ok]. apply IH. intros x I. apply H. right. exact I.
Qed.

Ltac np_auto :=
  repeat (intros; first
    [ apply np_ok | apply np_err | assumption
    | apply np_bind
    | match goal with |- np (if ?b then _ else _) => destruct b end
    | match goal with |- np (match ?x with _ => _ end) => destruct x end ]).
Definition np_ty (r : rty) : Prop :=
  np (parse_type r) /\
  match r with RSlice e => np (parse_type e) | RPath _ _ _ _ (AAngle (ATy t ANil)) => np (parse_type t) | _ => True end.
Lemma parse_np : (forall r, np_ty r) /\ (forall a, match a with AAngle (ATy t ANil) => np (parse_type t) | _ => True end) /\
  (forall l, match l with ATy t ANil => np (parse_type t) | _ => True end) /\
  (forall i k, np (parse_inputs k i)) /\ (forall r, np (parse_ret r)).
Proof.
  apply rty_mutind.
  - intros lt m e [IH IS]. split; [|exact I]. cbn [parse_type]. destruct e; np_auto.
  - intros m e [IH _]. split; [|exact I]. cbn. np_auto.
  - intros q ld b n a IH. split; [|destruct a as [|[|e [| | |]| |]|]; auto].
    cbn [parse_type]. cbv zeta.
    assert (PE : np (@path_error ty q b)) by (unfold path_error; np_auto).
    destruct (negb q && negb ld && match b with [] => true | _ => false end)%bool; [|exact PE].
    destruct a as [|l|]; [apply np_ok| |exact PE].
    destruct l as [|t [| | |]|s l|l]; cbn in IH; np_auto.
  - intros e [IH _] len. split; [|exact I]. cbn. np_auto.
  - intros e [IH _]. split; [apply np_err|exact IH].
  - intros lts un abi i IH v o IHo. split; [|exact I]. cbn [parse_type]. destruct lts; [apply np_err|]. destruct v; [apply np_err|].
    apply np_bind; [apply IH|]. intros. apply np_bind; [apply IHo|]. intros [] _. apply np_ok.
  - split; [apply np_ok|exact I].
  - split; [apply np_err|exact I].
  - exact I.
  - intros l IH. exact IH.
  - exact I.
  - exact I.
  - intros t [IH _] l _. destruct l; [exact IH|exact I|exact I|exact I].
  - intros; exact I.
  - intros; exact I.
  - intros k. apply np_ok.
  - intros n t [IH _] l IHl k. cbn. apply np_bind; [exact IH|]. intros. apply np_bind; [apply IHl|]. intros. apply np_ok.
  - apply np_ok.
  - intros t [IH IS]. cbn [parse_ret].
    assert (G : np (bind (parse_type t) (fun ty => Ok (false, match ty with TVoid => None | u => Some u end)))) by np_auto.
    destruct t as [| |[] [] [|] n [|[|arg [| | |]| |]|]| | | | |]; try exact G.
    destruct (String.eqb n "Result"); [|exact G]. np_auto.
Qed.
Lemma parse_type_np r : np (parse_type r). Proof. apply parse_np. Qed.
Lemma parse_ret_np r : np (parse_ret r). Proof. apply parse_np. Qed.

Section NoPanic.
  Variable lex : string -> option (list tok).
  Variable keyword : string -> bool.
  Variables experimental async_fn : bool.
  Hypothesis numbered : forall i, exists x, identifier lex keyword (arg_name i) x.
  Hypothesis keyword_sep : keyword "::" = false.

  Lemma attributes_np p l : np (attributes lex keyword experimental p l).
  Proof. unfold attributes. destruct (attrs_parse _ _ _ p l) as [[? ?] ?]. apply np_ok. Qed.
  Lemma foreign_np {A} i (f : string -> res A) : (exists x, identifier lex keyword i x) -> (forall x, np (f x)) ->
    np (match foreign_name lex keyword i with Ok x => f x | Err m | Panic m => Panic m end).
  Proof. intros [x H] F. apply foreign_name_ok in H. rewrite H. apply F. Qed.
  Lemma pair_np ns i p : (exists x, identifier lex keyword i x) -> np (pair lex keyword ns i p).
  Proof.
    intros H. unfold pair. destruct (ps_cxx_name p) as [[x|]|]; [apply np_ok| |]; apply foreign_np; auto; intros; apply np_ok.
  Qed.
  Lemma report_np b e : np (report_if b e). Proof. destruct b; apply np_ok. Qed.

  Lemma field_np f : (exists x, identifier lex keyword (sf_ident f) x) -> np (parse_field lex keyword experimental f).
  Proof.
    intros H. unfold parse_field. apply np_bindR; [apply attributes_np|]. intros [p pass]. apply np_try; [apply parse_type_np|]. intros ty _.
    apply np_bindR; [apply pair_np; exact H|]. intros n. apply np_ok.
  Qed.
  Lemma struct_np ns s : (forall i, In i (idents_of_item (ItStruct s)) -> exists x, identifier lex keyword i x) -> np (parse_struct lex keyword experimental ns s).
  Proof.
    intros H. unfold parse_struct. apply np_bindR; [apply attributes_np|]. intros [p pass]. cbn in H. destruct (ss_fields s) as [l| |]; try apply np_ok.
    apply np_bindR; [apply np_ok|]. intros lts. apply np_bindR; [apply report_np|]. intros _.
    apply np_bindR; [apply np_mapR; intros f I; apply field_np; apply H; right; apply in_map; exact I|]. intros vs.
    apply np_bindR; [apply pair_np; apply H; left; reflexivity|]. intros n. apply np_ok.
  Qed.
  Lemma variants_np l : forall s, (forall v, In v l -> exists x, identifier lex keyword (sv_ident v) x) ->
    (forall s' ds es p, variants_loop s (map rv l) = (s', ds, es, p) -> p = false) -> np (parse_variants lex keyword experimental s l).
  Proof.
    induction l as [|v l IH]; intros s H P; cbn [parse_variants]; [apply np_ok|]. cbn [map variants_loop] in P.
    destruct (variant_disc s (rv v)) as [s1 r] eqn:D.
    assert (R : np r). { intros m ->. specialize (P _ _ _ _ eq_refl). discriminate. }
    apply np_bindR2.
    - unfold parse_variant. fold (rv v). apply np_bindR; [apply attributes_np|]. intros [p pass]. rewrite D. destruct r as [d|e|e]; [|apply np_ok|].
      + apply np_bindR; [apply pair_np; apply H; left; reflexivity|]. intros; apply np_ok.
      + destruct (R e eq_refl).
    - intros [s1' o] es E. assert (s1' = s1) as ->.
      { unfold parse_variant in E. fold (rv v) in E. unfold attributes in E. destruct (attrs_parse _ _ _ _ (sv_attrs v)) as [[p pass] es0].
        cbn [bindR] in E. rewrite D in E. destruct r as [d|e|e]; [|congruence|discriminate].
        destruct (pair lex keyword [] (sv_ident v) p) as [[n es1]|e|e]; [|discriminate|discriminate]. cbn in E. congruence. }
      apply np_bindR; [|intros []; apply np_ok]. apply IH; [intros w I; apply H; right; exact I|]. intros s' ds es' q Q. rewrite Q in P.
      destruct r as [d|e|e]; [eapply P; reflexivity|eapply P; reflexivity|destruct (R e eq_refl)].
  Qed.
  Lemma inferred_np s : np (inferred_repr s).
  Proof. unfold inferred_repr. destruct (s_repr s); [apply np_ok|]. destruct (s_values s); [apply np_ok|]. np_auto. Qed.
  Lemma enum_np ns e : (forall i, In i (idents_of_item (ItEnum e)) -> exists x, identifier lex keyword i x) ->
    no_negative_zero (map rv (se_variants e)) -> np (parse_enum lex keyword experimental ns e).
  Proof.
    intros H Z. unfold parse_enum. apply np_bindR; [apply attributes_np|]. intros [p pass]. cbv zeta.
    apply np_bindR; [destruct (g_params (se_generics e)); [apply report_np|apply np_ok]|]. intros _.
    apply np_bindR.
    { apply variants_np; [intros v I; apply H; right; apply in_map; exact I|]. intros s' ds es q Q.
      apply loop_no_panic in Q; [apply Q|exact Z|discriminate]. }
    intros [s vs]. apply np_bindR; [pose proof (inferred_np s) as G; intros m; specialize (G m); destruct (inferred_repr s); try discriminate; congruence|].
    intros [r vs']. apply np_bindR; [apply pair_np; apply H; left; reflexivity|]. intros n. apply np_ok.
  Qed.
  Lemma receiver_np r : np (parse_receiver r).
  Proof. destruct r; cbn; [apply np_ok|apply np_bind; [apply parse_type_np|intros; np_auto]|apply np_err]. Qed.
  Lemma args_np l : (forall i, In i (flat_map (fun a => match sa_pat a with PIdent x => [x] | PWild | POther => [] end) l) -> exists x, identifier lex keyword i x) ->
    forall k, np (parse_args lex keyword k l).
  Proof.
    induction l as [|a l IH]; intros H k; cbn [parse_args]; [apply np_ok|].
    assert (N : np (match sa_pat a with PIdent x => Ok x | PWild => Ok (arg_name k) | POther => Err "unsupported signature" end)) by (destruct (sa_pat a); [apply np_ok|apply np_ok|apply np_err]).
    apply np_bind; [exact N|]. intros x X. apply np_bind; [apply parse_type_np|]. intros t _. apply np_bind.
    - apply foreign_np; [|intros; apply np_ok]. cbn [flat_map] in H. destruct (sa_pat a); try discriminate.
      + injection X as ->. apply H. left. reflexivity.
      + assert (x = arg_name k) as -> by (injection X; intros <-; reflexivity). apply numbered.
    - intros y _. apply np_bind; [apply IH; intros i I; apply H; cbn; apply in_or_app; right; exact I|]. intros. apply np_ok.
  Qed.
  Lemma include_path_np l : np (include_path l).
  Proof.
    induction l as [|t l IH]; cbn; [apply np_err|]. destruct t as [x|x|x|c|]; try apply np_err.
    - apply np_bind; [exact IH|]. intros [? ?] _. apply np_ok.
    - destruct x; [apply np_err|]. match goal with |- np (if ?b then _ else _) => destruct b end; [|apply np_err].
      apply np_bind; [exact IH|]. intros [? ?] _. apply np_ok.
    - destruct (Ascii.eqb c ">"); [apply np_ok|]. apply np_bind; [exact IH|]. intros [? ?] _. apply np_ok.
  Qed.
  Lemma include_np cfg l : np (parse_include cfg l).
  Proof.
    unfold parse_include. apply np_bind.
    - destruct l as [|[x|x|x|c|] l]; try apply np_err; [apply np_ok|]. destruct c as [[] [] [] [] [] [] [] []]; try apply np_err.
      apply np_bind; [apply include_path_np|]. intros [? ?] _. apply np_ok.
    - intros [[? ?] []] _; [apply np_ok|apply np_err].
  Qed.
  Lemma fn_np l trusted cfg ns block f : (forall i, In i (idents_of_foreign (FFn f)) -> exists x, identifier lex keyword i x) ->
    np (parse_extern_fn lex keyword experimental async_fn l trusted cfg ns block f).
  Proof.
    intros H. unfold parse_extern_fn. apply np_bindR; [apply attributes_np|]. intros [p pass]. destruct (unsupported_fn async_fn f); [apply np_ok|].
    apply np_try; [destruct (sn_receiver f) as [[? r]|]; [apply np_bind; [apply receiver_np|intros; apply np_ok]|apply np_ok]|]. intros rc _.
    apply np_try; [apply args_np; intros i I; apply H; right; exact I|]. intros args _.
    apply np_try; [apply parse_ret_np|]. intros [th rt] _. apply np_bindR; [apply pair_np; apply H; left; reflexivity|]. intros n. apply np_ok.
  Qed.
  Lemma type_np l trusted cfg ns block attrs i lts bounds : (exists x, identifier lex keyword i x) ->
    np (parse_extern_type lex keyword experimental l trusted cfg ns block attrs i lts bounds).
  Proof.
    intros H. unfold parse_extern_type. apply np_bindR; [apply attributes_np|]. intros [p pass]. apply np_bindR; [apply pair_np; exact H|]. intros n. apply np_ok.
  Qed.
  Lemma foreign_item_np l trusted cfg ns block i : (forall x, In x (idents_of_foreign i) -> exists y, identifier lex keyword x y) ->
    np (parse_foreign_item lex keyword experimental async_fn l trusted cfg ns block i).
  Proof.
    intros H. destruct i as [t|f|attrs toks|attrs ident params tail| | |]; cbn [parse_foreign_item]; try apply np_ok.
    - apply np_bindR; [apply np_ok|]. intros lts. apply np_bindR; [apply type_np; apply H; left; reflexivity|]. intros; apply np_ok.
    - apply fn_np. exact H.
    - apply np_try; [apply include_np|]. intros; apply np_ok.
    - apply np_bindR; [apply np_ok|]. intros lts. destruct tail; [|apply np_bindR; [apply np_ok|]; intros bounds; apply np_bindR; [apply type_np; apply H; left; reflexivity|intros; apply np_ok]|apply np_ok].
      unfold parse_type_alias. apply np_bindR; [apply attributes_np|]. intros [p pass]. destruct l; [|apply np_ok].
      apply np_bindR; [apply pair_np; apply H; left; reflexivity|]. intros n. apply np_ok.
  Qed.
  Lemma impl_np i : np (parse_impl lex keyword experimental i).
  Proof.
    unfold parse_impl. apply np_bindR; [apply attributes_np|]. intros [p pass]. destruct (negb (si_empty i)); [apply np_ok|].
    destruct (si_trait i); [apply np_ok|]. destruct (g_where (si_generics i)); [apply np_ok|]. apply np_try.
    - generalize (g_params (si_generics i)). intros l. induction l as [|[x [|]| |] l IH]; cbn; try apply np_ok; try apply np_err. apply np_bind; [exact IH|intros; apply np_ok].
    - intros lts _. apply np_try; [apply parse_type_np|]. intros; apply np_ok.
  Qed.
  Lemma items_np trusted ns items : (forall it i, In it items -> In i (idents_of_item it) -> exists x, identifier lex keyword i x) ->
    (forall e, In (ItEnum e) items -> no_negative_zero (map rv (se_variants e))) ->
    np (parse_items lex keyword experimental async_fn trusted ns items).
  Proof.
    intros H Z. unfold parse_items. apply np_bindR; [|intros; apply np_ok]. apply np_mapR. intros it I. specialize (H it).
    destruct it as [s|e|b|i| |]; cbn [parse_item]; cbv zeta; try apply np_ok.
    - apply np_bindR; [apply struct_np; auto|]. intros; apply np_ok.
    - apply np_bindR; [apply enum_np; auto|]. intros; apply np_ok.
    - unfold parse_block. destruct (parse_lang (sb_abi b)) eqn:L; [|apply np_ok|].
      + apply np_bindR; [apply attributes_np|]. intros [p pass]. apply np_bindR.
        * apply np_mapR. intros i Ii. apply foreign_item_np. intros x Ix. apply H; [exact I|]. cbn. apply in_flat_map. eauto.
        * intros os. apply np_bindR; [apply np_ok|]. intros; apply np_ok.
      + unfold parse_lang in L. destruct (sb_abi b) as [s0|]; [|discriminate]. destruct (String.eqb s0 "C++"); [discriminate|]. destruct (String.eqb s0 "Rust"); discriminate.
    - apply np_bindR; [apply impl_np|]. intros; apply np_ok.
  Qed.
End NoPanic.

(** Whatever the source, parsing it does not panic, if the identifiers in it are identifiers and
    no variant has the value `-0` (C03). *)
Theorem C73_no_panic_partial : forall lex keyword experimental async_fn trusted ns items m,
  keyword "::" = false ->
  (forall i, exists x, identifier lex keyword (arg_name i) x) ->
  (forall it i, In it items -> In i (idents_of_item it) -> exists x, identifier lex keyword i x) ->
  (forall e, In (ItEnum e) items -> no_negative_zero (map (fun v => RVariant (sv_unit v) (sv_disc v)) (se_variants e))) ->
  parse_items lex keyword experimental async_fn trusted ns items <> Panic m.
Proof. intros lex keyword experimental async_fn trusted ns items m K N H Z. apply items_np; assumption. Qed.
Print Assumptions C73_no_panic_partial.

(** ** What is missing in C73: parts of the source without effect *)
Definition all_idents (s : string) : option (list tok) := Some [KIdent s].
Definition no_keyword (_ : string) : bool := false.
Notation parse := (parse_items all_idents no_keyword false false false []) (only parsing).
Definition attr_ x m := SAttr false [x] m.
Definition block_ items := [ItForeign (SBlock [] true (Some "C++") items)].
Definition no_generics := SGenerics [] false.

Theorem C73_nothing_dropped_refuted :
  (* type T where ..; *)
  (parse (block_ [FType (SType [] "T" (SGenerics [] true))]) = parse (block_ [FType (SType [] "T" no_generics)]) /\
   exists o, parse (block_ [FType (SType [] "T" (SGenerics [] true))]) = Ok ([o], [])) /\
  (* unsafe impl UniquePtr<T> {} *)
  (let impl un := ItImpl (SImpl [] un false no_generics false false (RPath false false [] "UniquePtr" (AAngle (ATy (RPath false false [] "T" ANone) ANil))) true) in
   parse [impl true] = parse [impl false] /\ exists o, parse [impl true] = Ok ([o], [])) /\
  (* #[cfg(any())] include!("h"); *)
  (let include attrs := block_ [FInclude attrs [ITStr "h"]] in
   parse (include [attr_ "cfg" (MList [KIdent "any"; KGroup []])]) = parse (include []) /\ exists o, parse (include []) = Ok ([o], [])) /\
  (* fn f(#[anything] x: i32); *)
  (let f attrs := block_ [FFn (SFn [] "f" no_generics false false false false false None [SArg attrs (PIdent "x") (RPath false false [] "i32" ANone)] RetDefault)] in
   parse (f [attr_ "anything" MPath]) = parse (f []) /\ exists o, parse (f []) = Ok ([o], [])).
Proof. cbv zeta. repeat match goal with |- _ /\ _ => split end; try reflexivity; eexists; reflexivity. Qed.
Print Assumptions C73_nothing_dropped_refuted.

(** * C72 *)
Lemma bare_self_names items out : bare_self items out -> Forall2 (fun a b => name_of_api b = name_of_api a) items out.
Proof.
  unfold bare_self. generalize (flat_map (fun a => match declared_in_block a with Some x => [x] | None => [] end) items). intros names F.
  induction F as [|a b items out H F IH]; constructor; auto. clear F IH.
  destruct a; cbn [fn_of] in H; try (subst; reflexivity); destruct (receiver_name f) as [r|]; try (subst; reflexivity);
    revert H; generalize r; clear r; intros r;
    repeat (match goal with |- context [match ?x with _ => _ end] => destruct x end; try (intros ->; reflexivity));
    intros (f' & (rc & _ & ->) & _ & ->); reflexivity.
Qed.
Lemma Forall2_in {A B} (P : A -> B -> Prop) l m a : Forall2 P l m -> In a l -> exists b, In b m /\ P a b.
Proof. intros F I. eapply Forall2_in_l; eauto. Qed.

(** The C++ namespace of a declaration is the innermost that is given: its own, that of its block,
    that of the bridge.  Its names are those given, or else its identifier. *)
Theorem C72_names_partial : forall lex keyword experimental async_fn trusted ns items outs,
  keyword "::" = false ->
  parse_items lex keyword experimental async_fn trusted ns items = Ok (outs, []) ->
  forall block pl attrs ident, declaration items block pl attrs ident ->
  exists beffs effs o n,
    attributes_mean lex keyword experimental PBlock block beffs /\ attributes_mean lex keyword experimental pl attrs effs /\
    In o outs /\ name_of_api (o_api o) = Some n /\
    p_ns n = last (namespaces effs) (last (namespaces beffs) ns) /\
    (match last (cxx_names effs) None with Some x => p_cxx n = x | None => identifier lex keyword ident (p_cxx n) end) /\
    p_rust n = match last (rust_names effs) None with Some x => x | None => ident end.
Proof.
  intros lex keyword experimental async_fn trusted ns items outs K H block pl attrs ident D.
  apply items_sound in H; [|exact K]. destruct H as (outss & F & ->).
  assert (EM : attributes_mean lex keyword experimental PBlock [] []) by (split; constructor).
  assert (B : forall b (i : sforeign), In (ItForeign b) items -> In i (sb_items b) -> exists beffs l o o',
      attributes_mean lex keyword experimental PBlock (sb_attrs b) beffs /\
      foreign_is lex keyword experimental async_fn l (trusted || sb_unsafe b) ns beffs (kept (combine (sb_attrs b) beffs)) i o /\
      In o' (List.concat outss) /\ name_of_api (o_api o') = name_of_api (o_api o)).
  { intros b i Ib Ii. destruct (Forall2_in _ _ _ _ F Ib) as (os & Io & P). inversion P as [| |? ? Q|]; subst.
    destruct Q as (l & beffs & mids & _ & A & _ & _ & G & S & _). destruct (Forall2_in _ _ _ _ G Ii) as (o & Iom & T).
    apply bare_self_names in S. destruct (Forall2_in _ _ _ (o_api o) S (in_map _ _ _ Iom)) as (a' & Ia & N).
    apply in_map_iff in Ia as (o' & <- & Io'). exists beffs, l, o, o'. split; [exact A|]. split; [exact T|]. split; [|exact N].
    apply in_concat. eauto. }
  assert (W : forall b beffs effs n, attributes_mean lex keyword experimental PBlock b beffs -> name_is lex keyword ns ident (beffs ++ effs) n ->
     p_ns n = last (namespaces effs) (last (namespaces beffs) ns) /\
     (match last (cxx_names effs) None with Some x => p_cxx n = x | None => identifier lex keyword ident (p_cxx n) end) /\
     p_rust n = match last (rust_names effs) None with Some x => x | None => ident end).
  { intros b beffs effs n A N. apply (name_inner lex keyword experimental b beffs ns A) in N. unfold name_is in N.
    rewrite (final_namespace _ ns) in N by reflexivity. exact N. }
  destruct D as [s I|e I|b t Ib I|b attrs ident params tail Ib I|b f Ib I].
  - destruct (Forall2_in _ _ _ _ F I) as (os & Io & P). inversion P as [? o Q| | |]; subst.
    destruct Q as (effs & fields & st & A & _ & E & N & _). exists [], effs, o, (st_name st). split; [exact EM|]. split; [exact A|].
    split; [apply in_concat; eexists; split; [exact Io|left; reflexivity]|]. rewrite E. split; [reflexivity|]. exact N.
  - destruct (Forall2_in _ _ _ _ F I) as (os & Io & P). inversion P as [|? o Q| |]; subst.
    destruct Q as (effs & en & ds & A & E & N & _). exists [], effs, o, (en_name en). split; [exact EM|]. split; [exact A|].
    split; [apply in_concat; eexists; split; [exact Io|left; reflexivity]|]. rewrite E. split; [reflexivity|]. exact N.
  - destruct (B _ _ Ib I) as (beffs & l & o & o' & A & T & Io & E). inversion T as [? ? Q| | | |]; subst.
    destruct Q as (effs & et & A' & Eo & N & _). exists beffs, effs, o', (et_name et). split; [exact A|]. split; [exact A'|]. split; [exact Io|].
    split; [rewrite E, Eo; destruct l; reflexivity|]. eapply W; eauto.
  - destruct (B _ _ Ib I) as (beffs & l & o & o' & A & T & Io & E). inversion T as [|? ? ? ? ? Q|? ? ? ? ? Q| |]; subst.
    + destruct Q as (effs & et & A' & Eo & N & _). exists beffs, effs, o', (et_name et). split; [exact A|]. split; [exact A'|]. split; [exact Io|].
      split; [rewrite E, Eo; destruct l; reflexivity|]. eapply W; eauto.
    + destruct Q as (effs & ta & A' & Eo & N & _). exists beffs, effs, o', (ta_name ta). split; [exact A|]. split; [exact A'|]. split; [exact Io|].
      split; [rewrite E, Eo; reflexivity|]. eapply W; eauto.
  - destruct (B _ _ Ib I) as (beffs & l & o & o' & A & T & Io & E). inversion T as [| | |? ? Q|]; subst.
    destruct Q as (effs & ef & A' & Eo & N & _). exists beffs, effs, o', (fn_name ef). split; [exact A|]. split; [exact A'|]. split; [exact Io|].
    split; [rewrite E, Eo; destruct l; reflexivity|]. eapply W; eauto.
Qed.
Print Assumptions C72_names_partial.

(** Fields have their own names likewise, outside of any namespace. *)
Theorem C72_fields : forall lex keyword experimental async_fn trusted ns items outs,
  keyword "::" = false ->
  parse_items lex keyword experimental async_fn trusted ns items = Ok (outs, []) ->
  forall s fields, In (ItStruct s) items -> ss_fields s = FNamed fields ->
  exists o st, In o outs /\ o_api o = AStruct st /\
    Forall2 (fun f v => exists effs, attributes_mean lex keyword experimental PMember (sf_attrs f) effs /\ p_ns (v_name v) = [] /\
       (match last (cxx_names effs) None with Some x => p_cxx (v_name v) = x | None => identifier lex keyword (sf_ident f) (p_cxx (v_name v)) end) /\
       p_rust (v_name v) = match last (rust_names effs) None with Some x => x | None => sf_ident f end) fields (st_fields st).
Proof.
  intros lex keyword experimental async_fn trusted ns items outs K H s fields I Fs.
  apply items_sound in H; [|exact K]. destruct H as (outss & F & ->). destruct (Forall2_in _ _ _ _ F I) as (os & Io & P). inversion P as [? o Q| | |]; subst.
  destruct Q as (effs & fields' & st & _ & Fs' & E & _ & _ & _ & _ & _ & _ & L1 & L2 & G). rewrite Fs in Fs'. injection Fs' as <-.
  exists o, st. split; [apply in_concat; eexists; split; [exact Io|left; reflexivity]|]. split; [exact E|].
  clear - L1 L2 G. revert L1 L2 G. generalize (st_fields st), (o_subs o). intros vs xs L1 L2 G. revert vs xs L1 L2 G.
  induction fields as [|f fields IH]; intros [|v vs] [|x xs] L1 L2 G; try discriminate; constructor.
  - inversion G as [|? ? ? ? Q _]; subst. destruct Q as (effs & A & N & _). exists effs. split; [exact A|].
    destruct N as (N1 & N2 & N3). rewrite (no_namespace _ _ _ _ _ A) in N1. auto.
  - inversion G; subst. apply (IH vs xs); auto.
Qed.
Print Assumptions C72_fields.

(** A bridge in namespace "outer" with a block in namespace "inner" with one function in its own *)
Definition ns_ s := attr_ "namespace" (MNameValue (VStr s)).
Definition function_ attrs ident := FFn (SFn attrs ident no_generics false false false false false None [] RetDefault).
Definition example_items :=
  [ItStruct (SStruct [attr_ "cxx_name" (MNameValue (VStr "Shared"))] "shared" no_generics (FNamed [SField [] "x" (RPath false false [] "i32" ANone)]));
   ItForeign (SBlock [ns_ "inner"] true (Some "C++")
     [FType (SType [] "T" no_generics); function_ [ns_ "own"] "f"; function_ [attr_ "rust_name" (MNameValue (VStr "h"))] "g"])].
Definition example_result := parse_items all_idents no_keyword false false false ["outer"] example_items.
Example C72_C73_nonvacuous :
  (forall i, exists x, identifier all_idents no_keyword (arg_name i) x) /\
  (exists outs, example_result = Ok (outs, []) /\
     map (fun o => name_of_api (o_api o)) outs =
       [Some (Pair ["outer"] "Shared" "shared"); Some (Pair ["inner"] "T" "T"); Some (Pair ["own"] "f" "f"); Some (Pair ["inner"] "g" "h")]) /\
  declaration example_items [ns_ "inner"] PFn [ns_ "own"] "f" /\
  (* a struct without fields is rejected, and so is an unknown item *)
  (exists outs es, parse [ItStruct (SStruct [] "S" no_generics FUnit); ItUse] = Ok (outs, es) /\ List.length es = 2%nat).
Proof.
  split; [intros i; eexists; exists (KIdent (arg_name i)); split; [reflexivity|constructor]|].
  split; [eexists; split; reflexivity|].
  split; [|eexists _, _; split; reflexivity].
  apply (de_fn example_items (SBlock [ns_ "inner"] true (Some "C++")
     [FType (SType [] "T" no_generics); function_ [ns_ "own"] "f"; function_ [attr_ "rust_name" (MNameValue (VStr "h"))] "g"])
     (SFn [ns_ "own"] "f" no_generics false false false false false None [] RetDefault)); cbn; tauto.
Qed.

(** What is missing in C72: a raw identifier is no name in C++, but is used as one; in a quoted
    namespace it is rejected, in an unquoted one it is not. *)
Definition cxx_char (c : ascii) : bool :=
  let n := nat_of_ascii c in
  ((48 <=? n) && (n <=? 57) || (65 <=? n) && (n <=? 90) || (97 <=? n) && (n <=? 122) || (n =? 95))%nat%bool.
Theorem C72_raw_refuted :
  exists o n, parse [ItStruct (SStruct [attr_ "namespace" (MNameValue (VPath false false false ["r#new"]))] "r#delete" no_generics (FNamed []))] = Ok ([o], []) /\
    name_of_api (o_api o) = Some n /\ forallb cxx_char (list_ascii_of_string (p_cxx n)) = false /\
    Forall (fun x => forallb cxx_char (list_ascii_of_string x) = false) (p_ns n) /\ p_ns n <> [] /\
    exists e, parse [ItStruct (SStruct [ns_ "r#new"] "r#delete" no_generics (FNamed []))] = Ok (fst (match parse [ItStruct (SStruct [] "r#delete" no_generics (FNamed []))] with Ok r => r | _ => ([], []) end), [e]).
Proof.
  eexists _, _. split; [reflexivity|]. split; [reflexivity|]. split; [reflexivity|]. split; [repeat constructor|]. split; [discriminate|]. eexists. reflexivity.
Qed.
Print Assumptions C72_raw_refuted.
