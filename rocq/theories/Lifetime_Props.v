(** C90: the functions and the implementations that the macro generates have the lifetimes that
    the bridge declares.  Specification: Lifetime_Spec.v. *)
From Verif Require Import Base StrLib Syntax_Model TypeEq_Model Toposort_Model Toposort_Spec Types_Model Types_Spec Types_Proofs Types_Props
  Check_Model Check_Spec Check_Proofs Check_Proofs2 Check_Props Mangle_Model Mangle_Spec Mangle_Props Abi_Model Abi_Spec Abi_Proofs Abi_Props
  Lifetime_Model Lifetime_Spec Lifetime_Proofs.
From Coq Require Import Lia.

(** The full claim: all functions that are generated for an accepted bridge whose signatures
    have a meaning in Rust compile, and mean the same. *)
Definition C90_claim : Prop := forall gen ord apis T f g n, accepted_bridge gen ord apis T -> own_undeclared apis -> declared_ok (arity apis) f ->
  (In (ACxxFunction f) apis /\ (wrapper_fn T f = Some g \/ decl_fn n T f = Some g)) \/ (In (ARustFunction f) apis /\ (shim_fn n T f = Some g \/ super_fn f = g)) ->
  compiles (arity apis) g /\ forall l', means (arity apis) g l' -> exists l, declared_means (arity apis) f l /\ subseq l' l.

Lemma arity_declared apis x : arity apis x <> 0 -> exists p lts, declares apis p lts /\ p_rust p = x.
Proof.
  unfold arity. destruct (find _ apis) as [a|] eqn:E.
  - apply find_some in E as (I & E). destruct a; try discriminate; intros _; apply String.eqb_eq in E; eexists _, _; (split; [|exact E]); [apply de_struct|apply de_enum]; exact I.
  - clear E. destruct (find _ apis) as [a|] eqn:E; [|congruence]. apply find_some in E as (I & E). intros _. destruct a; try discriminate; apply String.eqb_eq in E; eexists _, _; (split; [|exact E]).
    + apply de_cxx; exact I.
    + apply de_rust; exact I.
    + apply de_alias; exact I.
Qed.
Lemma own_arity apis : own_undeclared apis -> forall x, In x own_names -> arity apis x = 0.
Proof.
  intros H x I. destruct (Nat.eq_dec (arity apis x) 0) as [E|N]; [exact E|]. destruct (arity_declared _ _ N) as (p & lts & D & <-). destruct (H _ _ D I).
Qed.
Lemma carried_ext ar h h' t : (forall u, h u = h' u) -> carried ar h t = carried ar h' t.
Proof.
  intros H. induction t using ty_ind'; cbn [carried]; rewrite <- ?H, ?IHt; try reflexivity. destruct t; rewrite <- ?H; try reflexivity. cbn [carried] in IHt. rewrite IHt. reflexivity.
Qed.

(** The function that Rust code calls always compiles, and has exactly the declared lifetimes. *)
Theorem C90_wrapper : forall gen ord apis T f, accepted_bridge gen ord apis T -> own_undeclared apis -> arities_agree apis ->
  In (ACxxFunction f) apis -> declared_ok (arity apis) f ->
  exists g, wrapper_fn T f = Some g /\ compiles (arity apis) g /\ (forall l, means (arity apis) g l <-> declared_means (arity apis) f l) /\
    map (brings (arity apis)) (l_params g) = map (fun a => written (arity apis) (snd a)) (fn_args f).
Proof.
  intros gen ord apis T f Hacc Ho Ha Hf Hd.
  assert (E : exists g, wrapper_fn T f = Some g).
  { unfold wrapper_fn. destruct (fn_receiver f) as [r|] eqn:Er; [|eauto]. destruct (receiver_resolves _ _ _ _ Hacc f r (or_introl Hf) Er) as (p & lts & ->). cbn [option_map]. eauto. }
  destruct E as (g & E). exists g. split; [exact E|]. apply (wrapper_ok (arity apis) (own_arity _ Ho) T f g Hd); [|exact E].
  intros r p lts _ R. destruct (resolve_ok _ _ _ _ Hacc _ _ _ R) as (D & <-). apply Ha, D.
Qed.
Print Assumptions C90_wrapper.

Lemma inputs_receivers ar f : (forall x, In x own_names -> ar x = 0) -> forall c : ty -> list lifetime,
  match fn_receiver f with Some r => [olt (rc_lt r) :: args_of ar (n_rust (rc_ty r)) (n_lts (rc_ty r))] | None => [] end ++ map (fun a => c (snd a)) (fn_args f) =
  map (brings ar) (receivers (fn_sig f)) ++ map (fun a => c (snd a)) (sg_args (fn_sig f)).
Proof. intros H c. unfold receivers. cbn [fn_sig sg_receiver sg_args]. destruct (fn_receiver f); [|reflexivity]. cbn [map]. rewrite (receiver_brings _ H). reflexivity. Qed.
(** The declaration of the C++ function compiles exactly if an elided lifetime in what it
    returns has one source among the lifetimes that remain in its parameters, the receiver
    being a parameter like the others; and then it means what is declared. *)
Theorem C90_declaration : forall gen ord apis T f n g hidden, accepted_bridge gen ord apis T -> own_undeclared apis -> (forall t, hidden t = true <-> improper apis t) ->
  In (ACxxFunction f) apis -> declared_ok (arity apis) f -> decl_fn n T f = Some g ->
  (compiles (arity apis) g <-> (forall r, fn_throws f = false -> fn_ret f = Some r -> l_ret g <> None -> In None (carried (arity apis) hidden r) ->
                                 exists o, sole (carried_inputs (arity apis) hidden f) o)) /\
  forall l', means (arity apis) g l' -> exists l, declared_means (arity apis) f l /\ subseq l' l.
Proof.
  intros gen ord apis T f n g hidden Hacc Ho Hh Hf [Ds Dr Da Dt Dm] E. assert (Z := own_arity _ Ho).
  assert (X : forall t, carried (arity apis) hidden t = carried (arity apis) (fun u => true && is_considered_improper T u) t).
  { intros t. apply carried_ext. intros u. cbn [andb]. assert (B := improper_ok _ _ _ _ Hacc u). rewrite <- Hh in B. destruct (hidden u), (is_considered_improper T u); intuition congruence. }
  unfold decl_fn in E. split.
  - destruct (header_ok _ Z n T true (fn_generics f) _ [] (fn_sig f) g (carried_inputs (arity apis) hidden f) Ds (decl_param_ok _ Z n T _) ltac:(constructor) ltac:(constructor) Dr Da Dt) as (C & _); [|exact E|].
    + unfold carried_inputs. rewrite (inputs_receivers _ _ Z (carried (arity apis) hidden)). f_equal. apply map_ext. intros a. apply X.
    + rewrite C. cbn [fn_sig sg_throws sg_ret]. split; intros H r A B N I; apply (H r A B N); [rewrite <- X|rewrite X]; exact I.
  - intros l' M. apply (header_means _ Z n T true (fn_generics f) (decl_param n T) [] (fn_sig f) g (option_map (fun r => olt (rc_lt r)) (fn_receiver f)) (inputs (arity apis) f) _ l' Ds (decl_param_ok _ Z n T _) ltac:(constructor) ltac:(constructor)); auto.
    apply (inputs_receivers _ _ Z (written (arity apis))).
Qed.
Print Assumptions C90_declaration.
(** The same for the function that C++ code calls.  Here the lifetimes behind pointers remain;
    also the signature inside it must compile, in which all lifetimes are those declared, but
    the receiver is a parameter like the others. *)
Theorem C90_export : forall gen ord apis T f n g, accepted_bridge gen ord apis T -> own_undeclared apis ->
  In (ARustFunction f) apis -> declared_ok (arity apis) f -> shim_fn n T f = Some g ->
  (compiles (arity apis) g <-> (forall r, fn_throws f = false -> fn_ret f = Some r -> l_ret g <> None -> In None (carried (arity apis) (fun _ => false) r) ->
                                 exists o, sole (carried_inputs (arity apis) (fun _ => false) f) o)) /\
  (forall l', means (arity apis) g l' -> exists l, declared_means (arity apis) f l /\ subseq l' l) /\
  (compiles (arity apis) (super_fn f) <-> (In None (owritten (arity apis) (fn_ret f)) -> exists o, sole (inputs (arity apis) f) o)) /\
  map (brings (arity apis)) (l_params (super_fn f)) = inputs (arity apis) f /\
  (forall l, means (arity apis) (super_fn f) l -> declared_means (arity apis) f l).
Proof.
  intros gen ord apis T f n g Hacc Ho Hf Hd E. pose proof Hd as [Ds Dr Da Dt Dm]. assert (Z := own_arity _ Ho). unfold shim_fn in E. split; [|split].
  - destruct (header_ok _ Z n T false (fn_generics f) _ [] (fn_sig f) g (carried_inputs (arity apis) (fun _ => false) f) Ds (shim_param_ok _ Z n T _) ltac:(constructor) ltac:(constructor) Dr Da Dt) as (C & _); [|exact E|exact C].
    apply (inputs_receivers _ _ Z (carried (arity apis) (fun _ => false))).
  - intros l' M. apply (header_means _ Z n T false (fn_generics f) (shim_param n T) [] (fn_sig f) g (option_map (fun r => olt (rc_lt r)) (fn_receiver f)) (inputs (arity apis) f) _ l' Ds (shim_param_ok _ Z n T _) ltac:(constructor) ltac:(constructor)); auto.
    apply (inputs_receivers _ _ Z (written (arity apis))).
  - destruct (super_ok _ Z f Hd) as (A & B & C). auto.
Qed.
Print Assumptions C90_export.
(** The function through which C++ calls a function pointer. *)
Theorem C90_trampoline : forall gen ord apis T f n g x un th args ret, accepted_bridge gen ord apis T -> own_undeclared apis ->
  In (ACxxFunction f) apis -> declared_ok (arity apis) f -> In (x, TFn un th args ret) (fn_args f) -> trampoline_fn n T f th args ret = Some g ->
  (compiles (arity apis) g <-> (forall r, th = false -> ret = Some r -> l_ret g <> None -> In None (carried (arity apis) (fun _ => false) r) ->
                                 exists o, sole (map (fun a => carried (arity apis) (fun _ => false) (snd a)) args) o)) /\
  forall l', means (arity apis) g l' -> exists l, elides None (map (fun a => written (arity apis) (snd a)) args) (owritten (arity apis) ret) l /\ subseq l' l.
Proof.
  intros gen ord apis T f n g x un th args ret Hacc Ho Hf [Ds Dr Da Dt Dm] Hx E. assert (Z := own_arity _ Ho).
  rewrite Forall_forall in Da. specialize (Da _ Hx). cbn in Da. inversion Da as [| | | | | | | | | | | | |? ? ? ? Pa Pr Pm]; subst. unfold trampoline_fn in E.
  assert (Ee : Forall (proper_lty (arity apis) (fn_generics f)) [raw false (LPath "()" [] [])]) by (constructor; [apply proper_raw; constructor; auto|constructor]).
  assert (Eb : Forall (eq []) (map (brings (arity apis)) [raw false (LPath "()" [] [])])).
  { constructor; [|constructor]. rewrite (raw_brings _ Z), (path_brings _ Z) by (cbn; auto 60). reflexivity. }
  split.
  - destruct (header_ok _ Z n T false (fn_generics f) _ _ (ptr_sig th args ret) g (map (fun a => carried (arity apis) (fun _ => false) (snd a)) args) Ds (shim_param_ok _ Z n T _) Ee Eb) as (C & _); try discriminate; auto.
  - intros l' M. apply (header_means _ Z n T false (fn_generics f) (shim_param n T) _ (ptr_sig th args ret) g None _ _ l' Ds (shim_param_ok _ Z n T _) Ee Eb); auto. discriminate.
Qed.
Print Assumptions C90_trampoline.
(** These functions are always generated. *)
Theorem C90_total : forall gen ord apis T f, accepted_bridge gen ord apis T -> ~ has_cycle contains (structs_of apis) -> all_functions apis f ->
  exists F, forall n, F <= n -> decl_fn n T f <> None /\ shim_fn n T f <> None.
Proof.
  intros gen ord apis T f Hacc Hc Hf. pose proof (indirect_decided _ _ _ _ Hacc Hc) as D.
  assert (A : exists F, forall n, F <= n -> forall t, In t (map snd (fn_args f)) -> exists b, needs_indirect_abi n T t = Some b).
  { induction (map snd (fn_args f)) as [|t l IH]; [exists 0; intros n _ t []|]. destruct IH as (F & IH). destruct (D t) as (b & F' & Hb & _). exists (F + F'). intros n L t' [<-|I].
    - exists b. apply Hb. lia.
    - apply IH; [lia|exact I]. }
  destruct A as (F & A).
  assert (R : exists F, forall n, F <= n -> forall t, fn_ret f = Some t -> exists b, needs_indirect_abi n T t = Some b).
  { destruct (fn_ret f) as [t|]; [|exists 0; discriminate]. destruct (D t) as (b & F' & Hb & _). exists F'. intros n L t' E. injection E as <-. exists b. apply Hb, L. }
  destruct R as (F' & R). exists (F + F'). intros n L.
  assert (G : forall b param, (forall t, In t (map snd (fn_args f)) -> exists e, param t = Some e) -> extern_fn_header n T b param [] (fn_generics f) (fn_sig f) <> None).
  { intros b param H. unfold extern_fn_header, extern_ret, extern_outparam, indirect_return. cbn [fn_sig sg_ret sg_args sg_throws].
    assert (P : exists ps, otraverse (fun a => param (snd a)) (fn_args f) = Some ps).
    { clear -H. induction (fn_args f) as [|a l IH]; [exists []; reflexivity|]. destruct IH as (ps & E); [intros t I; apply H; right; exact I|].
      destruct (H (snd a)) as (e & Ee); [left; reflexivity|]. exists (e :: ps). apply otraverse_cons; assumption. }
    destruct P as (ps & ->). cbn [obind]. destruct (fn_throws f), (fn_ret f) as [r|]; cbn [obind option_map]; try discriminate.
    destruct (R n ltac:(lia) r eq_refl) as ([] & ->); discriminate. }
  split; apply G; intros t I; destruct (A n ltac:(lia) t I) as (b & Eb); [unfold decl_param|unfold shim_param; rewrite Eb; cbn; eauto].
  destruct (is_rust_string t); [eauto|]. destruct t; rewrite ?Eb; cbn [obind]; eauto.
Qed.
Print Assumptions C90_total.
(** The header of an implementation that the macro adds by itself compiles. *)
Theorem C90_instances : forall gen ord apis T k h, accepted_bridge gen ord apis T -> arities_agree apis -> (forall p lts, declares apis p lts -> good_scope lts) ->
  impl_header T (k, None) = Some h -> proper_impl (arity apis) h.
Proof.
  intros gen ord apis T k h Hacc Ha Hg E. unfold impl_header in E. cbn [fst snd] in E. destruct (try_resolve T (snd k)) as [(p, lts)|] eqn:R; [|discriminate]. cbn in E. injection E as <-.
  destruct (resolve_ok _ _ _ _ Hacc _ _ _ R) as (D & Ep). split; [exact (Hg _ _ D)|]. exists (snd k), lts. cbn. split; [reflexivity|]. split; [rewrite <- Ep; apply Ha, D|].
  apply Forall_forall. intros a I. right. right. exact I.
Qed.
Print Assumptions C90_instances.
(** The header of an explicit implementation is as it was written: it compiles exactly if all lifetimes of the type are
    written and declared. *)
Theorem C90_explicit : forall gen ord apis T k x imp, accepted_bridge gen ord apis T -> In ((k, x), Some imp) (t_impls T) ->
  exists n h, argument n (im_ty imp) /\ n_rust n = x /\ In (AImpl imp) apis /\ impl_header T ((k, x), Some imp) = Some h /\ h = (im_lts imp, LPath x (n_lts n) []) /\
    (proper_impl (arity apis) h <-> good_scope (im_lts imp) /\ List.length (n_lts n) = arity apis x /\ Forall (in_scope (im_lts imp)) (n_lts n)).
Proof.
  intros gen ord apis T k x imp Hacc I. destruct Hacc as ((Ho & Hc) & _). destruct (C17_instantiations _ _ _ _ Ho Hc) as (_ & _ & E). specialize (E k x (Some imp) I). cbn beta iota in E. destruct E as (Ia & G).
  assert (exists n, argument n (im_ty imp) /\ n_rust n = x /\ impl_header T ((k, x), Some imp) = Some (im_lts imp, LPath x (n_lts n) [])) as (n & A & N & H).
  { unfold impl_header. cbn [fst snd]. destruct k; cbn in G; inversion G; subst; eexists; (split; [constructor|]); (split; reflexivity). }
  exists n. eexists. split; [exact A|]. split; [exact N|]. split; [exact Ia|]. split; [exact H|]. split; [reflexivity|]. unfold proper_impl. cbn [fst snd]. split.
  - intros (S & y & lts & E & L & F). injection E as <- <-. auto.
  - intros (S & L & F). split; [exact S|]. exists x, (n_lts n). auto.
Qed.
Print Assumptions C90_explicit.

(** * Accepted bridges for which the claim is false *)
Local Definition soleb (ws : list (list lifetime)) : bool :=
  match filter (fun w => negb (Nat.eqb (List.length w) 0)) ws with
  | [[_]] => true
  | [w] => forallb (fun l : lifetime => match l with Some _ => true | None => false end) w
  | _ => false
  end.
Lemma soleb_ok ws o : sole ws o -> soleb ws = true.
Proof.
  assert (F : forall l : list (list lifetime), Forall (eq []) l -> filter (fun w => negb (Nat.eqb (List.length w) 0)) l = []) by (induction 1 as [|? ? <- ? IH]; [reflexivity|exact IH]).
  intros H. apply sole_inv in H as (pre & w & post & -> & A & B & K). unfold soleb. rewrite filter_app. cbn [filter]. rewrite (F _ A), (F _ B). destruct K as [(l & -> & _)|(a & n & -> & _)]; [reflexivity|].
  cbn [repeat List.length Nat.eqb negb app]. destruct n; [reflexivity|]. cbn [repeat]. apply forallb_forall. intros x I. cbn in I. destruct I as [<-|[<-|I]]; try reflexivity. apply repeat_spec in I. subst. reflexivity.
Qed.
(** All elided lifetimes of [g] have a source? *)
Lemma broken ar g : l_self g = None -> In None (obrings ar (l_ret g)) -> soleb (map (brings ar) (l_params g)) = false -> ~ compiles ar g.
Proof.
  intros E I S [_ _ _ _ _ M]. unfold means in M. rewrite E in M. cbn [app] in M. apply elides_exists in M; [|exact I|reflexivity]. destruct M as (o & M). apply soleb_ok in M. congruence.
Qed.
Local Definition I_ (a : string) : ty := TIdent (Named a []).
Local Definition P_ (a : string) : pair_name := Pair [] a a.
Local Definition ref_ (a : string) : ty := TRef false false None (I_ a).
Local Definition fn_ (l : lang) (recv : option string) (args : list (string * ty)) (ret : option ty) : extern_fn :=
  ExternFn CUnconditional l (P_ "f") false false [] (option_map (fun t => Receiver false None false (Named t []) false) recv) args ret false true.
Local Definition R_ (a : string) (lts : list string) : api := ARustType (ExternType CUnconditional LRust [] (P_ a) lts [] true).
Local Definition C_ (a : string) (lts : list string) : api := ACxxType (ExternType CUnconditional LCxx [] (P_ a) lts [] true).
Local Ltac accept T apis := destruct (accepts_ok GMacro apis eq_refl) as (T & HT); pose proof HT as ((_ & Hc) & _); vm_compute in Hc; injection Hc as Hc.

Local Definition freeb (apis : list api) : bool :=
  forallb (fun a => match a with
    | AStruct s => negb (smem (p_rust (st_name s)) own_names)
    | AEnum e => negb (smem (p_rust (en_name e)) own_names)
    | ACxxType t | ARustType t => negb (smem (p_rust (et_name t)) own_names)
    | ATypeAlias t => negb (smem (p_rust (ta_name t)) own_names)
    | _ => true
    end) apis.
Lemma freeb_ok apis : freeb apis = true -> own_undeclared apis.
Proof.
  unfold freeb. rewrite forallb_forall. intros H p lts D I. assert (M : smem (p_rust p) own_names = true) by (apply smem_In; exact I).
  destruct D as [s J|s J|s J|s J|s J]; specialize (H _ J); cbv beta iota in H; rewrite M in H; discriminate.
Qed.
Local Definition agreeb (apis : list api) : bool :=
  forallb (fun a => match a with
    | AStruct s => Nat.eqb (List.length (st_lts s)) (arity apis (p_rust (st_name s)))
    | AEnum e => Nat.eqb (List.length (en_lts e)) (arity apis (p_rust (en_name e)))
    | ACxxType t | ARustType t => Nat.eqb (List.length (et_lts t)) (arity apis (p_rust (et_name t)))
    | ATypeAlias t => Nat.eqb (List.length (ta_lts t)) (arity apis (p_rust (ta_name t)))
    | _ => true
    end) apis.
Lemma agreeb_ok apis : agreeb apis = true -> arities_agree apis.
Proof.
  unfold agreeb. rewrite forallb_forall. intros H p lts D. destruct D as [s J|s J|s J|s J|s J]; specialize (H _ J); cbv beta iota in H; apply Nat.eqb_eq, H.
Qed.
Local Ltac types := repeat first [apply Forall_nil | apply Forall_cons; cbn [snd] | apply pt_ident; [left; reflexivity|] | apply pt_ref; [discriminate|] | apply pt_str; discriminate | apply pt_void].
(** Checks a declaration: without lifetime parameters; [self]: that it is a method *)
Lemma declared_simple apis f : fn_generics f = [] -> (forall r, fn_receiver f = Some r -> rc_lt r = None /\ n_lts (rc_ty r) = []) ->
  Forall (fun a => proper_type (arity apis) [] (snd a)) (fn_args f) -> (forall r, fn_ret f = Some r -> proper_type (arity apis) [] r) ->
  (fn_receiver f = None -> exists o, sole (inputs (arity apis) f) o) -> declared_ok (arity apis) f.
Proof.
  intros G R A B S. constructor; rewrite ?G; auto.
  - split; [constructor|]. split; intros [].
  - intros r E. destruct (R r E) as (L & N). rewrite L. split; [|discriminate]. constructor; [left; exact N|rewrite N; constructor].
  - apply elides_exists. intros _ E. apply S. destruct (fn_receiver f); [discriminate|reflexivity].
Qed.
Local Ltac refute n f := exists GMacro, id_order; eexists; match goal with T : types |- _ => exists T end; exists f; eexists; exists n;
  match goal with HT : accepted_bridge _ _ _ _ |- _ => split; [exact HT|] end; split; [apply freeb_ok; vm_compute; reflexivity|]; split; [apply agreeb_ok; vm_compute; reflexivity|]; split; [cbn; auto|]; split.
(** A method with a reference parameter that returns a reference: in the declaration the
    receiver is a parameter like the others. *)
Theorem C90_method_refuted : exists gen ord apis T f g n, accepted_bridge gen ord apis T /\ own_undeclared apis /\ arities_agree apis /\ In (ACxxFunction f) apis /\
  declared_ok (arity apis) f /\ decl_fn n T f = Some g /\ ~ compiles (arity apis) g.
Proof.
  set (f := fn_ LCxx (Some "T"%string) [("x"%string, ref_ "U")] (Some (ref_ "U"))).
  set (apis := [C_ "T" []; C_ "U" []; ACxxFunction f]). accept T apis. refute 5 f.
  - apply declared_simple; [reflexivity| | | |discriminate]; cbn; try (intros r E; injection E as <-); types. split; reflexivity.
  - split; [rewrite <- Hc; vm_compute; reflexivity|]. apply broken; [reflexivity|vm_compute; auto|vm_compute; reflexivity].
Qed.
Print Assumptions C90_method_refuted.
(** … and so is it in both functions that are generated for a method of a Rust type. *)
Theorem C90_rust_method_refuted : exists gen ord apis T f g n, accepted_bridge gen ord apis T /\ own_undeclared apis /\ arities_agree apis /\ In (ARustFunction f) apis /\
  declared_ok (arity apis) f /\ shim_fn n T f = Some g /\ ~ compiles (arity apis) g /\ ~ compiles (arity apis) (super_fn f).
Proof.
  set (f := fn_ LRust (Some "T"%string) [("x"%string, ref_ "U")] (Some (ref_ "U"))).
  set (apis := [R_ "T" []; R_ "U" []; ARustFunction f]). accept T apis. refute 5 f.
  - apply declared_simple; [reflexivity| | | |discriminate]; cbn; try (intros r E; injection E as <-); types. split; reflexivity.
  - split; [rewrite <- Hc; vm_compute; reflexivity|]. split; (apply broken; [reflexivity|vm_compute; auto|vm_compute; reflexivity]).
Qed.
Print Assumptions C90_rust_method_refuted.
(** The lifetime of a &str is lost in the exported function. *)
Theorem C90_str_refuted : exists gen ord apis T f g n, accepted_bridge gen ord apis T /\ own_undeclared apis /\ arities_agree apis /\ In (ARustFunction f) apis /\
  declared_ok (arity apis) f /\ shim_fn n T f = Some g /\ ~ compiles (arity apis) g /\ compiles (arity apis) (super_fn f).
Proof.
  set (f := fn_ LRust None [("x"%string, TStr None)] (Some (ref_ "U"))).
  set (apis := [R_ "U" []; ARustFunction f]). accept T apis. refute 5 f.
  - apply declared_simple; [reflexivity|discriminate| | |]; cbn; try (intros r E; injection E as <-); types. intros _. exists (FromParam 0). exact (so_one [] None [] ltac:(constructor) ltac:(constructor)).
  - split; [rewrite <- Hc; vm_compute; reflexivity|]. split; [apply broken; [reflexivity|vm_compute; auto|vm_compute; reflexivity]|].
    apply (super_ok (arity apis)).
    + apply own_arity, freeb_ok. vm_compute. reflexivity.
    + apply declared_simple; [reflexivity|discriminate| | |]; cbn; try (intros r E; injection E as <-); types. intros _. exists (FromParam 0). exact (so_one [] None [] ltac:(constructor) ltac:(constructor)).
    + intros _. exists (FromParam 0). exact (so_one [] None [] ltac:(constructor) ltac:(constructor)).
Qed.
Print Assumptions C90_str_refuted.
(** A method of a type with a lifetime parameter *)
Theorem C90_generic_method_refuted : exists gen ord apis T f g n, accepted_bridge gen ord apis T /\ own_undeclared apis /\ arities_agree apis /\ In (ACxxFunction f) apis /\
  declared_ok (arity apis) f /\ decl_fn n T f = Some g /\ fn_args f = [] /\ ~ compiles (arity apis) g.
Proof.
  set (f := fn_ LCxx (Some "T"%string) [] (Some (ref_ "U"))).
  set (apis := [C_ "T" ["a"%string]; C_ "U" []; ACxxFunction f]). accept T apis. refute 5 f.
  - apply declared_simple; [reflexivity| | | |discriminate]; cbn; try (intros r E; injection E as <-); types. split; reflexivity.
  - split; [rewrite <- Hc; vm_compute; reflexivity|]. split; [reflexivity|]. apply broken; [reflexivity|vm_compute; auto|vm_compute; reflexivity].
Qed.
Print Assumptions C90_generic_method_refuted.
(** A struct with a lifetime parameter whose C++ declaration has none: its methods are in a
    block whose type lacks the lifetime. *)
Theorem C90_receiver_refuted : exists gen ord apis T f g, accepted_bridge gen ord apis T /\ own_undeclared apis /\ In (ACxxFunction f) apis /\
  declared_ok (arity apis) f /\ wrapper_fn T f = Some g /\ ~ compiles (arity apis) g.
Proof.
  set (f := fn_ LCxx (Some "S"%string) [] None).
  set (apis := [AStruct (Struct_ CUnconditional [] (P_ "S") ["a"%string] [Var CUnconditional (P_ "x") (TRef false false (Some "a"%string) (I_ "i32"))]); C_ "S" []; ACxxFunction f]).
  accept T apis. exists GMacro, id_order, apis, T, f. eexists. split; [exact HT|]. split; [apply freeb_ok; vm_compute; reflexivity|]. split; [cbn; auto|]. split.
  - apply declared_simple; [reflexivity| | | |discriminate]; cbn; try (intros r E; injection E as <-); types; try discriminate. split; reflexivity.
  - split; [rewrite <- Hc; vm_compute; reflexivity|]. intros [_ C _ _ _ _]. destruct (C _ eq_refl) as (_ & x & lts & E & L & _). cbn in E. injection E as <- <-. vm_compute in L. discriminate.
Qed.
Print Assumptions C90_receiver_refuted.
(** The function for a function pointer. *)
Theorem C90_trampoline_refuted : exists gen ord apis T f g n x un th args ret, accepted_bridge gen ord apis T /\ own_undeclared apis /\ arities_agree apis /\ In (ACxxFunction f) apis /\
  declared_ok (arity apis) f /\ In (x, TFn un th args ret) (fn_args f) /\ trampoline_fn n T f th args ret = Some g /\ ~ compiles (arity apis) g.
Proof.
  set (f := fn_ LCxx None [("cb"%string, TFn false false [("x"%string, TStr None)] (Some (ref_ "U")))] None).
  set (apis := [R_ "U" []; ACxxFunction f]). accept T apis.
  exists GMacro, id_order, apis, T, f. eexists. exists 5, "cb"%string, false, false, [("x"%string, TStr None)], (Some (ref_ "U")).
  split; [exact HT|]. split; [apply freeb_ok; vm_compute; reflexivity|]. split; [apply agreeb_ok; vm_compute; reflexivity|]. split; [cbn; auto|]. split.
  - constructor; try discriminate.
    + split; [constructor|]. split; intros [].
    + constructor; [|constructor]. cbn [snd]. constructor; cbn; types; [intros r E; injection E as <-; types|]. exists [FromParam 0]. constructor; [|constructor].
      exact (so_one [] None [] ltac:(constructor) ltac:(constructor)).
    + exists []. constructor.
  - split; [cbn; auto|]. split; [rewrite <- Hc; vm_compute; reflexivity|]. apply broken; [reflexivity|vm_compute; auto|vm_compute; reflexivity].
Qed.
Print Assumptions C90_trampoline_refuted.
(** An explicit implementation that does not write the lifetimes. *)
Theorem C90_instances_refuted : exists gen ord apis T k imp h, accepted_bridge gen ord apis T /\ own_undeclared apis /\ arities_agree apis /\
  In (k, Some imp) (t_impls T) /\ impl_header T (k, Some imp) = Some h /\ ~ proper_impl (arity apis) h.
Proof.
  set (imp := Impl_ CUnconditional [] false (TUniquePtr (I_ "T"))). set (apis := [C_ "T" ["a"%string]; AImpl imp]). accept T apis.
  exists GMacro, id_order, apis, T, (KUnique, "T"%string), imp. eexists. split; [exact HT|]. split; [apply freeb_ok; vm_compute; reflexivity|]. split; [apply agreeb_ok; vm_compute; reflexivity|].
  split; [rewrite <- Hc; vm_compute; auto|]. split; [reflexivity|]. intros (_ & x & lts & E & L & _). cbn in E. injection E as <- <-. vm_compute in L. discriminate.
Qed.
Print Assumptions C90_instances_refuted.
Theorem C90_claim_refuted : ~ C90_claim.
Proof.
  intros H. destruct C90_method_refuted as (gen & ord & apis & T & f & g & n & A & O & _ & I & D & E & N). apply N. apply (H gen ord apis T f g n A O D). auto.
Qed.
Print Assumptions C90_claim_refuted.

(** Functions that meet the hypotheses, and compile: a free function and a method with a named
    lifetime, a method that returns a reference into its receiver, and a Rust function that
    returns a reference into its parameter. *)
Example C90_nonvacuous : exists gen ord apis T f1 f2 f3 g1 g2 g3, accepted_bridge gen ord apis T /\ own_undeclared apis /\ arities_agree apis /\
  ~ has_cycle contains (structs_of apis) /\
  In (ACxxFunction f1) apis /\ In (ACxxFunction f2) apis /\ In (ARustFunction f3) apis /\
  declared_ok (arity apis) f1 /\ declared_means (arity apis) f1 [FromName "b"; FromName "a"]%string /\ declared_ok (arity apis) f2 /\ declared_ok (arity apis) f3 /\
  decl_fn 5 T f1 = Some g1 /\ decl_fn 5 T f2 = Some g2 /\ shim_fn 5 T f3 = Some g3 /\
  compiles (arity apis) g1 /\ compiles (arity apis) g2 /\ compiles (arity apis) g3 /\ means (arity apis) g2 [FromParam 0] /\ means (arity apis) g3 [FromParam 1].
Proof.
  set (f1 := ExternFn CUnconditional LCxx (P_ "f1") false true ["a"; "b"]%string (Some (Receiver false (Some "b"%string) false (Named "T" ["a"%string]) false)) [("x"%string, ref_ "U")]
    (Some (TRef false false (Some "b"%string) (TIdent (Named "T" ["a"%string])))) false true).
  set (f2 := ExternFn CUnconditional LCxx (P_ "f2") false false [] (Some (Receiver true None true (Named "U" []) false)) [("x"%string, I_ "i32")] (Some (TRef true true None (I_ "U"))) false true).
  set (f3 := ExternFn CUnconditional LRust (P_ "f3") false false [] None [("n"%string, I_ "i32"); ("x"%string, ref_ "U")] (Some (ref_ "U")) false true).
  set (apis := [C_ "T" ["a"%string]; C_ "U" []; ACxxFunction f1; ACxxFunction f2; ARustFunction f3]). accept T apis.
  exists GMacro, id_order, apis, T, f1, f2, f3. do 3 eexists.
  assert (O : own_undeclared apis) by (apply freeb_ok; vm_compute; reflexivity).
  assert (Ag : arities_agree apis) by (apply agreeb_ok; vm_compute; reflexivity).
  assert (M1 : declared_means (arity apis) f1 [FromName "b"; FromName "a"]%string) by (repeat constructor).
  assert (D1 : declared_ok (arity apis) f1).
  { assert (Ia : in_scope (fn_generics f1) "a"%string) by (right; right; cbn; auto). assert (Ib : in_scope (fn_generics f1) "b"%string) by (right; right; cbn; auto).
    constructor.
    - split; [repeat constructor; cbn; intuition discriminate|]. split; cbn; intuition discriminate.
    - intros r E. injection E as <-. split; [constructor; [right; reflexivity|constructor; [exact Ia|constructor]]|]. intros a E. injection E as <-. exact Ib.
    - types.
    - intros r E. injection E as <-. apply pt_ref; [intros a E; injection E as <-; exact Ib|]. constructor; [right; reflexivity|constructor; [exact Ia|constructor]].
    - eexists. exact M1. }
  assert (S3 : exists o, sole (inputs (arity apis) f3) o) by (exists (FromParam 1); exact (so_one [[]] None [] ltac:(repeat constructor) ltac:(constructor))).
  assert (D2 : declared_ok (arity apis) f2).
  { apply declared_simple; [reflexivity| | | |discriminate]; cbn; try (intros r E; injection E as <-); types. split; reflexivity. }
  assert (D3 : declared_ok (arity apis) f3).
  { apply declared_simple; [reflexivity|discriminate| | |]; cbn; try (intros r E; injection E as <-); types. intros _. exact S3. }
  split; [exact HT|]. split; [exact O|]. split; [exact Ag|]. split; [apply (accepted_acyclic _ _ _ _ HT), array_freeb_ok; reflexivity|].
  split; [cbn; auto 12|]. split; [cbn; auto 12|]. split; [cbn; auto 12|]. split; [exact D1|]. split; [exact M1|]. split; [exact D2|]. split; [exact D3|].
  split; [rewrite <- Hc; vm_compute; reflexivity|]. split; [rewrite <- Hc; vm_compute; reflexivity|]. split; [rewrite <- Hc; vm_compute; reflexivity|].
  pose proof (fun t => improper_ok _ _ _ _ HT t) as Hi. split; [|split; [|split; [|split]]].
  - eapply (C90_declaration _ _ _ _ f1 5 _ _ HT O Hi); [cbn; auto|exact D1|rewrite <- Hc; vm_compute; reflexivity|]. intros r _ E _ I. injection E as <-. exfalso. rewrite <- Hc in I. vm_compute in I. intuition discriminate.
  - eapply (C90_declaration _ _ _ _ f2 5 _ _ HT O Hi); [cbn; auto|exact D2|rewrite <- Hc; vm_compute; reflexivity|]. intros r _ _ _ _. exists (FromParam 0). exact (so_one [] None [[]] ltac:(constructor) ltac:(repeat constructor)).
  - match goal with |- compiles _ ?g => destruct (C90_export _ _ _ _ f3 5 g HT O) as (C & _); [cbn; auto 10|exact D3|rewrite <- Hc; vm_compute; reflexivity|] end.
    apply C. intros r _ _ _ _. exact S3.
  - constructor; [|constructor]. exact (so_one [] None [[]] ltac:(constructor) ltac:(repeat constructor)).
  - constructor; [|constructor]. exact (so_one [[]] None [] ltac:(repeat constructor) ltac:(constructor)).
Qed.
