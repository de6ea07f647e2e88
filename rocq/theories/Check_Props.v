(** C19-C23 and C51-C53: what an accepted bridge guarantees.  Specification:
    Check_Spec.v, Types_Spec.v.  [accepted_bridge gen ord apis T]: the items [apis] are
    collected into [T] and type-checked without any error. *)
From Verif Require Import Base Syntax_Model TypeEq_Model Toposort_Model Toposort_Spec Toposort_Props
  Types_Model Types_Spec Types_Proofs Types_Proofs3 Types_Props Check_Model Check_Spec Check_Proofs Check_Proofs2.
From Coq Require Import Permutation Relations.

(** For the examples. *)
Local Definition nm (a : string) : pair_name := Pair [] a a.
Local Definition I_ (a : string) : ty := TIdent (Named a []).
Local Definition Sd (a : string) (fs : list ty) : struct_ :=
  Struct_ CUnconditional [] (nm a) [] (map (fun t => Var CUnconditional (nm "f") t) fs).
Local Definition S_ (a : string) (fs : list ty) : api := AStruct (Sd a fs).
Local Definition C_ (a : string) : api := ACxxType (ExternType CUnconditional LCxx [] (nm a) [] [] true).
Local Definition R_ (a : string) : api := ARustType (ExternType CUnconditional LRust [] (nm a) [] [] true).
Local Definition A_ (a : string) : api := ATypeAlias (TypeAlias CUnconditional [] (nm a) []).
Local Definition fn_ (un : bool) (rc : option receiver) (args : list ty) (ret : option ty) : extern_fn :=
  ExternFn CUnconditional LCxx (nm "f") false un [] rc (map (fun t => ("x", t)) args) ret false true.
Local Definition F_ (args : list ty) (ret : option ty) : api := ACxxFunction (fn_ false None args ret).
Definition id_order : nat -> list string -> list string := fun _ l => l.

Lemma id_hash : hash_order id_order.
Proof. intros n l. apply Permutation_refl. Qed.
(** Acceptance of a concrete bridge, by computation. *)
Definition accepts (gen : generator) (apis : list api) : bool :=
  match collect id_order apis with
  | Some (T, []) => match typecheck gen T apis with [] => true | _ => false end
  | _ => false
  end.
Lemma accepts_ok gen apis : accepts gen apis = true -> exists T, accepted_bridge gen id_order apis T.
Proof.
  unfold accepts. destruct (collect id_order apis) as [[T [|e errs]]|] eqn:E; try discriminate.
  destruct (typecheck gen T apis) eqn:Et; [|discriminate]. intros _. exists T. split; [|exact Et]. split; [apply id_hash|exact E].
Qed.

(** * C19 *)
(** No unsized component is passed or stored by value (a function pointer may be an
    argument of a C++ function, not more); an alias is only used by value when the
    check of its ExternType impl is requested; and the elements of vectors, slices and
    arrays anywhere have a size. *)
Definition values_sized (apis : list api) (T : types) : Prop :=
  (forall t, by_value apis t ->
     (is_fn_ptr t /\ exists f x, all_functions apis f /\ fn_lang f = LCxx /\ In (x, t) (fn_args f)) \/
     (forall u, inline_in u t -> ~ unsized apis u) /\
     (forall n, inline_in (TIdent n) t -> is_alias apis (n_rust n) -> ~ is_struct apis (n_rust n) -> ~ is_enum apis (n_rust n) ->
        exists rs, In (n_rust n, rs) (t_required_trivial T))) /\
  (forall t len, mentioned apis (TArray t len) -> forall u, inline_in u t -> ~ unsized apis u) /\
  (forall t, mentioned apis (TVec t) ->
     (exists l, t = TStr l) \/ exists n, t = TIdent n /\ n_rust n <> "CxxString" /\ ~ opaque_cxx apis (n_rust n)).
Definition slices_sized (apis : list api) : Prop :=
  forall m l t, mentioned apis (TSlice m l t) ->
     (forall u, inline_in u t -> ~ unsized apis u) \/ exists n, t = TIdent n /\ n_rust n <> "CxxString" /\ ~ opaque_cxx apis (n_rust n).

(** Full claim: [values_sized] and [slices_sized].  The slice part is false: an alias may be named
    CxxString (C53), after which [&[CxxString]] is accepted. *)
Theorem C19_slices_refuted : exists gen ord apis T, accepted_bridge gen ord apis T /\ ~ slices_sized apis.
Proof.
  set (apis := [A_ "CxxString"; F_ [TSlice false None (I_ "CxxString")] None]).
  destruct (accepts_ok GBuild apis eq_refl) as [T HT]. exists GBuild, id_order, apis, T. split; [exact HT|].
  intros H. destruct (H false None (I_ "CxxString")) as [G|[n [G1 [G2 _]]]].
  - eapply me_arg; [left; right; left; reflexivity|left; reflexivity|constructor].
  - apply (G (I_ "CxxString")); [constructor|]. apply un_string. reflexivity.
  - injection G1 as <-. apply G2. reflexivity.
Qed.
Print Assumptions C19_slices_refuted.

(** Proved for bridges that do not alias the name CxxString (missing: those that do). *)
Theorem C19_by_value_partial : forall gen ord apis T, accepted_bridge gen ord apis T ->
  values_sized apis T /\ (~ is_alias apis "CxxString" -> slices_sized apis).
Proof.
  intros gen ord apis T H. split; [split; [|split]|].
  - intros t Ht. destruct Ht as [s f Hs Hf|f x t Hf Ha|f t Hf Hr].
    + right. destruct (field_sized _ _ _ _ H s f Hs Hf) as [_ G]. split; [apply (unsized_ok _ _ _ _ H); exact G|apply (unsized_alias _ _ _ _ H); exact G].
    + destruct (arg_sized _ _ _ _ H f x t Hf Ha) as [[G1 G2]|G].
      * left. split; [exact G1|]. exists f, x. auto.
      * right. split; [apply (unsized_ok _ _ _ _ H); exact G|apply (unsized_alias _ _ _ _ H); exact G].
    + right. destruct (ret_sized _ _ _ _ H f t Hf Hr) as [_ G]. split; [apply (unsized_ok _ _ _ _ H); exact G|apply (unsized_alias _ _ _ _ H); exact G].
  - exact (mentioned_array_ok _ _ _ _ H).
  - exact (vec_ok _ _ _ _ H).
  - intros Hna m l t. exact (slice_ok _ _ _ _ H m l t Hna).
Qed.
Print Assumptions C19_by_value_partial.

Example C19_nonvacuous :
  let apis := [C_ "C"; A_ "A"; R_ "R"; S_ "P" [I_ "A"; TArray (I_ "u8") 3; TUniquePtr (I_ "C")];
               F_ [I_ "P"; TVec (I_ "R"); TSlice true None (I_ "A"); TFn false false [("a", I_ "i32")] None] (Some (TBox (I_ "R")))] in
  (exists T, accepted_bridge GBuild id_order apis T) /\ ~ is_alias apis "CxxString" /\ unsized apis (I_ "C") /\ unsized apis (I_ "R").
Proof.
  cbv zeta. split; [apply accepts_ok; reflexivity|]. split.
  - intros [a [H E]]. cbn in H. repeat (destruct H as [H|H]; [try discriminate; try (injection H as <-; discriminate)|]). destruct H.
  - split.
    + apply un_cxx. split; [left; eexists; split; [left; reflexivity|reflexivity]|].
      split; [|split]; intros [s [H E]]; cbn in H; repeat (destruct H as [H|H]; [try discriminate; try (injection H as <-; discriminate)|]); destruct H.
    + apply un_rust. eexists. split; [right; right; left; reflexivity|reflexivity].
Qed.

(** * C52: function pointers *)
Definition C52_claim : Prop := forall gen ord apis T un th args ret, accepted_bridge gen ord apis T -> mentioned apis (TFn un th args ret) ->
  (forall x t u, In (x, t) args -> inline_in u t -> ~ unsized apis u) /\
  (forall t u, ret = Some t -> inline_in u t -> ~ unsized apis u).
(** False: [fn f(cb: fn(C))] with [C] an opaque C++ type is accepted, although the
    callback receives a [C] by value. *)
Theorem C52_fn_pointer_refuted : exists gen ord apis T un th args ret,
  accepted_bridge gen ord apis T /\ mentioned apis (TFn un th args ret) /\
  exists x n, In (x, TIdent n) args /\ opaque_cxx apis (n_rust n).
Proof.
  set (cb := TFn false false [("c", I_ "C")] None). set (apis := [C_ "C"; F_ [cb] None]).
  destruct (accepts_ok GBuild apis eq_refl) as [T HT]. exists GBuild, id_order, apis, T, false, false, [("c", I_ "C")], None.
  split; [exact HT|]. split.
  - eapply me_arg; [left; right; left; reflexivity|left; reflexivity|constructor].
  - exists "c", (Named "C" []). split; [left; reflexivity|]. split; [left; eexists; split; [left; reflexivity|reflexivity]|].
    split; [|split]; intros [s [H E]]; cbn in H; repeat (destruct H as [H|H]; [try discriminate; try (injection H as <-; discriminate)|]); destruct H.
Qed.
Print Assumptions C52_fn_pointer_refuted.
Corollary C52_claim_refuted : ~ C52_claim.
Proof.
  intros H. destruct C52_fn_pointer_refuted as [g [o [a [T [un [th [args [ret [H1 [H2 [x [n [H3 H4]]]]]]]]]]]]].
  destruct (H _ _ _ _ _ _ _ _ H1 H2) as [G _]. apply (G x (TIdent n) (TIdent n) H3); [constructor|]. apply un_cxx. exact H4.
Qed.

(** What is checked about function pointers. *)
Theorem C52_fn_pointer_partial : forall gen ord apis T un th args ret, accepted_bridge gen ord apis T ->
  mentioned apis (TFn un th args ret) ->
  th = false /\ (forall x m t, In (x, TPtr m t) args -> un = true) /\
  (forall f, all_functions apis f -> fn_ret f <> Some (TFn un th args ret)) /\
  (forall f x, all_functions apis f -> In (x, TFn un th args ret) (fn_args f) -> fn_lang f = LCxx) /\
  (forall s f, In (AStruct s) apis -> In f (st_fields s) -> v_ty f <> TFn un th args ret).
Proof.
  intros gen ord apis T un th args ret H Hm.
  destruct (all_ok _ _ _ _ H _ Hm) as [v [Hv E]].
  assert (G : exists args' ret', v = TFn un th args' ret' /\ (args = args' \/ Forall2 (fun a b => ty_eqb (snd a) (snd b) = true) args args')).
  { destruct E as [<-|E]; [exists args, ret; auto|]. destruct (check_cong _ _ E) as [args' [ret' [-> G]]]; [discriminate|eauto]. }
  destruct G as [args' [ret' [-> G]]]. assert (C := no_types _ _ _ _ H _ Hv). cbn in C. unfold check_type_fn in C.
  rewrite app_nil, err_if_nil, flat_map_nil in C. destruct C as [C1 C2]. split; [exact C1|]. split; [|split; [|split]].
  - intros x m t Hin. destruct G as [<-|G].
    + specialize (C2 _ Hin). cbn [snd] in C2. apply err_if_nil in C2. apply negb_false_iff. exact C2.
    + exfalso. clear -G Hin. induction G as [|a b l l' Hab G IH]; [destruct Hin|]. destruct Hin as [->|Hin]; [|auto]. cbn in Hab. destruct (snd b); discriminate.
  - intros f Hf Hr. destruct (ret_sized _ _ _ _ H f _ Hf Hr) as [N _]. apply N. repeat eexists.
  - intros f x Hf Ha. destruct (arg_sized _ _ _ _ H f x _ Hf Ha) as [[_ N]|N]; [exact N|discriminate].
  - intros s f Hs Hf Ef. destruct (field_sized _ _ _ _ H s f Hs Hf) as [N _]. apply N. rewrite Ef. repeat eexists.
Qed.
Print Assumptions C52_fn_pointer_partial.

Example C52_nonvacuous :
  exists T, accepted_bridge GBuild id_order [F_ [TFn true false [("p", TPtr true (I_ "u8"))] (Some (I_ "i32"))] None] T.
Proof. apply accepts_ok. reflexivity. Qed.

(** * C20 *)
Definition C20_claim : Prop := forall gen ord apis T f x t m u, accepted_bridge gen ord apis T ->
  all_functions apis f -> In (x, t) (fn_args f) -> part_of (TPtr m u) t -> fn_unsafe f = true.
(** False for pointers below the top level: [fn f(x: &*const u8)] is accepted as safe. *)
Theorem C20_raw_pointers_refuted : ~ C20_claim.
Proof.
  intros H. set (t := TRef false false None (TPtr false (I_ "u8"))).
  destruct (accepts_ok GBuild [F_ [t] None] eq_refl) as [T HT].
  specialize (H GBuild id_order _ T (fn_ false None [t] None) "x" t false (I_ "u8") HT).
  assert (G : fn_unsafe (fn_ false None [t] None) = true); [|discriminate].
  apply H; [left; left; reflexivity|left; reflexivity|]. apply po_ref. constructor.
Qed.
Print Assumptions C20_raw_pointers_refuted.

(** A raw pointer argument makes the function unsafe (missing: pointers nested in
    references, slices and arrays). *)
Theorem C20_raw_pointers_partial : forall gen ord apis T f x m u, accepted_bridge gen ord apis T ->
  all_functions apis f -> In (x, TPtr m u) (fn_args f) -> fn_unsafe f = true.
Proof. intros gen ord apis T f x m u H. exact (ptr_arg_unsafe gen ord apis T H f x m u). Qed.
Print Assumptions C20_raw_pointers_partial.

Example C20_nonvacuous : exists T,
  accepted_bridge GBuild id_order [ACxxFunction (fn_ true None [TPtr true (I_ "u8"); I_ "u8"] None)] T.
Proof. apply accepts_ok. reflexivity. Qed.

(** A block that is accepted contains a safe C++ function only if it is written
    [unsafe extern], or the whole bridge module is unsafe. *)
Theorem C20_untrusted_block : forall l un trusted items out, parse_foreign_mod l un trusted items = (out, []) ->
  forall f, In (ACxxFunction f) out -> fn_unsafe f = false -> un = true \/ trusted = true.
Proof.
  intros l un trusted items out H f Hf Hu. unfold parse_foreign_mod in H. injection H as Ho He.
  rewrite app_nil, err_if_nil in He. destruct He as [_ He].
  assert (G : existsb (fun a => match a with ACxxFunction f => negb (fn_unsafe f) | _ => false end) items = true).
  { apply existsb_exists. assert (G : exists g, In (ACxxFunction g) items /\ fn_unsafe g = false); [|destruct G as [g [G1 G2]]; exists (ACxxFunction g); rewrite G2; auto].
    rewrite <- Ho in Hf. destruct (block_types items) as [|s [|s' l']]; [exists f; auto| |exists f; auto].
    apply in_map_iff in Hf. destruct Hf as [a [Ea Ha]]. destruct a; try discriminate. cbn in Ea. injection Ea as <-. exists f0. split; [exact Ha|].
    unfold set_self in Hu. destruct (fn_receiver f0) as [r|]; [|exact Hu]. destruct (String.eqb (n_rust (rc_ty r)) "Self"); exact Hu. }
  rewrite G in He. destruct un; [left; reflexivity|]. destruct trusted; [right; reflexivity|]. discriminate.
Qed.
Print Assumptions C20_untrusted_block.

Example C20_untrusted_nonvacuous :
  snd (parse_foreign_mod LCxx true false [F_ [] None]) = [] /\ snd (parse_foreign_mod LCxx false false [F_ [] None]) <> [].
Proof. split; [reflexivity|discriminate]. Qed.

(** * C21 *)
Definition C21_claim : Prop := forall gen ord apis T f, accepted_bridge gen ord apis T ->
  all_functions apis f -> fn_lang f = LCxx -> fn_unsafe f = false -> returns_mut f ->
    (exists r, fn_receiver f = Some r /\ (rc_mutable r = true \/ has_lifetime apis (n_rust (rc_ty r)))) \/
    (exists x t u, In (x, t) (fn_args f) /\ part_of u t /\ gives_mut apis u).
(** False: the mutable reference may be only in the signature of a function pointer:
    [fn f(x: &i32, cb: fn(&mut i32)) -> &mut i32] is accepted as a safe function. *)
Theorem C21_mut_return_refuted : ~ C21_claim.
Proof.
  intros H. set (args := [TRef false false None (I_ "i32"); TFn false false [("y", TRef false true None (I_ "i32"))] None]).
  set (f := fn_ false None args (Some (TRef false true None (I_ "i32")))).
  destruct (accepts_ok GBuild [ACxxFunction f] eq_refl) as [T HT].
  destruct (H GBuild id_order _ T f HT) as [[r [Hr _]]|[x [t [u [H1 [H2 H3]]]]]]; try reflexivity.
  - left; left; reflexivity.
  - left. repeat eexists.
  - cbn in Hr. discriminate.
  - cbn in H1. destruct H1 as [H1|[H1|[]]]; injection H1 as <- <-.
    + assert (G : u = TRef false false None (I_ "i32") \/ u = I_ "i32").
      { remember (TRef false false None (I_ "i32")) as t0 eqn:Heqt. destruct H2; try discriminate; [auto|]. injection Heqt as -> -> -> ->.
        remember (I_ "i32") as t1 eqn:Heqt1. destruct H2; try discriminate. auto. }
      destruct G as [-> | ->]; [remember (TRef _ _ _ _) as t3; destruct H3; discriminate|].
      remember (I_ "i32") as t1 eqn:Heqt1. destruct H3 as [| |n Hn _]; try discriminate. injection Heqt1 as ->. apply Hn. exists AI32. reflexivity.
    + assert (G : u = TFn false false [("y", TRef false true None (I_ "i32"))] None).
      { remember (TFn _ _ _ _) as t2. destruct H2; try discriminate. reflexivity. }
      subst u. remember (TFn _ _ _ _) as t2. destruct H3; discriminate.
Qed.
Print Assumptions C21_mut_return_refuted.

(** Proved with function pointer signatures counted (missing: excluding them). *)
Theorem C21_mut_return_partial : forall gen ord apis T f, accepted_bridge gen ord apis T ->
  all_functions apis f -> fn_lang f = LCxx -> fn_unsafe f = false -> returns_mut f ->
    (exists r, fn_receiver f = Some r /\ (rc_mutable r = true \/ has_lifetime apis (n_rust (rc_ty r)))) \/
    (exists x t u, In (x, t) (fn_args f) /\ occurs u t /\ gives_mut apis u).
Proof. intros gen ord apis T f H. exact (mut_return gen ord apis T H f). Qed.
Print Assumptions C21_mut_return_partial.

(** The full claim for functions without function pointer arguments. *)
Theorem C21_no_callbacks_partial : forall gen ord apis T f, accepted_bridge gen ord apis T ->
  all_functions apis f -> fn_lang f = LCxx -> fn_unsafe f = false -> returns_mut f ->
  (forall x t u th args ret, In (x, t) (fn_args f) -> ~ occurs (TFn u th args ret) t) ->
    (exists r, fn_receiver f = Some r /\ (rc_mutable r = true \/ has_lifetime apis (n_rust (rc_ty r)))) \/
    (exists x t u, In (x, t) (fn_args f) /\ part_of u t /\ gives_mut apis u).
Proof.
  intros gen ord apis T f H Hf Hl Hu Hr Hn. destruct (mut_return gen ord apis T H f Hf Hl Hu Hr) as [G|[x [t [u [H1 [H2 H3]]]]]]; [auto|].
  right. exists x, t, u. split; [exact H1|]. split; [|exact H3]. specialize (Hn x t). clear - H1 H2 Hn.
  assert (G : forall un th args ret, ~ occurs (TFn un th args ret) t) by (intros; apply Hn; exact H1). clear H1 Hn.
  induction H2; try (constructor; fail); try (constructor; apply IHoccurs; intros un0 th0 args0 ret0 Hx; apply (G un0 th0 args0 ret0); constructor; exact Hx).
  - exfalso. apply (G un th args ret). constructor.
  - exfalso. apply (G un th args (Some t)). constructor.
Qed.
Print Assumptions C21_no_callbacks_partial.

Example C21_nonvacuous :
  let f := fn_ false None [TRef true true None (I_ "C"); I_ "i32"] (Some (TRef false true None (I_ "i32"))) in
  (exists T, accepted_bridge GBuild id_order [C_ "C"; ACxxFunction f] T) /\ returns_mut f /\
  accepts GBuild [C_ "C"; F_ [TRef false false None (I_ "C")] (Some (TRef false true None (I_ "i32")))] = false.
Proof. cbv zeta. split; [apply accepts_ok; reflexivity|]. split; [left; repeat eexists|reflexivity]. Qed.

(** * C22 *)
Theorem C22_bare_self : forall l un trusted items out errs, parse_foreign_mod l un trusted items = (out, errs) ->
  Forall2 (fun a b =>
    match fn_of a with
    | Some f =>
        match receiver_name f, flat_map (fun a => match declared_in_block a with Some x => [x] | None => [] end) items with
        | Some "Self", [x] => exists f', renamed_receiver x f f' /\ fn_of b = Some f' /\ (match a with ACxxFunction _ => b = ACxxFunction f' | _ => b = ARustFunction f' end)
        | _, _ => b = a
        end
    | None => b = a
    end) items out.
Proof.
  intros l un trusted items out errs H. unfold parse_foreign_mod in H. injection H as <- _.
  assert (E : map p_rust (block_types items) = flat_map (fun a => match declared_in_block a with Some x => [x] | None => [] end) items).
  { induction items as [|a items IH]; [reflexivity|]. cbn [block_types flat_map]. fold (block_types items). rewrite map_app, IH.
    destruct a; reflexivity. }
  rewrite <- E. destruct (block_types items) as [|s [|s' r]]; cbn [map].
  - clear E. induction items as [|a items IH]; constructor; [|exact IH]. destruct (fn_of a) as [f|]; [|reflexivity]. destruct (receiver_name f) as [n|]; [|reflexivity].
    repeat (match goal with |- context [match ?x with _ => _ end] => destruct x end; try reflexivity).
  - clear E. induction items as [|a items IH]; cbn [map]; constructor; [|exact IH].
    assert (G : forall f, match receiver_name f with Some "Self" => exists f', renamed_receiver (p_rust s) f f' /\ set_self (p_rust s) f = f' | _ => set_self (p_rust s) f = f end).
    { intros f. unfold set_self, receiver_name. destruct (fn_receiver f) as [r|] eqn:Er; [|reflexivity]. cbn [option_map].
      destruct (String.eqb_spec (n_rust (rc_ty r)) "Self") as [->|N].
      - eexists. split; [|reflexivity]. exists r. split; [exact Er|reflexivity].
      - generalize (n_rust (rc_ty r)) N. intros n Nn.
        repeat (match goal with |- context [match ?x with _ => _ end] => destruct x end; try reflexivity); congruence. }
    destruct a; cbn [fn_of]; try reflexivity; specialize (G f); cbn [set_self_api]; destruct (receiver_name f) as [n|];
      try (rewrite G; reflexivity);
      repeat (match goal with |- context [match ?x with _ => _ end] => destruct x end; try (rewrite G; reflexivity));
      destruct G as [f' [G1 G2]]; exists f'; cbn [fn_of]; rewrite G2; auto.
  - clear E. induction items as [|a items IH]; constructor; [|exact IH]. destruct (fn_of a) as [f|]; [|reflexivity]. destruct (receiver_name f) as [n|]; [|reflexivity].
    repeat (match goal with |- context [match ?x with _ => _ end] => destruct x end; try reflexivity).
Qed.
Print Assumptions C22_bare_self.

(** A bare self that was not resolved is rejected, and so is a receiver that is not a
    type of the bridge or is an enum. *)
Theorem C22_unresolved_rejected : forall gen ord apis T f r, accepted_bridge gen ord apis T ->
  all_functions apis f -> fn_receiver f = Some r ->
  n_rust (rc_ty r) <> "Self" /\ ~ is_enum apis (n_rust (rc_ty r)) /\
  (is_struct apis (n_rust (rc_ty r)) \/ is_cxx_type apis (n_rust (rc_ty r)) \/ is_rust_type apis (n_rust (rc_ty r))) /\
  (rc_mutable r = true -> rc_pinned r = false -> ~ opaque_cxx apis (n_rust (rc_ty r))).
Proof. intros gen ord apis T f r H. exact (receiver_ok gen ord apis T H f r). Qed.
Print Assumptions C22_unresolved_rejected.

Example C22_nonvacuous :
  let self_ := Receiver false None false (Named "Self" []) true in
  let m := ACxxFunction (fn_ false (Some self_) [] None) in
  (exists T, accepted_bridge GBuild id_order (fst (parse_foreign_mod LCxx true false [m; C_ "C"])) T) /\
  accepts GBuild (fst (parse_foreign_mod LCxx true false [m; C_ "C"; C_ "D"])) = false.
Proof. cbv zeta. split; [apply accepts_ok; reflexivity|reflexivity]. Qed.

(** * C23 *)
Theorem C23_reserved_identifiers : forall gen ord apis T p, accepted_bridge gen ord apis T -> item_name apis p ->
  (forall s, In s (p_ns p) \/ s = p_cxx p -> ~ has_prefix "cxxbridge" s /\ ~ has_infix "__" s) /\
  ~ has_prefix "cxxbridge" (p_rust p).
Proof. intros gen ord apis T p H Hp. apply check_pair_ok. exact (item_checked gen ord apis T H p Hp). Qed.
Print Assumptions C23_reserved_identifiers.

(** Exactly these identifiers are rejected. *)
Theorem C23_only_reserved : forall p, check_pair p = [] <->
  (forall s, In s (p_ns p) \/ s = p_cxx p -> ~ has_prefix "cxxbridge" s /\ ~ has_infix "__" s) /\
  ~ has_prefix "cxxbridge" (p_rust p).
Proof. exact check_pair_ok. Qed.
Print Assumptions C23_only_reserved.

Example C23_nonvacuous :
  let apis := [S_ "P" [I_ "u8"]; F_ [I_ "P"] None] in
  (exists T, accepted_bridge GBuild id_order apis T) /\ item_name apis (nm "P") /\ item_name apis (nm "f") /\ item_name apis (nm "x") /\
  has_prefix "cxxbridge" "cxxbridge1" /\ has_infix "__" "a__b".
Proof.
  cbv zeta. split; [apply accepts_ok; reflexivity|]. split; [refine (in_type _ _ _ (de_struct _ (Sd "P" [I_ "u8"]) _)); left; reflexivity|].
  split; [apply (in_fn _ (fn_ false None [I_ "P"] None)); left; right; left; reflexivity|].
  split; [eapply (in_arg _ (fn_ false None [I_ "P"] None)); [left; right; left; reflexivity|left; reflexivity]|].
  split; [exists "1"; reflexivity|exists "a", "b"; reflexivity].
Qed.

(** * C51 *)
(** Every name used resolves: the generators' lookup of a type never fails. *)
Theorem C51_names_resolve : forall gen ord apis T, accepted_bridge gen ord apis T ->
  (forall n, mentioned apis (TIdent n) -> is_primitive (n_rust n) \/
     exists p lts, try_resolve T (n_rust n) = Some (p, lts) /\ declares apis p lts /\ p_rust p = n_rust n) /\
  (forall f r, all_functions apis f -> fn_receiver f = Some r ->
     exists p lts, try_resolve T (n_rust (rc_ty r)) = Some (p, lts) /\ declares apis p lts /\ p_rust p = n_rust (rc_ty r)).
Proof.
  intros gen ord apis T H. split.
  - intros n Hn. destruct (mentioned_resolves gen ord apis T H n Hn) as [G|[p [lts G]]]; [auto|]. right. exists p, lts. split; [exact G|].
    exact (resolve_ok _ _ _ _ H _ _ _ G).
  - intros f r Hf Hr. destruct (receiver_resolves gen ord apis T H f r Hf Hr) as [p [lts G]]. exists p, lts. split; [exact G|].
    exact (resolve_ok _ _ _ _ H _ _ _ G).
Qed.
Print Assumptions C51_names_resolve.

Example C51_nonvacuous :
  (exists T, accepted_bridge GBuild id_order [C_ "C"; F_ [TRef false false None (TCxxVector (I_ "C")); I_ "u8"] None] T) /\
  accepts GBuild [F_ [TRef false false None (TCxxVector (I_ "C"))] None] = false.
Proof. split; [apply accepts_ok; reflexivity|reflexivity]. Qed.

(** * C53 *)
(** Names that the bridge itself gives a meaning to. *)
Definition builtin_name (x : string) : Prop := In x ["Box"; "UniquePtr"; "SharedPtr"; "WeakPtr"; "Vec"; "CxxVector"; "str"] \/ is_primitive x.
Definition C53_claim : Prop := forall gen ord apis T p lts, accepted_bridge gen ord apis T -> declares apis p lts -> ~ builtin_name (p_rust p).
(** False: [type i32 = path::to::Type;] is accepted (and i32 keeps meaning the
    built-in type). *)
Theorem C53_builtin_names_refuted : ~ C53_claim.
Proof.
  intros H. destruct (accepts_ok GBuild [A_ "i32"] eq_refl) as [T HT].
  apply (H GBuild id_order _ T (nm "i32") [] HT).
  - refine (de_alias _ (TypeAlias CUnconditional [] (nm "i32") []) _). left. reflexivity.
  - right. exists AI32. reflexivity.
Qed.
Print Assumptions C53_builtin_names_refuted.

(** Proved for all declarations except aliases. *)
Theorem C53_builtin_names_partial : forall gen ord apis T x, accepted_bridge gen ord apis T ->
  is_struct apis x \/ is_enum apis x \/ is_rust_type apis x \/ (exists t, In (ACxxType t) apis /\ p_rust (et_name t) = x) -> ~ builtin_name x.
Proof.
  intros gen ord apis T x H Hx.
  assert (G : check_reserved_name x = []).
  { destruct Hx as [[s [H1 H2]]|[[e [H1 H2]]|[[t [H1 H2]]|[t [H1 H2]]]]]; assert (N := no_apis _ _ _ _ H _ H1); cbn in N;
      [unfold check_api_struct in N|unfold check_api_enum in N|unfold check_api_type in N|unfold check_api_type in N];
      rewrite H2, !app_nil in N; tauto. }
  unfold check_reserved_name in G. apply err_if_nil, orb_false_iff in G. destruct G as [G1 G2]. intros [B|[a B]].
  - apply smem_In in B. congruence.
  - unfold is_atom in G2. rewrite B in G2. discriminate.
Qed.
Print Assumptions C53_builtin_names_partial.

Example C53_nonvacuous : (exists T, accepted_bridge GBuild id_order [S_ "P" [I_ "u8"]; C_ "C"; R_ "R"] T) /\ accepts GBuild [S_ "Vec" [I_ "u8"]] = false.
Proof. split; [apply accepts_ok; reflexivity|reflexivity]. Qed.

(** * C56 *)
(** The generic types that may occur in a bridge, at any depth, and what they may be
    applied to. *)
Definition user_type (apis : list api) (x : string) : Prop :=
  is_struct apis x \/ is_enum apis x \/ is_rust_type apis x \/ is_alias apis x.
Inductive composite_ok (apis : list api) : ty -> Prop :=
| co_box n : ~ is_primitive (n_rust n) -> user_type apis (n_rust n) -> composite_ok apis (TBox (TIdent n))
| co_unique n : ~ is_rust_type apis (n_rust n) -> (is_primitive (n_rust n) -> n_rust n = "CxxString") -> composite_ok apis (TUniquePtr (TIdent n))
| co_unique_vector t : composite_ok apis (TUniquePtr (TCxxVector t))
| co_shared n : ~ is_rust_type apis (n_rust n) -> ~ In (n_rust n) ["c_char"; "String"] -> composite_ok apis (TSharedPtr (TIdent n))
| co_weak n : ~ is_rust_type apis (n_rust n) -> ~ In (n_rust n) ["c_char"; "String"] -> composite_ok apis (TWeakPtr (TIdent n))
| co_vector n : ~ is_rust_type apis (n_rust n) -> ~ In (n_rust n) ["c_char"; "bool"; "String"] -> composite_ok apis (TCxxVector (TIdent n))
| co_ref p m l t : t <> TVoid -> ~ is_fn_ptr t -> (forall p' m' l' t', t <> TRef p' m' l' t') ->
    (m = true -> p = false -> (forall t', t <> TCxxVector t') /\ forall n, t = TIdent n -> n_rust n <> "CxxString" /\ ~ opaque_cxx apis (n_rust n)) ->
    composite_ok apis (TRef p m l t)
| co_ptr m t : t <> TVoid -> ~ is_fn_ptr t -> (forall p' m' l' t', t <> TRef p' m' l' t') -> composite_ok apis (TPtr m t).

Definition composite (t : ty) : bool :=
  match t with TBox _ | TUniquePtr _ | TSharedPtr _ | TWeakPtr _ | TCxxVector _ | TRef _ _ _ _ | TPtr _ _ => true | _ => false end.

Theorem C56_composites : forall gen ord apis T t, accepted_bridge gen ord apis T -> mentioned apis t -> composite t = true -> composite_ok apis t.
Proof.
  intros gen ord apis T t H Hm Hc. assert (C := mentioned_checked gen ord apis T H t Hm).
  assert (Rust : forall x, in_rust T x = false -> ~ is_rust_type apis x).
  { intros x Ex Hx. apply (rust_ok gen ord apis T H) in Hx. congruence. }
  assert (Fn : forall b, match b with TFn _ _ _ _ => False | _ => True end -> ~ is_fn_ptr b).
  { intros b Hb [a1 [a2 [a3 [a4 ->]]]]. exact Hb. }
  destruct t; try discriminate Hc; cbn [check_type] in C.
  - destruct t; cbn in C; try discriminate. apply app_nil in C. destruct C as [C1 C2]. apply err_if_nil in C1, C2.
    assert (P : ~ is_primitive (n_rust n)) by (intros [a Ha]; unfold is_atom in C2; rewrite Ha in C2; discriminate).
    constructor; [exact P|].
    assert (Mn : mentioned apis (TIdent n)) by (eapply mentioned_occurs; [exact Hm|apply oc_box; constructor]).
    assert (Cn := mentioned_checked gen ord apis T H _ Mn). cbn in Cn. unfold check_type_ident in Cn. apply err_if_nil in Cn.
    unfold only_cxx in C1. rewrite C2 in Cn. unfold user_type.
    rewrite <- (structs_ok gen ord apis T H), <- (enums_ok gen ord apis T H), <- (rust_ok gen ord apis T H), <- (aliases_ok gen ord apis T H).
    destruct (in_structs T (n_rust n)); [auto|]. destruct (in_enums T (n_rust n)); [auto|]. destruct (in_rust T (n_rust n)); [auto|]. destruct (in_aliases T (n_rust n)); [auto|].
    exfalso. destruct (in_cxx T (n_rust n)); discriminate.
  - destruct t; cbn in C; try discriminate; [|apply co_unique_vector]. destruct (in_rust T (n_rust n)) eqn:Er; [discriminate|]. apply co_unique; [auto|].
    intros [a Ha]. rewrite Ha in C. destruct a; try discriminate. exact (atom_from_str_inv _ _ Ha).
  - destruct t; cbn in C; try discriminate. destruct (in_rust T (n_rust n)) eqn:Er; [discriminate|]. apply co_shared; [auto|].
    intros [E|[E|[]]]; rewrite <- E in C; vm_compute in C; discriminate C.
  - destruct t; cbn in C; try discriminate. destruct (in_rust T (n_rust n)) eqn:Er; [discriminate|]. apply co_weak; [auto|].
    intros [E|[E|[]]]; rewrite <- E in C; vm_compute in C; discriminate C.
  - unfold check_type_ref in C. apply app_nil in C. destruct C as [C1 C2]. constructor.
    + intros ->. discriminate.
    + apply Fn. destruct t; try exact I. discriminate.
    + intros p' m' l' t' ->. discriminate.
    + intros -> ->. cbn in C1. split; [intros t' ->; discriminate|]. intros n ->. apply err_if_nil in C1. apply orb_false_iff in C1. destruct C1 as [C1 C3].
      split; [intros E; rewrite E in C1; discriminate|]. exact (opaque_ok gen ord apis T H _ C3).
  - destruct t; cbn in C; try discriminate; (constructor; [discriminate|apply Fn; exact I|discriminate]).
  - destruct t; cbn in C; try discriminate. destruct (in_rust T (n_rust n)) eqn:Er; [discriminate|]. apply co_vector; [auto|].
    intros [E|[E|[E|[]]]]; rewrite <- E in C; vm_compute in C; discriminate C.
Qed.
Print Assumptions C56_composites.

Example C56_nonvacuous :
  (exists T, accepted_bridge GBuild id_order [C_ "C"; R_ "R"; F_ [TBox (I_ "R"); TUniquePtr (TCxxVector (I_ "C")); TRef true true None (I_ "C"); TSharedPtr (I_ "u8")] None] T) /\
  accepts GBuild [C_ "C"; F_ [TBox (I_ "C")] None] = false /\ accepts GBuild [C_ "C"; F_ [TRef false true None (I_ "C")] None] = false.
Proof. split; [apply accepts_ok; reflexivity|]. split; reflexivity. Qed.

(** * C57 *)
(** Functions with explicit lifetimes, which neither side can check. *)
Theorem C57_explicit_lifetimes : forall gen ord apis T f, accepted_bridge gen ord apis T -> all_functions apis f -> fn_generics f <> [] ->
  match fn_lang f with LCxx => fn_trusted f = true | LRust => fn_unsafe f = true end.
Proof.
  intros gen ord apis T f H Hf Hg. assert (C := fn_api _ _ _ _ H f Hf). unfold check_api_fn in C. apply app_nil in C. destruct C as [C _].
  destruct (fn_generics f); [contradiction|]. destruct (fn_lang f); apply err_if_nil in C; apply negb_false_iff; exact C.
Qed.
Print Assumptions C57_explicit_lifetimes.

(** A function is marked trusted by the parser exactly when its block or the bridge is
    unsafe, hence: *)
Example C57_nonvacuous :
  let f tr := ACxxFunction (ExternFn CUnconditional LCxx (nm "f") false true ["a"] None [("x", TRef false false (Some "a") (I_ "u8"))] None false tr) in
  accepts GBuild [f true] = true /\ accepts GBuild [f false] = false.
Proof. split; reflexivity. Qed.

(** * The refutations of C04, C05, C07 and C09 are reachable: their bridges pass the
    type checker as well. *)
Theorem C04_accepted_refuted : exists gen ord T em A B,
  accepted_bridge gen ord [AStruct A; AStruct B] T /\ write_data_structures (fun _ => false) [AStruct A; AStruct B] = Some em /\
  contains A B /\ em = [EmStruct A; EmStruct B].
Proof.
  set (A := Sd "A" [TArray (I_ "B") 2]). set (B := Sd "B" [I_ "i32"]).
  destruct (accepts_ok GBuild [AStruct A; AStruct B] eq_refl) as [T HT].
  exists GBuild, id_order, T, [EmStruct A; EmStruct B], A, B. split; [exact HT|]. split; [reflexivity|]. split; [|reflexivity].
  exists (Var CUnconditional (nm "f") (TArray (I_ "B") 2)). split; [left; reflexivity|]. apply hi_array. exact (hi_ident (Named "B" [])).
Qed.
Print Assumptions C04_accepted_refuted.

Theorem C05_C07_accepted_refuted : exists gen ord A T,
  accepted_bridge gen ord [AStruct A] T /\ has_cycle contains [A] /\
  forall fuel, is_guaranteed_pod (t_structs T) (t_enums T) fuel (TIdent (Named (p_rust (st_name A)) [])) = None.
Proof.
  set (A := Sd "A" [TArray (I_ "A") 1]). destruct (accepts_ok GBuild [AStruct A] eq_refl) as [T HT]. exists GBuild, id_order, A, T.
  split; [exact HT|]. split.
  - exists A. apply t_step. split; [left; reflexivity|]. split; [left; reflexivity|].
    exists (Var CUnconditional (nm "f") (TArray (I_ "A") 1)). split; [left; reflexivity|]. apply hi_array. exact (hi_ident (Named "A" [])).
  - assert (Es : assoc "A" (t_structs T) = Some A) by (destruct (acc_facts _ _ _ _ HT) as [-> _]; reflexivity).
    intros fuel. enough (G : is_guaranteed_pod (t_structs T) (t_enums T) fuel (I_ "A") = None /\
        is_guaranteed_pod (t_structs T) (t_enums T) fuel (TArray (I_ "A") 1) = None) by apply G.
    induction fuel as [|n [IH1 IH2]]; [auto|]. split; [|exact IH1]. cbn. rewrite Es. cbn. fold (I_ "A"). rewrite IH2. reflexivity.
Qed.
Print Assumptions C05_C07_accepted_refuted.

Theorem C09_accepted_refuted : exists gen ord apis T n, accepted_bridge gen ord apis T /\ decls n apis = [DkAlias; DkShared].
Proof.
  destruct (accepts_ok GBuild [A_ "A"; S_ "A" [I_ "i32"]] eq_refl) as [T HT]. exists GBuild, id_order, [A_ "A"; S_ "A" [I_ "i32"]], T, "A".
  split; [exact HT|reflexivity].
Qed.
Print Assumptions C09_accepted_refuted.
