(** C13, C60: the C++ and the Rust declarations of one function have the same ABI.
    Specification: Abi_Spec.v. *)
From Verif Require Import Base Syntax_Model TypeEq_Model Toposort_Model Toposort_Spec Toposort_Proofs2 Toposort_Props Types_Model Types_Spec Types_Proofs Types_Proofs3 Types_Props
  Check_Model Check_Spec Check_Proofs Check_Proofs2 Check_Props Mangle_Model Mangle_Spec Mangle_Proofs Mangle_Proofs2 Abi_Model Abi_Spec Abi_Proofs.
From Coq Require Import Lia.

(** For the examples. *)
Lemma accepted_acyclic gen ord apis T : accepted_bridge gen ord apis T -> array_free (structs_of apis) -> ~ has_cycle contains (structs_of apis).
Proof.
  intros ((_ & Hc) & _) Hf.
  assert (Hnd : NoDup (names (structs_of apis))) by (apply (no_dup_distinct _ _ _ _ Hc); intros n []).
  destruct (C05_cycles_partial apis Hnd) as [order [errs [E [_ G]]]]. rewrite <- (G Hf). intros Hn. apply Hn.
  destruct (collect_facts _ _ _ _ Hc) as [order' [terrs [imp [E' [_ [Hem _]]]]]]. rewrite E' in E. injection E as _ <-.
  symmetry in Hem. apply app_eq_nil in Hem. destruct Hem as [_ Hem]. destruct terrs; [reflexivity|discriminate].
Qed.
Lemma array_freeb_ok l : forallb (fun s => forallb (fun f => match v_ty f with TArray _ _ => false | _ => true end) (st_fields s)) l = true -> array_free l.
Proof.
  rewrite forallb_forall. intros H s f t len Hs Hf E. specialize (H s Hs). rewrite forallb_forall in H. specialize (H f Hf). rewrite E in H. discriminate.
Qed.
Lemma unaliasedb_ok apis : forallb (fun a => match a with ATypeAlias t => is_none (atom_from_str (p_rust (ta_name t))) | _ => true end) apis = true -> primitives_unaliased apis.
Proof.
  rewrite forallb_forall. intros H x (t & I & E) (a & A). specialize (H _ I). cbn in H. rewrite E, A in H. discriminate.
Qed.
Lemma markedb_ok apis : forallb (fun a => match a with ARustFunction f => match fn_lang f with LRust => true | LCxx => false end | _ => true end) apis = true -> blocks_marked apis.
Proof. rewrite forallb_forall. intros H f I. specialize (H _ I). cbn in H. destruct (fn_lang f); [discriminate|reflexivity]. Qed.
Fixpoint callbacksb (t : ty) : bool :=
  match t with
  | TBox t | TVec t | TUniquePtr t | TSharedPtr t | TWeakPtr t | TCxxVector t
  | TRef _ _ _ t | TPtr _ t | TSlice _ _ t | TArray t _ => callbacksb t
  | TIdent _ | TStr _ | TVoid => true
  | TFn _ _ args ret =>
      forallb (fun a => top_plain (snd a) && match snd a with TCxxVector _ => false | _ => true end) args &&
      match ret with Some r => top_plain r | None => true end &&
      forallb (fun a => callbacksb (snd a)) args && match ret with Some r => callbacksb r | None => true end
  end.
Lemma callbacksb_occurs u t : occurs u t -> callbacksb t = true -> callbacksb u = true.
Proof.
  induction 1; intros C; auto; apply IHoccurs; cbn in C; rewrite !andb_true_iff in C; destruct C as ((_ & C1) & C2); [|exact C2].
  rewrite forallb_forall in C1. apply (C1 _ H).
Qed.
Definition simple_callbacksb (apis : list api) : bool :=
  forallb (fun a => match a with
    | AStruct s => forallb (fun f => callbacksb (v_ty f)) (st_fields s)
    | ACxxFunction f | ARustFunction f => forallb (fun x => callbacksb (snd x)) (fn_args f) && match fn_ret f with Some r => callbacksb r | None => true end
    | AImpl i => callbacksb (im_ty i)
    | _ => true
    end) apis.
Lemma simple_callbacksb_ok apis : simple_callbacksb apis = true -> simple_callbacks apis.
Proof.
  unfold simple_callbacksb. rewrite forallb_forall. intros H un th args ret M.
  assert (C : callbacksb (TFn un th args ret) = true).
  { destruct M as [s f Hs Hf O|f x t Hf Hx O|f t Hf Hr O|i Hi O]; apply (callbacksb_occurs _ _ O).
    - specialize (H _ Hs). cbn in H. rewrite forallb_forall in H. apply (H _ Hf).
    - destruct Hf as [Hf|Hf]; specialize (H _ Hf); cbn in H; apply andb_true_iff in H; destruct H as (H & _); rewrite forallb_forall in H; apply (H _ Hx).
    - destruct Hf as [Hf|Hf]; specialize (H _ Hf); cbn in H; apply andb_true_iff in H; destruct H as (_ & H); rewrite Hr in H; exact H.
    - apply (H _ Hi). }
  cbn in C. rewrite !andb_true_iff in C. destruct C as (((C1 & C2) & _) & _). split.
  - intros x t I. rewrite forallb_forall in C1. specialize (C1 _ I). cbn in C1. apply andb_true_iff in C1. destruct C1 as (P & V).
    split; [intros (a & b & c & d & ->); discriminate P|]. split; [intros ->; discriminate P|intros u ->; discriminate V].
  - intros t ->. split; [intros (a & b & c & d & ->); discriminate C2|intros ->; discriminate C2].
Qed.
Local Definition I_ (a : string) : ty := TIdent (Named a []).
Local Definition nm (a : string) : pair_name := Pair [] a a.
Local Definition C_ (a : string) : api := ACxxType (ExternType CUnconditional LCxx [] (nm a) [] [] true).
Local Definition R_ (a : string) : api := ARustType (ExternType CUnconditional LRust [] (nm a) [] [] true).
Local Definition S_ (a : string) (fs : list ty) : api := AStruct (Struct_ CUnconditional [] (nm a) [] (map (fun t => Var CUnconditional (nm "f") t) fs)).
Local Definition fn_ (l : lang) (recv : option string) (args : list (string * ty)) (ret : option ty) (th : bool) : extern_fn :=
  ExternFn CUnconditional l (nm "f") false false [] (option_map (fun t => Receiver false None false (Named t []) false) recv) args ret th true.

(** * C13 *)
(** Both generators have accepted the bridge. *)
Definition both_accept apis T1 T2 : Prop :=
  exists o1 o2, accepted_bridge GBuild o1 apis T1 /\ accepted_bridge GMacro o2 apis T2.

(** Each function has the same ABI on both sides, and so has the trampoline through
    which C++ calls back into Rust for each callback parameter; the C++ trampoline has
    the type that rust::Fn stores.  [n]: the budget of the plain-data analysis. *)
Definition cxx_function_agrees apis T1 T2 (n : nat) (f : extern_fn) : Prop :=
  (exists c r, cxx_function_shim n T1 f = Some c /\ rust_function_decl n T2 f = Some r /\ same_abi apis c r) /\
  forall x un th args ret, In (x, TFn un th args ret) (fn_args f) ->
    (exists c r, cxx_function_decl n T1 (ptr_sig th args ret) true = Some c /\
                 rust_function_shim n T2 (ptr_sig th args ret) true = Some r /\ same_abi apis c r) /\
    exists cs cr, cxx_type T1 (TFn un th args ret) = Some (CFn cs cr) /\
                  cxx_function_shim_decl T1 (ptr_sig th args ret) true = Some (cr, cs ++ [CPtr false CVoid]).
Definition rust_function_agrees apis T1 T2 (n : nat) (f : extern_fn) : Prop :=
  exists c r, cxx_function_decl n T1 (fn_sig f) false = Some c /\ rust_function_shim n T2 (fn_sig f) false = Some r /\ same_abi apis c r.
(** … for the functions among the items [fns], which are part of the bridge [apis]. *)
Definition functions_agree (fns apis : list api) T1 T2 : Prop :=
  (forall f, In (ACxxFunction f) fns -> exists F, forall n, F <= n -> cxx_function_agrees apis T1 T2 n f) /\
  (forall f, In (ARustFunction f) fns -> exists F, forall n, F <= n -> rust_function_agrees apis T1 T2 n f).
Definition C13_claim : Prop := forall apis T1 T2, both_accept apis T1 T2 -> blocks_marked apis -> functions_agree apis apis T1 T2.

(** False: a callback that takes a callback.  For `fn f(cb: fn(g: fn(i32)))` C++ passes
    a rust::Fn (two pointers) where the exported Rust function takes a bare `fn` (one
    pointer). *)
Theorem C13_nested_callback_refuted : ~ C13_claim.
Proof.
  intros H. pose (cb := TFn false false [("g", TFn false false [("i", I_ "i32")] None)] None).
  pose (f := fn_ LCxx None [("cb", cb)] None false). pose (apis := [ACxxFunction f]).
  destruct (accepts_ok GBuild apis eq_refl) as (T1 & H1). destruct (accepts_ok GMacro apis eq_refl) as (T2 & H2).
  destruct (H apis T1 T2) as (K & _); [exists id_order, id_order; auto|intros g [E|[]]; discriminate E|].
  destruct (K f (or_introl eq_refl)) as (F & HF). destruct (HF F (le_n F)) as (_ & G).
  destruct (G "cb" _ _ _ _ (or_introl eq_refl)) as ((c & r & E1 & E2 & _ & S) & _).
  cbn in E1, E2. injection E1 as <-. injection E2 as <-. cbn [snd] in S. inversion S as [|? ? ? ? (A & _) _]; subst.
  inversion A as [| | | | | | | | |? ? ? ? ? X _ _| | | | | | | | |]; subst. inversion X.
Qed.
Print Assumptions C13_nested_callback_refuted.

(** The same happens for a callback that takes a C++ vector by value: C++ passes a
    pointer to a pointer, Rust expects a pointer to the vector. *)
Theorem C13_vector_callback_refuted : exists apis T1 T2 args, both_accept apis T1 T2 /\ mentioned apis (TFn false false args None) /\
  forall n c r, cxx_function_decl n T1 (ptr_sig false args None) true = Some c -> rust_function_shim n T2 (ptr_sig false args None) true = Some r ->
    ~ same_abi apis c r.
Proof.
  pose (args := [("v", TCxxVector (I_ "u8"))]). pose (f := fn_ LCxx None [("cb", TFn false false args None)] None false). pose (apis := [ACxxFunction f]).
  destruct (accepts_ok GBuild apis eq_refl) as (T1 & H1). destruct (accepts_ok GMacro apis eq_refl) as (T2 & H2).
  exists apis, T1, T2, args. split; [exists id_order, id_order; auto|]. split; [eapply me_arg; [left; left; reflexivity|left; reflexivity|constructor]|].
  intros n c r E1 E2 (_ & S). destruct n as [|n]; [discriminate E1|]. cbn in E1, E2. injection E1 as <-. injection E2 as <-. cbn [snd] in S.
  inversion S as [|? ? ? ? (A & _) _]; subst.
  inversion A as [| | | | | | | | |? ? ? ? ? X Y Z| | | | | | | | |]; subst. inversion X; subst. inversion Y; subst. destruct Z as [B|B]; [|discriminate].
  inversion B as [| | | | | | | | |? ? ? ? ? X' Y' _| | | | | | | | |]; subst. inversion Y'.
Qed.
Print Assumptions C13_vector_callback_refuted.

(** An alias named like a primitive: `type i32 = path;` and `fn f(x: i32)`; the C++
    side passes an int32_t, the Rust side whatever the alias stands for. *)
Theorem C13_aliased_primitive_refuted : ~ C13_claim.
Proof.
  intros H. pose (f := fn_ LCxx None [("x", I_ "i32")] None false).
  pose (apis := [ATypeAlias (TypeAlias CUnconditional [] (nm "i32") []); ACxxFunction f]).
  destruct (accepts_ok GBuild apis eq_refl) as (T1 & H1). destruct (accepts_ok GMacro apis eq_refl) as (T2 & H2).
  destruct (H apis T1 T2) as (K & _); [exists id_order, id_order; auto|intros g [E|[E|[]]]; discriminate E|].
  destruct (K f (or_intror (or_introl eq_refl))) as (F & HF). destruct (HF (S F) (le_S _ _ (le_n F))) as ((c & r & E1 & E2 & _ & S) & _).
  destruct H2 as ((_ & Hc) & _). vm_compute in Hc. injection Hc as <-.
  cbn in E1, E2. injection E1 as <-. injection E2 as <-. cbn [snd] in S. inversion S as [|? ? ? ? (A & _) _]; subst.
  inversion A as [? N| | | | | | | | |? ? ? ? ? X _ _| | | | | | | | |]; subst; [|inversion X].
  apply N. eexists. split; [left; reflexivity|reflexivity].
Qed.
Print Assumptions C13_aliased_primitive_refuted.

Lemma views_agree g1 o1 fns apis T1 T2 : accepted_bridge g1 o1 apis T1 -> primitives_unaliased apis -> simple_callbacks apis -> blocks_marked fns ->
  (forall a, In a fns -> In a apis) ->
  (forall t, mentioned fns t -> exists b, (b = false <-> goes_direct apis t) /\
    ev (fun n => needs_indirect_abi n T1 t = Some b /\ needs_indirect_abi n T2 t = Some b)) ->
  functions_agree fns apis T1 T2.
Proof.
  intros H1 Hp Hs Hm Hsub Hd. split; intros f I.
  - destruct (cxx_function_ok _ _ _ _ _ _ H1 Hp Hs Hd f (Hsub _ I)) as (F1 & K1).
    { split; [intros x t J; eapply me_arg; [left; exact I|exact J|constructor]|intros r E; eapply me_ret; [left; exact I|exact E|constructor]]. }
    assert (L : forall l, incl l (fn_args f) -> exists F, forall n, F <= n -> forall x un th args ret, In (x, TFn un th args ret) l ->
       (exists c r, cxx_function_decl n T1 (ptr_sig th args ret) true = Some c /\
                    rust_function_shim n T2 (ptr_sig th args ret) true = Some r /\ same_abi apis c r)).
    { induction l as [|[y t] l IH]; intros Hi; [exists 0%nat; intros n _ x un th args ret []|].
      destruct IH as (F & IH); [intros z Hz; apply Hi; right; exact Hz|].
      assert (M : mentioned apis t) by (eapply me_arg; [left; exact (Hsub _ I)|apply Hi; left; reflexivity|constructor]).
      assert (M' : mentioned fns t) by (eapply me_arg; [left; exact I|apply Hi; left; reflexivity|constructor]).
      destruct t; try (exists F; intros k Hk x un th args0 ret0 [E|J]; [discriminate E|apply (IH k Hk _ _ _ _ _ J)]).
      destruct (callback_ok _ _ _ _ _ _ H1 Hp Hs Hd _ _ _ _ M) as (G & HG).
      { split; cbn; [intros x t J; eapply mentioned_occurs; [exact M'|eapply oc_arg; [exact J|constructor]]|intros r E; eapply mentioned_occurs; [exact M'|rewrite E; apply oc_ret; constructor]]. }
      exists (Nat.max F G).
      intros n Hn x un th args0 ret0 [E|J]; [injection E as <- <- <- <- <-; apply HG; lia|eapply (IH n); [lia|exact J]]. }
    destruct (L (fn_args f)) as (F2 & K2); [intros z Hz; exact Hz|].
    exists (Nat.max F1 F2). intros n Hn. split; [apply K1; lia|]. intros x un th args ret J. split; [eapply (K2 n); [lia|exact J]|].
    eapply trampoline_ok; [exact H1|exact Hs|]. eapply me_arg; [left; exact (Hsub _ I)|exact J|constructor].
  - destruct (rust_function_ok _ _ _ _ _ _ H1 Hp Hd f (Hsub _ I) (Hm f I)) as (F & K).
    { split; [intros x t J; eapply me_arg; [right; exact I|exact J|constructor]|intros r E; eapply me_ret; [right; exact I|exact E|constructor]]. }
    exists F. exact K.
Qed.
Lemma closed_refl apis : closed_in apis apis. Proof. split; auto. Qed.

(** Proved for all bridges without those: callbacks take and return neither callbacks
    nor units, and no C++ vector by value; no primitive is aliased; no struct contains
    itself (such a struct cannot be compiled). *)
Theorem C13_same_abi_partial : forall apis T1 T2, both_accept apis T1 T2 -> blocks_marked apis ->
  ~ has_cycle contains (structs_of apis) -> primitives_unaliased apis -> simple_callbacks apis ->
  functions_agree apis apis T1 T2.
Proof.
  intros apis T1 T2 (o1 & o2 & H1 & H2) Hm Hc Hp Hs. apply (views_agree _ _ _ _ _ _ H1 Hp Hs Hm); [auto|].
  intros t M. destruct (views_decided _ _ _ _ _ _ _ _ t H1 H2 (closed_refl apis) Hc Hc M) as (b & G & _ & E). exists b. auto.
Qed.
Print Assumptions C13_same_abi_partial.

(** A bridge with a shared struct passed directly, one passed indirectly, owned and
    borrowed values, a fallible function and a callback. *)
Example C13_nonvacuous :
  let apis := [C_ "C"; R_ "R"; S_ "P" [I_ "i32"]; S_ "Q" [I_ "String"];
     ACxxFunction (fn_ LCxx (Some "C") [("a", I_ "P"); ("b", I_ "Q"); ("c", TUniquePtr (I_ "C")); ("s", I_ "String"); ("v", TVec (I_ "u8"));
                     ("cb", TFn false false [("x", TStr None); ("q", I_ "Q")] (Some (TBox (I_ "R"))))] (Some (TRef false false None (I_ "C"))) true);
     ARustFunction (fn_ LRust None [("r", TBox (I_ "R")); ("q", I_ "Q")] (Some (I_ "Q")) false)] in
  (exists T1 T2, both_accept apis T1 T2) /\ blocks_marked apis /\ ~ has_cycle contains (structs_of apis) /\ primitives_unaliased apis /\ simple_callbacks apis.
Proof.
  cbv zeta. match goal with |- context [both_accept ?l] => set (apis := l) end.
  destruct (accepts_ok GBuild apis eq_refl) as (T1 & H1). destruct (accepts_ok GMacro apis eq_refl) as (T2 & H2).
  split; [exists T1, T2, id_order, id_order; auto|]. split; [apply markedb_ok; reflexivity|].
  split; [apply (accepted_acyclic _ _ _ _ H1), array_freeb_ok; reflexivity|]. split; [apply unaliasedb_ok; reflexivity|].
  apply simple_callbacksb_ok. reflexivity.
Qed.

(** * C60 *)
(** The fields of a shared struct are declared in the same order, with types of the
    same representation, and under the names written in the bridge.  (Missing: bridges with an alias named like a
    primitive, see C13_aliased_primitive_refuted.) *)
Definition same_fields apis T1 s : Prop := exists cs, cxx_fields T1 s = Some cs /\
  Forall2 (fun c r => alike apis (snd c) (snd r)) cs (rust_fields s) /\
  map fst cs = map (fun f => p_cxx (v_name f)) (st_fields s) /\ map fst (rust_fields s) = map (fun f => p_rust (v_name f)) (st_fields s).
Theorem C60_fields_partial : forall gen ord apis T1 s, accepted_bridge gen ord apis T1 -> primitives_unaliased apis ->
  In (AStruct s) apis -> same_fields apis T1 s.
Proof.
  intros gen ord apis T1 s H Hp I. destruct (fields_ok _ _ _ _ H Hp s I) as (cs & E & A & N). exists cs. repeat split; try assumption.
  unfold rust_fields. rewrite map_map. reflexivity.
Qed.
Print Assumptions C60_fields_partial.
Theorem C60_fields_refuted : exists gen ord apis T1 s, accepted_bridge gen ord apis T1 /\ In (AStruct s) apis /\ ~ same_fields apis T1 s.
Proof.
  pose (s := Struct_ CUnconditional [] (nm "S") [] [Var CUnconditional (nm "f") (I_ "i32")]).
  pose (apis := [ATypeAlias (TypeAlias CUnconditional [] (nm "i32") []); AStruct s]).
  destruct (accepts_ok GBuild apis eq_refl) as (T1 & H1). exists GBuild, id_order, apis, T1, s. split; [exact H1|]. split; [right; left; reflexivity|].
  intros (cs & E & F & _). cbn in E. injection E as <-. inversion F as [|? ? ? ? A _]; subst.
  inversion A as [? N| | | | | | | | |? ? ? ? ? X _ _| | | | | | | | |]; subst; [|inversion X]. apply N. eexists. split; [left; reflexivity|reflexivity].
Qed.
Print Assumptions C60_fields_refuted.
Example C60_nonvacuous : let s := Struct_ CUnconditional [] (nm "S") []
    [Var CUnconditional (Pair [] "a" "r") (I_ "i32"); Var CUnconditional (nm "b") (TVec (I_ "u8")); Var CUnconditional (nm "c") (TArray (TBox (I_ "R")) 3)] in
  (exists T, accepted_bridge GBuild id_order [R_ "R"; AStruct s] T) /\ primitives_unaliased [R_ "R"; AStruct s].
Proof. cbv zeta. split; [apply accepts_ok; reflexivity|apply unaliasedb_ok; reflexivity]. Qed.

(** * C61 *)
(** The C++ generator can write every type mentioned in an accepted bridge (it panics
    where [cxx_type] is [None]). *)
Definition C61_claim : Prop := forall gen ord apis T t, accepted_bridge gen ord apis T -> mentioned apis t -> t <> TVoid -> exists c, cxx_type T t = Some c.
(** False: `fn f(cb: fn(x: ()))`. *)
Theorem C61_writable_refuted : ~ C61_claim.
Proof.
  intros H. pose (cb := TFn false false [("x", TVoid)] None). pose (apis := [ACxxFunction (fn_ LCxx None [("cb", cb)] None false)]).
  destruct (accepts_ok GBuild apis eq_refl) as (T & HT). destruct (H GBuild id_order apis T cb HT) as (c & E).
  - eapply me_arg; [left; left; reflexivity|left; reflexivity|constructor].
  - discriminate.
  - discriminate E.
Qed.
Print Assumptions C61_writable_refuted.
(** Proved when no callback takes a unit (or, as in C13, a callback). *)
Theorem C61_writable_partial : forall gen ord apis T t, accepted_bridge gen ord apis T -> simple_callbacks apis ->
  mentioned apis t -> t <> TVoid -> exists c, cxx_type T t = Some c.
Proof.
  intros gen ord apis T t H Hs M N. destruct (top_plain t) eqn:P.
  - apply (cxx_type_plain _ _ _ _ H t M). apply (mentioned_plain _ _ _ _ H t M P).
  - destruct t; try discriminate P; [|congruence]. destruct (callback_type _ _ _ _ H _ _ _ _ Hs M) as (cs & cr & _ & _ & E). eauto.
Qed.
Print Assumptions C61_writable_partial.
Example C61_nonvacuous : let apis := [R_ "R"; ACxxFunction (fn_ LCxx None [("cb", TFn false false [("x", TSlice false None (I_ "R"))] None)] None false)] in
  (exists T, accepted_bridge GBuild id_order apis T) /\ simple_callbacks apis.
Proof. cbv zeta. split; [apply accepts_ok; reflexivity|apply simple_callbacksb_ok; reflexivity]. Qed.
