(** C10-C12: link names.  Specification: Mangle_Spec.v. *)
From Verif Require Import Base Syntax_Model TypeEq_Model Types_Model Types_Spec Types_Proofs Types_Proofs3 Types_Props
  Check_Model Check_Spec Check_Proofs Check_Proofs2 Check_Props Mangle_Model Mangle_Spec Mangle_Proofs Mangle_Proofs2 Mangle_Proofs3 Mangle_Proofs4 StrLib.

(** For the examples: a decision procedure for [wf_bridge]. *)
Definition identifierb (s : string) : bool :=
  negb (has_char dollar s) && match s with "" => false | String c _ => negb (digit c) end.
Definition item_names (apis : list api) : list pair_name :=
  flat_map (fun a => match a with
    | AStruct s => st_name s :: map v_name (st_fields s)
    | AEnum e => en_name e :: map vr_name (en_variants e)
    | ACxxType t | ARustType t => [et_name t]
    | ATypeAlias t => [ta_name t]
    | ACxxFunction f | ARustFunction f => fn_name f :: map (fun x => Pair [] (fst x) (fst x)) (fn_args f)
    | _ => []
    end) apis.
Definition wf_bridgeb (apis : list api) : bool :=
  forallb (fun p => forallb identifierb (p_ns p) && identifierb (p_cxx p) && identifierb (p_rust p)) (item_names apis).
Lemma identifierb_ok s : identifierb s = true -> identifier s.
Proof.
  unfold identifierb. rewrite andb_true_iff, negb_true_iff. intros (H1 & H2). apply ident_of_string. split; [exact H1|].
  destruct s; [discriminate|]. apply negb_true_iff. exact H2.
Qed.
Lemma wf_bridgeb_ok apis : wf_bridgeb apis = true -> wf_bridge apis.
Proof.
  intros H p Hp. assert (I : In p (item_names apis)).
  { unfold item_names. apply in_flat_map. destruct Hp as [p lts D|s f Hs Hf|e v He Hv|f Hf|f x t Hf Hx].
    - destruct D; eexists; (split; [eassumption|]); left; reflexivity.
    - eexists. split; [exact Hs|]. right. apply in_map, Hf.
    - eexists. split; [exact He|]. right. apply in_map, Hv.
    - destruct Hf as [Hf|Hf]; eexists; (split; [exact Hf|]); left; reflexivity.
    - destruct Hf as [Hf|Hf]; eexists; (split; [exact Hf|]); right; apply (in_map (fun x => Pair [] (fst x) (fst x)) _ (x, t)); exact Hx. }
  unfold wf_bridgeb in H. rewrite forallb_forall in H. specialize (H p I). rewrite !andb_true_iff in H. destruct H as ((H1 & H2) & H3).
  split; [|split; apply identifierb_ok; assumption]. apply Forall_forall. intros s Hs. rewrite forallb_forall in H1. apply identifierb_ok, H1, Hs.
Qed.

Local Definition I_ (a : string) : ty := TIdent (Named a []).
Local Definition C_ (ns : list string) (cxx a : string) : api := ACxxType (ExternType CUnconditional LCxx [] (Pair ns cxx a) [] [] true).
Local Definition R_ (ns : list string) (a : string) : api := ARustType (ExternType CUnconditional LRust [] (Pair ns a a) [] [] true).
Local Definition fn_ (ns : list string) (name : string) (recv : option string) (args : list (string * ty)) (ret : option ty) (l : lang) : extern_fn :=
  ExternFn CUnconditional l (Pair ns name name) false false []
    (option_map (fun t => Receiver false None false (Named t []) false) recv) args ret false true.

(** * C10 *)
(** Two functions of an accepted bridge get different link names. *)
Definition C10_claim : Prop := forall gen ord apis T pre a mid b post f g, accepted_bridge gen ord apis T -> wf_bridge apis ->
  apis = pre ++ a :: mid ++ b :: post -> fn_of a = Some f -> fn_of b = Some g ->
  mangle_extern_fn T f <> mangle_extern_fn T g.

(** False: methods `get` of a::Handle and b::Handle, both declared in the bridge
    namespace [n], are both called n$cxxbridge1$Handle$get. *)
Theorem C10_distinct_refuted : ~ C10_claim.
Proof.
  intros C.
  pose (f := fn_ ["n"] "get" (Some "A") [] None LCxx). pose (g := fn_ ["n"] "get" (Some "B") [] None LCxx).
  pose (apis := [C_ ["a"] "Handle" "A"; C_ ["b"] "Handle" "B"; ACxxFunction f; ACxxFunction g]).
  destruct (accepts_ok GBuild apis eq_refl) as (T & HT).
  refine (C GBuild id_order apis T [C_ ["a"] "Handle" "A"; C_ ["b"] "Handle" "B"] (ACxxFunction f) [] (ACxxFunction g) [] f g HT _ eq_refl eq_refl eq_refl _).
  - apply wf_bridgeb_ok. reflexivity.
  - destruct HT as ((_ & Hc) & _). vm_compute in Hc. injection Hc as <-. reflexivity.
Qed.
Print Assumptions C10_distinct_refuted.

(** Exactly when two functions share a link name: same namespace and Rust name, and
    both free or both methods of types with the same unqualified C++ name. *)
Theorem C10_collision_exact : forall gen ord apis T f g, accepted_bridge gen ord apis T -> wf_bridge apis ->
  all_functions apis f -> all_functions apis g ->
  (mangle_extern_fn T f = mangle_extern_fn T g <->
   p_ns (fn_name f) = p_ns (fn_name g) /\ p_rust (fn_name f) = p_rust (fn_name g) /\
   ((fn_receiver f = None /\ fn_receiver g = None) \/
    (exists r p r' p', fn_receiver f = Some r /\ stands_for apis (n_rust (rc_ty r)) p /\
       fn_receiver g = Some r' /\ stands_for apis (n_rust (rc_ty r')) p' /\ p_cxx p = p_cxx p'))).
Proof. intros gen ord apis T f g H W Hf Hg. exact (fn_collision gen ord apis T H W f g Hf Hg). Qed.
Print Assumptions C10_collision_exact.

(** Two different items of which one is a free function never share a link name, and
    those that do are methods whose receivers differ. *)
Theorem C10_distinct_partial : forall gen ord apis T pre a mid b post f g, accepted_bridge gen ord apis T -> wf_bridge apis ->
  apis = pre ++ a :: mid ++ b :: post -> fn_of a = Some f -> fn_of b = Some g ->
  mangle_extern_fn T f = mangle_extern_fn T g ->
  exists r r', fn_receiver f = Some r /\ fn_receiver g = Some r' /\ receiver_eqb r' r = false.
Proof.
  intros gen ord apis T pre a mid b post f g H W E Fa Fb S.
  assert (Ia : In a apis) by (rewrite E; apply in_or_app; right; left; reflexivity).
  assert (Ib : In b apis) by (rewrite E; apply in_or_app; right; right; apply in_or_app; right; left; reflexivity).
  assert (Hf : all_functions apis f) by (destruct a; cbn in Fa; try discriminate; injection Fa as <-; [left|right]; exact Ia).
  assert (Hg : all_functions apis g) by (destruct b; cbn in Fb; try discriminate; injection Fb as <-; [left|right]; exact Ib).
  pose proof (no_dup_fn _ _ _ _ _ _ _ _ E Fa Fb (acc_errs _ _ _ _ H)) as D.
  apply (fn_collision _ _ _ _ H W f g Hf Hg) in S. destruct S as (_ & N & S). rewrite N, String.eqb_refl, andb_true_r in D.
  destruct S as [(E1 & E2)|(r & p & r' & p' & E1 & _ & E2 & _ & _)]; rewrite E1, E2 in D; [discriminate|]. exists r, r'. auto.
Qed.
Print Assumptions C10_distinct_partial.

Example C10_nonvacuous :
  let f := fn_ ["n"] "get" (Some "A") [] None LCxx in let g := fn_ ["n"] "get" None [] None LRust in
  let h := fn_ ["n"] "put" None [] None LRust in
  let apis := [C_ ["a"] "Handle" "A"; ACxxFunction f; ARustFunction g; ARustFunction h] in
  wf_bridge apis /\ exists T, accepted_bridge GBuild id_order apis T /\
    map (mangle_extern_fn T) [f; g; h] = [Some "n$cxxbridge1$Handle$get"; Some "n$cxxbridge1$get"; Some "n$cxxbridge1$put"].
Proof.
  cbv zeta. split; [apply wf_bridgeb_ok; reflexivity|].
  match goal with |- exists T, accepted_bridge GBuild id_order ?l T /\ _ => destruct (accepts_ok GBuild l eq_refl) as (T & HT) end.
  exists T. split; [exact HT|]. destruct HT as ((_ & Hc) & _). vm_compute in Hc. injection Hc as <-. reflexivity.
Qed.

(** * C11 *)
(** A link name determines what it denotes, up to exactly the listed pairs. *)
Theorem C11_decodable : forall e e', wf_entity e -> wf_entity e' ->
  (link_name e = link_name e' <-> e = e' \/ ambiguous e e' \/ ambiguous e' e).
Proof. exact link_name_decode. Qed.
Print Assumptions C11_decodable.

(** So the claim that a link name denotes one thing is false. *)
Theorem C11_unique_refuted : exists e e', wf_entity e /\ wf_entity e' /\ link_name e = link_name e' /\ e <> e'.
Proof.
  exists (EGeneric (IUniqueVector ([], "T")) "get"), (EGeneric (IUnique (["std"; "vector"], "T")) "get").
  split; [|split; [|split; [reflexivity|discriminate]]]; cbn; (split; [|tauto]); repeat (apply Forall_cons || apply Forall_nil); apply user_identb_ok; reflexivity.
Qed.
Print Assumptions C11_unique_refuted.

(** No symbol of a bridge is one of the runtime library: false. *)
Definition C11_runtime_claim : Prop := forall gen ord apis T s, accepted_bridge gen ord apis T -> wf_bridge apis ->
  In (Some s) (rust_exports T apis) \/ In (Some s) (cxx_defs T apis) -> ~ In s runtime_symbols.
Theorem C11_runtime_refuted : ~ C11_runtime_claim.
Proof.
  intros C. pose (apis := [C_ ["std"] "string" "S"; ACxxFunction (fn_ [] "f" None [] (Some (TUniquePtr (I_ "S"))) LCxx)]).
  destruct (accepts_ok GBuild apis eq_refl) as (T & HT).
  refine (C GBuild id_order apis T "cxxbridge1$unique_ptr$std$string$drop" HT _ _ _).
  - apply wf_bridgeb_ok. reflexivity.
  - right. destruct HT as ((_ & Hc) & _). vm_compute in Hc. injection Hc as <-. vm_compute. tauto.
  - apply smem_In. vm_compute. reflexivity.
Qed.
Print Assumptions C11_runtime_refuted.

(** Exactly which entities of a bridge clash with the runtime. *)
Theorem C11_runtime_exact : forall gen ord apis T e, accepted_bridge gen ord apis T -> wf_bridge apis ->
  cxx_provides apis e \/ rust_provides apis e -> (In (link_name e) runtime_symbols <-> clashes e).
Proof.
  intros gen ord apis T e H W He. apply clash_iff; [|eapply bridge_not_runtime; exact He].
  destruct He; [eapply cxx_provides_wf|eapply rust_provides_wf]; eauto.
Qed.
Print Assumptions C11_runtime_exact.

(** In particular, a bridge whose names are all in a namespace other than std is
    safe. *)
Theorem C11_namespaced_partial : forall gen ord apis T s, accepted_bridge gen ord apis T -> wf_bridge apis ->
  (forall p, item_name apis p -> (exists lts, declares apis p lts) \/ (exists f, all_functions apis f /\ p = fn_name f) ->
     exists n ns, p_ns p = n :: ns /\ n <> "std") ->
  In (Some s) (rust_exports T apis) \/ In (Some s) (rust_imports T apis) \/ In (Some s) (cxx_defs T apis) \/ In (Some s) (cxx_decls T apis) ->
  ~ In s runtime_symbols.
Proof.
  intros gen ord apis T s H W N Hs.
  assert (He : exists e, (cxx_provides apis e \/ rust_provides apis e) /\ s = link_name e).
  { destruct Hs as [Hs|[Hs|[Hs|Hs]]];
      [apply (rust_exports_ok _ _ _ _ H W) in Hs|apply (rust_imports_ok _ _ _ _ H W) in Hs|apply (cxx_defs_ok _ _ _ _ H W) in Hs|apply (cxx_decls_ok _ _ _ _ H W) in Hs];
      destruct Hs as (e & He & E); injection E as ->; eauto. }
  destruct He as (e & He & ->). rewrite (C11_runtime_exact _ _ _ _ _ H W He). intros C. apply clash_namespace in C.
  assert (Nd : forall p lts, declares apis p lts -> exists n ns, p_ns p = n :: ns /\ n <> "std")
    by (intros p lts D; apply N; [eapply in_type; eauto|eauto]).
  assert (Ns : forall x p, stands_for apis x p -> exists n ns, p_ns p = n :: ns /\ n <> "std")
    by (intros x p S; destruct (stands_declares _ _ _ S) as (lts & D); eauto).
  assert (Nf : forall f, all_functions apis f -> exists n ns, p_ns (fn_name f) = n :: ns /\ n <> "std")
    by (intros f Hf; apply N; [apply in_fn; exact Hf|eauto]).
  assert (G : exists n ns, entity_namespace e = n :: ns /\ n <> "std").
  { assert (F : forall f e, all_functions apis f -> fn_entity apis f e -> exists n ns, entity_namespace e = n :: ns /\ n <> "std")
      by (intros f x Hf Hx; destruct Hx; cbn; apply Nf; assumption).
    assert (F' : forall f h e, all_functions apis f -> trampoline_entity apis f h e -> exists n ns, entity_namespace e = n :: ns /\ n <> "std")
      by (intros f h x Hf Hx; destruct Hx; cbn; apply Nf; assumption).
    destruct He as [He|He]; destruct He; cbn [entity_namespace instance_type fst cxx_name];
      try (eapply Ns; eassumption); try (eapply Nd; econstructor; eassumption);
      (eapply F; [|eassumption]; (left; assumption) || (right; assumption)) || (eapply F'; [|eassumption]; left; assumption). }
  destruct G as (n & ns & G & Gn). rewrite G in C. destruct C as [C|(ns' & C)]; [discriminate|]. injection C as -> _. contradiction.
Qed.
Print Assumptions C11_namespaced_partial.

Example C11_nonvacuous :
  let apis := [C_ ["org"] "Db" "Db"; ACxxFunction (fn_ ["org"] "exception" None [("x", TUniquePtr (I_ "Db"))] None LCxx)] in
  wf_bridge apis /\
  (exists T, accepted_bridge GBuild id_order apis T /\ In (Some "org$cxxbridge1$exception") (cxx_defs T apis) /\
     In (Some "cxxbridge1$unique_ptr$org$Db$release") (cxx_defs T apis)) /\
  forallb (fun p => match p_ns p with ["org"] => true | _ => String.eqb (p_rust p) "x" end) (item_names apis) = true.
Proof.
  cbv zeta. split; [apply wf_bridgeb_ok; reflexivity|]. split; [|reflexivity].
  match goal with |- exists T, accepted_bridge GBuild id_order ?l T /\ _ => destruct (accepts_ok GBuild l eq_refl) as (T & HT) end.
  exists T. split; [exact HT|]. destruct HT as ((_ & Hc) & _). vm_compute in Hc. injection Hc as <-. vm_compute. tauto.
Qed.

(** * C12 *)
(** Neither generator panics, and the two sides agree: Rust imports exactly the
    symbols that C++ defines, Rust exports exactly the symbols that C++ declares and
    calls, and both are the link names of what the bridge says. *)
Theorem C12_symbols_agree : forall gen ord apis T, accepted_bridge gen ord apis T -> wf_bridge apis ->
  (~ In None (rust_imports T apis ++ cxx_defs T apis ++ rust_exports T apis ++ cxx_decls T apis ++ cxx_calls T apis)) /\
  (forall s, In (Some s) (rust_imports T apis) <-> exists e, cxx_provides apis e /\ s = link_name e) /\
  (forall s, In (Some s) (cxx_defs T apis) <-> exists e, cxx_provides apis e /\ s = link_name e) /\
  (forall s, In (Some s) (rust_exports T apis) <-> exists e, rust_provides apis e /\ s = link_name e) /\
  (forall s, In (Some s) (cxx_decls T apis) <-> exists e, rust_provides apis e /\ s = link_name e) /\
  (forall s, In (Some s) (cxx_calls T apis) <-> exists e, rust_provides apis e /\ s = link_name e).
Proof.
  intros gen ord apis T H W.
  assert (G : forall L P, realizes L P -> ~ In None L /\ forall s, In (Some s) L <-> exists e, P e /\ s = link_name e).
  { intros L P R. split.
    - intros N. apply R in N. destruct N as (e & _ & N). discriminate.
    - intros s. rewrite (R (Some s)). split; intros (e & He & E); exists e; (split; [exact He|]); [injection E; auto|rewrite E; reflexivity]. }
  destruct (G _ _ (rust_imports_ok _ _ _ _ H W)) as (N1 & S1), (G _ _ (cxx_defs_ok _ _ _ _ H W)) as (N2 & S2),
    (G _ _ (rust_exports_ok _ _ _ _ H W)) as (N3 & S3), (G _ _ (cxx_decls_ok _ _ _ _ H W)) as (N4 & S4), (G _ _ (cxx_calls_ok _ _ _ _ H W)) as (N5 & S5).
  split; [|auto 10]. rewrite !in_app_iff. tauto.
Qed.
Print Assumptions C12_symbols_agree.

Example C12_nonvacuous :
  let s := Struct_ CUnconditional [DPartialOrd; DPartialEq; DEq; DHash] (Pair ["n"] "P" "P") [] [Var CUnconditional (Pair [] "x" "x") (I_ "u8")] in
  let apis := [AStruct s; C_ ["a"] "Db" "D"; R_ [] "R";
    ACxxFunction (fn_ [] "f" (Some "D") [("cb", TFn false false [] None)] (Some (TUniquePtr (I_ "P"))) LCxx);
    ARustFunction (fn_ [] "g" None [("v", TVec (I_ "P")); ("c", TRef false false None (TCxxVector (I_ "D")))] None LRust)] in
  wf_bridge apis /\ exists T, accepted_bridge GBuild id_order apis T /\
    rust_imports T apis = map Some
      ["cxxbridge1$Db$f"; "cxxbridge1$Db$f$cb$0"; "cxxbridge1$unique_ptr$n$P$uninit"; "cxxbridge1$unique_ptr$n$P$null"; "cxxbridge1$unique_ptr$n$P$raw";
       "cxxbridge1$unique_ptr$n$P$get"; "cxxbridge1$unique_ptr$n$P$release"; "cxxbridge1$unique_ptr$n$P$drop"; "cxxbridge1$std$vector$a$Db$new";
       "cxxbridge1$std$vector$a$Db$size"; "cxxbridge1$std$vector$a$Db$get_unchecked"; "cxxbridge1$unique_ptr$std$vector$a$Db$null";
       "cxxbridge1$unique_ptr$std$vector$a$Db$raw"; "cxxbridge1$unique_ptr$std$vector$a$Db$get"; "cxxbridge1$unique_ptr$std$vector$a$Db$release";
       "cxxbridge1$unique_ptr$std$vector$a$Db$drop"] /\
    rust_exports T apis = map Some
      ["n$cxxbridge1$P$operator$lt"; "n$cxxbridge1$P$operator$le"; "n$cxxbridge1$P$operator$gt"; "n$cxxbridge1$P$operator$ge"; "n$cxxbridge1$P$operator$eq";
       "n$cxxbridge1$P$operator$hash"; "cxxbridge1$R$operator$sizeof"; "cxxbridge1$R$operator$alignof"; "cxxbridge1$Db$f$cb$1"; "cxxbridge1$g";
       "cxxbridge1$rust_vec$n$P$new"; "cxxbridge1$rust_vec$n$P$drop"; "cxxbridge1$rust_vec$n$P$len"; "cxxbridge1$rust_vec$n$P$capacity";
       "cxxbridge1$rust_vec$n$P$data"; "cxxbridge1$rust_vec$n$P$reserve_total"; "cxxbridge1$rust_vec$n$P$set_len"; "cxxbridge1$rust_vec$n$P$truncate"].
Proof.
  cbv zeta. split; [apply wf_bridgeb_ok; reflexivity|].
  match goal with |- exists T, accepted_bridge GBuild id_order ?l T /\ _ => destruct (accepts_ok GBuild l eq_refl) as (T & HT) end.
  exists T. split; [exact HT|]. destruct HT as ((_ & Hc) & _). vm_compute in Hc. injection Hc as <-. vm_compute. auto.
Qed.
