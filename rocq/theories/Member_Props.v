(** C88: the members of the generated C++ classes and the names that the generated header
    declares can be told apart.  Specification: Member_Spec.v. *)
From Verif Require Import Base StrLib Syntax_Model TypeEq_Model Toposort_Model Toposort_Spec Types_Model Types_Spec Types_Proofs Types_Props
  Check_Model Check_Spec Check_Proofs Check_Proofs2 Check_Props Mangle_Model Mangle_Spec Mangle_Proofs Mangle_Props Abi_Model Abi_Props
  Nested_Model Derive_Model CxxExpr_Model CxxExpr_Spec Expr_Proofs2 Unit_Model Unit_Spec Unit_Proofs Unit_Proofs2 Unit_Proofs4 Unit_Props
  Member_Model Member_Spec Member_Proofs Member_Proofs2.
From Coq Require Import Lia.

(** The full claim. *)
Definition C88_claim : Prop := forall gen ord apis T, accepted_bridge gen ord apis T -> wf_bridge apis -> names_agree apis ->
  (forall s l, In (AStruct s) apis -> struct_body T apis s = Some l -> valid_class (p_cxx (st_name s)) l) /\
  (forall t l, In (ARustType t) apis -> opaque_body T apis t = Some l -> valid_class (p_cxx (et_name t)) l) /\
  (forall e, In (AEnum e) apis -> NoDup (enumerators e)) /\
  (forall n l, (forall a, In a apis -> (List.length (api_namespace a) < n)%nat) -> unit_decls n T apis true = Some l -> one_meaning l).

(** Exactly when it holds of the class of a shared struct, … *)
Theorem C88_struct : forall gen ord apis T s l, accepted_bridge gen ord apis T -> struct_body T apis s = Some l ->
  (valid_class (p_cxx (st_name s)) l <-> struct_apart apis s).
Proof. intros gen ord apis T s l H E. exact (struct_class gen ord apis T H s l E). Qed.
Print Assumptions C88_struct.
(** … of the class of an opaque Rust type, … *)
Theorem C88_opaque : forall gen ord apis T t l, accepted_bridge gen ord apis T -> opaque_body T apis t = Some l ->
  (valid_class (p_cxx (et_name t)) l <-> opaque_apart apis t).
Proof. intros gen ord apis T t l H E. exact (opaque_class gen ord apis T H t l E). Qed.
Print Assumptions C88_opaque.
(** … of a shared enum, whose enumerators are distinct exactly if the C++ names of its variants are, … *)
Theorem C88_enum : forall e, NoDup (enumerators e) <->
  forall i j v w, nth_error (en_variants e) i = Some v -> nth_error (en_variants e) j = Some w -> p_cxx (vr_name v) = p_cxx (vr_name w) -> i = j.
Proof.
  intros e. rewrite NoDup_nth_error. unfold enumerators. rewrite map_length. split.
  - intros H i j v w Ei Ej E. apply H; [apply nth_error_Some; congruence|]. rewrite !nth_error_map, Ei, Ej. cbn. congruence.
  - intros H i j L E. rewrite !nth_error_map in E. destruct (nth_error (en_variants e) i) as [v|] eqn:Ei; [|apply nth_error_None in Ei; lia].
    destruct (nth_error (en_variants e) j) as [w|] eqn:Ej; [|discriminate]. injection E as E. exact (H i j v w Ei Ej E).
Qed.
Print Assumptions C88_enum.
(** … and of the header, in a bridge whose items for the same type agree on the C++ name and
    whose different types have different C++ names. *)
Theorem C88_header : forall gen ord apis T n l, accepted_bridge gen ord apis T -> names_agree apis ->
  (forall a, In a apis -> (List.length (api_namespace a) < n)%nat) -> unit_decls n T apis true = Some l -> (one_meaning l <-> names_apart apis).
Proof.
  intros gen ord apis T n l H G F E. unfold unit_decls in E. apply obind_inv in E as (toks & Et & E). apply obind_inv in E as (data & Ed & E). apply obind_inv in E as (decls & Ec & E).
  apply obind_inv in E as (defs & Ef & E). apply obind_inv in E as (impls & Ei & E). injection Ec as <-. injection Ei as <-. injection E as <-. cbn [app]. rewrite app_nil_r.
  exact (header_iff gen ord apis T n H G F toks Et data Ed defs Ef).
Qed.
Print Assumptions C88_header.

(** The bodies are those of the classes of C87, which are written whenever the file is. *)
Theorem C88_same_class : forall T apis s g x fields members ns, struct_decl T apis s = Some [(ns, TClass g x fields members)] ->
  exists l, struct_body T apis s = Some l /\
    fields = flat_map (fun m => match m with MField x t => [(x, t)] | _ => [] end) l /\
    members = flat_map (fun m => match m with MMethod x g => [(x, g)] | MOperator o _ => [(op_text o, op_sig (st_name s))] | _ => [] end) l.
Proof.
  intros T apis s g x fields members ns E. unfold struct_decl in E. apply obind_inv in E as (g' & _ & E). apply obind_inv in E as (fs & Ef & E). apply obind_inv in E as (ms & Em & E).
  injection E as _ _ <- <- <-. unfold struct_body, field_members, method_members. rewrite Ef, Em. cbn [option_map obind]. eexists. split; [reflexivity|].
  assert (K : forall {A B C} (h : A -> C) (f : C -> list B) (k : A -> list B) l, (forall a, f (h a) = k a) -> flat_map f (map h l) = flat_map k l)
    by (intros A B C h f k l Q; induction l as [|a l IH]; [reflexivity|]; cbn [map flat_map]; rewrite Q, IH; reflexivity).
  assert (N : forall {A B} (l : list A), flat_map (fun _ => @nil B) l = []) by (intros A B l; induction l as [|a l IH]; [reflexivity|exact IH]).
  assert (Y : forall {A B} (h : A -> B) l, flat_map (fun a => [h a]) l = map h l) by (intros A B h l; induction l as [|a l IH]; [reflexivity|]; cbn [flat_map map app]; rewrite IH; reflexivity).
  rewrite !flat_map_app. split.
  - erewrite (K _ _ _ (fun f : string * cty => MField (fst f) (snd f))); [|intros a; reflexivity]. erewrite (K _ _ _ (fun m : string * msig => MMethod (fst m) (snd m))); [|intros a; reflexivity].
    erewrite (K _ _ _ (fun o => MOperator o _)); [|intros a; reflexivity]. rewrite !N. cbn [flat_map app]. rewrite app_nil_r, Y. rewrite (map_ext _ (fun a => a)); [rewrite map_id; reflexivity|]. intros (a, b). reflexivity.
  - erewrite (K _ _ _ (fun f : string * cty => MField (fst f) (snd f))); [|intros a; reflexivity]. erewrite (K _ _ _ (fun m : string * msig => MMethod (fst m) (snd m))); [|intros a; reflexivity].
    erewrite (K _ _ _ (fun o => MOperator o _)); [|intros a; reflexivity]. rewrite !N, !Y. cbn [flat_map app]. rewrite app_nil_r. f_equal. rewrite (map_ext _ (fun a => a)); [rewrite map_id; reflexivity|]. intros (a, b). reflexivity.
Qed.
Print Assumptions C88_same_class.

(** * Accepted bridges for which the claim is false *)
Lemma fop_nth {A} (R : A -> A -> Prop) l : ForallOrdPairs R l -> forall i j a b, (i < j)%nat -> nth_error l i = Some a -> nth_error l j = Some b -> R a b.
Proof.
  intros F. induction F as [|x l Fx F IH]; intros i j a b L Ei Ej; [destruct i; discriminate|]. destruct j as [|j]; [lia|]. cbn [nth_error] in Ej. destruct i as [|i].
  - injection Ei as <-. rewrite Forall_forall in Fx. apply Fx. eapply nth_error_In, Ej.
  - eapply IH; [|exact Ei|exact Ej]. lia.
Qed.
Local Definition I_ (a : string) : ty := TIdent (Syntax_Model.Named a []).
Local Definition fn_ (l : lang) (ns : list string) (cxx rust : string) (recv : option string) (args : list (string * ty)) : extern_fn :=
  ExternFn CUnconditional l (Pair ns cxx rust) false false [] (option_map (fun t => Receiver false None false (Syntax_Model.Named t []) false) recv) args None false true.
Local Definition R_ (ns : list string) (a : string) : api := ARustType (ExternType CUnconditional LRust [] (Pair ns a a) [] [] true).
Local Definition s_ (ds : list trait) (p : pair_name) (fs : list (string * string)) : struct_ :=
  Struct_ CUnconditional ds p [] (map (fun f => Var CUnconditional (Pair [] (fst f) (snd f)) (I_ "i32")) fs).
Local Ltac case_ T apis := destruct (accepts_ok GBuild apis eq_refl) as (T & HT); pose proof HT as ((_ & Hc) & _); vm_compute in Hc; injection Hc as Hc; exists T.
Local Ltac hyps HT := split; [exact HT|]; split; [apply wf_bridgeb_ok; reflexivity|]; split; [apply names_agreeb_ok; reflexivity|].
Local Ltac same_member i j := intros (P & _); destruct (fop_nth _ _ P i j _ _ ltac:(lia) eq_refl eq_refl) as [D|D]; [apply D; reflexivity|cbn in D; tauto].

(** Two fields, or a field and a method, with the same C++ name; two methods with the same
    C++ name and parameters; a method called IsRelocatable; a field called like its struct,
    whose operators are declared. *)
Theorem C88_class_refuted : forall k, In k [0; 1; 2; 3; 4]%nat ->
  let structs := [s_ [] (Pair [] "S" "S") [("x", "x"); ("x", "y")]; s_ [] (Pair [] "S" "S") [("x", "x")]; s_ [] (Pair [] "S" "S") [("x", "x")];
                  s_ [] (Pair [] "S" "S") [("x", "x")]; s_ [DPartialEq] (Pair [] "S" "S") [("S", "S")]] in
  let methods := [[]; [fn_ LRust [] "x" "x" (Some "S") []]; [fn_ LRust [] "f" "f" (Some "S") [("a", TStr None)]; fn_ LRust [] "f" "g" (Some "S") [("b", TStr None)]];
                  [fn_ LCxx [] "IsRelocatable" "is_relocatable" (Some "S") []]; []] in
  exists s T l, nth_error structs k = Some s /\
  let apis := AStruct s :: map ARustFunction (nth k methods []) in
  accepted_bridge GBuild id_order apis T /\ wf_bridge apis /\ names_agree apis /\ struct_body T apis s = Some l /\ ~ valid_class "S" l.
Proof.
  intros k K structs methods. cbn in K.
  destruct K as [<-|[<-|[<-|[<-|[<-|[]]]]]]; (eexists; match goal with |- exists T l, nth_error structs ?i = Some _ /\ _ => set (s := nth i structs (s_ [] (Pair [] "" "") [])); set (fs := nth i methods []) end;
    case_ T (AStruct s :: map ARustFunction fs); eexists; split; [reflexivity|]; cbv zeta; hyps HT; rewrite <- Hc; split; [reflexivity|]).
  - same_member 0%nat 1%nat.
  - same_member 0%nat 1%nat.
  - same_member 1%nat 2%nat.
  - same_member 1%nat 2%nat.
  - intros (_ & F). rewrite Forall_forall in F. destruct (F (MOperator OEq "S")) as (_ & N); [right; left; reflexivity|]. eapply N. left. reflexivity.
Qed.
Print Assumptions C88_class_refuted.
(** An opaque Rust type called layout, which is also the name of a member of its class. *)
Theorem C88_layout_refuted : exists apis t T l, In (ARustType t) apis /\ accepted_bridge GBuild id_order apis T /\ wf_bridge apis /\ names_agree apis /\
  opaque_body T apis t = Some l /\ ~ valid_class (p_cxx (et_name t)) l.
Proof.
  exists [R_ [] "layout"]. eexists. case_ T [R_ [] "layout"]. eexists. split; [left; reflexivity|]. hyps HT. rewrite <- Hc. split; [reflexivity|].
  intros (_ & F). inversion F as [|? ? _ F']; subst. inversion F' as [|? ? F1 _]; subst. apply F1. reflexivity.
Qed.
Print Assumptions C88_layout_refuted.
(** Two variants of an enum with the same C++ name. *)
Theorem C88_enumerators_refuted : exists apis e T, In (AEnum e) apis /\ accepted_bridge GBuild id_order apis T /\ wf_bridge apis /\ names_agree apis /\ ~ NoDup (enumerators e).
Proof.
  set (e := Enum_ CUnconditional [] (Pair [] "E" "E") [] [Variant CUnconditional (Pair [] "V" "A") 0; Variant CUnconditional (Pair [] "V" "B") 1] false AU8 true).
  exists [AEnum e], e. case_ T [AEnum e]. split; [left; reflexivity|]. hyps HT. intros N. inversion N as [|? ? N1 _]; subst. apply N1. left. reflexivity.
Qed.
Print Assumptions C88_enumerators_refuted.
(** Two functions that are one in C++; a function called like a type; a type called like a
    namespace. *)
Theorem C88_header_refuted : forall k, In k [0; 1; 2]%nat ->
  exists apis T l, nth_error
    [[ARustFunction (fn_ LRust [] "f" "f" None []); ARustFunction (fn_ LRust [] "f" "g" None [])];
     [R_ ["n"] "T"; ARustFunction (fn_ LRust ["n"] "T" "make_t" None [])];
     [R_ [] "n"; R_ ["n"; "m"] "T"]] k = Some apis /\
  accepted_bridge GBuild id_order apis T /\ wf_bridge apis /\ names_agree apis /\ unit_decls 3 T apis true = Some l /\ ~ one_meaning l.
Proof.
  intros k K. cbn in K. destruct K as [<-|[<-|[<-|[]]]]; (eexists; match goal with |- exists T l, nth_error ?L ?i = Some _ /\ _ => set (apis := nth i L []) end;
    case_ T apis; eexists; split; [reflexivity|]; hyps HT; rewrite <- Hc; split; [reflexivity|]; intros (P & N)).
  - exact (fop_nth _ _ P 0%nat 1%nat _ _ ltac:(lia) eq_refl eq_refl _ _ _ _ eq_refl eq_refl eq_refl eq_refl).
  - exact (fop_nth _ _ P 0%nat 2%nat _ _ ltac:(lia) eq_refl eq_refl _ _ _ _ eq_refl eq_refl eq_refl).
  - refine (N _ _ _ _ _ _ _ (or_introl eq_refl) eq_refl (or_intror (or_introl eq_refl)) eq_refl).
Qed.
Print Assumptions C88_header_refuted.
Corollary C88_claim_refuted : ~ C88_claim.
Proof.
  intros C. destruct (C88_header_refuted 0%nat) as (apis & T & l & En & HT & W & G & E & N); [cbn; auto|]. cbn [nth_error] in En. injection En as <-.
  destruct (C _ _ _ _ HT W G) as (_ & _ & _ & D). apply N. eapply D; [|exact E]. intros a [<-|[<-|[]]]; cbn; lia.
Qed.
Print Assumptions C88_claim_refuted.

(** A bridge with overloaded methods and functions, for which the conditions hold. *)
Example C88_nonvacuous :
  let s := s_ [DPartialEq; DPartialOrd] (Pair ["n"] "S" "S") [("x", "x"); ("layout", "layout")] in
  let t := ExternType CUnconditional LRust [] (Pair ["n"; "m"] "R" "R") [] [] true in
  let apis := [AStruct s; ARustType t;
               ARustFunction (fn_ LRust ["n"] "f" "f" (Some "S") []); ARustFunction (fn_ LRust ["n"] "f" "f2" (Some "S") [("a", TStr None)]);
               ARustFunction (fn_ LRust ["n"; "m"] "layout" "layout" (Some "R") []);
               ARustFunction (fn_ LRust ["n"] "g" "g" None [("a", I_ "S")]); ARustFunction (fn_ LRust ["n"] "g" "g2" None [("a", TStr None)])] in
  exists T l l' h, accepted_bridge GBuild id_order apis T /\ names_agree apis /\ struct_body T apis s = Some l /\ opaque_body T apis t = Some l' /\ unit_decls 4 T apis true = Some h /\
    struct_apart apis s /\ opaque_apart apis t /\ names_apart apis /\ valid_class "S" l /\ valid_class "R" l' /\ one_meaning h /\
    List.length l = 11%nat /\ List.length l' = 3%nat /\ List.length h = 6%nat.
Proof.
  cbv zeta. match goal with |- exists T l l' h, accepted_bridge _ _ ?x T /\ _ => set (apis := x) end.
  case_ T apis. do 3 eexists. split; [exact HT|]. assert (G : names_agree apis) by (apply names_agreeb_ok; reflexivity). split; [exact G|].
  match goal with |- struct_body T apis ?s = Some ?l /\ opaque_body _ _ ?t = Some ?l' /\ unit_decls _ _ _ _ = Some ?h /\ _ =>
    assert (El : struct_body T apis s = Some l) by (rewrite <- Hc; vm_compute; reflexivity);
    assert (El' : opaque_body T apis t = Some l') by (rewrite <- Hc; vm_compute; reflexivity);
    assert (Eh : unit_decls 4 T apis true = Some h) by (rewrite <- Hc; vm_compute; reflexivity) end.
  split; [exact El|]. split; [exact El'|]. split; [exact Eh|].
  match type of El with _ = Some ?l => assert (V : valid_class "S" l) end.
  { split; [repeat (apply FOP_cons; [repeat (apply Forall_cons; [solve [left; discriminate|right; intros (Q & _); discriminate Q]|]); apply Forall_nil|]); apply FOP_nil|].
    repeat (apply Forall_cons; [solve [exact I|discriminate|split; [reflexivity|intros t; cbn; intuition discriminate]]|]). apply Forall_nil. }
  match type of El' with _ = Some ?l => assert (V' : valid_class "R" l) end.
  { split; [repeat (apply FOP_cons; [repeat (apply Forall_cons; [solve [left; discriminate|right; exact I]|]); apply Forall_nil|]); apply FOP_nil|].
    repeat (apply Forall_cons; [solve [exact I|discriminate|reflexivity|split; [discriminate|repeat constructor; cbn; intuition discriminate]]|]). apply Forall_nil. }
  match type of Eh with _ = Some ?l => assert (O : one_meaning l) end.
  { split.
    - repeat (apply FOP_cons; [repeat (apply Forall_cons; [unfold apart; cbn [fst snd means]; intros x m x' m' A B Q; solve [discriminate A|discriminate B|injection A as <- <-; injection B as <- <-; solve [discriminate Q|cbn; auto|cbn; discriminate]]|]); apply Forall_nil|]); apply FOP_nil.
    - intros ns d x m ns' d' rest I1 M I2. cbn [In] in I1, I2. repeat (destruct I1 as [I1|I1]); try contradiction; injection I1 as <- <-; cbn [means] in M; try discriminate M; injection M as <- <-;
        repeat (destruct I2 as [I2|I2]); try contradiction; injection I2 as <- <-; discriminate. }
  split; [exact (proj1 (C88_struct _ _ _ _ _ _ HT El) V)|]. split; [exact (proj1 (C88_opaque _ _ _ _ _ _ HT El') V')|].
  split; [eapply (C88_header _ _ _ _ 4 _ HT G); [|exact Eh|exact O]; intros a Ia; cbn in Ia; repeat (destruct Ia as [<-|Ia]; [cbn; lia|]); contradiction|].
  split; [exact V|]. split; [exact V'|]. split; [exact O|]. vm_compute. auto.
Qed.
