(** C107: generated files can be read together in one translation unit, and linked into one
    program.  Specification: Odr_Spec.v. *)
From Verif Require Import Base StrLib Syntax_Model TypeEq_Model Toposort_Model Toposort_Spec Types_Model Types_Spec Types_Proofs Types_Props
  Check_Model Check_Spec Check_Proofs Check_Props Mangle_Model Mangle_Spec Mangle_Proofs Mangle_Proofs3 Mangle_Props Abi_Model Abi_Spec
  Nested_Model Derive_Model CxxExpr_Model CxxExpr_Spec Expr_Proofs2 Unit_Model Unit_Spec Unit_Proofs Unit_Proofs2 Unit_Proofs4 Unit_Props
  Header_Text Ifndef_Model Builtin_Spec Odr_Spec Odr_Proofs.
From Verif Require Builtin_Model.
From Coq Require Import Lia.

(** The full claim: a translation unit that reads generated files, in any order, defines no
    class or enumeration twice and keeps every declaration of every file; and what may be
    defined in only one translation unit of a program is defined by only one of the
    generated source files. *)
Definition C107_claim : Prop :=
  (forall before ls, incl before support_macros -> (forall l, In l ls -> exists header apis, generated header apis l) ->
     NoDup (types_defined (unit_of before ls)) /\ forall l x, In l ls -> In x l -> In x (unit_of before ls)) /\
  (forall header header' apis apis' l l' x, generated header apis l -> generated header' apis' l' -> In x l -> In x l' -> external_definition (snd x) ->
     header = false /\ header' = false /\ apis = apis').

(** Everything in a header that may stand in a translation unit only once has a guard, and
    nothing in it may stand in only one translation unit of a program. *)
Theorem C107_header_partial : forall apis l x, generated true apis l -> In x l ->
  ~ external_definition (snd x) /\ (single (snd x) -> guard (snd x) <> None).
Proof.
  intros apis l x (gen & ord & T & n & _ & _ & E) I. split.
  - intros D. destruct (header_plain _ _ _ _ _ E I (or_introl D)) as (_ & N). exact (N D).
  - intros S. exact (proj1 (header_plain _ _ _ _ _ E I S)).
Qed.
Print Assumptions C107_header_partial.

Lemma files_spelled ls : (forall l, In l ls -> exists header apis, generated header apis l) -> all_spelled (List.concat ls).
Proof. intros H x g I G. apply in_concat in I as (l & Il & I). destruct (H l Il) as (h & apis & Hg). eapply generated_spelled; eassumption. Qed.

(** No class or enumeration is defined twice, whichever files are read in whichever order,
    and whichever of the supporting code has been read before.  A declaration is dropped
    only where a class or enumeration of the same kind and the same name, in the same
    namespace, is defined in the translation unit.  (Missing from the claim: that the two
    definitions agree; see below.) *)
Theorem C107_unit_partial : forall before ls, incl before support_macros -> (forall l, In l ls -> exists header apis, generated header apis l) ->
  NoDup (types_defined (unit_of before ls)) /\
  (forall x, In x (unit_of before ls) -> exists l, In l ls /\ In x l) /\
  (forall l x, In l ls -> In x l -> In x (unit_of before ls) \/ exists t, type_defined x = Some t /\ In t (types_defined (unit_of before ls))).
Proof.
  intros before ls B H. pose proof (files_spelled ls H) as S. unfold unit_of.
  assert (S' : all_spelled (preprocess before (List.concat ls))) by (intros x g I; apply S; eapply preprocess_incl, I).
  split; [apply types_nodup; [exact S'|apply preprocess_nodup]|]. split.
  - intros x I. apply preprocess_incl in I. apply in_concat in I as (l & Il & I). eauto.
  - intros l x Il I. assert (J : In x (List.concat ls)) by (apply in_concat; eauto). pose proof (preprocess_kept _ before _ J) as K.
    destruct (guard (snd x)) as [g|] eqn:G; [|left; exact K]. right. destruct K as [K|K]; [destruct (spelled_other x g (S x g J G)); apply B, K|].
    unfold guards in K. apply in_flat_map in K as (y & Iy & Jy). destruct (guard (snd y)) as [h|] eqn:Gy; [|destruct Jy]. destruct Jy as [->|[]].
    pose proof (proj1 (spelled_inj x y g g (S x g J G) (S' y g Iy Gy)) eq_refl) as E.
    destruct (type_defined x) as [t|] eqn:Tx; [|apply guard_type in Tx; congruence]. exists t. split; [reflexivity|]. unfold types_defined. apply in_flat_map. exists y. rewrite <- E. split; [exact Iy|left; reflexivity].
Qed.
Print Assumptions C107_unit_partial.

(** Where the definitions of the same class in different files agree, nothing is lost. *)
Theorem C107_agreeing_partial : forall before ls, incl before support_macros -> (forall l, In l ls -> exists header apis, generated header apis l) ->
  (forall l l' x y, In l ls -> In l' ls -> In x l -> In y l' -> type_defined x <> None -> type_defined x = type_defined y -> x = y) ->
  forall l x, In l ls -> In x l -> In x (unit_of before ls).
Proof.
  intros before ls B H A l x Il I. destruct (C107_unit_partial before ls B H) as (_ & F & K). destruct (K l x Il I) as [J|(t & Tx & J)]; [exact J|].
  unfold types_defined in J. apply in_flat_map in J as (y & Iy & Jy). destruct (type_defined y) as [t'|] eqn:Ty; [|destruct Jy]. destruct Jy as [->|[]].
  destruct (F y Iy) as (l' & Il' & Iy'). rewrite (A l l' x y Il Il' I Iy'); [exact Iy|congruence|congruence].
Qed.
Print Assumptions C107_agreeing_partial.

(** The header and the source file of one bridge, read together in any order and any number
    of times, lose nothing. *)
Theorem C107_own_partial : forall gen ord apis T n before ls, accepted_bridge gen ord apis T -> wf_bridge apis -> names_agree apis -> incl before support_macros ->
  (forall l, In l ls -> exists header, unit_decls n T apis header = Some l) -> forall l x, In l ls -> In x l -> In x (unit_of before ls).
Proof.
  intros gen ord apis T n before ls H W Ag B F. apply C107_agreeing_partial; [exact B| |].
  - intros l Il. destruct (F l Il) as (h & E). exists h, apis, gen, ord, T, n. auto.
  - intros l l' x y Il Il' Ix Iy N E. destruct (F l Il) as (h & El), (F l' Il') as (h' & El').
    destruct (guard (snd x)) as [g|] eqn:G; [|apply guard_type in G; congruence]. destruct (guard (snd y)) as [g'|] eqn:G'; [|apply guard_type in G'; congruence].
    destruct (file_guarded _ _ _ _ _ El) as (data & Ed & D), (file_guarded _ _ _ _ _ El') as (data' & Ed' & D'). assert (data' = data) as -> by congruence.
    pose proof (D x g Ix G) as Jx. pose proof (D' y g' Iy G') as Jy.
    assert (g = g') as <- by (apply (spelled_inj x y); [eapply data_spelled; eassumption..|exact E]).
    pose proof (data_guards gen ord apis T H W Ag data Ed) as Nd. clear - Jx Jy G G' Nd. induction data as [|z data IH]; [destruct Jx|].
    unfold guards in *. cbn [flat_map] in Nd. destruct (guard (snd z)) as [k|] eqn:Gz.
    + cbn [app] in Nd. apply NoDup_cons_iff in Nd as (Nk & Nd). destruct Jx as [->|Jx], Jy as [->|Jy]; [reflexivity| | |apply IH; assumption];
        exfalso; apply Nk; apply in_flat_map; [exists y; rewrite G'|exists x; rewrite G]; (split; [assumption|left; congruence]).
    + destruct Jx as [->|Jx]; [congruence|]. destruct Jy as [->|Jy]; [congruence|]. apply IH; assumption.
Qed.
Print Assumptions C107_own_partial.

Local Definition I_ (a : string) : ty := TIdent (Named a []).
Local Definition fn_ (l : lang) (ns : list string) (x : string) (args : list (string * ty)) : extern_fn :=
  ExternFn CUnconditional l (Pair ns x x) false false [] None args None false true.
Local Definition S_ (p : pair_name) (fs : list ty) : api := AStruct (Struct_ CUnconditional [] p [] (map (fun t => Var CUnconditional (Pair [] "f" "f") t) fs)).
Local Definition E_ (p : pair_name) : api := AEnum (Enum_ CUnconditional [] p [] [Variant CUnconditional (Pair [] "V" "V") 0] false AU8 true).
Local Ltac file apis header := let T := fresh "T" in let HT := fresh "HT" in let Hc := fresh "Hc" in let l := fresh "l" in let E := fresh "E" in
  destruct (accepts_ok GBuild apis eq_refl) as (T & HT); pose proof HT as ((_ & Hc) & _); vm_compute in Hc; injection Hc as Hc;
  destruct (unit_decls 3 T apis header) as [l|] eqn:E; [|rewrite <- Hc in E; vm_compute in E; discriminate E];
  assert (generated header apis l) by (exists GBuild, id_order, T, 3%nat; split; [exact HT|split; [apply wf_bridgeb_ok; reflexivity|exact E]]);
  rewrite <- Hc in E; vm_compute in E; injection E as <-.

(** Two bridges with shared structs of the same C++ name and different fields: the source
    file of the second, read after the header of the first, loses the class it writes for its
    struct (of one i32 field) to the class of the header (of one String field). *)
Theorem C107_layout_refuted : exists apis apis' h l x, generated true apis h /\ generated false apis' l /\ In x l /\ ~ In x (unit_of [] [h; l]) /\
  NoDup (types_defined (unit_of [] [h; l])) /\ names_agree apis /\ names_agree apis'.
Proof.
  set (apis := [S_ (Pair ["n"] "S" "S") [I_ "String"]]). set (apis' := [S_ (Pair ["n"] "S" "S") [I_ "i32"]; ACxxFunction (fn_ LCxx [] "f" [("s", I_ "S")])]).
  exists apis, apis'. file apis true. file apis' false. do 3 eexists. split; [eassumption|]. split; [eassumption|]. split; [right; left; reflexivity|].
  split; [vm_compute; intros Q; repeat (destruct Q as [Q|Q]; [discriminate Q|]); destruct Q|].
  split; [|split; apply names_agreeb_ok; reflexivity].
  apply (C107_unit_partial [] [_; _]); [intros m []|]. intros l [<-|[<-|[]]]; eauto.
Qed.
Print Assumptions C107_layout_refuted.

(** Two bridges for the same C++ function: the shim with its link name is defined by both
    source files, which cannot be linked into one program. *)
Theorem C107_symbol_refuted : exists apis apis' l l' x, generated false apis l /\ generated false apis' l' /\ apis <> apis' /\ In x l /\ In x l' /\ external_definition (snd x).
Proof.
  set (apis := [ACxxFunction (fn_ LCxx ["n"] "f" [("s", I_ "i32")])]). set (apis' := [ACxxFunction (fn_ LCxx ["n"] "f" [("s", I_ "i32")]); ACxxFunction (fn_ LCxx ["n"] "g" [])]).
  exists apis, apis'. file apis false. file apis' false. do 3 eexists. split; [eassumption|]. split; [eassumption|]. split; [discriminate|].
  split; [left; reflexivity|]. split; [left; reflexivity|]. exact Logic.I.
Qed.
Print Assumptions C107_symbol_refuted.

Corollary C107_claim_refuted : ~ C107_claim.
Proof.
  intros (_ & H). destruct C107_symbol_refuted as (apis & apis' & l & l' & x & G & G' & N & I & I' & D). destruct (H _ _ _ _ _ _ _ G G' I I' D) as (_ & _ & E). exact (N E).
Qed.
Print Assumptions C107_claim_refuted.

Lemma names_in_provided apis e : cxx_provides apis e \/ rust_provides apis e -> names_in apis (entity_namespace e).
Proof.
  assert (F : forall f e, all_functions apis f -> fn_entity apis f e -> names_in apis (entity_namespace e)) by (intros f x Hf Hx; destruct Hx; cbn; apply ni_fn; exact Hf).
  assert (F' : forall f h e, all_functions apis f -> trampoline_entity apis f h e -> names_in apis (entity_namespace e)) by (intros f h x Hf Hx; destruct Hx; cbn; apply ni_fn; exact Hf).
  intros [He|He]; destruct He; cbn [entity_namespace instance_type fst cxx_name];
    try (eapply ni_instance; eassumption); try (apply ni_struct; assumption); try (apply ni_rust; assumption);
    (eapply F; [|eassumption]; (left; assumption) || (right; assumption)) || (eapply F'; [|eassumption]; left; assumption).
Qed.

(** Bridges whose functions, structs, opaque Rust types and instantiated types are in
    different namespaces have no link name in common: none of those that the Rust and the
    C++ of the one define is defined by those of the other. *)
Theorem C107_link_partial : forall gen ord apis T gen' ord' apis' T', accepted_bridge gen ord apis T -> wf_bridge apis ->
  accepted_bridge gen' ord' apis' T' -> wf_bridge apis' -> separate apis apis' ->
  forall s, In (Some s) (rust_exports T apis ++ cxx_defs T apis) -> ~ In (Some s) (rust_exports T' apis' ++ cxx_defs T' apis').
Proof.
  assert (P : forall gen ord apis T s, accepted_bridge gen ord apis T -> wf_bridge apis -> In (Some s) (rust_exports T apis ++ cxx_defs T apis) ->
    exists e, wf_entity e /\ (cxx_provides apis e \/ rust_provides apis e) /\ s = link_name e).
  { intros gen ord apis T s H W Hs. destruct (C12_symbols_agree _ _ _ _ H W) as (_ & _ & D & X & _).
    apply in_app_or in Hs as [Hs|Hs]; [apply X in Hs|apply D in Hs]; destruct Hs as (e & He & ->); exists e; (split; [|split; [|reflexivity]]); auto.
    - eapply rust_provides_wf; eassumption.
    - eapply cxx_provides_wf; eassumption. }
  intros gen ord apis T gen' ord' apis' T' H W H' W' S s I I'.
  destruct (P _ _ _ _ _ H W I) as (e & We & He & ->), (P _ _ _ _ _ H' W' I') as (e' & We' & He' & E).
  destruct (S _ _ (names_in_provided _ _ He) (names_in_provided _ _ He')) as (N & N1 & N2).
  apply (C11_decodable e e' We We') in E as [->|[E|E]]; [apply N; reflexivity| |]; destruct E as [n|t n|ns n op]; cbn in N, N1, N2; try congruence.
Qed.
Print Assumptions C107_link_partial.

(** … and their generated files define nothing of the same C++ name either: what may be
    defined only once in a program is in a namespace of its own bridge, or a specialisation
    for a type in one. *)
Theorem C107_namespaces_partial : forall header header' apis apis' l l' x y, generated header apis l -> generated header' apis' l' -> separate apis apis' ->
  In x l -> In y l' -> external_definition (snd x) -> external_definition (snd y) ->
  names_in apis (definition_namespace x) /\ names_in apis' (definition_namespace y) /\ definition_namespace x <> definition_namespace y.
Proof.
  intros header header' apis apis' l l' x y (gen & ord & T & n & H & _ & E) (gen' & ord' & T' & n' & H' & _ & E') S I I' D D'.
  pose proof (definition_named _ _ _ _ _ _ _ _ H E I D) as N. pose proof (definition_named _ _ _ _ _ _ _ _ H' E' I' D') as N'.
  split; [exact N|]. split; [exact N'|]. apply (S _ _ N N').
Qed.
Print Assumptions C107_namespaces_partial.

(** Functions of the same name in two namespaces; the second bridge uses the struct of the
    first through an alias and has a method on it. *)
Example C107_link_nonvacuous : exists apis apis' T T', accepted_bridge GBuild id_order apis T /\ wf_bridge apis /\ accepted_bridge GBuild id_order apis' T' /\ wf_bridge apis' /\
  separate apis apis' /\ In (Some "a$cxxbridge1$f"%string) (cxx_defs T apis) /\ In (Some "b$cxxbridge1$f"%string) (cxx_defs T' apis') /\
  In (Some "cxxbridge1$unique_ptr$a$S$get"%string) (cxx_defs T apis) /\ In (Some "cxxbridge1$unique_ptr$b$S$get"%string) (cxx_defs T' apis').
Proof.
  set (apis := [S_ (Pair ["a"] "S" "S") [I_ "i32"]; ACxxFunction (fn_ LCxx ["a"] "f" [("s", I_ "S"); ("p", TUniquePtr (I_ "S"))])]%string).
  set (apis' := [ATypeAlias (TypeAlias CUnconditional [] (Pair ["a"] "S" "S") []); ACxxType (ExternType CUnconditional LCxx [] (Pair ["b"] "S" "D") [] [] true);
    ACxxFunction (fn_ LCxx ["b"] "f" [("p", TUniquePtr (I_ "S")); ("q", TUniquePtr (I_ "D"))])]%string).
  destruct (accepts_ok GBuild apis eq_refl) as (T & HT), (accepts_ok GBuild apis' eq_refl) as (T' & HT'). exists apis, apis', T, T'.
  assert (St : forall l x p, stands_for l x p -> exists a, In a l /\ decl_name a = Some p /\ p_rust p = x)
    by (intros l x p (pre & a & post & -> & Ea & Ex & _); exists a; split; [apply in_or_app; right; left; reflexivity|auto]).
  split; [exact HT|]. split; [apply wf_bridgeb_ok; reflexivity|]. split; [exact HT'|]. split; [apply wf_bridgeb_ok; reflexivity|]. split.
  - assert (A : forall ns, names_in apis ns -> ns = ["a"%string]).
    { intros ns [f [I|I]|s I|t I|g x p _ S]; [..|apply St in S as (a & I & E & _)];
        repeat (destruct I as [I|I]; [subst; try discriminate I; try (injection I as <-); try (injection E as <-); try discriminate E; reflexivity|]); destruct I. }
    assert (B : forall ns, names_in apis' ns -> ns = ["b"%string]).
    { intros ns [f [I|I]|s I|t I|g x p J S];
        [repeat (destruct I as [I|I]; [try discriminate I; injection I as <-; reflexivity|]); destruct I..|].
      apply St in S as (a & I & E & X). destruct I as [<-|[<-|[<-|[]]]]; [|injection E as <-; reflexivity|discriminate E].
      injection E as <-. cbn in X. subst x. destruct J as [(i & [J|[J|[J|[]]]] & _)|(_ & J & _)]; [discriminate J..|]. destruct J. eexists. split; [left; reflexivity|reflexivity]. }
    intros ns ns' N N'. rewrite (A ns N), (B ns' N'). repeat split; discriminate.
  - destruct HT as ((_ & Hc) & _), HT' as ((_ & Hc') & _). vm_compute in Hc, Hc'. injection Hc as <-. injection Hc' as <-. vm_compute. tauto.
Qed.

(** Headers of two bridges with classes and enumerations of like names, one of them shared,
    and a source file: three classes and two enumerations remain. *)
Example C107_nonvacuous : exists h h' l, (exists apis, generated true apis h) /\ (exists apis, generated true apis h') /\ (exists apis, generated false apis l) /\
  incl ["CXXBRIDGE1_RUST_STRING"; "CXX_DEFAULT_VALUE"]%string support_macros /\
  types_defined (unit_of ["CXXBRIDGE1_RUST_STRING"; "CXX_DEFAULT_VALUE"]%string [h; h'; l]) =
    [(Class, ["n"; "S"]); (Enumeration, ["n"; "E"]); (Class, ["n_S"]); (Enumeration, ["E"]); (Class, ["S"])]%string /\
  List.length (types_defined (h ++ h' ++ l)) = 6%nat.
Proof.
  set (a := [S_ (Pair ["n"] "S" "S") [I_ "i32"; I_ "E"]; E_ (Pair ["n"] "E" "E")]).
  set (a' := [S_ (Pair [] "n_S" "T") [I_ "i32"]; E_ (Pair [] "E" "E")]).
  set (a'' := [S_ (Pair [] "S" "S") [I_ "T"]; S_ (Pair [] "n_S" "T") [I_ "i32"]; ACxxFunction (fn_ LCxx [] "f" [("s", I_ "S")])]).
  file a true. file a' true. file a'' false. do 3 eexists. split; [exists a; eassumption|]. split; [exists a'; eassumption|]. split; [exists a''; eassumption|].
  split; [|split; [vm_compute; reflexivity|reflexivity]].
  assert (M : forallb (fun m => existsb (String.eqb m) support_macros) ["CXXBRIDGE1_RUST_STRING"; "CXX_DEFAULT_VALUE"]%string = true) by (vm_compute; reflexivity).
  rewrite forallb_forall in M. intros m Im. specialize (M m Im). apply existsb_exists in M as (k & Ik & Ek). apply String.eqb_eq in Ek. subst k. exact Ik.
Qed.
