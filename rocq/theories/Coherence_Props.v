(** C89: what the macro generates for an accepted bridge defines each name once, implements no
    trait twice for a type, and means the types that it names.  Specification: Coherence_Spec.v. *)
From Verif Require Import Base StrLib Syntax_Model TypeEq_Model Toposort_Model Toposort_Spec Types_Model Types_Spec Types_Proofs Types_Props
  Check_Model Check_Spec Check_Proofs Check_Proofs2 Check_Props Mangle_Model Mangle_Spec Mangle_Proofs Mangle_Props Abi_Model Derive_Model Expand_Model
  Coherence_Model Coherence_Spec Coherence_Proofs Coherence_Proofs2 Coherence_Proofs3.
From Coq Require Import Lia.

(** The full claim. *)
Definition C89_claim : Prop := forall gen ord apis T v, accepted_bridge gen ord apis T -> exists l, expansion T apis = Some l /\ coherent v l.

(** The macro does not run into unreachable!() on an accepted bridge; … *)
Theorem C89_total : forall gen ord apis T, accepted_bridge gen ord apis T -> exists l, expansion T apis = Some l.
Proof. intros gen ord apis T H. eexists. exact (expansion_eq gen ord apis T H). Qed.
Print Assumptions C89_total.
(** … and exactly when its result is coherent, if different names are different types and no
    name looks like one that the macro makes up. *)
Theorem C89_coherent : forall gen ord apis T v l, accepted_bridge gen ord apis T -> separate v apis -> ordinary apis -> expansion T apis = Some l ->
  (coherent v l <-> apart v apis).
Proof. intros gen ord apis T v l H S O E. rewrite (expansion_eq gen ord apis T H) in E. injection E as <-. exact (coherent_iff gen ord apis T v H S O). Qed.
Print Assumptions C89_coherent.

(** * Accepted bridges for which the claim is false *)
Fixpoint twice {A} (eqb : A -> A -> bool) (l : list A) : bool := match l with [] => false | a :: l' => existsb (eqb a) l' || twice eqb l' end.
Lemma twice_ok {A} (eqb : A -> A -> bool) l : (forall x y, eqb x y = true -> x = y) -> twice eqb l = true -> ~ NoDup l.
Proof.
  intros H. induction l as [|a l IH]; [discriminate|]. cbn. rewrite orb_true_iff. intros D N. inversion N as [|? ? Na Nl]; subst. destruct D as [D|D]; [|exact (IH D Nl)].
  apply existsb_exists in D as (b & I & E). rewrite (H _ _ E) in Na. contradiction.
Qed.
Lemma twice_strings l : twice String.eqb l = true -> ~ NoDup l.
Proof. apply twice_ok. intros x y. apply String.eqb_eq. Qed.
Local Definition rtrait_eqb (a b : rtrait) : bool :=
  match a, b with RDerived d, RDerived d' => trait_eqb d d' | RExternType, RExternType | RRustType, RRustType | RDrop, RDrop => true | RTarget k, RTarget k' => impl_kind_eqb k k' | _, _ => false end.
Lemma twice_assoc l : twice (fun a b : string * string => String.eqb (fst a) (fst b) && String.eqb (snd a) (snd b)) l = true -> ~ NoDup l.
Proof. apply twice_ok. intros (a, b) (c, d). cbn. rewrite andb_true_iff, !String.eqb_eq. intros (-> & ->). reflexivity. Qed.
Lemma twice_impls l : twice (fun a b : rtrait * string => rtrait_eqb (fst a) (fst b) && String.eqb (snd a) (snd b)) l = true -> ~ NoDup l.
Proof.
  apply twice_ok. intros (a, b) (c, d). cbn. rewrite andb_true_iff, String.eqb_eq. intros (E & ->). f_equal. destruct a as [d1| | |k1|], c as [d2| | |k2|]; try discriminate E; try reflexivity;
    [destruct d1, d2; try discriminate E; reflexivity|destruct k1, k2; try discriminate E; reflexivity].
Qed.
Local Definition I_ (a : string) : ty := TIdent (Named a []).
Local Definition P_ (a : string) : pair_name := Pair [] a a.
Local Definition fn_ (l : lang) (name : string) (recv : option (bool * string)) (args : list (string * ty)) : extern_fn :=
  ExternFn CUnconditional l (P_ name) false false [] (option_map (fun t => Receiver (fst t) None (fst t) (Named (snd t) []) false) recv) args None false true.
Local Definition R_ (a : string) : api := ARustType (ExternType CUnconditional LRust [] (P_ a) [] [] true).
Local Definition C_ (a : string) (lts : list string) : api := ACxxType (ExternType CUnconditional LCxx [] (P_ a) lts [] true).
Local Definition A_ (a : string) : api := ATypeAlias (TypeAlias CUnconditional [] (P_ a) []).
Local Definition S_ (ds : list trait) (a : string) (fs : list string) : api := AStruct (Struct_ CUnconditional ds (P_ a) [] (map (fun f => Var CUnconditional (P_ f) (I_ "i32")) fs)).
Local Definition E_ (ds : list trait) (a : string) (vs : list (string * Z)) : api :=
  AEnum (Enum_ CUnconditional ds (P_ a) [] (map (fun w => Variant CUnconditional (P_ (fst w)) (snd w)) vs) false AU8 true).
Local Definition U_ (a : string) : api := AImpl (Impl_ CUnconditional [] false (TUniquePtr (I_ a))).
Local Definition cxx_ n r a := ACxxFunction (fn_ LCxx n r a).
Local Definition rust_ n r a := ARustFunction (fn_ LRust n r a).
Local Definition renamed_ rust cxx :=
  ARustFunction (ExternFn CUnconditional LRust (Pair [] cxx rust) false false [] None [] None false true).
Local Definition v0 : env := Env (fun x => x) (fun _ => false).
Local Ltac case_ T apis := destruct (accepts_ok GMacro apis eq_refl) as (T & HT); pose proof HT as ((_ & Hc) & _); vm_compute in Hc; injection Hc as Hc; exists T.
Local Definition c_us : ascii := Ascii.ascii_of_nat 95.
Fixpoint doubleb (x : string) : bool := match x with String c ((String d _) as r) => (Ascii.eqb c c_us && Ascii.eqb d c_us) || doubleb r | _ => false end.
Lemma doubleb_ok x : doubleb x = false -> ~ double x.
Proof.
  induction x as [|c x IH]; intros H (a & b & E); [destruct a; discriminate|]. destruct a as [|d a].
  - cbn in E. injection E as -> ->. cbn in H. discriminate.
  - cbn in E. injection E as -> E. apply IH; [|exists a, b; exact E]. destruct x as [|e x]; [reflexivity|]. cbn [doubleb] in H. apply orb_false_iff in H. apply H.
Qed.
Fixpoint lastb (x : string) : bool := match x with EmptyString => false | String c EmptyString => Ascii.eqb c c_us | String _ r => lastb r end.
Lemma lastb_ok x : lastb x = false -> forall a, x <> (a ++ "_")%string.
Proof.
  induction x as [|c x IH]; intros H a E; [destruct a; discriminate|]. destruct a as [|d a].
  - cbn in E. injection E as -> ->. discriminate.
  - cbn in E. injection E as -> E. destruct x as [|e x]; [destruct a; discriminate|]. exact (IH H a E).
Qed.
Local Definition plainb (x : string) : bool := negb (String.eqb x "") && negb (doubleb x) && negb (prefix "_" x) && negb (lastb x).
Lemma prefix_app p x : prefix p (p ++ x) = true.
Proof. induction p as [|c p IH]; [destruct x; reflexivity|]. cbn. destruct (ascii_dec c c); [exact IH|congruence]. Qed.
Lemma plainb_ok x : plainb x = true -> plain x.
Proof.
  unfold plainb. rewrite !andb_true_iff, !negb_true_iff. intros (((A & B) & C) & D). split; [apply String.eqb_neq, A|]. split; [apply doubleb_ok, B|]. split; [|apply lastb_ok, D].
  intros a ->. rewrite prefix_app in C. discriminate.
Qed.
Local Definition ordinaryb (apis : list api) : bool :=
  forallb (fun a => match a with
    | AStruct _ | AEnum _ | ACxxType _ | ARustType _ | ATypeAlias _ => match dname a with Some (x, _) => plainb x && negb (String.eqb x "forbid") | None => true end
    | ARustFunction f => match fn_receiver f with None => negb (doubleb (p_rust (fn_name f))) && negb (prefix "operator_" (p_rust (fn_name f))) | Some _ => true end
    | _ => true
    end) apis.
Lemma ordinaryb_ok apis : ordinaryb apis = true -> ordinary apis.
Proof.
  unfold ordinaryb. rewrite forallb_forall. intros H. split.
  - intros x D. assert (G : forall a y, In a apis -> dname a = Some (x, y) -> plain x /\ x <> "forbid"%string).
    { intros a y I E. specialize (H a I). destruct a; try discriminate E; rewrite E in H; apply andb_true_iff in H as (H1 & H2); apply negb_true_iff in H2; (split; [apply plainb_ok, H1|apply String.eqb_neq, H2]). }
    destruct D as [(s & I & <-)|[(s & I & <-)|[[(s & I & <-)|[(s & I & <-)|(s & I & <- & _)]]|(s & I & <-)]]]; (eapply G; [exact I|reflexivity]).
  - intros f I R. specialize (H _ I). cbn in H. rewrite R in H. apply andb_true_iff in H as (H1 & H2). apply negb_true_iff in H1. apply negb_true_iff in H2. split; [apply doubleb_ok, H1|].
    intros a E. rewrite E, prefix_app in H2. discriminate.
Qed.
Local Definition tyname (a : api) (x : string) : bool := match dname a with Some (y, _) => String.eqb y x | None => false end.
Local Definition once {A} (eqb : A -> A -> bool) (l : list A) : bool := negb (twice eqb l).
Lemma once_ok {A} (eqb : A -> A -> bool) l : (forall x, eqb x x = true) -> once eqb l = true -> NoDup l.
Proof.
  intros H. unfold once. induction l as [|a l IH]; [constructor|]. cbn. rewrite negb_orb, andb_true_iff, negb_true_iff. intros (E & N). constructor; [|apply IH, N].
  intros I. enough (existsb (eqb a) l = true) by congruence. apply existsb_exists. exists a. auto.
Qed.
Local Definition same_method (f g : extern_fn) : bool :=
  match receiver_type f, receiver_type g with Some x, Some y => String.eqb x y && String.eqb (p_rust (fn_name f)) (p_rust (fn_name g)) | _, _ => false end.
Lemma methods_ok l : once same_method l = true -> distinct_methods l.
Proof.
  unfold distinct_methods, once. induction l as [|f l IH]; [constructor|]. cbn. rewrite negb_orb, andb_true_iff, negb_true_iff. intros (E & N). constructor; [|apply IH, N]. rewrite Forall_forall.
  intros g I R Rt Q. enough (existsb (same_method f) l = true) by congruence. apply existsb_exists. exists g. split; [exact I|]. unfold same_method. rewrite <- Rt, Q. unfold receiver_type. destruct (fn_receiver f); [|congruence].
  cbn. rewrite !String.eqb_refl. reflexivity.
Qed.
Local Definition apartb (v : env) (apis : list api) : bool :=
  once same_method (cxx_fns apis) && once same_method (rust_fns apis) &&
  forallb (fun a => match a with
    | ATypeAlias t => negb (existsb (fun b => match b with AStruct _ | AEnum _ => tyname b (p_rust (ta_name t)) | _ => false end) apis)
    | ACxxFunction f => negb (existsb (fun b => match b with ARustType _ => tyname b (p_rust (fn_name f)) | _ => false end) apis && e_value v (p_rust (fn_name f)))
    | AStruct s => once String.eqb (map (fun f => p_rust (v_name f)) (st_fields s)) && once trait_eqb (st_derives s)
    | AEnum e => once String.eqb (map (fun w => p_rust (vr_name w)) (en_variants e)) && once trait_eqb (en_derives e)
    | ARustType t => once trait_eqb (et_derives t)
    | ACxxType t => once String.eqb (et_lts t)
    | _ => true
    end) apis.
Lemma apartb_ok v apis : apartb v apis = true -> apart v apis.
Proof.
  unfold apartb. rewrite !andb_true_iff, forallb_forall. intros ((M1 & M2) & H). assert (Tr : forall d, trait_eqb d d = true) by (intros d; destruct d; reflexivity).
  constructor.
  - intros x (t & I & <-). specialize (H _ I). cbn in H. apply negb_true_iff in H. split; intros (s & J & E);
      (match type of H with ?b = false => enough (b = true) by congruence end); apply existsb_exists; eexists; (split; [exact J|]); unfold tyname; cbn [dname]; rewrite E; apply String.eqb_refl.
  - intros f I R (t & J & E). specialize (H _ I). cbn in H. apply negb_true_iff, andb_false_iff in H. destruct H as [H|H]; [|exact H]. exfalso.
    match type of H with ?b = false => enough (b = true) by congruence end. apply existsb_exists. eexists. split; [exact J|]. unfold tyname. cbn [dname]. rewrite E. apply String.eqb_refl.
  - split; apply methods_ok; assumption.
  - intros s I. specialize (H _ I). cbn in H. apply andb_true_iff in H. apply (once_ok String.eqb); [apply String.eqb_refl|apply H].
  - intros s I _ _. specialize (H _ I). cbn in H. apply (once_ok String.eqb); [apply String.eqb_refl|apply H].
  - intros s I. specialize (H _ I). cbn in H. apply andb_true_iff in H. apply (once_ok String.eqb); [apply String.eqb_refl|apply H].
  - intros s I. specialize (H _ I). cbn in H. apply andb_true_iff in H. apply (once_ok trait_eqb); [apply Tr|apply H].
  - intros s I. specialize (H _ I). cbn in H. apply andb_true_iff in H. apply (once_ok trait_eqb); [apply Tr|apply H].
  - intros s I. specialize (H _ I). cbn in H. apply (once_ok trait_eqb); [apply Tr|apply H].
Qed.
Local Ltac facts HT Hc := split; [exact HT|]; split; [intros ? ? _ _ E; exact E|]; split; [apply ordinaryb_ok; reflexivity|]; split; [rewrite <- Hc; vm_compute; reflexivity|].
Local Ltac witness := match goal with |- exists T l, nth_error ?L ?i = Some _ /\ _ => let apis := fresh "apis" in set (apis := nth i L []);
  case_ T apis; eexists; split; [reflexivity|] end.

(** A free C++ function called like an opaque Rust type that is a tuple struct: two definitions
    of a value. *)
Theorem C89_values_refuted : exists apis T l v, accepted_bridge GMacro id_order apis T /\ separate v apis /\ ordinary apis /\ expansion T apis = Some l /\ ~ NoDup (names_in (value_name v) SModule l).
Proof.
  exists [R_ "T"; cxx_ "T" None []]. case_ T [R_ "T"; cxx_ "T" None []]. eexists. exists (Env (fun x => x) (fun _ => true)). facts HT Hc. apply twice_strings. reflexivity.
Qed.
Print Assumptions C89_values_refuted.
(** Names that the macro makes up: two methods with the same name but different receivers, on
    Rust and on C++ types; and, with names that are not ordinary, a free function called like a
    method, two methods, and a free function called like an operator. *)
Theorem C89_methods_refuted : forall k, In k [0; 1]%nat ->
  exists apis T l, nth_error [[R_ "T"; rust_ "f" (Some (false, "T")) []; rust_ "f" (Some (true, "T")) []]; [C_ "T" []; cxx_ "f" (Some (false, "T")) []; cxx_ "f" (Some (true, "T")) []]] k = Some apis /\
  accepted_bridge GMacro id_order apis T /\ separate v0 apis /\ ordinary apis /\ expansion T apis = Some l /\
  ~ (NoDup (names_in (value_name v0) SHidden l) /\ NoDup (flat_map (fun i => assoc_item v0 (snd i)) l)).
Proof.
  intros k K. cbn in K. destruct K as [<-|[<-|[]]]; (eexists; witness; facts HT Hc; intros (N1 & N2)).
  - revert N1. apply twice_strings. reflexivity.
  - revert N2. apply twice_assoc. reflexivity.
Qed.
Print Assumptions C89_methods_refuted.
Theorem C89_local_names_refuted : forall k, In k [0; 1; 2]%nat ->
  exists apis T l, nth_error
    [[R_ "T"; rust_ "f" (Some (false, "T")) []; renamed_ "T__f" "tf"];
     [R_ "a_"; R_ "a"; rust_ "b" (Some (false, "a_")) []; rust_ "_b" (Some (false, "a")) []];
     [S_ [DPartialEq] "S" ["x"]; rust_ "operator_eq_S" None []]] k = Some apis /\
  accepted_bridge GMacro id_order apis T /\ separate v0 apis /\ apart v0 apis /\ expansion T apis = Some l /\ ~ NoDup (names_in (value_name v0) SHidden l).
Proof.
  intros k K. cbn in K. destruct K as [<-|[<-|[<-|[]]]]; (eexists; witness; split; [exact HT|]; split; [intros x y _ _ E; exact E|]; split; [apply apartb_ok; reflexivity|split; [rewrite <- Hc; vm_compute; reflexivity|apply twice_strings; reflexivity]]).
Qed.
Print Assumptions C89_local_names_refuted.
(** A struct that is also an alias; two fields, two lifetimes, two variants, two derived traits
    of the same name. *)
Theorem C89_duplicates_refuted : forall k, In k [0; 1; 2; 3; 4; 5; 6]%nat ->
  exists apis T l, nth_error
    [[A_ "S"; S_ [] "S" ["x"]]; [S_ [] "S" ["x"; "x"]]; [C_ "T" ["a"; "a"]]; [E_ [] "E" [("A", 0%Z); ("A", 1%Z)]];
     [S_ [DClone; DClone] "S" ["x"]]; [E_ [DHash; DHash] "E" [("A", 0%Z)]];
     [ARustType (ExternType CUnconditional LRust [DExternType; DExternType] (P_ "T") [] [] true)]] k = Some apis /\
  accepted_bridge GMacro id_order apis T /\ separate v0 apis /\ ordinary apis /\ expansion T apis = Some l /\ ~ coherent v0 l.
Proof.
  intros k K. cbn in K. destruct K as [<-|[<-|[<-|[<-|[<-|[<-|[<-|[]]]]]]]]; (eexists; witness; facts HT Hc; intros [N1 N2 N3 N4 N5 _]).
  - specialize (N1 SModule). revert N1. apply twice_strings. reflexivity.
  - specialize (N3 _ _ _ (or_introl eq_refl)). revert N3. apply twice_strings. reflexivity.
  - specialize (N3 _ _ _ (or_introl eq_refl)). revert N3. apply twice_strings. reflexivity.
  - revert N4. apply twice_assoc. reflexivity.
  - revert N5. apply twice_impls. reflexivity.
  - revert N5. apply twice_impls. reflexivity.
  - revert N5. apply twice_impls. reflexivity.
Qed.
Print Assumptions C89_duplicates_refuted.
(** Two aliases of one type: two implementations of a trait for it, two methods of one name. *)
Theorem C89_separate_refuted : forall k, In k [0; 1]%nat ->
  exists apis T l, nth_error [[A_ "A"; A_ "B"; U_ "A"; U_ "B"]; [A_ "A"; A_ "B"; cxx_ "f" (Some (false, "A")) []; cxx_ "f" (Some (false, "B")) []]] k = Some apis /\
  accepted_bridge GMacro id_order apis T /\ ordinary apis /\ apart (Env (fun _ => "T"%string) (fun _ => false)) apis /\ expansion T apis = Some l /\ ~ coherent (Env (fun _ => "T"%string) (fun _ => false)) l.
Proof.
  intros k K. cbn in K. destruct K as [<-|[<-|[]]]; (eexists; witness; split; [exact HT|]; split; [apply ordinaryb_ok; reflexivity|]; split; [apply apartb_ok; reflexivity|]; split; [rewrite <- Hc; vm_compute; reflexivity|]; intros [_ _ _ N4 N5 _]).
  - revert N5. apply twice_impls. reflexivity.
  - revert N4. apply twice_assoc. reflexivity.
Qed.
Print Assumptions C89_separate_refuted.
(** A struct called forbid: where the shim of its operator== names it, it means the module that
    the macro has put there. *)
Theorem C89_scope_refuted : exists apis T l, accepted_bridge GMacro id_order apis T /\ separate v0 apis /\ apart v0 apis /\ expansion T apis = Some l /\
  In (SHidden, IMention "forbid") l /\ In (SHidden, IMod "forbid") l /\ ~ coherent v0 l.
Proof.
  exists [S_ [DPartialEq] "forbid" ["x"]]. case_ T [S_ [DPartialEq] "forbid" ["x"]]. eexists. split; [exact HT|]. split; [intros x y _ _ E; exact E|]. split; [apply apartb_ok; reflexivity|].
  split; [rewrite <- Hc; vm_compute; reflexivity|]. split; [cbn; tauto|]. split; [cbn; tauto|]. intros [_ _ _ _ _ N]. apply (N RDrop "forbid"%string); [left|]; cbn; tauto.
Qed.
Print Assumptions C89_scope_refuted.
Corollary C89_claim_refuted : ~ C89_claim.
Proof.
  intros C. destruct C89_scope_refuted as (apis & T & l & HT & _ & _ & E & _ & _ & N). destruct (C _ _ _ _ v0 HT) as (l' & E' & H). rewrite E in E'. injection E' as <-. exact (N H).
Qed.
Print Assumptions C89_claim_refuted.

(** A bridge with all kinds of items whose expansion is coherent. *)
Example C89_nonvacuous :
  let apis := [S_ [DPartialEq; DPartialOrd; DHash; DClone] "S" ["x"; "y"]; E_ [DHash] "E" [("A", 0%Z); ("B", 1%Z)]; C_ "S" []; C_ "C" ["a"]; A_ "Q"; R_ "T";
               cxx_ "f" None [("a", I_ "S")]; cxx_ "f" (Some (false, "Q")) []; cxx_ "g" (Some (true, "Q")) []; rust_ "h" (Some (false, "T")) []; rust_ "h" None [("a", TBox (I_ "T")); ("b", TRef false false None (TVec (I_ "T")))];
               rust_ "S" (Some (false, "S")) []; U_ "Q"] in
  let v := Env (fun x => x) (String.eqb "T") in
  exists T l, accepted_bridge GMacro id_order apis T /\ separate v apis /\ ordinary apis /\ apart v apis /\ expansion T apis = Some l /\ coherent v l /\ List.length l = 76%nat.
Proof.
  cbv zeta. match goal with |- exists T l, accepted_bridge _ _ ?x T /\ _ => set (apis := x) end.
  case_ T apis. eexists. split; [exact HT|]. assert (S : separate (Env (fun x => x) (String.eqb "T")) apis) by (intros x y _ _ E; exact E). assert (O : ordinary apis) by (apply ordinaryb_ok; reflexivity).
  assert (A : apart (Env (fun x => x) (String.eqb "T")) apis) by (apply apartb_ok; reflexivity). split; [exact S|]. split; [exact O|]. split; [exact A|].
  match goal with |- expansion T apis = Some ?l /\ _ => assert (El : expansion T apis = Some l) by (rewrite <- Hc; vm_compute; reflexivity) end. split; [exact El|].
  split; [exact (proj2 (C89_coherent _ _ _ _ _ _ HT S O El) A)|]. vm_compute. reflexivity.
Qed.
