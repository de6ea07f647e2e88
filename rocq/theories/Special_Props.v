(** C104: opaque Rust objects are made and destroyed by Rust only.  C105: copying and moving shared
    structs in C++.  C106: making shared structs in C++. *)
From Verif Require Import Base Syntax_Model Types_Model Types_Spec Types_Props Toposort_Spec Toposort_Model Check_Spec Check_Model Check_Proofs Check_Props Unit_Proofs2 Layout_Proofs
  Special_Model Special_Spec Special_Proofs Special_Proofs2.
From Verif Require Layout_Proofs2.
From Coq Require Import Lia.
Local Open Scope nat_scope.

(** * C104 *)
(** C++ code cannot bring an object of the type into being, whatever the initialiser, and
    cannot destroy one. *)
Definition made_nowhere (D : dialect) (c : ctype) : Prop := (forall inner i, can_make D inner i c = false) /\ can_destroy c = false.
Definition C104_claim : Prop := forall gen ord apis T D user n c, accepted_bridge gen ord apis T -> is_rust_type apis (n_rust n) ->
  cxx_type (std D) apis user (TIdent n) c -> made_nowhere D c.

(** Proved for C++11, C++14 and C++20, and for C++17 in compilers that ask for the destructors
    of the elements of an aggregate (Clang). *)
Theorem C104_made_partial : forall gen ord apis T D user n c, accepted_bridge gen ord apis T -> is_rust_type apis (n_rust n) ->
  cxx_type (std D) apis user (TIdent n) c -> careful D -> made_nowhere D c.
Proof.
  intros gen ord apis T D user n c Ha R H C. apply (opaque_cxx_type gen ord apis T Ha (std D) user n c R) in H as ->.
  split; [intros inner i; apply opaque_made, C|reflexivity].
Qed.
Print Assumptions C104_made_partial.

(** The members of rust::Box, rust::Vec and rust::Slice that compile for the type are those
    that leave making and destroying objects to Rust. *)
Theorem C104_library : forall gen ord apis T D user n c o, accepted_bridge gen ord apis T -> is_rust_type apis (n_rust n) ->
  cxx_type (std D) apis user (TIdent n) c -> careful D \/ default_first D false = true ->
  op_compiles D c o = true <-> ~ makes_in_cxx o.
Proof.
  intros gen ord apis T D user n c o Ha R H C. apply (opaque_cxx_type gen ord apis T Ha (std D) user n c R) in H as ->. apply opaque_ops, C.
Qed.
Print Assumptions C104_library.

(** No shared struct has such an object inside. *)
Theorem C104_never_held : forall gen ord apis T st n m, accepted_bridge gen ord apis T -> defined_struct apis (n_rust n) st ->
  held apis (TIdent n) (TIdent m) -> ~ is_rust_type apis (n_rust m).
Proof.
  intros gen ord apis T st n m Ha D H. apply (held_rust gen ord apis T Ha st n m D); [|exact H].
  destruct D as (I & E & _). intros P. apply (C53_builtin_names_partial gen ord apis T (n_rust n) Ha); [left; exists st; auto|right; exact P].
Qed.
Print Assumptions C104_never_held.

(** An assignment between two such objects compiles, but it writes nothing. *)
Theorem C104_assignment : forall gen ord apis T s user n c, accepted_bridge gen ord apis T -> is_rust_type apis (n_rust n) ->
  cxx_type s apis user (TIdent n) c -> can_copy_assign c = true /\ can_move_assign c = true /\ scalars c = 0.
Proof. intros gen ord apis T s user n c Ha R H. apply (opaque_cxx_type gen ord apis T Ha s user n c R) in H as ->. repeat split. Qed.
Print Assumptions C104_assignment.

Local Definition nm (a : string) : pair_name := Pair [] a a.
Local Definition N_ (a : string) : named := Named a [].
Local Definition I_ (a : string) : ty := TIdent (N_ a).
Local Definition R_ (a : string) : api := ARustType (ExternType CUnconditional LRust [] (nm a) [] [] true).
Local Definition St (a : string) (fs : list (string * ty)) : struct_ := Struct_ CUnconditional [] (nm a) [] (map (fun f => Var CUnconditional (nm (fst f)) (snd f)) fs).
Local Definition E_ (a : string) : api := AEnum (Enum_ CUnconditional [] (nm a) [] [Variant CUnconditional (nm "V") 0%Z] false AU8 true).
Local Definition no_user : string -> ctype := fun _ => Scalar.
Local Definition gcc (s : cstd) : dialect := Dialect s negb false.
Local Definition clang (s : cstd) : dialect := Dialect s (fun _ => false) true.

Lemma opaque_example s : cxx_type s [R_ "R"] no_user (I_ "R") opaque_class.
Proof. apply ct_rust; [reflexivity|]. eexists. split; [left; reflexivity|reflexivity]. Qed.
(** GCC in C++17 mode accepts `new R{{}}`: an opaque class is an aggregate there with one
    element, its base class, which is an aggregate as well since its deleted constructors do not count. *)
Theorem C104_braces_refuted : ~ C104_claim.
Proof.
  intros H. destruct (accepts_ok GBuild [R_ "R"] eq_refl) as (T & Ha).
  destruct (H GBuild id_order [R_ "R"] T (gcc Cxx17) no_user (N_ "R") opaque_class Ha) as (M & _).
  - eexists. split; [left; reflexivity|reflexivity].
  - apply opaque_example.
  - discriminate (M false (Braces [Braces []])).
Qed.
Print Assumptions C104_braces_refuted.
(** Elsewhere it is rejected, and so is `new R{}`. *)
Example C104_nonvacuous :
  (exists T, accepted_bridge GBuild id_order [R_ "R"] T) /\ is_rust_type [R_ "R"] "R" /\
  (forall s, cxx_type s [R_ "R"] no_user (I_ "R") opaque_class) /\
  (careful (gcc Cxx14) /\ careful (gcc Cxx20) /\ careful (clang Cxx17) /\ default_first (gcc Cxx17) false = true) /\
  (forall s, s <> Cxx17 -> can_make (gcc s) false (Braces [Braces []]) opaque_class = false) /\
  can_make (clang Cxx17) false (Braces [Braces []]) opaque_class = false /\ can_make (clang Cxx14) false (Braces []) opaque_base = true /\
  op_compiles (gcc Cxx17) opaque_class BoxMove = true /\ op_compiles (gcc Cxx17) opaque_class VecCopy = false /\ op_compiles (gcc Cxx17) Scalar VecCopy = true.
Proof.
  split; [apply accepts_ok; reflexivity|]. split; [eexists; split; [left; reflexivity|reflexivity]|]. split; [apply opaque_example|].
  split; [repeat split; try (left; discriminate); right; reflexivity|].
  split; [intros [] Ns; try reflexivity; congruence|]. repeat split.
Qed.
Example C104_never_held_nonvacuous :
  let st := St "S" [("a", TArray (I_ "Q") 2); ("b", TBox (I_ "R"))] in let q := St "Q" [("k", I_ "u8")] in
  let apis := [R_ "R"; AStruct q; AStruct st] in
  (exists T, accepted_bridge GBuild id_order apis T) /\ defined_struct apis "S" st /\ held apis (I_ "S") (I_ "Q").
Proof.
  cbv zeta. match goal with |- (exists T, accepted_bridge _ _ ?x T) /\ _ => set (apis := x) end. split; [apply accepts_ok; reflexivity|].
  assert (D : defined_struct apis "S" (St "S" [("a", TArray (I_ "Q") 2); ("b", TBox (I_ "R"))])).
  { split; [right; right; left; reflexivity|]. split; [reflexivity|]. intros [(t & I & _)|[(t & I & _)|(e & I & _)]]; repeat destruct I as [I|I]; try discriminate I; destruct I. }
  split; [exact D|]. eapply hd_field; [|exact D|left; reflexivity|constructor; constructor]. apply not_prim. reflexivity.
Qed.

(** * C105 *)
(** Every struct that the bridge defines has a class in C++ (unless structs contain one another
    in a circle), only one, which can be moved and destroyed. *)
Theorem C105_moves : forall gen ord apis T s user n st, accepted_bridge gen ord apis T -> ~ has_cycle contains (structs_of apis) ->
  defined_struct apis (n_rust n) st -> movable apis user ->
  exists c, cxx_type s apis user (TIdent n) c /\ (forall c', cxx_type s apis user (TIdent n) c' -> c' = c) /\ can_move c = true /\ can_destroy c = true.
Proof.
  intros gen ord apis T s user n st Ha Hc D M.
  assert (Np : ~ is_primitive (n_rust n)).
  { destruct D as (I & E & _). intros P. apply (C53_builtin_names_partial gen ord apis T (n_rust n) Ha); [left; exists st; auto|right; exact P]. }
  destruct (fields_exist apis s user (st_fields st)) as (cs & Cs).
  { intros f F. apply (cty_exists gen ord apis T s user Ha _ Hc), (field_used gen ord apis T Ha st f (proj1 D) F). }
  assert (C : cxx_type s apis user (TIdent n) (Class plain [] cs (map (fun f => default_value s (v_ty f)) (st_fields st)))).
  { destruct D as (I & E & X). eapply ct_struct; [apply not_prim, Np|exact I|exact E|exact X|exact Cs]. }
  eexists. split; [exact C|]. split; [intros c' H; exact (cty_unique gen ord apis T s user Ha _ _ C _ H)|].
  assert (R : forall m, held apis (TIdent n) (TIdent m) -> ~ is_rust_type apis (n_rust m)) by (intros m; exact (held_rust gen ord apis T Ha st n m D Np)).
  split; [exact (move_held s apis user _ _ C M R)|]. apply (destroy_held s apis user _ _ C); [intros x X; apply M, X|exact R].
Qed.
Print Assumptions C105_moves.

(** A copy compiles exactly if no part of the value has a single owner: no Box, unique_ptr, opaque
    Rust object (as the element of a Vec) or object of a user's class that cannot be copied. *)
Theorem C105_copies : forall gen ord apis T s user t, accepted_bridge gen ord apis T -> movable apis user ->
  copy_compiles s apis user t <-> forall u, part apis t u -> ~ alone apis user u.
Proof.
  intros gen ord apis T s user t Ha M. apply copy_iff; [intros x X; apply M, X|]. intros n R. apply (rust_only gen ord apis T Ha n R).
Qed.
Print Assumptions C105_copies.

(** std::is_copy_constructible looks at what is held inline only. *)
Theorem C105_copy_trait : forall gen ord apis T s user t c, accepted_bridge gen ord apis T -> movable apis user -> cxx_type s apis user t c ->
  can_copy c = true <-> forall u, held apis t u -> ~ alone apis user u.
Proof.
  intros gen ord apis T s user t c Ha M C. split; [intros X u; exact (copy_trait gen ord apis T s user Ha t c u C X)|].
  apply (copy_held s apis user t c C). intros x X. apply M, X.
Qed.
Print Assumptions C105_copy_trait.

(** Assignment of one struct to another: no reference, mutable slice, Box or unique_ptr is held. *)
Theorem C105_assigns : forall gen ord apis T s user t c, accepted_bridge gen ord apis T -> cxx_type s apis user t c ->
  can_copy_assign c = true <-> forall u, held apis t u -> ~ fixed apis user u.
Proof.
  intros gen ord apis T s user t c Ha C. split; [intros X u; exact (assign_trait gen ord apis T s user Ha t c u C X)|].
  apply (assign_held s apis user t c C).
Qed.
Print Assumptions C105_assigns.

(** In a Box or a Vec every struct can be put by moving it; by copying it (also from a list in
    braces, whose elements are constant) exactly if nothing held in it has a single owner. *)
Theorem C105_containers : forall gen ord apis T D user n st c o, accepted_bridge gen ord apis T -> ~ has_cycle contains (structs_of apis) ->
  defined_struct apis (n_rust n) st -> movable apis user -> cxx_type (std D) apis user (TIdent n) c ->
  (moves_one o -> op_compiles D c o = true) /\
  (copies_one o -> (op_compiles D c o = true <-> forall u, held apis (TIdent n) u -> ~ alone apis user u)).
Proof.
  intros gen ord apis T D user n st c o Ha Hc Dn M C. destruct (C105_moves gen ord apis T (std D) user n st Ha Hc Dn M) as (c' & C' & U & Mv & Ds).
  rewrite <- (U c C) in Mv, Ds. split.
  - intros O. destruct O; unfold op_compiles; cbn [needs forallb can_make can_take]; rewrite Mv; reflexivity.
  - intros O. rewrite <- (C105_copy_trait gen ord apis T (std D) user (TIdent n) c Ha M C).
    assert (L : forall k, forallb (fun n0 => match n0 with Makes i => can_make D false i c | Destroys => can_destroy c end) (repeat Destroys k) = true).
    { intros k. induction k as [|k IH]; [reflexivity|]. cbn [repeat forallb]. rewrite IH, Ds. reflexivity. }
    destruct O; unfold op_compiles; cbn [needs forallb can_make can_take]; rewrite ?L, ?Bool.andb_true_r; reflexivity.
Qed.
Print Assumptions C105_containers.

(** A copy that compiles works for every value, is equal to the original, and frees nothing that
    the original frees, and nothing twice. *)
Theorem C105_copy_values : forall gen ord apis T s user t v next, accepted_bridge gen ord apis T -> movable apis user ->
  copy_compiles s apis user t -> has_val apis t v -> (forall a, In a (frees v) -> a < next) ->
  exists v' next', copy_val next v = Some (v', next') /\ same v v' /\ NoDup (frees v') /\ (forall a, In a (frees v') -> ~ In a (frees v) /\ a < next').
Proof.
  intros gen ord apis T s user t v next Ha M C H F. destruct (copy_good apis user v t H) with (next := next) as (v' & n & E & L & S_ & B & N).
  { apply (C105_copies gen ord apis T s user t Ha M), C. }
  exists v', n. split; [exact E|]. split; [exact S_|]. split; [exact N|]. intros a I. specialize (B a I). split; [intros J; specialize (F a J); lia|lia].
Qed.
Print Assumptions C105_copy_values.

(** What the trait says is not what compiles: a struct with a Vec of opaque Rust objects. *)
Definition C105_trait_claim : Prop := forall gen ord apis T s user t c, accepted_bridge gen ord apis T -> movable apis user -> cxx_type s apis user t c ->
  can_copy c = true -> copy_compiles s apis user t.
Lemma not_cxx_example apis x : forallb (fun a => match a with ACxxType _ | ATypeAlias _ => false | AEnum e => negb (en_from_header e) | _ => true end) apis = true -> ~ is_cxx_type apis x.
Proof.
  intros H. rewrite forallb_forall in H. intros [(t & I & _)|[(t & I & _)|(e & I & E)]]; specialize (H _ I); try discriminate H. cbn in H.
  destruct (en_from_header e); [discriminate H|]. intuition discriminate.
Qed.
Theorem C105_trait_refuted : ~ C105_trait_claim.
Proof.
  intros H. pose (st := St "S" [("v", TVec (I_ "R"))]). pose (apis := [R_ "R"; AStruct st]).
  destruct (accepts_ok GBuild apis eq_refl) as (T & Ha). assert (Nx : forall x, ~ is_cxx_type apis x) by (intros x; apply not_cxx_example; reflexivity).
  assert (C : cxx_type Cxx17 apis no_user (I_ "S") (Class plain [] [vec_class] [false])).
  { apply (ct_struct Cxx17 apis no_user (N_ "S") st [vec_class]); [reflexivity|right; left; reflexivity|reflexivity|apply Nx|]. constructor; constructor. }
  assert (X : copy_compiles Cxx17 apis no_user (I_ "S")) by (apply (H _ _ _ _ _ _ _ _ Ha) with (2 := C); [intros x U; destruct (Nx x U)|reflexivity]).
  assert (R : cxx_type Cxx17 apis no_user (I_ "R") opaque_class) by (apply ct_rust; [reflexivity|eexists; split; [left; reflexivity|reflexivity]]).
  assert (P : copies_all apis (I_ "S") (I_ "R")).
  { eapply ca_step; [apply (cp_field apis (N_ "S") st); [reflexivity|right; left; reflexivity|reflexivity|apply Nx|left; reflexivity]|]. eapply ca_step; [apply cp_vec|constructor]. }
  discriminate (X _ _ P R).
Qed.
Print Assumptions C105_trait_refuted.

(** A recursive struct with a String that can be copied; and a struct with a Box. *)
Example C105_nonvacuous :
  let a := St "A" [("n", I_ "String"); ("kids", TVec (I_ "A")); ("p", TSharedPtr (I_ "B")); ("r", TRef false false None (I_ "A"))] in
  let b := St "B" [("b", TBox (I_ "R"))] in
  let apis := [R_ "R"; AStruct b; AStruct (Struct_ CUnconditional [] (nm "A") ["a"] (st_fields a))] in
  let a := Struct_ CUnconditional [] (nm "A") ["a"] (st_fields a) in
  movable apis no_user /\ defined_struct apis "A" a /\ defined_struct apis "B" b /\
  copy_compiles Cxx17 apis no_user (I_ "A") /\ ~ copy_compiles Cxx17 apis no_user (I_ "B") /\
  has_val apis (I_ "A") (Parts [Text 1 [65; 66]; Seq 2 [Parts [Text 3 []; Seq 4 []; Refers 9; Refers 8]]; Refers 9; Refers 8]) /\
  copy_val 10 (Parts [Text 1 [65; 66]; Seq 2 [Parts [Text 3 []; Seq 4 []; Refers 9; Refers 8]]; Refers 9; Refers 8]) =
    Some (Parts [Text 10 [65; 66]; Seq 11 [Parts [Text 12 []; Seq 13 []; Refers 9; Refers 8]]; Refers 9; Refers 8], 14).
Proof.
  cbv zeta. match goal with |- movable ?x _ /\ _ => set (apis := x) end. assert (Nx : forall x, ~ is_cxx_type apis x) by (intros x; apply not_cxx_example; reflexivity).
  match goal with |- _ /\ defined_struct _ _ ?x /\ _ => set (a := x) end.
  assert (Da : defined_struct apis "A" a) by (split; [right; right; left; reflexivity|split; [reflexivity|apply Nx]]).
  assert (Db : defined_struct apis "B" (St "B" [("b", TBox (I_ "R"))])) by (split; [right; left; reflexivity|split; [reflexivity|apply Nx]]).
  assert (Sa : forall st, In (AStruct st) apis -> p_rust (st_name st) = "A"%string -> st = a).
  { intros st [E|[E|[E|[]]]] X; try discriminate E; injection E as <-; [discriminate X|reflexivity]. }
  split; [intros x U; destruct (Nx x U)|]. split; [exact Da|]. split; [exact Db|]. split.
  { assert (P : forall t u, copies_all apis t u -> t = I_ "A" \/ t = I_ "String" \/ t = TVec (I_ "A") \/ t = TSharedPtr (I_ "B") \/ t = TRef false false None (I_ "A") ->
        u = I_ "A" \/ u = I_ "String" \/ u = TVec (I_ "A") \/ u = TSharedPtr (I_ "B") \/ u = TRef false false None (I_ "A")).
    { induction 1 as [t|t u v X _ IH]; [auto|]. intros [->|[->|[->|[-> | ->]]]]; apply IH; inversion X as [n st f A I E N F| |]; subst; auto.
      - rewrite (Sa st I E) in F. cbn in F. repeat destruct F as [<-|F]; cbn; auto. destruct F.
      - discriminate A. }
    intros u c X C. apply P in X; [|auto]. destruct X as [->|[->|[->|[-> | ->]]]]; [|inversion C; subst; try reflexivity; discriminate ..].
    destruct (accepts_ok GBuild apis eq_refl) as (T & Ha). destruct (struct_cty GBuild id_order apis T Cxx17 no_user Ha (N_ "A") c a) as (cs & Cs & ->); [apply not_prim; reflexivity|exact Da|exact C|].
    cbn in Cs. repeat match goal with X : cxx_types _ _ _ _ _ |- _ => inversion X; clear X; subst end.
    repeat match goal with X : cxx_type _ _ _ _ _ |- _ => inversion X; clear X; subst end; try reflexivity; discriminate. }
  split.
  { intros X. assert (P : copies_all apis (I_ "B") (TBox (I_ "R"))).
    { eapply ca_step; [|constructor]. apply (cp_field apis (N_ "B") (St "B" [("b", TBox (I_ "R"))]) (Var CUnconditional (nm "b") (TBox (I_ "R")))); try reflexivity; [right; left; reflexivity|apply Nx|left; reflexivity]. }
    discriminate (X _ _ P (ct_box _ _ _ _)). }
  split; [|reflexivity].
  assert (V : forall s1 b1 b2 ks, Forall (has_val apis (I_ "A")) ks -> has_val apis (I_ "A") (Parts [Text b1 s1; Seq b2 ks; Refers 9; Refers 8])).
  { intros s1 b1 b2 ks K. apply (hv_struct apis (N_ "A") a); [apply not_prim; reflexivity|exact Da|]. cbn.
    constructor; [apply hv_string; reflexivity|]. constructor; [apply hv_vec, K|]. constructor; [eapply hv_refers; right; left; reflexivity|].
    constructor; [eapply (hv_refers apis _ (I_ "A")); left; exists false, false, None; left; reflexivity|constructor]. }
  apply V. constructor; [apply V; constructor|constructor].
Qed.

(** * C106 *)
(** In every standard, a struct can be made from initialisers for its fields, in order, in braces;
    more initialisers than fields are an error. *)
Theorem C106_braces : forall gen ord apis T D user n st c, accepted_bridge gen ord apis T -> defined_struct apis (n_rust n) st -> movable apis user ->
  cxx_type (std D) apis user (TIdent n) c ->
  exists cs, cxx_types (std D) apis user (map v_ty (st_fields st)) cs /\ forall inner l,
    (Forall2 (fun i e => can_make D true i e = true) l cs -> can_make D inner (Braces l) c = true) /\
    (List.length (st_fields st) < List.length l -> can_make D inner (Braces l) c = false).
Proof.
  intros gen ord apis T D user n st c Ha Ds M C.
  assert (Np : ~ is_primitive (n_rust n)).
  { destruct Ds as (I & E & _). intros P. apply (C53_builtin_names_partial gen ord apis T (n_rust n) Ha); [left; exists st; auto|right; exact P]. }
  destruct (struct_cty gen ord apis T (std D) user Ha n c st Np Ds C) as (cs & Cs & ->). exists cs. split; [exact Cs|]. intros inner l.
  assert (Ln : forall ts cs, cxx_types (std D) apis user ts cs -> List.length cs = List.length ts) by (induction 1; cbn; congruence).
  specialize (Ln _ _ Cs). rewrite map_length in Ln.
  assert (Ne : st_fields st <> []) by exact (Layout_Proofs2.fields_some gen ord apis T Ha st (proj1 Ds)).
  split.
  - intros F. destruct l as [|i l]; [inversion F; subst; cbn in Ln; destruct (st_fields st); [congruence|discriminate]|].
    rewrite make_braces, struct_aggregate. cbn [app map]. rewrite (make_list_full D _ _ F). unfold elements_ok. cbn.
    assert (X : forallb can_destroy cs = true); [|rewrite X; apply orb_true_r].
    apply (types_all (std D) apis user can_destroy _ _ Cs). intros t c It Ht. apply (destroy_held (std D) apis user t c Ht); [intros x X; apply M, X|].
    intros m Hm. apply (held_rust gen ord apis T Ha st n m Ds Np). apply in_map_iff in It as (f & <- & If). eapply hd_field; eauto.
  - intros L. destruct l as [|i l]; [cbn in L; lia|]. rewrite make_braces, struct_aggregate. cbn [app map]. rewrite make_list_long; [reflexivity|lia].
Qed.
Print Assumptions C106_braces.

(** Fields at the end may be left out.  That compiles if each of them could also be made
    without initialiser, and only if the others have initialisers that suit them and none
    left out holds a box or a reference. *)
Theorem C106_fewer : forall gen ord apis T D user n st c, accepted_bridge gen ord apis T -> defined_struct apis (n_rust n) st -> movable apis user ->
  cxx_type (std D) apis user (TIdent n) c ->
  exists cs, cxx_types (std D) apis user (map v_ty (st_fields st)) cs /\ forall inner l, l <> [] ->
    let k := List.length l in
    (k <= List.length (st_fields st) -> Forall2 (fun i e => can_make D true i e = true) l (firstn k cs) ->
     (forall f u, In f (skipn k (st_fields st)) -> held apis (v_ty f) u -> ~ needs_value apis user u) -> can_make D inner (Braces l) c = true) /\
    (can_make D inner (Braces l) c = true ->
     k <= List.length (st_fields st) /\ Forall2 (fun i e => can_make D true i e = true) l (firstn k cs) /\
     forall f u, In f (skipn k (st_fields st)) -> held apis (v_ty f) u -> ~ never_empty u).
Proof.
  intros gen ord apis T D user n st c Ha Ds M C.
  assert (Np : ~ is_primitive (n_rust n)).
  { destruct Ds as (I & E & _). intros P. apply (C53_builtin_names_partial gen ord apis T (n_rust n) Ha); [left; exists st; auto|right; exact P]. }
  destruct (struct_cty gen ord apis T (std D) user Ha n c st Np Ds C) as (cs & Cs & ->). exists cs. split; [exact Cs|]. intros inner l Nl k.
  assert (Ln : forall ts cs, cxx_types (std D) apis user ts cs -> List.length cs = List.length ts) by (induction 1; cbn; congruence).
  specialize (Ln _ _ Cs). rewrite map_length in Ln.
  assert (El : elements_ok D [] cs = true).
  { unfold elements_ok. cbn [forallb andb]. assert (X : forallb can_destroy cs = true); [|rewrite X; apply orb_true_r].
    apply (types_all (std D) apis user can_destroy _ _ Cs). intros t c It Ht. apply (destroy_held (std D) apis user t c Ht); [intros x X; apply M, X|].
    intros m Hm. apply (held_rust gen ord apis T Ha st n m Ds Np). apply in_map_iff in It as (f & <- & If). eapply hd_field; eauto. }
  assert (E : can_make D inner (Braces l) (Class plain [] cs (map (fun f => default_value (std D) (v_ty f)) (st_fields st))) =
    make_list D l cs (map (fun f => default_value (std D) (v_ty f)) (st_fields st))).
  { destruct l as [|i l]; [congruence|]. rewrite make_braces, struct_aggregate. cbn [app map]. rewrite El. apply andb_true_r. }
  rewrite E, make_list_split. fold k. rewrite Ln.
  assert (Sk : forall (A B : Type) (g : A -> B) j l, skipn j (map g l) = map g (skipn j l)) by (intros A B g j; induction j as [|j IH]; intros [|x l']; cbn; auto).
  pose proof (types_skip (std D) apis user k _ _ Cs) as Cr. rewrite Sk in *. rewrite rest_nth. set (fs := skipn k (st_fields st)) in *. split.
  - intros L F R. split; [exact L|]. split; [exact F|]. intros j e Ej. right. apply default_empty.
    assert (X : exists f, nth_error fs j = Some f /\ cxx_type (std D) apis user (v_ty f) e).
    { clear - Cr Ej. clearbody fs. remember (map v_ty fs) as ts eqn:Et. revert fs Et j Ej. induction Cr as [|t c ts cs0 H _ IH]; intros fs Et j Ej; [destruct j; discriminate Ej|].
      destruct fs as [|f fs]; [discriminate Et|]. injection Et as -> ->. destruct j as [|j]; [injection Ej as <-; exists f; auto|]. exact (IH fs eq_refl j Ej). }
    destruct X as (f & Ef & Hf). apply (default_held (std D) apis user (v_ty f) e Hf); [intros x X; apply M, X|]. intros u. apply R. exact (nth_error_In _ _ Ef).
  - intros (L & F & R). split; [exact L|]. split; [exact F|]. intros f u If Hu. apply In_nth_error in If as (j & Ej).
    destruct (types_nth (std D) apis user _ _ Cr j (v_ty f)) as (e & Ee & He); [apply map_nth_error, Ej|].
    destruct (R j e Ee) as [X|X]; [|exact (empty_trait gen ord apis T D user Ha _ _ u true He X Hu)].
    rewrite (nth_error_nth _ j _ (map_nth_error (fun f => default_value (std D) (v_ty f)) j fs Ej)) in X.
    apply (empty_trait gen ord apis T D user Ha (v_ty f) e u true He); [|exact Hu].
    unfold default_value in X. destruct He; try reflexivity; exfalso; unfold primitive_kind in X; try rewrite H in X; destruct (std D); discriminate X.
Qed.
Print Assumptions C106_fewer.

(** One initialiser for two fields: enough if the second is a String, not if it is a Box. *)
Example C106_fewer_nonvacuous :
  let st := St "S" [("f", I_ "i32"); ("g", I_ "String")] in let st' := St "S2" [("f", I_ "i32"); ("g", TBox (I_ "S"))] in let apis := [AStruct st; AStruct st'] in
  let c := Class plain [] [Scalar; string_class] [true; false] in let c' := Class plain [] [Scalar; box_class] [true; false] in
  (exists T, accepted_bridge GBuild id_order apis T) /\ defined_struct apis "S" st /\ defined_struct apis "S2" st' /\ movable apis no_user /\
  cxx_type Cxx17 apis no_user (I_ "S") c /\ cxx_type Cxx17 apis no_user (I_ "S2") c' /\
  can_make (gcc Cxx17) false (Braces [Self true]) c = true /\ can_make (gcc Cxx17) false (Braces [Self true]) c' = false.
Proof.
  cbv zeta. match goal with |- (exists T, accepted_bridge _ _ ?x T) /\ _ => set (apis := x) end.
  assert (Nx : forall x, ~ is_cxx_type apis x) by (intros x; apply not_cxx_example; reflexivity).
  assert (En : cxx_type Cxx17 apis no_user (I_ "i32") Scalar) by (apply (ct_prim Cxx17 apis no_user (N_ "i32") AI32); [reflexivity|discriminate|discriminate]).
  split; [apply accepts_ok; reflexivity|]. split; [split; [left; reflexivity|split; [reflexivity|apply Nx]]|]. split; [split; [right; left; reflexivity|split; [reflexivity|apply Nx]]|].
  split; [intros x U; destruct (Nx x U)|]. split; [|split; [|split; reflexivity]].
  - apply (ct_struct Cxx17 apis no_user (N_ "S") (St "S" [("f", I_ "i32"); ("g", I_ "String")]) [Scalar; string_class]); [reflexivity|left; reflexivity|reflexivity|apply Nx|].
    constructor; [exact En|]. constructor; [apply (ct_string Cxx17 apis no_user (N_ "String")); reflexivity|constructor].
  - apply (ct_struct Cxx17 apis no_user (N_ "S2") (St "S2" [("f", I_ "i32"); ("g", TBox (I_ "S"))]) [Scalar; box_class]); [reflexivity|right; left; reflexivity|reflexivity|apply Nx|].
    constructor; [exact En|]. constructor; [apply ct_box|constructor].
Qed.

(** `S s;` compiles exactly if nothing that is held needs an initialiser: no Box, no reference, no
    object of a user's class without default constructor. *)
Theorem C106_default_compiles : forall gen ord apis T D user t c, accepted_bridge gen ord apis T -> movable apis user -> cxx_type (std D) apis user t c ->
  can_make D false Nothing c = true <-> forall u, held apis t u -> ~ needs_value apis user u.
Proof.
  intros gen ord apis T D user t c Ha M C. split; [intros X u; exact (default_trait gen ord apis T (std D) user Ha t c u C X)|].
  apply (default_held (std D) apis user t c C). intros x X. apply M, X.
Qed.
Print Assumptions C106_default_compiles.

(** After `S s;` no field is left undefined. *)
Definition C106_claim : Prop := forall gen ord apis T s user n st c p u, accepted_bridge gen ord apis T -> defined_struct apis (n_rust n) st ->
  cxx_type s apis user (TIdent n) c -> can_default c = true -> field_at apis (TIdent n) p u -> p <> [] ->
  made_at (after_default c) p = Some Ready \/ exists l, made_at (after_default c) p = Some (ByParts l).
(** Proved since C++14 and for fields of all types but enums, arrays and types of the user's headers; also
    for the fields of the structs inside. *)
Theorem C106_default_partial : forall gen ord apis T s user n st c p u, accepted_bridge gen ord apis T -> defined_struct apis (n_rust n) st ->
  cxx_type s apis user (TIdent n) c -> can_default c = true -> field_at apis (TIdent n) p u -> p <> [] ->
  s <> Cxx11 -> ~ without_default apis u -> made_at (after_default c) p = Some Ready.
Proof.
  intros gen ord apis T s user n st c p u Ha D C Dc F Np Ns W. exact (default_ready gen ord apis T s user Ha Ns _ p u F Np c C Dc W).
Qed.
Print Assumptions C106_default_partial.

Lemma struct_example s st t : St "S" [("f", t)] = st -> forall apis, In (AStruct st) apis -> (forall x, ~ is_cxx_type apis x) -> forall c, cxx_type s apis no_user t c ->
  defined_struct apis "S" st /\ cxx_type s apis no_user (I_ "S") (Class plain [] [c] [default_value s t]) /\ field_at apis (I_ "S") [0] t.
Proof.
  intros <- apis I Nx c C. assert (D : defined_struct apis "S" (St "S" [("f", t)])) by (split; [exact I|split; [reflexivity|apply Nx]]).
  split; [exact D|]. split.
  - apply (ct_struct s apis no_user (N_ "S") (St "S" [("f", t)]) [c]); [reflexivity|exact I|reflexivity|apply Nx|]. constructor; [exact C|constructor].
  - eapply (fa_field apis (N_ "S") _ 0 (Var CUnconditional (nm "f") t) []); [apply not_prim; reflexivity|exact D|reflexivity|constructor].
Qed.
(** An enum has no initialiser: `struct S { f: E }`. *)
Theorem C106_enum_refuted : ~ C106_claim.
Proof.
  intros H. pose (st := St "S" [("f", I_ "E")]). pose (apis := [E_ "E"; AStruct st]). destruct (accepts_ok GBuild apis eq_refl) as (T & Ha).
  assert (Nx : forall x, ~ is_cxx_type apis x) by (intros x; apply not_cxx_example; reflexivity).
  assert (En : cxx_type Cxx17 apis no_user (I_ "E") Scalar) by (apply ct_enum; [reflexivity|eexists; split; [left; reflexivity|reflexivity]|apply Nx]).
  destruct (struct_example Cxx17 st (I_ "E") eq_refl apis (or_intror (or_introl eq_refl)) Nx _ En) as (D & C & F).
  destruct (H GBuild id_order apis T Cxx17 no_user (N_ "S") st _ [0] (I_ "E") Ha D C eq_refl F ltac:(discriminate)) as [X|(l & X)]; discriminate X.
Qed.
Print Assumptions C106_enum_refuted.
(** Before C++14 numbers have none either: `struct S { f: i32 }`. *)
Theorem C106_cxx11_refuted : ~ (forall gen ord apis T s user n st c p u, accepted_bridge gen ord apis T -> defined_struct apis (n_rust n) st ->
  cxx_type s apis user (TIdent n) c -> can_default c = true -> field_at apis (TIdent n) p u -> p <> [] ->
  ~ without_default apis u -> made_at (after_default c) p = Some Ready).
Proof.
  intros H. pose (st := St "S" [("f", I_ "i32")]). pose (apis := [AStruct st]). destruct (accepts_ok GBuild apis eq_refl) as (T & Ha).
  assert (Nx : forall x, ~ is_cxx_type apis x) by (intros x; apply not_cxx_example; reflexivity).
  assert (En : cxx_type Cxx11 apis no_user (I_ "i32") Scalar) by (apply (ct_prim Cxx11 apis no_user (N_ "i32") AI32); [reflexivity|discriminate|discriminate]).
  destruct (struct_example Cxx11 st (I_ "i32") eq_refl apis (or_introl eq_refl) Nx _ En) as (D & C & F).
  discriminate (H GBuild id_order apis T Cxx11 no_user (N_ "S") st _ [0] (I_ "i32") Ha D C eq_refl F ltac:(discriminate)).
  intros [(n & E & W)|(v & k & E)]; [|discriminate E]. injection E as <-. destruct W as [(e & [I|[]] & _)|[W|(t & [I|[]] & E)]]; try discriminate I; [destruct (Nx _ W)|].
  injection I as <-. discriminate E.
Qed.
Print Assumptions C106_cxx11_refuted.

Example C106_nonvacuous :
  let st := St "S" [("f", I_ "i32")] in let apis := [AStruct st] in let D := gcc Cxx14 in let c := Class plain [] [Scalar] [true] in
  (exists T, accepted_bridge GBuild id_order apis T) /\ defined_struct apis "S" st /\ movable apis no_user /\ cxx_type (std D) apis no_user (I_ "S") c /\
  field_at apis (I_ "S") [0] (I_ "i32") /\ ~ without_default apis (I_ "i32") /\ can_default c = true /\ made_at (after_default c) [0] = Some Ready /\
  can_make D false (Braces [Self false]) c = true /\ can_make D false (Braces [Self true; Nothing]) c = false /\
  can_make (gcc Cxx11) false (Braces [Self false]) (Class plain [] [Scalar] [true]) = false.
Proof.
  cbv zeta. match goal with |- (exists T, accepted_bridge _ _ ?x T) /\ _ => set (apis := x) end.
  assert (Nx : forall x, ~ is_cxx_type apis x) by (intros x; apply not_cxx_example; reflexivity).
  assert (En : cxx_type Cxx14 apis no_user (I_ "i32") Scalar) by (apply (ct_prim Cxx14 apis no_user (N_ "i32") AI32); [reflexivity|discriminate|discriminate]).
  destruct (struct_example Cxx14 _ (I_ "i32") eq_refl apis (or_introl eq_refl) Nx _ En) as (D & C & F).
  split; [apply accepts_ok; reflexivity|]. split; [exact D|]. split; [intros x U; destruct (Nx x U)|]. split; [exact C|]. split; [exact F|]. split; [|repeat split].
  intros [(n & E & W)|(v & k & E)]; [|discriminate E]. injection E as <-. destruct W as [(e & [I|[]] & _)|[W|(t & [I|[]] & E)]]; try discriminate I; [destruct (Nx _ W)|].
  injection I as <-. discriminate E.
Qed.
