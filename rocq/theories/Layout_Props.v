(** C103: shared structs have the same layout in memory in both languages. *)
From Verif Require Import Base Syntax_Model Types_Model Types_Spec Toposort_Spec Toposort_Model Toposort_Proofs2 Check_Spec Check_Model Check_Props Check_Proofs
  Mangle_Model Mangle_Spec Mangle_Proofs2 Abi_Model Abi_Spec Abi_Proofs Abi_Props Unit_Spec Unit_Props Layout_Model Layout_Spec Layout_Proofs Layout_Proofs2.
From Coq Require Import Lia Relations.
Local Open Scope nat_scope.

(** What both compilers make of a shared struct: there is exactly one layout, the same
    one in both languages; the fields are in their order, aligned, inside the struct and
    without overlap.  (A struct that is declared in extern "C++" as well is defined by
    the user's header, and cxx defines none.) *)
Definition one_layout (P : platform) (T : types) (apis : list api) (s : struct_) : Prop :=
  exists ls os l, rust_struct_layout P apis s ls os l /\ (~ is_cxx_type apis (p_rust (st_name s)) -> cxx_struct_layout P T apis s ls os l) /\
    List.length ls = List.length (st_fields s) /\ apart 0 ls os (size l) /\ proper l /\
    forall ls' os' l', rust_struct_layout P apis s ls' os' l' \/ cxx_struct_layout P T apis s ls' os' l' -> (ls', os', l') = (ls, os, l).

Definition C103_claim : Prop := forall gen ord apis T P s, accepted_bridge gen ord apis T -> ~ has_cycle contains (structs_of apis) ->
  names_agree apis -> no_empty_arrays apis -> integer_reprs apis -> usual P -> users_agree P apis -> In (AStruct s) apis -> one_layout P T apis s.

(** Proved for all bridges in which no alias is named like a primitive.  Every platform
    and every types of the user are covered. *)
Theorem C103_layout_partial : forall gen ord apis T P s, accepted_bridge gen ord apis T -> ~ has_cycle contains (structs_of apis) ->
  names_agree apis -> no_empty_arrays apis -> integer_reprs apis -> usual P -> users_agree P apis -> primitives_unaliased apis ->
  In (AStruct s) apis -> one_layout P T apis s.
Proof.
  intros gen ord apis T P s Ha Hc Hn Hf Hi U Hu Hp I.
  destruct (struct_fields_lay gen ord apis T P Ha Hp Hf s I) as (cs & ls & Ec & L1 & L2).
  { intros f _. apply (every_lay gen ord apis T P Ha Hp Hn Hc Hf Hi U Hu). }
  destruct (lays_proper gen ord apis T P Ha Hf U s ls I L2) as (Fp & Nn).
  destruct (fields_ok gen ord apis T Ha Hp s I) as (cs' & Ec' & A & Nm). rewrite Ec in Ec'. injection Ec' as <-.
  assert (G : Forall2 (alike apis) (map snd cs) (map snd (rust_fields s))) by (clear -A; induction A; constructor; assumption).
  destruct (agree_both gen ord apis T P Ha Hp Hn Hf Hi U Hu) as (_ & B).
  pose proof (fields_full apis Hf s I) as Ff.
  destruct (rust_struct ls) as [os l] eqn:R. exists ls, os, l.
  split. { exists (rust_fields s). split; [apply def_rust, I|]. split; [unfold rust_fields; rewrite map_map; reflexivity|]. split; assumption. }
  split. { intros N. exists cs. split; [apply (def_cxx gen ord apis T Ha s cs I N Ec)|]. split; [exact Nm|]. split; [exact L1|]. apply struct_same; assumption. }
  split. { assert (Ll : forall ts l, rust_lays P apis ts l -> List.length l = List.length ts) by (induction 1; cbn; congruence).
    rewrite (Ll _ _ L2). unfold rust_fields. rewrite !map_length. reflexivity. }
  split; [exact (struct_apart ls os l Fp R)|]. split; [pose proof (struct_proper ls Fp Nn) as Pl; rewrite R in Pl; exact Pl|].
  intros ls' os' l' [(fs & D & _ & L & R')|(cs' & D & _ & L & R')].
  - apply rust_struct_def in D as (s' & I' & E & ->). rewrite (same_struct gen ord apis T Ha s' s I' I E) in L.
    pose proof (B _ _ L Ff _ _ G L1) as ->. congruence.
  - destruct (cxx_class_def gen ord apis T Ha _ _ D) as (s' & I' & E & F & _).
    assert (E' : p_rust (st_name s') = p_rust (st_name s)) by (apply (Hn (AStruct s') (AStruct s) _ _ I' I eq_refl eq_refl); exact E).
    rewrite (same_struct gen ord apis T Ha s' s I' I E') in F. rewrite Ec in F. injection F as <-.
    pose proof (B _ _ L2 Ff _ _ G L) as ->. apply struct_same in R'; [congruence|assumption|assumption].
Qed.
Print Assumptions C103_layout_partial.

(** The same for all values that cross the boundary: where C13 has an argument or a
    return value of types [c] and [r], and C60 a field, a [c] in C++ has the size and the
    alignment of an [r] in Rust.  (Missing: as before.) *)
Theorem C103_values_partial : forall gen ord apis T P c r lc lr, accepted_bridge gen ord apis T ->
  names_agree apis -> no_empty_arrays apis -> integer_reprs apis -> usual P -> users_agree P apis -> primitives_unaliased apis ->
  alike apis c r -> full r -> cxx_lay P T apis c lc -> rust_lay P apis r lr -> lc = lr.
Proof.
  intros gen ord apis T P c r lc lr Ha Hn Hf Hi U Hu Hp A F L1 L2. exact (proj1 (agree_both gen ord apis T P Ha Hp Hn Hf Hi U Hu) r lr L2 F c lc A L1).
Qed.
Print Assumptions C103_values_partial.

(** * Examples *)
Local Definition I_ (a : string) : ty := TIdent (Named a []).
Local Definition nm (a : string) : pair_name := Pair [] a a.
Local Definition C_ (a : string) : api := ACxxType (ExternType CUnconditional LCxx [] (nm a) [] [] true).
Fixpoint fullb (t : ty) : bool :=
  match t with
  | TBox t | TVec t | TUniquePtr t | TSharedPtr t | TWeakPtr t | TCxxVector t | TRef _ _ _ t | TPtr _ t | TSlice _ _ t => fullb t
  | TArray t n => negb (N.eqb n 0) && fullb t
  | TIdent _ | TStr _ | TVoid => true
  | TFn _ _ args ret => forallb (fun a => fullb (snd a)) args && match ret with Some r => fullb r | None => true end
  end.
Lemma fullb_occurs u t : occurs u t -> fullb t = true -> fullb u = true.
Proof.
  induction 1; intros C; auto; apply IHoccurs; cbn in C; rewrite ?andb_true_iff in C; try (destruct C as (C1 & C2)); try assumption.
  rewrite forallb_forall in C1. apply (C1 _ H).
Qed.
Definition no_empty_arraysb (apis : list api) : bool :=
  forallb (fun a => match a with
    | AStruct s => forallb (fun f => fullb (v_ty f)) (st_fields s)
    | ACxxFunction f | ARustFunction f => forallb (fun x => fullb (snd x)) (fn_args f) && match fn_ret f with Some r => fullb r | None => true end
    | AImpl i => fullb (im_ty i)
    | _ => true
    end) apis.
Lemma no_empty_arraysb_ok apis : no_empty_arraysb apis = true -> no_empty_arrays apis.
Proof.
  unfold no_empty_arraysb. rewrite forallb_forall. intros H t n M.
  assert (C : fullb (TArray t n) = true).
  { destruct M as [s f Hs Hf O|f x t' Hf Hx O|f t' Hf Hr O|i Hi O]; apply (fullb_occurs _ _ O).
    - specialize (H _ Hs). cbn in H. rewrite forallb_forall in H. apply (H _ Hf).
    - destruct Hf as [Hf|Hf]; specialize (H _ Hf); cbn in H; apply andb_true_iff in H; destruct H as (H & _); rewrite forallb_forall in H; apply (H _ Hx).
    - destruct Hf as [Hf|Hf]; specialize (H _ Hf); cbn in H; apply andb_true_iff in H; destruct H as (_ & H); rewrite Hr in H; exact H.
    - apply (H _ Hi). }
  cbn in C. apply andb_true_iff in C as (C & _). intros ->. discriminate C.
Qed.
Lemma ranked (rank : struct_ -> nat) l : (forall X Y, In X l -> In Y l -> contains X Y -> rank Y < rank X) -> ~ has_cycle contains l.
Proof.
  intros H (A & C). assert (G : forall X Y, clos_trans _ (fun X Y => In X l /\ In Y l /\ contains X Y) X Y -> rank Y < rank X).
  { induction 1 as [X Y (I & J & K)|X Y Z _ IH1 _ IH2]; [apply H; assumption|lia]. }
  specialize (G _ _ C). lia.
Qed.

(** x86-64 Linux *)
Definition prim64 (a : atom) : lay :=
  match a with
  | ABool | AChar | AU8 | AI8 => Lay 1 1
  | AU16 | AI16 => Lay 2 2
  | AU32 | AI32 | AF32 => Lay 4 4
  | _ => Lay 8 8
  end.
Definition linux64 (user : lay) : platform :=
  Platform prim64 (Lay 8 8) (Lay 8 8) (Lay 8 8) (Lay 16 8) (Lay 16 8) (fun _ => user) (Lay 24 8) (Lay 24 8) (Lay 16 8) (Lay 16 8) (fun _ => user).
Lemma linux64_usual user : proper user -> usual (linux64 user).
Proof.
  intros H. unfold usual. split.
  { intros a N1 N2. unfold proper. destruct a; try congruence; cbn; (split; [lia|]; split; [lia|]; exists 1; reflexivity). }
  split; [intros x; exact H|]. split; [reflexivity|]. split; [reflexivity|]. split; [reflexivity|].
  split; [|repeat split; reflexivity]. unfold runtime_asserts, words_of. cbn. repeat split; reflexivity.
Qed.

Lemma lay_i32 user l apis : apis = [ATypeAlias (TypeAlias CUnconditional [] (nm "i32") []); AStruct (Struct_ CUnconditional [] (nm "S") [] [Var CUnconditional (nm "f") (I_ "i32")])] ->
  rust_lay (linux64 user) apis (RIdent "i32") l -> l = user.
Proof.
  intros E L. inversion L; try reflexivity; try discriminate;
    try (match goal with X : In _ (rust_definitions _) |- _ => rewrite E in X; destruct X as [X|[]]; discriminate X end).
  - match goal with X : ~ is_alias _ _ |- _ => destruct X end.
    match goal with X : atom_name _ = _ |- _ => rewrite X end. rewrite E. eexists. split; [left; reflexivity|reflexivity].
  - symmetry. assumption.
  - match goal with X : _ \/ _ |- _ => destruct X as [X|[X|X]]; discriminate X end.
Qed.
(** `type i32 = path;` and `struct S { f: i32 }`: std::int32_t in C++, and whatever the
    alias stands for in Rust. *)
Theorem C103_aliased_primitive_refuted : ~ C103_claim.
Proof.
  intros H. pose (s := Struct_ CUnconditional [] (nm "S") [] [Var CUnconditional (nm "f") (I_ "i32")]).
  pose (apis := [ATypeAlias (TypeAlias CUnconditional [] (nm "i32") []); AStruct s]).
  destruct (accepts_ok GBuild apis eq_refl) as (T & Ha). pose (P := linux64 (Lay 8 8)).
  destruct (H GBuild id_order apis T P s Ha) as (ls & os & l & R & C & _ & _ & _ & Q).
  - apply (accepted_acyclic _ _ _ _ Ha), array_freeb_ok. reflexivity.
  - apply names_agreeb_ok. reflexivity.
  - apply no_empty_arraysb_ok. reflexivity.
  - intros e [E|[E|[]]]; discriminate E.
  - apply linux64_usual. repeat split; cbn; try lia. exists 1. reflexivity.
  - intros a p l0 I D Cx L. destruct I as [<-|[<-|[]]]; cbn in D; injection D as <-.
    + cbn in L. apply lay_i32 in L as ->; [|reflexivity]. reflexivity.
    + exfalso. destruct Cx as [(t & I & _)|[(t & I & E)|(e & I & _)]]; destruct I as [X|[X|[]]]; try discriminate X. injection X as <-. discriminate E.
  - right. left. reflexivity.
  - assert (N : ~ is_cxx_type apis "S").
    { intros [(t & I & _)|[(t & I & E)|(e & I & _)]]; destruct I as [X|[X|[]]]; try discriminate X. injection X as <-. discriminate E. }
    specialize (C N). destruct R as (fs & D & _ & L & _). apply rust_struct_def in D as (s' & [X|[X|[]]] & _ & ->); [discriminate X|]. injection X as <-.
    cbn in L. inversion L as [|? l1 ? ? L1 L2]; subst. inversion L2; subst. apply lay_i32 in L1 as ->; [|reflexivity].
    destruct C as (cs & D & _ & Lc & _). destruct (cxx_class_def _ _ _ _ Ha _ _ D) as (s' & [X|[X|[]]] & _ & F & _); [discriminate X|]. injection X as <-.
    cbn in F. injection F as <-. inversion Lc as [|? ? ? ? L1 _]; subst. clear H Q. apply (lay_atom apis T P (linux64_usual (Lay 8 8) ltac:(repeat split; cbn; try lia; exists 1; reflexivity))) in L1 as [(_ & _ & X)|(X & _)]; discriminate X.
Qed.
Print Assumptions C103_aliased_primitive_refuted.

(** A bridge with a nested struct, an enum, an array, owned values of both languages and
    a type of the user; and what the layouts are on x86-64. *)
Example C103_nonvacuous :
  let v x t := Var CUnconditional (nm x) t in
  let p := Struct_ CUnconditional [] (nm "P") [] [v "a" (I_ "u8"); v "b" (I_ "i32"); v "c" (TArray (I_ "u16") 3)] in
  let q := Struct_ CUnconditional [] (Pair ["ns"] "Q" "Q") [] [v "e" (I_ "E"); v "p" (I_ "P"); v "s" (I_ "String"); v "u" (TUniquePtr (I_ "C")); v "k" (I_ "bool"); v "a" (I_ "A")] in
  let e := Enum_ CUnconditional [] (nm "E") [] [Variant CUnconditional (nm "V") 0%Z] false AU8 true in
  let apis := [C_ "C"; ATypeAlias (TypeAlias CUnconditional [] (nm "A") []); AEnum e; AStruct q; AStruct p] in
  let P := linux64 (Lay 12 4) in
  (exists T, accepted_bridge GBuild id_order apis T) /\ ~ has_cycle contains (structs_of apis) /\ names_agree apis /\ no_empty_arrays apis /\ integer_reprs apis /\
  usual P /\ users_agree P apis /\ primitives_unaliased apis /\
  rust_struct_layout P apis p [Lay 1 1; Lay 4 4; Lay 6 2] [0; 4; 8] (Lay 16 4) /\
  rust_struct_layout P apis q [Lay 1 1; Lay 16 4; Lay 24 8; Lay 8 8; Lay 1 1; Lay 12 4] [0; 4; 24; 48; 56; 60] (Lay 72 8).
Proof.
  cbv zeta. match goal with |- (exists T, accepted_bridge _ _ ?x T) /\ _ => set (apis := x) end.
  split; [apply accepts_ok; reflexivity|]. split.
  { apply (ranked (fun s => if String.eqb (p_rust (st_name s)) "Q" then 1 else 0)). intros X Y [<-|[<-|[]]] [<-|[<-|[]]] (f & Hf & Hi); cbn; try lia; exfalso;
      cbn in Hf; repeat destruct Hf as [<-|Hf]; try destruct Hf; cbn in Hi; inversion Hi as [n E|? ? ? Hj E]; subst; try discriminate; inversion Hj. }
  split; [apply names_agreeb_ok; reflexivity|]. split; [apply no_empty_arraysb_ok; reflexivity|].
  split; [intros e I; repeat destruct I as [I|I]; try discriminate I; [injection I as <-; split; discriminate|destruct I]|].
  split; [apply linux64_usual; repeat split; cbn; try lia; exists 3; reflexivity|].
  assert (PL : rust_struct_layout (linux64 (Lay 12 4)) apis (Struct_ CUnconditional [] (nm "P") []
    [Var CUnconditional (nm "a") (I_ "u8"); Var CUnconditional (nm "b") (I_ "i32"); Var CUnconditional (nm "c") (TArray (I_ "u16") 3)])
    [Lay 1 1; Lay 4 4; Lay 6 2] [0; 4; 8] (Lay 16 4)).
  { eexists. split; [right; right; left; reflexivity|]. split; [reflexivity|]. split; [|reflexivity]. cbn.
    assert (Na : forall a, ~ is_alias apis (atom_name a)) by (intros b (t & I & E); repeat destruct I as [I|I]; try discriminate I; [injection I as <-; destruct b; discriminate E|destruct I]).
    constructor; [apply (rl_prim (linux64 (Lay 12 4)) apis AU8); [discriminate|discriminate|apply Na]|]. constructor; [apply (rl_prim (linux64 (Lay 12 4)) apis AI32); [discriminate|discriminate|apply Na]|].
    constructor; [|constructor]. apply (rl_array (linux64 (Lay 12 4)) apis (RIdent "u16") 3 (Lay 2 2)). apply (rl_prim (linux64 (Lay 12 4)) apis AU16); [discriminate|discriminate|apply Na]. }
  assert (Al : forall x, is_alias apis x -> x = "A"%string) by (intros x (t & I & E); repeat destruct I as [I|I]; try discriminate I; [injection I as <-; symmetry; exact E|destruct I]).
  split.
  { intros a p l I D Cx L. assert (E : rust_user (linux64 (Lay 12 4)) (p_rust p) = l -> cxx_user (linux64 (Lay 12 4)) (qualified p) = l) by auto. apply E; clear E.
    assert (E : p_rust p = "C" \/ p_rust p = "A").
    { destruct Cx as [(t & J & <-)|[J|(e & J & _ & F)]]; [left|right; apply Al, J|exfalso].
      - repeat (destruct J as [J|J]; [first [discriminate J|injection J as <-; reflexivity]|]). destruct J.
      - repeat (destruct J as [J|J]; [first [discriminate J|injection J as <-; discriminate F]|]). destruct J. }
    destruct E as [E|E]; rewrite E in *; inversion L; subst; try reflexivity; try discriminate;
      try (match goal with X : In _ (rust_definitions _) |- _ => repeat destruct X as [X|X]; try discriminate X; destruct X end);
      try (match goal with X : atom_name ?b = _ |- _ => destruct b; discriminate X end);
      try (match goal with X : _ \/ _ \/ _ |- _ => destruct X as [X|[X|X]]; discriminate X end). }
  split; [intros x H; rewrite (Al x H); intros (b & E); discriminate E|]. split; [exact PL|].
  destruct PL as (fs & D & _ & PL & PR). eexists. split; [right; left; reflexivity|]. split; [reflexivity|]. split; [|reflexivity]. cbn.
  assert (Na : forall a, ~ is_alias apis (atom_name a)) by (intros b I; apply Al in I; destruct b; discriminate I).
  constructor. { eapply (rl_transparent _ _ "E" ("repr"%string, _)); [left; reflexivity|]. apply (rl_prim (linux64 (Lay 12 4)) apis AU8); [discriminate|discriminate|apply Na]. }
  constructor. { replace (Lay 16 4) with (snd (rust_struct [Lay 1 1; Lay 4 4; Lay 6 2])) by reflexivity. eapply rl_struct; [exact D|exact PL]. }
  constructor; [apply rl_string, (Na ARustString)|].
  constructor; [apply (rl_library (linux64 (Lay 12 4)) apis (RUnique (RIdent "C")) [Lay 8 8]); reflexivity|].
  constructor; [apply (rl_prim (linux64 (Lay 12 4)) apis ABool); [discriminate|discriminate|apply Na]|].
  constructor; [|constructor]. apply (rl_user (linux64 (Lay 12 4)) apis "A"). eexists. split; [right; left; reflexivity|reflexivity].
Qed.
