(** Proofs for C89, part 1: what the expansion consists of. *)
From Verif Require Import Base StrLib Syntax_Model TypeEq_Model Toposort_Model Toposort_Spec Types_Model Types_Spec Types_Proofs Types_Proofs2 Types_Props
  Check_Model Check_Spec Check_Proofs Check_Proofs2 Mangle_Model Mangle_Spec Mangle_Proofs Mangle_Proofs2 Mangle_Proofs4 Abi_Model Derive_Model Expand_Model
  Member_Proofs Coherence_Model Coherence_Spec.
From Coq Require Import Lia.

(** * Lists *)
Lemma nodup_app {A} (l m : list A) : NoDup (l ++ m) <-> NoDup l /\ NoDup m /\ forall x, In x l -> ~ In x m.
Proof.
  rewrite <- !fop_nodup, fop_app. split; intros (A1 & A2 & A3); (split; [exact A1|split; [exact A2|]]).
  - intros x I J. exact (A3 x x I J eq_refl).
  - intros x y I J E. apply (A3 x I). rewrite E. exact J.
Qed.
Lemma nodup_map {A B} (g : A -> B) l : (forall x y, In x l -> In y l -> g x = g y -> x = y) -> (NoDup (map g l) <-> NoDup l).
Proof.
  intros H. rewrite <- !fop_nodup, fop_map. split; apply fop_impl; intros x y I J N E; apply N; [congruence|exact (H _ _ I J E)].
Qed.
Lemma tagged {A B C} (pick : A -> list C) (f : A -> list B) (tag : B -> C) l :
  (forall a e, In a l -> In e (f a) -> In (tag e) (pick a)) -> NoDup (flat_map pick l) -> (NoDup (flat_map f l) <-> forall a, In a l -> NoDup (f a)).
Proof.
  induction l as [|a l IH]; intros P N; [split; [intros _ b []|constructor]|]. cbn [flat_map] in *. apply nodup_app in N as (Na & Nl & D). rewrite nodup_app, IH; [|intros b e I J; apply P; [right; exact I|exact J]|exact Nl]. split.
  - intros (Fa & Fl & _) b [<-|I]; [exact Fa|exact (Fl b I)].
  - intros F. split; [apply F; left; reflexivity|]. split; [intros b I; apply F; right; exact I|]. intros e I J. apply in_flat_map in J as (b & Ib & J).
    apply (D (tag e)); [apply (P a e); [left; reflexivity|exact I]|]. apply in_flat_map. exists b. split; [exact Ib|]. apply P; [right; exact Ib|exact J].
Qed.
Lemma flat_map_map' {A B C} (f : B -> list C) (g : A -> B) l : flat_map f (map g l) = flat_map (fun a => f (g a)) l.
Proof. induction l as [|a l IH]; [reflexivity|]. cbn [map flat_map]. rewrite IH. reflexivity. Qed.
Lemma flat_map_flat {A B C} (f : B -> list C) (g : A -> list B) l : flat_map f (flat_map g l) = flat_map (fun a => flat_map f (g a)) l.
Proof. induction l as [|a l IH]; [reflexivity|]. cbn [flat_map]. rewrite flat_map_app, IH. reflexivity. Qed.
Lemma flat_map_ext' {A B} (f g : A -> list B) l : (forall a, In a l -> f a = g a) -> flat_map f l = flat_map g l.
Proof. induction l as [|a l IH]; intros H; [reflexivity|]. cbn [flat_map]. rewrite (H a (or_introl eq_refl)), IH; [reflexivity|]. intros b I. apply H. right. exact I. Qed.
Lemma flat_map_none {A B} (f : A -> list B) l : (forall a, In a l -> f a = []) -> flat_map f l = [].
Proof. intros H. rewrite (flat_map_ext' _ (fun _ => [])) by exact H. induction l; [reflexivity|]. cbn. apply IHl. intros b I. apply H. right. exact I. Qed.
Lemma flat_map_one {A B} (f : A -> B) l : flat_map (fun a => [f a]) l = map f l.
Proof. induction l as [|a l IH]; [reflexivity|]. cbn. rewrite IH. reflexivity. Qed.

Lemma filter_le {A} (f : A -> bool) l : (List.length (filter f l) <= List.length l)%nat.
Proof. induction l as [|a l IH]; cbn; [lia|]. destruct (f a); cbn; lia. Qed.

(** * Declarations and their kinds *)
Definition dname (a : api) : option (string * decl_kind) :=
  match a with
  | AStruct s => Some (p_rust (st_name s), DkShared)
  | AEnum e => Some (p_rust (en_name e), if en_from_header e then DkFromHeader else DkShared)
  | ACxxType t => Some (p_rust (et_name t), DkCxx)
  | ARustType t => Some (p_rust (et_name t), DkRust)
  | ATypeAlias t => Some (p_rust (ta_name t), DkAlias)
  | _ => None
  end.
Lemma decl_of_dname n a : decl_of n a = match dname a with Some (x, k) => if String.eqb x n then [k] else [] | None => [] end.
Proof. destruct a; reflexivity. Qed.
Definition pick (sel : string -> decl_kind -> bool) (a : api) : list string :=
  match dname a with Some (x, k) => if sel x k then [x] else [] | None => [] end.
Lemma pick_count sel apis n : count_occ string_dec (flat_map (pick sel) apis) n = List.length (filter (sel n) (decls n apis)).
Proof.
  unfold decls. induction apis as [|a apis IH]; [reflexivity|]. cbn [flat_map]. rewrite count_occ_app, filter_app, app_length, IH. f_equal.
  rewrite decl_of_dname. unfold pick. destruct (dname a) as [(x, k)|]; [|reflexivity]. destruct (String.eqb_spec x n) as [->|N].
  - destruct (sel n k) eqn:E; cbn [filter]; rewrite E; cbn; [|reflexivity]. destruct (string_dec n n); [reflexivity|congruence].
  - destruct (sel x k); cbn; [|reflexivity]. destruct (string_dec x n); [congruence|reflexivity].
Qed.
Lemma pick_nodup sel apis : NoDup (flat_map (pick sel) apis) <-> forall n, (List.length (filter (sel n) (decls n apis)) <= 1)%nat.
Proof. rewrite (NoDup_count_occ string_dec). split; intros H n; specialize (H n); rewrite pick_count in *; exact H. Qed.
Lemma in_decls n k apis : In k (decls n apis) <-> exists a, In a apis /\ dname a = Some (n, k).
Proof.
  unfold decls. rewrite in_flat_map. split; intros (a & I & H); exists a; (split; [exact I|]); rewrite decl_of_dname in *.
  - destruct (dname a) as [(x, k')|]; [|destruct H]. destruct (String.eqb_spec x n) as [->|N]; [|destruct H]. destruct H as [->|[]]. reflexivity.
  - rewrite H, String.eqb_refl. left. reflexivity.
Qed.

Section Expansion.
  Variables (gen : generator) (ord : nat -> list string -> list string) (apis : list api) (T : types).
  Hypothesis Hacc : accepted_bridge gen ord apis T.

  Lemma no_errors : c_errs (collect_apis apis) = [].
  Proof. destruct Hacc as ((_ & Hc) & _). destruct (collect_facts _ _ _ _ Hc) as (order & terrs & imp & _ & _ & E & _). symmetry in E. apply app_eq_nil in E. apply E. Qed.
  Lemma decls_ok n : accepted_decls (decls n apis).
  Proof. revert n. apply dup_iff. rewrite no_errors. intros n []. Qed.

  Definition shared (x : string) : bool := has x (t_structs T) || has x (t_enums T).
  Lemma shared_ok x : shared x = true <-> is_struct apis x \/ is_enum apis x.
  Proof. unfold shared. rewrite orb_true_iff, <- (structs_ok _ _ _ _ Hacc x), <- (enums_ok _ _ _ _ Hacc x). reflexivity. Qed.
  Lemma shared_decls x : shared x = true <-> In DkShared (decls x apis) \/ In DkFromHeader (decls x apis).
  Proof.
    rewrite shared_ok, !in_decls. split.
    - intros [(s & I & E)|(e & I & E)]; [left; exists (AStruct s); split; [exact I|cbn; rewrite E; reflexivity]|].
      destruct (en_from_header e) eqn:F; [right|left]; exists (AEnum e); (split; [exact I|cbn; rewrite E, F; reflexivity]).
    - intros [(a & I & E)|(a & I & E)]; destruct a; cbn in E; try discriminate; injection E as E; try (left; eexists; split; [exact I|exact E]);
        try (right; eexists; split; [exact I|]; assumption); destruct (en_from_header e); try discriminate; right; exists e; auto.
  Qed.

  (** The types that the expansion defines itself: structs, enums and other opaque C++ types *)
  Definition own (x : string) (k : decl_kind) : bool :=
    match k with DkShared | DkFromHeader | DkRust => true | DkCxx => negb (shared x) | DkAlias => false end.
  Lemma own_nodup : NoDup (flat_map (pick own) apis).
  Proof.
    apply pick_nodup. intros n. pose proof (decls_ok n) as [L|L].
    - eapply Nat.le_trans; [apply filter_le|exact L].
    - pose proof (shared_decls n) as S. cbn [In] in L. destruct L as [L|[L|[L|[L|[L|[]]]]]]; rewrite <- L in *; cbn [In filter own] in *;
        (assert (Q : shared n = true) by (apply S; auto)); rewrite ?Q; cbn; lia.
  Qed.
  (** All that it puts into the module *)
  Definition all_types (x : string) (k : decl_kind) : bool := match k with DkCxx => negb (shared x) | _ => true end.
  Lemma alias_decls x : is_alias apis x <-> In DkAlias (decls x apis).
  Proof.
    rewrite in_decls. split.
    - intros (a & I & E). exists (ATypeAlias a). split; [exact I|]. cbn. rewrite E. reflexivity.
    - intros (a & I & E). destruct a; cbn in E; try discriminate; [destruct (en_from_header e); discriminate|]. injection E as E. eexists. split; [exact I|exact E].
  Qed.
  Lemma types_nodup : NoDup (flat_map (pick all_types) apis) <-> forall x, is_alias apis x -> ~ is_struct apis x /\ ~ is_enum apis x.
  Proof.
    assert (E : (forall x, is_alias apis x -> ~ is_struct apis x /\ ~ is_enum apis x) <-> forall n, ~ (In DkAlias (decls n apis) /\ shared n = true)).
    { split; intros H x.
      - intros (A & S). apply alias_decls in A. apply shared_ok in S. destruct (H x A). tauto.
      - intros A. apply alias_decls in A. specialize (H x). rewrite shared_ok in H. tauto. }
    rewrite E, pick_nodup. split; intros H n; specialize (H n); pose proof (decls_ok n) as [L|L].
    - destruct (decls n apis) as [|k [|k' l]] eqn:D; cbn in L; [intros ([] & _)| |lia]. intros (A & S). apply shared_decls in S. rewrite D in S. cbn in A, S. intuition congruence.
    - pose proof (shared_decls n) as S. cbn [In] in L. destruct L as [L|[L|[L|[L|[L|[]]]]]]; rewrite <- L in *; cbn [In filter all_types] in *; try (cbn in H; lia); intros (A & _); intuition discriminate.
    - eapply Nat.le_trans; [apply filter_le|exact L].
    - pose proof (shared_decls n) as S. cbn [In] in L. destruct L as [L|[L|[L|[L|[L|[]]]]]]; rewrite <- L in *; cbn [In filter all_types] in *;
        (assert (Q : shared n = true) by (apply S; auto)); rewrite ?Q; cbn; try lia; exfalso; apply H; auto.
  Qed.

  Lemma declared_iff x : declared apis x <-> exists p lts, declares apis p lts /\ p_rust p = x.
  Proof.
    unfold declared, is_cxx_type, is_struct, is_enum, is_rust_type, is_alias. split.
    - intros [(s & I & E)|[(s & I & E)|[[(s & I & E)|[(s & I & E)|(s & I & E & _)]]|(s & I & E)]]]; eexists; eexists; (split; [|exact E]); econstructor; exact I.
    - intros (p & lts & [s I|s I|s I|s I|s I] & <-); eauto 9.
  Qed.
  Lemma pick_declared sel a x : In a apis -> In x (pick sel a) -> declared apis x.
  Proof.
    intros I. unfold pick. destruct (dname a) as [(y, k)|] eqn:D; [|intros []]. destruct (sel y k); [|intros []]. intros [<-|[]]. apply declared_iff.
    destruct a; cbn in D; try discriminate; injection D as <- _; eexists; eexists; (split; [econstructor; exact I|reflexivity]).
  Qed.
  Lemma key_declared k : In k (map fst (t_impls T)) -> declared apis (snd k).
  Proof.
    destruct k as (k, x). intros I. destruct (impl_resolves _ _ _ _ Hacc k x I) as (p & pre & a & post & E & D & <- & _). apply declared_iff.
    assert (Ia : In a apis) by (rewrite E; apply in_elt). destruct a; cbn in D; try discriminate; injection D as <-; eexists; eexists; (split; [econstructor; exact Ia|reflexivity]).
  Qed.

  (** * The expansion exists *)
  Definition api_pure (a : api) : list (scope * item) := match api_items T a with Some l => l | None => [] end.
  Lemma check_ok a : In a apis -> check_api gen T a = [].
  Proof.
    intros I. destruct Hacc as (_ & Hch). unfold typecheck in Hch. apply app_eq_nil in Hch. destruct Hch as (_ & Hch). apply app_eq_nil in Hch. destruct Hch as (_ & Hch).
    rewrite flat_map_nil in Hch. exact (Hch a I).
  Qed.
  Lemma struct_traits_ok s : In (AStruct s) apis -> struct_traits s = Some (st_derives s).
  Proof.
    intros I. pose proof (check_ok _ I) as C. cbn [check_api] in C. unfold check_api_struct in C. apply app_nil in C as (_ & C). apply app_nil in C as (_ & C). apply app_nil in C as (_ & C). apply app_nil in C as (_ & C). apply app_nil in C as (C & _).
    unfold struct_traits. rewrite flat_map_nil in C. destruct (existsb (trait_eqb DExternType) (st_derives s)) eqn:E; [|reflexivity].
    apply existsb_exists in E as (d & Id & E). specialize (C d Id). destruct d; discriminate.
  Qed.
  Definition enum_list (e : enum_) : list trait :=
    en_derives e ++ when (negb (derives DCopy (en_derives e))) [DCopy] ++ when (negb (derives DClone (en_derives e))) [DClone]
    ++ when (negb (derives DEq (en_derives e))) [DEq] ++ when (negb (derives DPartialEq (en_derives e))) [DPartialEq].
  Lemma enum_traits_ok e : In (AEnum e) apis -> enum_traits e = Some (enum_list e).
  Proof.
    intros I. pose proof (check_ok _ I) as C. cbn [check_api] in C. unfold check_api_enum in C. apply app_nil in C as (_ & C). apply app_nil in C as (_ & C). apply app_nil in C as (_ & C).
    unfold enum_traits. rewrite flat_map_nil in C. destruct (existsb _ (en_derives e)) eqn:E; [|reflexivity].
    apply existsb_exists in E as (d & Id & E). specialize (C d Id). rewrite E in C. discriminate.
  Qed.
  Lemma rust_derives t d : In (ARustType t) apis -> In d (et_derives t) -> d = DExternType.
  Proof.
    intros I J. pose proof (check_ok _ I) as C. cbn [check_api] in C. unfold check_api_type in C. apply app_nil in C as (_ & C). apply app_nil in C as (_ & C). apply app_nil in C as (C & _).
    rewrite flat_map_nil in C. specialize (C d J). destruct d; try discriminate. reflexivity.
  Qed.
  Lemma api_items_ok a : In a apis -> api_items T a = Some (api_pure a).
  Proof.
    intros I. unfold api_pure. destruct (api_items T a) eqn:E; [reflexivity|]. destruct a; try discriminate E; cbn [api_items] in E.
    - unfold struct_items in E. rewrite struct_traits_ok in E by exact I. discriminate.
    - unfold enum_items in E. rewrite enum_traits_ok in E by exact I. discriminate.
  Qed.
  Definition imports : list (scope * item) := flat_map (fun a => match a with ARustType t => import_items t | _ => [] end) apis.
  Definition instances : list (scope * item) := flat_map impl_items (map fst (t_impls T)).
  Definition forbids : list (scope * item) :=
    when (existsb (fun a => match a with AStruct _ => true | _ => false end) apis) [(SHidden, IMod "forbid"%string); (SForbid, ITrait "Drop"%string)].
  Lemma expansion_eq : expansion T apis = Some (imports ++ flat_map api_pure apis ++ instances ++ forbids).
  Proof.
    unfold expansion. assert (E : forall l, incl l apis -> otraverse (api_items T) l = Some (map api_pure l)).
    { induction l as [|a l IH]; intros H; [reflexivity|]. cbn [otraverse]. rewrite api_items_ok by (apply H; left; reflexivity). cbn [obind]. fold (otraverse (api_items T)). rewrite IH; [reflexivity|]. intros b I. apply H. right. exact I. }
    rewrite (E apis) by apply incl_refl. cbn [option_map]. rewrite <- flat_map_concat_map. unfold instances. rewrite flat_map_map'. reflexivity.
  Qed.
End Expansion.
