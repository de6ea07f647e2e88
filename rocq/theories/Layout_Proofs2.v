From Verif Require Import Base Syntax_Model Types_Model Types_Spec Types_Proofs Types_Proofs2 Types_Proofs3 Types_Props Toposort_Spec Toposort_Model Check_Spec
  Check_Model Check_Proofs Check_Props Mangle_Model Mangle_Spec Mangle_Proofs2 Abi_Model Abi_Spec Abi_Proofs Unit_Spec Unit_Proofs2
  Layout_Model Layout_Spec Layout_Proofs.
From Coq Require Import Lia Relations.
Local Open Scope nat_scope.

Scheme rust_lay_mut := Minimality for rust_lay Sort Prop with rust_lays_mut := Minimality for rust_lays Sort Prop.
Combined Scheme rust_lay_both from rust_lay_mut, rust_lays_mut.

Lemma atom_from_name a : atom_from_str (atom_name a) = Some a.
Proof. destruct a; reflexivity. Qed.
Lemma atom_name_inj a b : atom_name a = atom_name b -> a = b.
Proof. intros E. pose proof (atom_from_name a) as H. rewrite E, atom_from_name in H. congruence. Qed.
Lemma lay_eq l m : size l = size m -> align l = align m -> l = m.
Proof. destruct l, m. cbn. intros -> ->. reflexivity. Qed.

(** * Platforms *)
Section Platform.
  Variable P : platform.
  Hypothesis U : usual P.
  Lemma usize_proper : proper (usize P).
  Proof using U. apply (proj1 U); discriminate. Qed.
  Lemma uintptr_usize : uintptr P = usize P.
  Proof using U. destruct U as (_ & _ & _ & _ & _ & (A & B & _) & _). apply lay_eq; congruence. Qed.
  Lemma three : rust_string P = arr 3 (usize P) /\ rust_vec P = arr 3 (usize P).
  Proof using U.
    destruct U as (_ & _ & _ & _ & _ & (_ & _ & A & B & C & D & E & F & _) & _). split; apply lay_eq; try congruence; assumption.
  Qed.
  Lemma two : rust_str P = arr 2 (usize P) /\ rust_slice P = arr 2 (usize P).
  Proof using U.
    destruct U as (_ & _ & _ & A & B & (_ & _ & _ & _ & _ & _ & _ & _ & C & D & E & F) & _). split; apply lay_eq; assumption.
  Qed.
  Lemma pointers : std_unique P = usize P /\ std_shared P = arr 2 (usize P) /\ std_weak P = arr 2 (usize P) /\ address P = usize P.
  Proof using U.
    destruct U as (_ & _ & A & _ & _ & _ & (B & C & D & E & F & G)). rewrite A in *. repeat split; apply lay_eq; assumption.
  Qed.
  Lemma words n : n <> 0 -> n * size (usize P) / size (usize P) = n.
  Proof using U. intros N. destruct usize_proper as (_ & H & _). apply Nat.div_mul. lia. Qed.
  Lemma library_proper t ls : rust_library P t = Some ls -> Forall proper ls /\ ls <> [].
  Proof using U.
    destruct three as (E1 & E2), two as (E3 & E4), pointers as (_ & _ & _ & E5). pose proof usize_proper as H.
    pose proof (words 3 ltac:(lia)) as W3. pose proof (words 2 ltac:(lia)) as W2. pose proof (arr_proper 3 _ ltac:(lia) H) as A3. pose proof (arr_proper 2 _ ltac:(lia) H) as A2.
    destruct t; cbn -[arr]; try discriminate; intros [= <-]; (split; [|discriminate]); rewrite ?E1, ?E2, ?E3, ?E4, ?E5; cbn [size arr]; rewrite ?W3, ?W2;
      repeat apply Forall_cons; try apply Forall_nil; assumption.
  Qed.
  Lemma cxx_library_proper t ls : cxx_library P t = Some ls -> Forall proper ls /\ ls <> [].
  Proof using U.
    destruct pointers as (_ & _ & _ & E5). pose proof usize_proper as H. pose proof uintptr_usize as E.
    pose proof (arr_proper 3 _ ltac:(lia) H) as A3. pose proof (arr_proper 2 _ ltac:(lia) H) as A2.
    destruct t as [|[] | | | | | | | | | | | | | | |]; cbn -[arr]; try discriminate; intros [= <-]; (split; [|discriminate]); rewrite ?E, ?E5;
      repeat apply Forall_cons; try apply Forall_nil; assumption.
  Qed.
  Lemma pair_struct : exists os, rust_struct [usize P; usize P] = (os, arr 2 (usize P)).
  Proof using U.
    pose proof usize_proper as (A & S_ & (k & D)). eexists. unfold rust_struct. cbn [rust_offsets strictest fold_right]. unfold padding.
    assert (M : 0 mod align (usize P) = 0) by (apply Nat.mod_0_l; lia). rewrite M. cbn [Nat.eqb Nat.add].
    assert (M1 : size (usize P) mod align (usize P) = 0) by (rewrite D; apply Nat.mod_mul; lia). rewrite M1. cbn [Nat.eqb]. rewrite Nat.add_0_r.
    rewrite (Nat.max_l _ 1), Nat.max_id by lia.
    assert (M2 : (size (usize P) + size (usize P)) mod align (usize P) = 0) by (rewrite D, <- Nat.mul_add_distr_r; apply Nat.mod_mul; lia).
    rewrite M2. cbn [Nat.eqb]. rewrite Nat.add_0_r. unfold arr. do 2 f_equal. lia.
  Qed.
  Lemma result_lay : rust_union [snd (rust_struct (result_err P)); result_ok P] = arr 2 (usize P).
  Proof using U.
    destruct pointers as (_ & _ & _ & E5). unfold result_err, result_ok. rewrite E5. destruct pair_struct as (os & ->). cbn [snd].
    pose proof usize_proper as (A & S_ & (k & D)). unfold rust_union. cbn [strictest fold_right arr size align]. rewrite (Nat.max_l _ 1), Nat.max_id by lia.
    rewrite (Nat.max_l (size (usize P)) 0), (Nat.max_l (2 * _)) by lia. unfold padding.
    assert (M : (2 * size (usize P)) mod align (usize P) = 0) by (rewrite D, Nat.mul_assoc; apply Nat.mod_mul; lia).
    rewrite M. cbn [Nat.eqb]. rewrite Nat.add_0_r. reflexivity.
  Qed.
End Platform.

  Lemma two_decls apis a b n ka kb : In a apis -> In b apis -> decl_of n a = [ka] -> decl_of n b = [kb] -> a = b \/
    exists l1 l2 l3, decls n apis = l1 ++ ka :: l2 ++ kb :: l3 \/ decls n apis = l1 ++ kb :: l2 ++ ka :: l3.
  Proof.
    intros I J Ea Eb. unfold decls. apply in_split in I as (pre & post & E). subst apis. rewrite in_app_iff in J. cbn in J.
    destruct J as [J|[J|J]]; [right|left; exact J|right]; apply in_split in J as (x & y & ->); rewrite ?flat_map_app; cbn [flat_map].
    - rewrite Ea, Eb. exists (flat_map (decl_of n) x), (flat_map (decl_of n) y), (flat_map (decl_of n) post).
      right. rewrite <- !app_assoc. cbn. reflexivity.
    - rewrite Ea, ?flat_map_app. cbn [flat_map]. rewrite Eb. exists (flat_map (decl_of n) pre), (flat_map (decl_of n) x), (flat_map (decl_of n) y).
      left. cbn. reflexivity.
  Qed.

Section Accepted.
  Variables (gen : generator) (ord : nat -> list string -> list string) (apis : list api) (T : types) (P : platform).
  Hypothesis Hacc : accepted_bridge gen ord apis T.
  Hypothesis Hprim : primitives_unaliased apis.
  Hypothesis Hnames : names_agree apis.
  Hypothesis Hcyc : ~ has_cycle contains (structs_of apis).
  Hypothesis Hfull : no_empty_arrays apis.
  Hypothesis Hint : integer_reprs apis.
  Hypothesis U : usual P.
  Hypothesis Husers : users_agree P apis.
  Notation rlay := (rust_lay P apis).
  Notation clay := (cxx_lay P T apis).

  (** * Definitions *)
  Lemma nodup : NoDup (map struct_rust (structs_of apis)).
  Proof using Hacc. exact (structs_nodup gen ord apis T Hacc). Qed.
  Lemma same_struct s s' : In (AStruct s) apis -> In (AStruct s') apis -> p_rust (st_name s) = p_rust (st_name s') -> s = s'.
  Proof using Hacc. exact (struct_unique gen ord apis T Hacc s s'). Qed.
  Lemma shapes n : unambiguous (decls n apis) \/ decls n apis = [DkAlias; DkShared] \/
    decls n apis = [DkCxx; DkFromHeader] \/ decls n apis = [DkAlias; DkFromHeader].
  Proof using Hacc. destruct Hacc as [[Ho Hc] _]. apply (C09_duplicates_partial ord apis T [] n Ho Hc). intros []. Qed.
  Lemma one_definition a b n ka kb : In a apis -> In b apis -> decl_of n a = [ka] -> decl_of n b = [kb] ->
    In ka [DkShared; DkFromHeader] -> In kb [DkShared; DkFromHeader] -> a = b.
  Proof using Hacc.
    intros I J Ea Eb Ka Kb. destruct (two_decls apis a b n ka kb I J Ea Eb) as [E|(l1 & l2 & l3 & E)]; [exact E|exfalso].
    assert (C : forall k k', In k [DkShared; DkFromHeader] -> In k' [DkShared; DkFromHeader] -> decls n apis = l1 ++ k :: l2 ++ k' :: l3 -> False).
    { clear -Hacc. intros k k' K K' E. destruct (shapes n) as [[L|[S|S]]|[S|[S|S]]].
      1: (rewrite E, !app_length in L; cbn in L; rewrite app_length in L; cbn in L; lia).
      all: rewrite E in S; destruct l1 as [|? [|? [|? ?]]], l2 as [|? [|? ?]]; cbn in S; try discriminate; injection S as; subst;
        cbn in K, K'; intuition discriminate. }
    destruct E as [E|E]; [exact (C ka kb Ka Kb E)|exact (C kb ka Kb Ka E)].
  Qed.
  Lemma decl_struct s : decl_of (p_rust (st_name s)) (AStruct s) = [DkShared].
  Proof. cbn. rewrite String.eqb_refl. reflexivity. Qed.
  Lemma decl_enum e : exists k, decl_of (p_rust (en_name e)) (AEnum e) = [k] /\ In k [DkShared; DkFromHeader].
  Proof. cbn. rewrite String.eqb_refl. destruct (en_from_header e); eexists; split; try reflexivity; cbn; auto. Qed.
  Lemma struct_enum s e : In (AStruct s) apis -> In (AEnum e) apis -> p_rust (st_name s) = p_rust (en_name e) -> False.
  Proof using Hacc.
    intros I J E. destruct (decl_enum e) as (k & D & K). rewrite <- E in D.
    discriminate (one_definition (AStruct s) (AEnum e) _ _ _ I J (decl_struct s) D (or_introl eq_refl) K).
  Qed.
  Lemma same_enum e e' : In (AEnum e) apis -> In (AEnum e') apis -> p_rust (en_name e) = p_rust (en_name e') -> e = e'.
  Proof using Hacc.
    intros I J E. destruct (decl_enum e) as (k & D & K), (decl_enum e') as (k' & D' & K'). rewrite <- E in D'.
    pose proof (one_definition (AEnum e) (AEnum e') _ _ _ I J D D' K K'). congruence.
  Qed.

  Lemma rust_struct_def x fs : In (x, RustDef ReprC fs) (rust_definitions apis) -> exists s, In (AStruct s) apis /\ p_rust (st_name s) = x /\ fs = rust_fields s.
  Proof.
    unfold rust_definitions. rewrite in_flat_map. intros (a & I & D). destruct a; cbn in D; try (destruct D; fail); destruct D as [D|[]]; [|discriminate].
    injection D as <- <-. eauto.
  Qed.
  Lemma rust_enum_def x f : In (x, RustDef ReprTransparent [f]) (rust_definitions apis) -> exists e, In (AEnum e) apis /\ p_rust (en_name e) = x /\ snd f = RIdent (atom_name (en_repr e)).
  Proof.
    unfold rust_definitions. rewrite in_flat_map. intros (a & I & D). destruct a; cbn in D; try (destruct D; fail); destruct D as [D|[]]; [discriminate|].
    injection D as <- <-. eauto.
  Qed.
  Lemma cxx_known x : smem x (t_cxx T) = true <-> is_cxx_type apis x.
  Proof using Hacc. destruct (acc_facts gen ord apis T Hacc) as (_ & _ & _ & _ & E & _). rewrite E. apply cxx_mem. Qed.
  Lemma cxx_class_def q fs : In (q, CxxClass fs) (cxx_definitions T apis) ->
    exists s, In (AStruct s) apis /\ qualified (st_name s) = q /\ cxx_fields T s = Some fs /\ ~ is_cxx_type apis (p_rust (st_name s)).
  Proof using Hacc.
    unfold cxx_definitions. rewrite in_flat_map. intros (a & I & D). destruct a; cbn in D; try (destruct D; fail).
    - destruct (smem _ _) eqn:M; [destruct D|]. destruct (cxx_fields T s) as [cs|] eqn:C; [|destruct D]. destruct D as [D|[]]. injection D as <- <-.
      exists s. split; [exact I|]. split; [reflexivity|]. split; [exact C|]. rewrite <- cxx_known. congruence.
    - destruct (smem _ _) eqn:M; [destruct D|destruct D as [D|[]]]. discriminate.
  Qed.
  Lemma cxx_enum_def q b : In (q, CxxEnum b) (cxx_definitions T apis) ->
    exists e, In (AEnum e) apis /\ qualified (en_name e) = q /\ en_repr e = b /\ ~ is_cxx_type apis (p_rust (en_name e)).
  Proof using Hacc.
    unfold cxx_definitions. rewrite in_flat_map. intros (a & I & D). destruct a; cbn in D; try (destruct D; fail).
    - destruct (smem _ _) eqn:M; [destruct D|]. destruct (cxx_fields T s); [destruct D as [D|[]]; discriminate|destruct D].
    - destruct (smem _ _) eqn:M; [destruct D|destruct D as [D|[]]]. injection D as <- <-.
      exists e. split; [exact I|]. split; [reflexivity|]. split; [reflexivity|]. rewrite <- cxx_known. congruence.
  Qed.
  Lemma stands_decl x p : stands_for apis x p -> exists a, In a apis /\ decl_name a = Some p /\ p_rust p = x.
  Proof. intros (pre & a & post & Ea & D & E & _). exists a. split; [rewrite Ea; apply in_or_app; right; left; reflexivity|]. auto. Qed.
  Lemma stands_same x p a q : stands_for apis x p -> In a apis -> decl_name a = Some q -> p_rust q = x <-> qualified q = qualified p.
  Proof using Hnames.
    intros S I D. destruct (stands_decl x p S) as (b & J & Db & <-). apply (Hnames a b q p I J D Db).
  Qed.
  Lemma not_builtin x : is_struct apis x \/ is_enum apis x -> forall a, x <> atom_name a.
  Proof using Hacc.
    intros H a ->. apply (C53_builtin_names_partial gen ord apis T (atom_name a) Hacc); [tauto|]. right. exists a. apply atom_from_name.
  Qed.

  (** * Rust layouts are proper *)
  Lemma fields_full s : In (AStruct s) apis -> Forall full (map snd (rust_fields s)).
  Proof using Hfull.
    intros I. unfold rust_fields. rewrite map_map. cbn [snd]. apply Forall_map, Forall_forall. intros f Hf.
    assert (M : forall u, occurs u (v_ty f) -> mentioned apis u) by (intros u O; exact (me_field _ _ s f I Hf O)).
    revert M. induction (v_ty f) using ty_ind'; intros M; cbn; try exact Logic.I. split; [apply (Hfull t), M; constructor|].
    apply IHt. intros u O. apply M. constructor. exact O.
  Qed.
  Lemma fields_some s : In (AStruct s) apis -> st_fields s <> [].
  Proof using Hacc.
    intros I E. pose proof (no_apis gen ord apis T Hacc _ I) as N. cbn in N. unfold check_api_struct in N. rewrite E in N.
    rewrite !app_nil in N. destruct N as (N1 & N2 & N3 & N4 & _). first [discriminate N1|discriminate N2|discriminate N3|discriminate N4].
  Qed.
  Lemma lays_length ts ls : rust_lays P apis ts ls -> List.length ts = List.length ls.
  Proof. induction 1; cbn; congruence. Qed.
  Lemma fields_lays_some s ls : In (AStruct s) apis -> rust_lays P apis (map snd (rust_fields s)) ls -> ls <> [].
  Proof using Hacc.
    intros I R ->. apply lays_length in R. unfold rust_fields in R. rewrite !map_length in R. apply (fields_some s I). destruct (st_fields s); [reflexivity|discriminate].
  Qed.
  Lemma rust_proper_both : (forall r l, rlay r l -> full r -> proper l) /\ (forall rs ls, rust_lays P apis rs ls -> Forall full rs -> Forall proper ls).
  Proof using Hacc Hfull U.
    pose proof (usize_proper P U) as W. pose proof (arr_proper 3 _ ltac:(lia) W) as A3. pose proof (arr_proper 2 _ ltac:(lia) W) as A2.
    destruct (three P U) as (E1 & E2), (two P U) as (E3 & E4), (pointers P U) as (_ & _ & _ & E5).
    apply rust_lay_both; intros; rewrite ?E1, ?E2, ?E3, ?E4, ?E5; try assumption; auto.
    - apply (proj1 U); assumption.
    - destruct (rust_struct_def _ _ H) as (s & I & <- & ->). apply struct_proper; [apply H1, fields_full, I|exact (fields_lays_some s ls I H0)].
    - destruct (rust_enum_def _ _ H) as (e & _ & _ & E). rewrite E in *. apply H1. exact Logic.I.
    - apply (proj1 (proj2 U)).
    - cbn in H1. destruct H1 as (N & F). apply arr_proper; [|auto]. intros Z. apply N. destruct n; [reflexivity|]. pose proof (Pos2Nat.is_pos p). cbn in Z. lia.
    - destruct (library_proper P U _ _ H) as (F & N). apply struct_proper; assumption.
    - rewrite (result_lay P U). exact A2.
    - inversion H3; subst. constructor; auto.
  Qed.

  (** * The same layout *)
  Lemma cxx_single c l0 l : cxx_library P c = Some [l0] -> proper l0 -> forall ls os, cxx_library P c = Some ls -> cxx_struct ls os l -> l = l0.
  Proof.
    intros E R ls os E' S. rewrite E in E'. injection E' as <-. apply struct_same in S; [|constructor; [exact R|constructor]|discriminate].
    rewrite struct_one in S by exact R. congruence.
  Qed.
  Lemma lib_three c l : cxx_library P c = Some [arr 3 (uintptr P)] -> (forall ls os, cxx_library P c = Some ls -> cxx_struct ls os l -> l = arr 3 (usize P)).
  Proof using U.
    intros E. rewrite (uintptr_usize P U) in E. apply (cxx_single _ _ _ E). apply arr_proper; [lia|apply (usize_proper P U)].
  Qed.
  Lemma lib_two c l : cxx_library P c = Some [arr 2 (uintptr P)] -> (forall ls os, cxx_library P c = Some ls -> cxx_struct ls os l -> l = arr 2 (usize P)).
  Proof using U.
    intros E. rewrite (uintptr_usize P U) in E. apply (cxx_single _ _ _ E). apply arr_proper; [lia|apply (usize_proper P U)].
  Qed.
  Lemma lib_pair c l : cxx_library P c = Some [usize P; usize P] -> (forall ls os, cxx_library P c = Some ls -> cxx_struct ls os l -> l = arr 2 (usize P)).
  Proof using U.
    intros E ls os E' S. rewrite E in E'. injection E' as <-. pose proof (usize_proper P U) as W.
    apply struct_same in S; [|repeat apply Forall_cons; try apply Forall_nil; exact W|discriminate]. destruct (pair_struct P U) as (os' & G). congruence.
  Qed.
  Lemma lay_address const c c' l : cxx_address const c c' -> clay c l -> l = usize P.
  Proof using U.
    destruct (pointers P U) as (E1 & _ & _ & E5). intros A L.
    destruct A; inversion L as [| | | |? ? ? [X|X]| | | | |? ? ? ? X Y|]; subst; try congruence; try discriminate X;
      try (cbn in X; discriminate X).
    eapply (cxx_single (CBox t)); [cbn; rewrite E5; reflexivity|apply (usize_proper P U)|exact X|exact Y].
  Qed.
  Lemma lay_atom a l : clay (CAtom a) l -> a <> ARustString /\ a <> ACxxString /\ l = prim P a \/ a = ARustString /\ l = arr 3 (usize P).
  Proof using U.
    intros L. inversion L as [| | | |? ? ? [X|X]| | | | |? ? ? ? X Y|]; subst; try discriminate X; [left; auto|].
    destruct a; try discriminate X. right. split; [reflexivity|]. eapply (lib_three (CAtom ARustString)); [reflexivity|exact X|exact Y].
  Qed.
  Lemma lay_vec c l : clay (CVec c) l -> l = arr 3 (usize P).
  Proof using U.
    intros L. inversion L as [| | | |? ? ? [X|X]| | | | |? ? ? ? X Y|]; subst; try discriminate X. eapply (lib_three (CVec c)); [reflexivity|exact X|exact Y].
  Qed.
  Lemma lay_str l : clay CStr l -> l = arr 2 (usize P).
  Proof using U.
    intros L. inversion L as [| | | |? ? ? [X|X]| | | | |? ? ? ? X Y|]; subst; try discriminate X. eapply (lib_two CStr); [reflexivity|exact X|exact Y].
  Qed.
  Lemma lay_slice k c l : clay (CSlice k c) l -> l = arr 2 (usize P).
  Proof using U.
    intros L. inversion L as [| | | |? ? ? [X|X]| | | | |? ? ? ? X Y|]; subst; try discriminate X. eapply (lib_two (CSlice k c)); [reflexivity|exact X|exact Y].
  Qed.
  Lemma lay_fat l : clay CFat l -> l = arr 2 (usize P).
  Proof using U.
    intros L. inversion L as [| | | |? ? ? [X|X]| | | | |? ? ? ? X Y|]; subst; try discriminate X. unfold fat. rewrite (uintptr_usize P U). reflexivity.
  Qed.
  Lemma lay_fn a r l : clay (CFn a r) l -> l = arr 2 (usize P).
  Proof using U.
    destruct (pointers P U) as (_ & _ & _ & E5).
    intros L. inversion L as [| | | |? ? ? [X|X]| | | | |? ? ? ? X Y|]; subst; try discriminate X. eapply (lib_pair (CFn a r)); [cbn; rewrite E5; reflexivity|exact X|exact Y].
  Qed.
  Lemma lay_ptrlen l : clay CPtrLen l -> l = arr 2 (usize P).
  Proof using U.
    destruct (pointers P U) as (_ & _ & _ & E5).
    intros L. inversion L as [| | | |? ? ? [X|X]| | | | |? ? ? ? X Y|]; subst; try discriminate X. eapply (lib_pair CPtrLen); [cbn; rewrite E5; reflexivity|exact X|exact Y].
  Qed.
  Lemma lay_shared c l : clay (CShared c) l \/ clay (CWeak c) l -> l = arr 2 (usize P).
  Proof using U.
    destruct (pointers P U) as (_ & E2 & E3 & _).
    intros [L|L]; inversion L as [| | | |? ? ? [X|X]| | | | |? ? ? ? X Y|]; subst; try discriminate X; congruence.
  Qed.

  Lemma user_same x p l : stands_for apis x p -> users_type apis (qualified p) -> rlay (RIdent x) l -> cxx_user P (qualified p) = l.
  Proof using Hnames Husers.
    intros S (a & q & I & D & Q & C) L. assert (E : p_rust q = x) by (apply (stands_same x p a q S I D); exact Q).
    rewrite <- Q. apply (Husers a q l I D C). rewrite E. exact L.
  Qed.

  Lemma alike_ident c x : alike apis c (RIdent x) -> (exists a, c = CAtom a /\ x = atom_name a /\ ~ is_alias apis x) \/ (exists p, c = CNamed p /\ ~ is_primitive x /\ stands_for apis x p).
  Proof.
    intros A. inversion A; subst; try (left; eauto; fail); try (right; eauto; fail). exfalso. match goal with H : rust_address _ _ _ |- _ => inversion H end.
  Qed.

  Lemma agree_both : (forall r l, rlay r l -> full r -> forall c lc, alike apis c r -> clay c lc -> lc = l) /\
    (forall rs ls, rust_lays P apis rs ls -> Forall full rs -> forall cs lcs, Forall2 (alike apis) cs rs -> cxx_lays P T apis cs lcs -> lcs = ls).
  Proof using Hacc Hprim Hnames Hfull Hint U Husers.
    pose proof (usize_proper P U) as W. destruct (three P U) as (E1 & E2), (two P U) as (E3 & E4), (pointers P U) as (E6 & E7 & E8 & E5).
    apply rust_lay_both; rewrite ?E1, ?E2, ?E3, ?E4, ?E5.
    - intros a N1 N2 _ _ c lc A L. apply alike_ident in A as [(b & -> & E & _)|(p & -> & N & _)]; [|destruct N; exists a; apply atom_from_name].
      apply atom_name_inj in E as <-. apply lay_atom in L as [(_ & _ & ->)|(E & _)]; [reflexivity|congruence].
    - intros _ _ c lc A L. apply alike_ident in A as [(b & -> & E & _)|(p & -> & N & _)]; [|destruct N; exists ARustString; reflexivity].
      apply (atom_name_inj ARustString) in E as <-. apply lay_atom in L as [(E & _)|(_ & ->)]; [congruence|reflexivity].
    - intros x fs ls D R IH _ c lc A L. pose proof (rl_struct P apis x fs ls D R) as RL.
      destruct (rust_struct_def _ _ D) as (s & I & Ex & ->). assert (Sx : is_struct apis x) by (exists s; auto).
      apply alike_ident in A as [(b & -> & E & _)|(p & -> & N & S)]; [destruct (not_builtin x (or_introl Sx) b E)|].
      inversion L as [|? fs' ls' os ? D' L' C| ? b D'|? Us|? ? ? [X|X]| | | | |? ? ? ? X Y|]; subst; try discriminate X.
      + destruct (cxx_class_def _ _ D') as (s' & I' & Q' & F' & _).
        assert (p_rust (st_name s') = p_rust (st_name s)) by (apply (stands_same _ p (AStruct s') _ S I' eq_refl); exact Q').
        assert (s' = s) by (apply same_struct; assumption). subst s'. destruct (fields_ok gen ord apis T Hacc Hprim s I) as (cs & F & A & _).
        rewrite F in F'. injection F' as <-.
        assert (G : Forall2 (alike apis) (map snd cs) (map snd (rust_fields s))) by (clear -A; induction A; constructor; assumption).
        pose proof (IH (fields_full s I) _ _ G L') as ->. apply struct_same in C.
        * rewrite C. reflexivity.
        * apply (proj2 rust_proper_both _ _ R). apply fields_full, I.
        * exact (fields_lays_some s ls I R).
      + destruct (cxx_enum_def _ _ D') as (e & I' & Q' & _). exfalso. apply (struct_enum s e I I').
        symmetry. apply (stands_same _ p (AEnum e) _ S I' eq_refl). exact Q'.
      + exact (user_same _ p _ S Us RL).
    - intros x f l D R IH _ c lc A L. pose proof (rl_transparent P apis x f l D R) as RL.
      destruct (rust_enum_def _ _ D) as (e & I & Ex & Ef). assert (Sx : is_enum apis x) by (exists e; auto).
      apply alike_ident in A as [(b & -> & E & _)|(p & -> & N & S)]; [destruct (not_builtin x (or_intror Sx) b E)|].
      inversion L as [|? fs' ls' os ? D' L' C| ? b D'|? Us|? ? ? [X|X]| | | | |? ? ? ? X Y|]; subst; try discriminate X.
      + destruct (cxx_class_def _ _ D') as (s' & I' & Q' & F' & _). exfalso. apply (struct_enum s' e I' I).
        apply (stands_same _ p (AStruct s') _ S I' eq_refl). exact Q'.
      + destruct (cxx_enum_def _ _ D') as (e' & I' & Q' & <- & _).
        assert (p_rust (en_name e') = p_rust (en_name e)) by (apply (stands_same _ p (AEnum e') _ S I' eq_refl); exact Q').
        assert (e' = e) by (apply same_enum; assumption). subst e'. rewrite Ef in *. destruct (Hint e I) as (N1 & N2).
        apply (IH Logic.I (CAtom (en_repr e))); [|constructor; assumption]. constructor. intros Al. apply (Hprim _ Al). exists (en_repr e). apply atom_from_name.
      + exact (user_same _ p _ S Us RL).
    - intros x Al _ c lc A L. pose proof (rl_user P apis x Al) as RL.
      apply alike_ident in A as [(b & -> & E & Na)|(p & -> & N & S)]; [destruct (Na Al)|].
      assert (Cx : is_cxx_type apis x) by (right; left; exact Al).
      inversion L as [|? fs' ls' os ? D' L' C| ? b D'|? Us|? ? ? [X|X]| | | | |? ? ? ? X Y|]; subst; try discriminate X.
      + destruct (cxx_class_def _ _ D') as (s' & I' & Q' & F' & Nc). exfalso. apply Nc.
        replace (p_rust (st_name s')) with x; [exact Cx|]. symmetry. apply (stands_same _ p (AStruct s') _ S I' eq_refl). exact Q'.
      + destruct (cxx_enum_def _ _ D') as (e' & I' & Q' & _ & Nc). exfalso. apply Nc.
        replace (p_rust (en_name e')) with x; [exact Cx|]. symmetry. apply (stands_same _ p (AEnum e') _ S I' eq_refl). exact Q'.
      + exact (user_same _ p _ S Us RL).
    - intros m t u Ht _ c lc A L. destruct Ht as [ ->|[ ->| ->]]; inversion A; subst;
        try (match goal with H : rust_address _ _ _ |- _ => inversion H; subst; eapply lay_address; eassumption end).
      inversion L as [| | | |? ? ? [X|X]| | | | |? ? ? ? X Y|]; subst; try discriminate X; congruence.
    - intros t _ c lc A L. inversion A as [| |? ? A'| | | | | | |? ? ? ? ? H1 H2| | | | | | | | |]; subst; [|inversion H2]. apply (lay_vec _ _ L).
    - intros _ c lc A L. inversion A as [| | | | | | | | |? ? ? ? ? H1 H2| | | | | | | | |]; subst; [|inversion H2]. apply (lay_str _ L).
    - intros m t _ c lc A L. inversion A as [| | | | | | | | |? ? ? ? ? H1 H2| | | | | | | | |]; subst; [|inversion H2]. apply (lay_slice _ _ _ L).
    - intros t n l R IH (N & F) c lc A L. inversion A as [| | | | | | | |? ? ? A'|? ? ? ? ? H1 H2| | | | | | | | |]; subst; [|inversion H2].
      inversion L as [| | | |? ? ? [X|X]| | | |? ? ? Nz L'|? ? ? ? X Y|]; subst; try discriminate X. f_equal. exact (IH F _ _ A' L').
    - intros t ls E _ c lc A L.
      assert (O2 : snd (rust_struct [arr 2 (usize P)]) = arr 2 (usize P)) by (rewrite struct_one; [reflexivity|apply arr_proper; [lia|exact W]]).
      assert (O3 : snd (rust_struct [arr 3 (usize P)]) = arr 3 (usize P)) by (rewrite struct_one; [reflexivity|apply arr_proper; [lia|exact W]]).
      assert (O1 : snd (rust_struct [usize P]) = usize P) by (rewrite struct_one; [reflexivity|exact W]).
      pose proof (words P U 3 ltac:(lia)) as W3. pose proof (words P U 2 ltac:(lia)) as W2.
      destruct t; cbn -[arr] in E; try discriminate E; injection E as <-; rewrite ?E1, ?E2, ?E3, ?E4, ?E5; cbn [size arr]; rewrite ?W3, ?W2;
        fold (arr 2 (usize P)); fold (arr 3 (usize P)); rewrite ?O1, ?O2, ?O3;
        inversion A; subst; try (match goal with H : rust_address _ _ _ |- _ => inversion H; subst; eapply lay_address; eassumption end);
        try (eapply lay_shared; eauto; fail).
      + apply lay_atom in L as [(N & _)|(_ & L)]; [congruence|exact L].
      + exact (lay_vec _ _ L).
      + exact (lay_str _ L).
      + exact (lay_fat _ L).
      + exact (lay_slice _ _ _ L).
      + exact (lay_fat _ L).
      + destruct (pair_struct P U) as (os & ->). exact (lay_fn _ _ _ L).
    - intros _ c lc A L. rewrite (result_lay P U). inversion A; subst; try (match goal with H : rust_address _ _ _ |- _ => inversion H end). exact (lay_ptrlen _ L).
    - intros _ cs lcs A L. inversion A; subst. inversion L; subst. reflexivity.
    - intros t l ts ls R IH Rs IHs F cs lcs A L. inversion F; subst. inversion A; subst. inversion L; subst. f_equal; [eapply IH; eassumption|eapply IHs; eassumption].
  Qed.

  (** * Every value has a layout *)
  Lemma one_member c l0 : cxx_library P c = Some [l0] -> proper l0 -> clay c l0.
  Proof.
    intros E R. apply (cl_library P T apis c [l0] [0] l0 E). apply struct_same; [constructor; [exact R|constructor]|discriminate|apply struct_one, R].
  Qed.
  Definition has_lay (t : ty) : Prop := forall c, cxx_type T t = Some c -> (forall u, inline_in u t -> ~ unsized apis u) -> full (quote_type t) ->
    exists l, clay c l /\ rlay (quote_type t) l.
  Lemma fields_lay fs cs : (forall f, In f fs -> has_lay (v_ty f)) -> (forall f, In f fs -> forall u, inline_in u (v_ty f) -> ~ unsized apis u) ->
    (forall f, In f fs -> full (quote_type (v_ty f))) ->
    otraverse (fun f => option_map (pair (p_cxx (v_name f))) (cxx_type T (v_ty f))) fs = Some cs ->
    exists ls, cxx_lays P T apis (map snd cs) ls /\ rust_lays P apis (map (fun f => quote_type (v_ty f)) fs) ls.
  Proof.
    revert cs. induction fs as [|f fs IH]; intros cs H N F E; cbn in E; [injection E as <-; exists []; split; constructor|].
    destruct (cxx_type T (v_ty f)) as [c|] eqn:Ec; [|discriminate]. cbn in E. fold (otraverse (fun f => option_map (pair (p_cxx (v_name f))) (cxx_type T (v_ty f)))) in E.
    destruct (otraverse _ fs) as [cs'|] eqn:Es; [|discriminate]. injection E as <-.
    destruct (H f (or_introl eq_refl) c Ec (N f (or_introl eq_refl)) (F f (or_introl eq_refl))) as (l & L1 & L2).
    destruct (IH cs') as (ls & L3 & L4); [intros; apply H; right; assumption|intros ? ?; apply N; right; assumption|intros; apply F; right; assumption|reflexivity|].
    exists (l :: ls). split; constructor; assumption.
  Qed.
  Lemma struct_fields_lay s : In (AStruct s) apis -> (forall f, In f (st_fields s) -> has_lay (v_ty f)) ->
    exists cs ls, cxx_fields T s = Some cs /\ cxx_lays P T apis (map snd cs) ls /\ rust_lays P apis (map snd (rust_fields s)) ls.
  Proof using Hacc Hprim Hfull.
    intros I H. destruct (fields_ok gen ord apis T Hacc Hprim s I) as (cs & E & _). exists cs.
    destruct (fields_lay (st_fields s) cs H) as (ls & L1 & L2).
    - intros f Hf. apply (unsized_ok gen ord apis T Hacc). apply (field_sized gen ord apis T Hacc s f I Hf).
    - pose proof (fields_full s I) as F. unfold rust_fields in F. rewrite map_map in F. cbn [snd] in F. rewrite Forall_map, Forall_forall in F. exact F.
    - exact E.
    - exists ls. split; [exact E|]. split; [exact L1|]. unfold rust_fields. rewrite map_map. exact L2.
  Qed.
  Lemma def_rust s : In (AStruct s) apis -> In (p_rust (st_name s), RustDef ReprC (rust_fields s)) (rust_definitions apis).
  Proof. intros I. unfold rust_definitions. rewrite in_flat_map. exists (AStruct s). split; [exact I|left; reflexivity]. Qed.
  Lemma def_cxx s cs : In (AStruct s) apis -> ~ is_cxx_type apis (p_rust (st_name s)) -> cxx_fields T s = Some cs ->
    In (qualified (st_name s), CxxClass cs) (cxx_definitions T apis).
  Proof using Hacc.
    intros I N E. unfold cxx_definitions. rewrite in_flat_map. exists (AStruct s). split; [exact I|]. cbn. rewrite E.
    destruct (smem _ _) eqn:M; [|left; reflexivity]. apply cxx_known in M. destruct (N M).
  Qed.
  Lemma lays_proper s ls : In (AStruct s) apis -> rust_lays P apis (map snd (rust_fields s)) ls -> Forall proper ls /\ ls <> [].
  Proof using Hacc Hfull U.
    intros I R. split; [|exact (fields_lays_some s ls I R)]. apply (proj2 rust_proper_both _ _ R). apply fields_full, I.
  Qed.
  Lemma user_lay x p l : stands_for apis x p -> is_cxx_type apis x -> rlay (RIdent x) l -> clay (CNamed p) l.
  Proof using Hnames Husers.
    intros S C R. destruct (stands_decl x p S) as (a & I & D & E).
    assert (Us : users_type apis (qualified p)) by (exists a, p; repeat split; [exact I|exact D|rewrite E; exact C]).
    rewrite <- (user_same x p l S Us R). constructor. exact Us.
  Qed.
  Lemma cxx_or x : is_cxx_type apis x \/ ~ is_cxx_type apis x.
  Proof using Hacc. rewrite <- cxx_known. destruct (smem x (t_cxx T)); auto. Qed.

  Lemma last_enum_dec x : is_enum apis x \/ ~ is_enum apis x.
  Proof using Hacc. rewrite <- (enums_ok gen ord apis T Hacc). destruct (in_enums T x); auto. Qed.
  Lemma alias_dec x : is_alias apis x \/ ~ is_alias apis x.
  Proof using Hacc. rewrite <- (aliases_ok gen ord apis T Hacc). destruct (in_aliases T x); auto. Qed.

  Lemma prim_free a : ~ is_alias apis (atom_name a).
  Proof using Hprim. intros H. apply (Hprim _ H). exists a. apply atom_from_name. Qed.
  Lemma every_lay t : has_lay t.
  Proof using Hacc Hprim Hnames Hcyc Hfull Hint U Husers.
    pose proof (usize_proper P U) as W. pose proof (arr_proper 3 _ ltac:(lia) W) as A3. pose proof (arr_proper 2 _ ltac:(lia) W) as A2.
    destruct (three P U) as (E1 & E2), (two P U) as (E3 & E4), (pointers P U) as (E6 & E7 & E8 & E5). pose proof (uintptr_usize P U) as E9.
    apply (inline_ind apis nodup Hcyc has_lay); clear t.
    - intros t Ni Na c C N F. destruct t; try (destruct (Ni _ eq_refl)); try (destruct (Na _ _ eq_refl)); cbn [quote_type];
        try (exfalso; eapply (N _ (ii_self _)); constructor; fail);
        cbn in C; try (destruct (cxx_type T t) as [c'|]; [|discriminate C]; cbn in C); injection C as <-.
      + exists (usize P). split; [apply one_member; [cbn; rewrite E5; reflexivity|exact W]|rewrite <- E5; eapply (rl_address P apis true); eauto].
      + exists (arr 3 (usize P)). split; [apply one_member; [cbn -[arr]; rewrite E9; reflexivity|exact A3]|rewrite <- E2; constructor].
      + exists (usize P). split; [rewrite <- E6; constructor|]. pose proof (rl_library P apis (RUnique (quote_type t)) _ eq_refl) as L.
        rewrite E5, (struct_one _ W) in L. exact L.
      + exists (arr 2 (usize P)). split; [rewrite <- E7; constructor|]. pose proof (rl_library P apis (RShared (quote_type t)) _ eq_refl) as L.
        rewrite E5, (struct_one _ A2) in L. exact L.
      + exists (arr 2 (usize P)). split; [rewrite <- E8; constructor|]. pose proof (rl_library P apis (RWeak (quote_type t)) _ eq_refl) as L.
        rewrite E5, (struct_one _ A2) in L. exact L.
      + exists (usize P). rewrite <- E5. split; [eapply cl_pointer; eauto|eapply rl_address; eauto].
      + exists (usize P). rewrite <- E5. split; [eapply cl_pointer; eauto|eapply rl_address; eauto].
      + exists (arr 2 (usize P)). split; [apply one_member; [cbn -[arr]; rewrite E9; reflexivity|exact A2]|rewrite <- E3; constructor].
      + exists (arr 2 (usize P)). split; [apply one_member; [cbn -[arr]; rewrite E9; reflexivity|exact A2]|rewrite <- E4; constructor].
    - intros n Ns c C N F. cbn [quote_type]. cbn in C. specialize (N _ (ii_self _)). destruct (atom_from_str (n_rust n)) as [a|] eqn:Ea.
      + injection C as <-. pose proof (atom_name_inv _ _ Ea) as En. rewrite En.
        assert (Da : {a = ARustString} + {a <> ARustString}) by (destruct a; ((left; reflexivity) || (right; discriminate))). destruct Da as [->|N1].
        * exists (arr 3 (usize P)). split; [apply one_member; [cbn -[arr]; rewrite E9; reflexivity|exact A3]|rewrite <- E1; constructor; apply (prim_free ARustString)].
        * assert (N2 : a <> ACxxString) by (intros ->; apply N; constructor; exact En). exists (prim P a). split; constructor; try assumption. apply prim_free.
      + destruct (resolve_name T (n_rust n)) as [p|] eqn:R; [|discriminate]. injection C as <-. apply (resolve_stands gen ord apis T Hacc) in R.
        destruct (stands_decl _ _ R) as (a & I & D & E).
        assert (Un : forall l, is_cxx_type apis (n_rust n) -> rlay (RIdent (n_rust n)) l -> exists l, clay (CNamed p) l /\ rlay (RIdent (n_rust n)) l)
          by (intros l X Y; exists l; split; [exact (user_lay _ p l R X Y)|exact Y]).
        assert (En : forall e, In (AEnum e) apis -> p_rust (en_name e) = n_rust n -> exists l, clay (CNamed p) l /\ rlay (RIdent (n_rust n)) l).
        { intros e Ie Ee. destruct (Hint e Ie) as (N1 & N2).
          assert (RL : rlay (RIdent (n_rust n)) (prim P (en_repr e))).
          { apply (rl_transparent P apis _ ("repr"%string, RIdent (atom_name (en_repr e)))); [|constructor; [assumption|assumption|apply prim_free]].
            unfold rust_definitions. rewrite in_flat_map. exists (AEnum e). split; [exact Ie|]. cbn. rewrite Ee. left. reflexivity. }
          destruct (cxx_or (n_rust n)) as [Cx|Nx]; [exact (Un _ Cx RL)|]. exists (prim P (en_repr e)). split; [|exact RL]. apply cl_enum.
          replace (qualified p) with (qualified (en_name e)) by (apply (stands_same _ p (AEnum e) _ R Ie eq_refl); exact Ee).
          unfold cxx_definitions. rewrite in_flat_map. exists (AEnum e). split; [exact Ie|]. cbn. destruct (smem _ _) eqn:M; [|left; reflexivity].
          apply cxx_known in M. rewrite Ee in M. destruct (Nx M). }
        assert (Al : is_alias apis (n_rust n) -> exists l, clay (CNamed p) l /\ rlay (RIdent (n_rust n)) l)
          by (intros X; apply (Un (rust_user P (n_rust n))); [right; left; exact X|constructor; exact X]).
        destruct a; try discriminate D; injection D as <-.
        * destruct Ns. eexists. split; [exact I|exact E].
        * apply (En _ I E).
        * destruct (last_enum_dec (n_rust n)) as [(e & Ie & Ee)|Ne]; [exact (En e Ie Ee)|].
          destruct (alias_dec (n_rust n)) as [X|X]; [exact (Al X)|]. exfalso. apply N. apply un_cxx. split; [left; eauto|]. auto.
        * exfalso. apply N. apply un_rust. eexists. split; [exact I|exact E].
        * apply Al. eexists. split; [exact I|exact E].
    - intros n s I Es H c C N F. cbn [quote_type]. cbn in C. destruct (atom_from_str (n_rust n)) as [a|] eqn:Ea.
      { exfalso. apply (not_builtin (n_rust n)) with (a := a); [left; exists s; auto|apply atom_name_inv, Ea]. }
      destruct (resolve_name T (n_rust n)) as [p|] eqn:R; [|discriminate]. injection C as <-. apply (resolve_stands gen ord apis T Hacc) in R.
      destruct (struct_fields_lay s I H) as (cs & ls & Ec & L1 & L2). destruct (lays_proper s ls I L2) as (Fp & Nn).
      assert (RL : rlay (RIdent (n_rust n)) (snd (rust_struct ls))) by (rewrite <- Es; eapply rl_struct; [apply def_rust, I|exact L2]).
      exists (snd (rust_struct ls)). split; [|exact RL]. destruct (cxx_or (n_rust n)) as [Cx|Nx]; [exact (user_lay _ p _ R Cx RL)|].
      destruct (rust_struct ls) as [os l] eqn:Er. apply (cl_class P T apis p cs ls os l); [|exact L1|apply struct_same; assumption].
      replace (qualified p) with (qualified (st_name s)) by (apply (stands_same _ p (AStruct s) _ R I eq_refl); exact Es).
      apply def_cxx; [exact I|rewrite Es; exact Nx|exact Ec].
    - intros t k H c C N F. cbn in C. destruct (cxx_type T t) as [c'|] eqn:Ec; [|discriminate]. injection C as <-. cbn in F. destruct F as (Nk & F).
      destruct (H c' Ec) as (l & L1 & L2); [intros u Hu; apply N; constructor; exact Hu|exact F|].
      exists (arr (N.to_nat k) l). split; constructor; assumption.
  Qed.
End Accepted.
