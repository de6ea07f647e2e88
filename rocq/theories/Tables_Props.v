(** C50: the containers of primitive types that a bridge may use are there at run time.
    Specification: Tables_Spec.v. *)
From Verif Require Import Base Syntax_Model TypeEq_Model Types_Model Types_Spec Types_Proofs3 Check_Model Check_Spec
  Check_Proofs Check_Proofs2 Check_Props Uses_Proofs2 Uses_Proofs3 Tables_Model Tables_Spec.

(** ** Auxiliary *)
Lemma NoDup_key {A B} (g : A -> B) l a b : NoDup (map g l) -> In a l -> In b l -> g a = g b -> a = b.
Proof.
  induction l as [|x l IH]; cbn; [tauto|]. intros N [->|Ha] [->|Hb] E; inversion N; subst; auto.
  - exfalso. apply H1. rewrite E. apply in_map, Hb.
  - exfalso. apply H1. rewrite <- E. apply in_map, Ha.
Qed.
Fixpoint nodupb (l : list string) : bool := match l with [] => true | x :: l => negb (smem x l) && nodupb l end.
Lemma nodupb_ok l : nodupb l = true -> NoDup l.
Proof.
  induction l as [|x l IH]; cbn; [constructor|]. rewrite andb_true_iff, negb_true_iff, smem_false. intros [H1 H2]. constructor; auto.
Qed.
Lemma cfund_eqb_ok a b : cfund_eqb a b = true <-> a = b.
Proof. destruct a, b; cbn; split; congruence. Qed.

Lemma links_nodup : NoDup (map (fun d => link (fst d)) cxx_defs ++ map (fun d => link (fst d)) cxx_decls).
Proof. apply nodupb_ok. vm_compute. reflexivity. Qed.
Lemma defs_nodup : NoDup (map (fun d => link (fst d)) cxx_defs).
Proof. apply nodupb_ok. vm_compute. reflexivity. Qed.
Lemma rust_nodup : NoDup (map (fun d => link (fst d)) rust_defs).
Proof. apply nodupb_ok. vm_compute. reflexivity. Qed.

Lemma written_repr p r : conforming p -> c_repr p (written p r) = r_repr p r.
Proof.
  intros C. destruct r as [a|]; [destruct a|]; cbn; try (apply C); try reflexivity.
  unfold c_repr. cbn. rewrite (cf_char p C). reflexivity.
Qed.

(** ** rust::Vec *)
Definition word_sized (p : platform) : Prop := p_ptr_bits p = 32%N \/ p_ptr_bits p = 64%N.

Section Vec_.
  Context (p : platform) (C : conforming p) (W : word_sized p).

  Lemma if_unique_cases t a b i : (t = a \/ t = b) /\ if_unique t a b i = i \/ t <> a /\ t <> b /\ if_unique t a b i = t.
  Proof.
    unfold if_unique. destruct (cfund_eqb t a) eqn:E1; [left; apply cfund_eqb_ok in E1; auto|].
    destruct (cfund_eqb t b) eqn:E2; [left; apply cfund_eqb_ok in E2; auto|]. right.
    repeat split; auto; intros E; apply cfund_eqb_ok in E; congruence.
  Qed.

  Lemma char_repr : c_repr p f_char = RInt (p_char_signed p) 8.
  Proof. unfold c_repr. cbn. rewrite (cf_char p C). reflexivity. Qed.

  Lemma rows_nodup : NoDup (map (fun x => ctype p (snd x)) for_each_rust_vec).
  Proof.
    pose proof char_repr as Hc. destruct C. cbn [for_each_rust_vec for_each_numeric app map snd ctype].
    assert (Hw : p_ptr_bits p <> 8%N /\ p_ptr_bits p <> 16%N) by (destruct W as [-> | ->]; split; discriminate).
    destruct Hw as [Hw1 Hw2].
    destruct (if_unique_cases f_char (p_uint8 p) (p_int8 p) f_char_ignore) as [[_ ->]|[N1 [N2 ->]]];
    destruct (if_unique_cases (p_size_t p) (p_uint64 p) (p_uint32 p) f_usize_ignore) as [[_ ->]|[N3 [N4 ->]]];
    destruct (if_unique_cases (p_isize p) (p_int64 p) (p_int32 p) f_isize_ignore) as [[_ ->]|[N5 [N6 ->]]];
    repeat (apply NoDup_cons; [cbn [In]; intros I; repeat (destruct I as [I|I]; [first [congruence | discriminate I |
      apply (f_equal (c_repr p)) in I; cbn in I; congruence]|]); exact I|]); constructor.
  Qed.

  Lemma members_names : forall r, map fst (rust_vec_ops r) = map fst members.
  Proof. reflexivity. Qed.
  Lemma product_nodup (l : list (string * cname)) : NoDup (map (fun x => ctype p (snd x)) l) ->
    NoDup (map (fun x : cname * (string * string) => (ctype p (fst x), fst (snd x)))
               (flat_map (fun rc => map (fun m => (snd rc, m)) (rust_vec_ops (fst rc))) l)).
  Proof.
    induction l as [|[r c] l IH]; intros N; [constructor|]. cbn [map snd] in N. apply NoDup_cons_iff in N. destruct N as [N1 N2]. specialize (IH N2).
    cbn [flat_map]. rewrite map_app, map_map. cbn [fst snd].
    rewrite <- (map_map fst (fun m => (ctype p c, m))), members_names.
    assert (G : forall ms, NoDup ms -> NoDup (map (fun m => (ctype p c, m)) ms ++
      map (fun x : cname * (string * string) => (ctype p (fst x), fst (snd x))) (flat_map (fun rc => map (fun m => (snd rc, m)) (rust_vec_ops (fst rc))) l))).
    { induction ms as [|m ms IHm]; intros Nm; [exact IH|]. inversion Nm; subst. cbn [map app]. constructor; [|auto].
      rewrite in_app_iff. intros [I|I].
      - apply in_map_iff in I. destruct I as [m' [E I]]. injection E as ->. contradiction.
      - apply in_map_iff in I. destruct I as [[c' m'] [E I]]. cbn in E. injection E as E1 E2.
        apply in_flat_map in I. destruct I as [[r' c''] [I1 I2]]. apply in_map_iff in I2. destruct I2 as [m'' [E3 _]]. cbn in E3. injection E3 as -> ->.
        apply N1. rewrite <- E1. apply (in_map (fun x => ctype p (snd x)) _ (r', c') I1). }
    apply G. apply nodupb_ok. reflexivity.
  Qed.
  Lemma members_nodup : NoDup (map (fun x => (ctype p (fst x), fst (snd x))) cxx_members).
  Proof. apply product_nodup, rows_nodup. Qed.

  (** One row of the table provides everything. *)
  Lemma row_usable r seg ct r' : ctype p ct = written p r -> r_repr p r' = r_repr p r ->
    In (seg, ct) for_each_rust_vec -> (forall f, In f (rust_vec_externs seg) -> In (f, r') rust_defs) -> usable_from_cxx p r.
  Proof.
    intros E1 E2 I1 I2 m op Im.
    assert (D : exists f, In f (rust_vec_externs seg) /\ In (m, link f) (rust_vec_ops seg) /\ link f = ("cxxbridge1$rust_vec$" ++ seg ++ "$" ++ op)%string).
    { cbn [members In] in Im.
      repeat (destruct Im as [Im|Im];
        [injection Im as <- <-;
         match goal with |- exists f, _ /\ _ /\ link f = ?l => eexists (Fn_ l _ _) end;
         (split; [cbn [rust_vec_externs In]; repeat (first [left; reflexivity | right])|]); split;
         [cbn [rust_vec_ops In link]; repeat (first [left; reflexivity | right])|reflexivity]|]). destruct Im. }
    destruct D as [f [D1 [D2 D3]]]. exists ct, seg, f, r'.
    assert (Im' : In (ct, (m, link f)) cxx_members).
    { apply in_flat_map. exists (seg, ct). split; [exact I1|]. apply (in_map (fun m => (ct, m))), D2. }
    split; [exact Im'|]. split; [exact E1|]. split.
    { intros ct' l I3 E3. pose proof (NoDup_key _ _ _ _ members_nodup I3 Im') as K. cbn in K. rewrite E3, E1 in K. specialize (K eq_refl).
      injection K as -> ->. auto. }
    split; [exact D3|]. split.
    { apply in_flat_map. exists (seg, ct). split; [exact I1|]. apply (in_map (fun f => (f, ct))), D1. }
    split; [apply I2, D1|]. split; [|split; [apply written_repr, C|exact E2]].
    intros d Id El. exact (NoDup_key _ _ _ _ rust_nodup Id (I2 _ D1) El).
  Qed.
  Lemma shims_in a : In a [ABool; AU8; AU16; AU32; AU64; AUsize; AI8; AI16; AI32; AI64; AIsize; AF32; AF64] ->
    forall f, In f (rust_vec_externs (atom_name a)) -> In (f, RAtom a) rust_defs.
  Proof.
    intros Ia f If. apply in_or_app. left. apply in_flat_map. exists a. split; [exact Ia|].
    apply (in_map (fun f => (f, RAtom a))), If.
  Qed.

  Ltac simple_row a := apply (row_usable _ (atom_name a) (write_atom a) (RAtom a)); [reflexivity|reflexivity|cbn; tauto|apply shims_in; cbn; tauto].
  Ltac other_row a := apply (row_usable _ (atom_name a) (write_atom a) (RAtom a)); [| |cbn; tauto|apply shims_in; cbn; tauto].

  Lemma vec_usable r : r <> RAtom ACxxString -> usable_from_cxx p r.
  Proof.
    intros N. destruct r as [a|].
    2: { apply (row_usable _ "str" c_rust_Str RRefStr); [reflexivity|reflexivity|cbn; tauto|]. intros f If. do 3 (apply in_or_app; right). apply (in_map (fun f => (f, RRefStr))), If. }
    pose proof char_repr as Hc. destruct a; try congruence.
    - simple_row ABool.
    - destruct (if_unique_cases f_char (p_uint8 p) (p_int8 p) f_char_ignore) as [[[E|E] _]|[_ [_ E]]].
      + other_row AU8; cbn; [symmetry; exact E|]. rewrite E, (cf_u8 p C) in Hc. exact Hc.
      + other_row AI8; cbn; [symmetry; exact E|]. rewrite E, (cf_i8 p C) in Hc. exact Hc.
      + apply (row_usable _ "char" c_char_if_unique (RAtom AChar)); [exact E|reflexivity|cbn; tauto|].
        intros f If. apply in_or_app. right. apply in_or_app. left. apply (in_map (fun f => (f, RAtom AChar))), If.
    - simple_row AU8.
    - simple_row AU16.
    - simple_row AU32.
    - simple_row AU64.
    - destruct (if_unique_cases (p_size_t p) (p_uint64 p) (p_uint32 p) f_usize_ignore) as [[[E|E] _]|[_ [_ E]]].
      + other_row AU64; cbn; [symmetry; exact E|]. pose proof (cf_size p C) as H. rewrite E, (cf_u64 p C) in H. exact H.
      + other_row AU32; cbn; [symmetry; exact E|]. pose proof (cf_size p C) as H. rewrite E, (cf_u32 p C) in H. exact H.
      + apply (row_usable _ "usize" c_usize_if_unique (RAtom AUsize)); [exact E|reflexivity|cbn; tauto|]. apply (shims_in AUsize). cbn; tauto.
    - simple_row AI8.
    - simple_row AI16.
    - simple_row AI32.
    - simple_row AI64.
    - destruct (if_unique_cases (p_isize p) (p_int64 p) (p_int32 p) f_isize_ignore) as [[[E|E] _]|[_ [_ E]]].
      + other_row AI64; cbn; [symmetry; exact E|]. pose proof (cf_isize p C) as H. rewrite E, (cf_i64 p C) in H. exact H.
      + other_row AI32; cbn; [symmetry; exact E|]. pose proof (cf_isize p C) as H. rewrite E, (cf_i32 p C) in H. exact H.
      + apply (row_usable _ "isize" c_isize_if_unique (RAtom AIsize)); [exact E|reflexivity|cbn; tauto|]. apply (shims_in AIsize). cbn; tauto.
    - simple_row AF32.
    - simple_row AF64.
    - apply (row_usable _ "string" c_rust_String (RAtom ARustString)); [reflexivity|reflexivity|cbn; tauto|].
      intros f If. do 2 (apply in_or_app; right). apply in_or_app. left. apply (in_map (fun f => (f, RAtom ARustString))), If.
  Qed.
End Vec_.

(** ** Containers implemented in C++ *)
Definition shape_eqb (a b : shape) : bool := match a, b with Ptr, Ptr | Word, Word => true | _, _ => false end.
Fixpoint shapes_eqb (a b : list shape) : bool :=
  match a, b with [], [] => true | x :: a, y :: b => shape_eqb x y && shapes_eqb a b | _, _ => false end.
Definition oshape_eqb (a b : option shape) : bool :=
  match a, b with None, None => true | Some x, Some y => shape_eqb x y | _, _ => false end.
Definition fn_eqb (f g : fn_) : bool := String.eqb (link f) (link g) && shapes_eqb (params f) (params g) && oshape_eqb (result f) (result g).
Lemma fn_eqb_ok f g : fn_eqb f g = true -> f = g.
Proof.
  destruct f as [l ps r], g as [l' ps' r']. unfold fn_eqb. cbn. rewrite !andb_true_iff. intros [[H1 H2] H3].
  apply String.eqb_eq in H1. subst. f_equal.
  - revert ps' H2. induction ps as [|x ps IH]; intros [|y ps']; cbn; try discriminate; [reflexivity|].
    rewrite andb_true_iff. intros [H1 H2]. f_equal; [destruct x, y; cbn in H1; congruence|auto].
  - destruct r as [[]|], r' as [[]|]; cbn in H3; congruence.
Qed.
Definition cname_eqb (a b : cname) : bool :=
  match a, b with
  | c_uint8_t, c_uint8_t | c_uint16_t, c_uint16_t | c_uint32_t, c_uint32_t | c_uint64_t, c_uint64_t
  | c_int8_t, c_int8_t | c_int16_t, c_int16_t | c_int32_t, c_int32_t | c_int64_t, c_int64_t
  | c_float, c_float | c_double, c_double | c_bool, c_bool | c_char, c_char | c_size_t, c_size_t | c_isize, c_isize
  | c_std_string, c_std_string | c_rust_String, c_rust_String | c_rust_Str, c_rust_Str => true
  | _, _ => false
  end.
Lemma cname_eqb_ok a b : cname_eqb a b = true -> a = b.
Proof. destruct a, b; cbn; congruence. Qed.
(** The definitions provide the functions for the type. *)
Definition defines (ct : cname) (fns : list fn_) : bool :=
  forallb (fun f => existsb (fun d => fn_eqb f (fst d) && cname_eqb ct (snd d)) cxx_defs) fns.
Lemma impl_usable p c a fns : conforming p -> In (RAtom a, fns) (impls c) ->
  NoDup (map fst (impls c)) -> forallb (fun l => smem l (map link fns)) (needed c (RAtom a)) = true ->
  defines (write_atom a) fns = true -> usable_from_rust p c (RAtom a).
Proof.
  intros C I N H1 H2. exists fns. split; [exact I|]. split.
  { intros fns' I'. pose proof (NoDup_key fst _ _ _ N I' I eq_refl) as K. injection K as ->. reflexivity. }
  split. { intros l Il. rewrite forallb_forall in H1. apply smem_In, H1, Il. }
  split; [|apply written_repr, C]. intros f If. unfold defines in H2. rewrite forallb_forall in H2. specialize (H2 f If).
  rewrite existsb_exists in H2. destruct H2 as [[g ct] [Id E]]. cbn in E. rewrite andb_true_iff in E. destruct E as [E1 E2].
  apply fn_eqb_ok in E1. apply cname_eqb_ok in E2. subst g ct. exists (write_atom a). split; [exact Id|]. split; [|reflexivity].
  intros d Id' El. exact (NoDup_key _ _ _ _ defs_nodup Id' Id El).
Qed.
Lemma rtypes_nodup c : NoDup (map fst (impls c)).
Proof. destruct c; cbn; repeat (apply NoDup_cons; [cbn [In]; intros I; repeat (destruct I as [I|I]; [discriminate I|]); exact I|]); constructor. Qed.

(** What the type checker lets through. *)
Definition offered (c : container) (r : rtype) : Prop :=
  match c, r with
  | CVec_, RAtom a => a <> ACxxString
  | CVec_, RRefStr => True
  | (CCxxVector_ | CUniqueVector_), RAtom a => ~ In a [AChar; ABool; ARustString]
  | CUnique_, RAtom a => a = ACxxString
  | (CShared_ | CWeak_), RAtom a => ~ In a [AChar; ARustString]
  | _, RRefStr => False
  end.
Lemma from_name n a : n_rust n = atom_name a -> atom_from_str (n_rust n) = Some a.
Proof. intros ->. apply atom_from_name. Qed.
Lemma instance_offered gen ord apis T t c r : accepted_bridge gen ord apis T -> mentioned apis t -> instance t c r -> offered c r.
Proof.
  intros A M I. pose proof (mentioned_checked _ _ _ _ A _ M) as K.
  destruct I as [n a E|l|n a E|n a E|n a E|n a E|n a E]; try (pose proof (from_name _ _ E) as F); cbn [check_type] in K.
  - unfold check_type_rust_vec in K. rewrite F in K. destruct (only_cxx T (n_rust n)); [discriminate|]. cbn. intros ->. discriminate.
  - exact Logic.I.
  - unfold check_type_cxx_vector in K. rewrite F in K. destruct (in_rust T (n_rust n)); [discriminate|]. destruct a; cbn; try discriminate K; intuition congruence.
  - assert (M' : mentioned apis (TCxxVector (TIdent n))) by (apply (mentioned_occurs _ _ _ M); repeat constructor).
    pose proof (mentioned_checked _ _ _ _ A _ M') as K'. cbn [check_type] in K'.
    unfold check_type_cxx_vector in K'. rewrite F in K'. destruct (in_rust T (n_rust n)); [discriminate|]. destruct a; cbn; try discriminate K'; intuition congruence.
  - unfold check_type_unique_ptr in K. rewrite F in K. destruct (in_rust T (n_rust n)); [discriminate|]. destruct a; cbn; try discriminate K; reflexivity.
  - unfold check_type_shared_ptr in K. rewrite F in K. destruct (in_rust T (n_rust n)); [discriminate|]. destruct a; cbn; try discriminate K; intuition congruence.
  - unfold check_type_weak_ptr, check_type_shared_ptr in K. rewrite F in K. destruct (in_rust T (n_rust n)); [discriminate|]. destruct a; cbn; try discriminate K; intuition congruence.
Qed.
Lemma offered_usable p c r : conforming p -> c <> CVec_ -> offered c r -> usable_from_rust p c r.
Proof.
  intros C NV O. destruct r as [a|]; [|destruct c; try contradiction; congruence].
  destruct c; [congruence| | | | |]; destruct a; cbn [offered In] in O;
  try (exfalso; tauto); try discriminate O;
  (eapply impl_usable; [exact C|cbn [impls]; repeat (first [left; reflexivity | right])|apply rtypes_nodup|vm_compute; reflexivity|vm_compute; reflexivity]).
Qed.

(** ** C50 *)
(** Every container of a primitive (or of &str) in an accepted bridge is usable: from Rust
    when C++ implements it, from C++ when Rust does. *)
Theorem C50_available : forall gen ord apis T t c r p, accepted_bridge gen ord apis T -> mentioned apis t -> instance t c r ->
  conforming p -> word_sized p ->
  (c <> CVec_ -> usable_from_rust p c r) /\ (c = CVec_ -> usable_from_cxx p r).
Proof.
  intros gen ord apis T t c r p A M I C W. pose proof (instance_offered _ _ _ _ _ _ _ A M I) as O. split.
  - intros NV. apply offered_usable; assumption.
  - intros ->. apply vec_usable; [exact C|exact W|]. intros ->. cbn in O. congruence.
Qed.
Print Assumptions C50_available.

(** The runtime compiles: nothing is defined twice, whichever typedefs the platform has. *)
Theorem C50_no_redefinition : forall p, conforming p -> word_sized p -> no_redefinition p.
Proof. intros p C W. split; [apply members_nodup; assumption|]. split; [exact links_nodup|exact rust_nodup]. Qed.
Print Assumptions C50_no_redefinition.

(** And the generated code does not define them again: the generator instantiates
    containers only for types that are not primitive. *)
Theorem C50_not_generated : forall gen ord apis T k x, accepted_bridge gen ord apis T ->
  In (k, x) (map fst (t_impls T)) -> ~ is_primitive x.
Proof.
  intros gen ord apis T k x A I P. pose proof A as [[_ Hc] Ht]. rewrite (t_impls_eq _ _ _ _ Hc) in I.
  destruct (impls_spec apis) as [_ [K _]]. apply K in I. destruct I as [[i [I1 I2]]|[N _]]; [|contradiction].
  assert (Hi : check_api_impl gen i = []).
  { unfold typecheck in Ht. apply app_eq_nil in Ht. destruct Ht as [_ Ht]. apply app_eq_nil in Ht. destruct Ht as [_ Ht].
    destruct (check_api_impl gen i) eqn:E; [reflexivity|]. exfalso.
    assert (B : In s (flat_map (check_api gen T) apis)) by (apply in_flat_map; exists (AImpl i); split; [exact I1|cbn; rewrite E; left; reflexivity]).
    rewrite Ht in B. destruct B. }
  unfold check_api_impl in Hi. apply app_eq_nil in Hi. destruct Hi as [_ Hi]. destruct (im_negative i); [discriminate|].
  assert (Pa : is_atom x = true) by (unfold is_atom; destruct P as [a ->]; reflexivity).
  destruct I2; rewrite Pa in Hi; discriminate.
Qed.
Print Assumptions C50_not_generated.

(** Without [word_sized] it is false: where pointers have 16 bits and size_t is uint16_t,
    Vec<uint16_t> is specialised twice. *)
Definition avr : platform :=
  Platform (fun f => match f with f_char | f_schar | f_uchar => 8 | f_short | f_ushort | f_int | f_uint => 16 | f_long | f_ulong => 32 | _ => 64 end)%N
    true 16%N f_uchar f_uint f_ulong f_ullong f_schar f_int f_long f_llong f_uint f_int.
Theorem C50_16_bit_refuted : exists p, conforming p /\ ~ no_redefinition p.
Proof.
  exists avr. split; [split; reflexivity|]. intros [N _].
  assert (I1 : In (c_uint16_t, ("Vec()", "cxxbridge1$rust_vec$u16$new")) cxx_members)
    by (apply in_flat_map; exists ("u16", c_uint16_t); split; [cbn; tauto|left; reflexivity]).
  assert (I2 : In (c_usize_if_unique, ("Vec()", "cxxbridge1$rust_vec$usize$new")) cxx_members)
    by (apply in_flat_map; exists ("usize", c_usize_if_unique); split; [cbn; tauto|left; reflexivity]).
  pose proof (NoDup_key _ _ _ _ N I1 I2 eq_refl) as K. discriminate.
Qed.
Print Assumptions C50_16_bit_refuted.

(** 64-bit Linux: size_t is uint64_t.  macOS: it is not. *)
Definition linux : platform :=
  Platform (fun f => match f with f_char | f_schar | f_uchar => 8 | f_short | f_ushort => 16 | f_int | f_uint => 32 | _ => 64 end)%N
    true 64%N f_uchar f_ushort f_uint f_ulong f_schar f_short f_int f_long f_ulong f_long.
Definition macos : platform :=
  Platform (p_bits linux) true 64%N f_uchar f_ushort f_uint f_ullong f_schar f_short f_int f_llong f_ulong f_long.
Example C50_nonvacuous :
  conforming linux /\ word_sized linux /\ conforming macos /\ word_sized macos /\
  ctype linux c_usize_if_unique = f_usize_ignore /\ ctype macos c_usize_if_unique = f_ulong /\
  exists T, accepted_bridge GBuild id_order
    [ACxxFunction (ExternFn CUnconditional LCxx (Pair [] "f" "f") false false [] None
       [("x", TVec (TIdent (Named "usize" []))); ("y", TSharedPtr (TIdent (Named "i64" [])));
        ("z", TUniquePtr (TCxxVector (TIdent (Named "f32" []))))] None false true)] T.
Proof.
  split; [split; reflexivity|]. split; [right; reflexivity|]. split; [split; reflexivity|]. split; [right; reflexivity|].
  split; [reflexivity|]. split; [reflexivity|]. apply accepts_ok. reflexivity.
Qed.
