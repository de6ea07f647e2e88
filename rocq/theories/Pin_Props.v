(** C102: a C++ object that must stay where it is cannot be moved by safe Rust.  Specification:
    Pin_Spec.v. *)
From Verif Require Import Base Syntax_Model TypeEq_Model Types_Model Types_Spec Types_Props Check_Model Check_Spec Check_Proofs Check_Proofs2 Check_Props Pin_Model Pin_Spec Pin_Proofs.

(** The full claim: in an accepted bridge that compiles, safe Rust never has such an object by
    value or behind a mutable reference that is not pinned. *)
Definition C102_claim : Prop := forall gen ord apis T w t, accepted_bridge gen ord apis T -> rust_accepts w (rust_asserts T apis) -> builtin_names w apis ->
  immovable w t -> ~ reach w apis (Own t) /\ ~ reach w apis (Mut t).

(** Proved for bridges without function pointers that take such an object as argument (which are
    accepted, see below). *)
Theorem C102_in_place_partial : forall gen ord apis T w t, accepted_bridge gen ord apis T -> rust_accepts w (rust_asserts T apis) -> builtin_names w apis ->
  (forall u, callback_takes apis u -> ~ immovable w u) ->
  immovable w t -> ~ reach w apis (Own t) /\ ~ reach w apis (Mut t).
Proof.
  intros gen ord apis T w t H A B C I. split; intros R; apply (reach_inv _ _ _ _ _ H A B C) in R; destruct R as (_ & M); exact (M I).
Qed.
Print Assumptions C102_in_place_partial.

(** In particular: the opaque C++ types of the bridge, std::string, and std::vector of anything,
    whatever else there is in the program. *)
Theorem C102_opaque_partial : forall gen ord apis T w t, accepted_bridge gen ord apis T -> rust_accepts w (rust_asserts T apis) -> builtin_names w apis ->
  (forall u, callback_takes apis u -> ~ immovable w u) ->
  (exists n, t = TIdent n /\ opaque_cxx apis (n_rust n)) \/ (exists l, t = TIdent (Named "CxxString" l) /\ ~ is_alias apis "CxxString") \/ (exists u, t = TCxxVector u) ->
  ~ reach w apis (Own t) /\ ~ reach w apis (Mut t).
Proof.
  intros gen ord apis T w t H A B C K. apply (C102_in_place_partial gen ord apis T w t H A B C).
  destruct K as [(n & -> & (X & Ns & Ne & Na))|[(l & -> & Na)|(u & ->)]]; [| |constructor].
  - destruct X as [(c & I & E)|[X|(e & I & E & _)]]; [|contradiction|destruct Ne; exists e; auto].
    assert (S : negb (has (p_rust (et_name c)) (t_structs T)) && negb (has (p_rust (et_name c)) (t_enums T)) = true).
    { pose proof (structs_ok _ _ _ _ H (n_rust n)) as K1. pose proof (enums_ok _ _ _ _ H (n_rust n)) as K2. rewrite E.
      unfold in_structs, in_enums in *. destruct (has (n_rust n) (t_structs T)); [destruct Ns; apply K1; reflexivity|]. destruct (has (n_rust n) (t_enums T)); [destruct Ne; apply K2; reflexivity|reflexivity]. }
    constructor; rewrite <- E.
    + apply (assert_ok apis T w A (ACxxType c) (NotUnpin (p_rust (et_name c))) I). cbn. rewrite S. cbn. auto.
    + apply (assert_ok apis T w A (ACxxType c) (KindIs (p_rust (et_name c)) false) I). cbn. rewrite S. cbn. auto.
  - assert (P : is_primitive "CxxString") by (eexists; reflexivity). destruct (B _ P Na) as (U & V). constructor; assumption.
Qed.
Print Assumptions C102_opaque_partial.

(** What is allowed can be had: the elements of any vector are available pinned and for reading;
    those of a Trivial type by value and as a mutable slice too.  What a UniquePtr points to is available
    pinned and for reading; mutably if it is Unpin.  What a SharedPtr or a WeakPtr points to can be
    read. *)
Theorem C102_available : forall w apis t,
  (reach w apis (Own (TUniquePtr (TCxxVector t))) -> reach w apis (Pinned t) /\ reach w apis (Ref t) /\
     (forall n, t = TIdent n -> w_trivial w (n_rust n) = true -> forall l, reach w apis (Own t) /\ reach w apis (Own (TSlice true l t)) /\ reach w apis (Own (TSlice false l t)))) /\
  (reach w apis (Own (TUniquePtr t)) -> reach w apis (Pinned t) /\ reach w apis (Ref t) /\
     (forall n, t = TIdent n -> w_unpin w (n_rust n) = true -> reach w apis (Mut t))) /\
  (reach w apis (Own (TSharedPtr t)) \/ reach w apis (Own (TWeakPtr t)) -> reach w apis (Ref t)) /\
  (forall n, t = TIdent n -> w_trivial w (n_rust n) = true -> reach w apis (Own t) -> reach w apis (Own (TUniquePtr t)) /\ reach w apis (Own (TSharedPtr t))).
Proof.
  intros w apis t.
  assert (R : forall u, reach w apis (Own u) -> reach w apis (Ref u)).
  { intros u H. eapply re_std; [eapply re_std; [exact H|apply sg_borrow_mut]|apply sg_reborrow]. }
  assert (P : forall u, reach w apis (Own (TUniquePtr u)) -> reach w apis (Pinned u)).
  { intros u H. eapply re_lib; [eapply re_std; [exact H|apply sg_borrow_mut]|apply lg_unique_pin]. }
  assert (Q : forall u, reach w apis (Own (TUniquePtr u)) -> reach w apis (Ref u)).
  { intros u H. eapply re_lib; [apply R, H|apply lg_unique_ref]. }
  assert (X : forall u, reach w apis (Own (TSharedPtr u)) -> reach w apis (Ref u)).
  { intros u H. eapply re_lib; [apply R, H|apply lg_shared_ref]. }
  split; [|split; [|split]].
  - intros H. pose proof (P _ H) as HP. split; [eapply re_lib; [exact HP|apply lg_vector_index_mut]|].
    split; [eapply re_lib; [apply Q, H|apply lg_vector_get]|]. intros n -> Tr l.
    split; [eapply re_lib; [exact HP|apply lg_vector_pop, Tr]|]. split; [eapply re_lib; [exact HP|apply lg_vector_as_mut_slice, Tr]|].
    eapply re_lib; [apply Q, H|apply lg_vector_as_slice, Tr].
  - intros H. split; [apply P, H|]. split; [apply Q, H|]. intros n -> U. eapply re_lib; [eapply re_std; [exact H|apply sg_borrow_mut]|apply lg_unique_deref_mut, U].
  - intros [H|H]; [apply X, H|]. apply X. eapply re_lib; [apply R, H|apply lg_upgrade].
  - intros n -> Tr H. split; (eapply re_lib; [exact H|]); [apply lg_unique_new, Tr|apply lg_shared_new, Tr].
Qed.
Print Assumptions C102_available.

(** * Where the claim is false *)
Local Definition nm (a : string) : pair_name := Pair [] a a.
Local Definition I_ (a : string) : ty := TIdent (Named a []).
Local Definition C_ (a : string) : api := ACxxType (ExternType CUnconditional LCxx [] (nm a) [] [] true).
Local Definition R_ (a : string) : api := ARustType (ExternType CUnconditional LRust [] (nm a) [] [] true).
Local Definition A_ (a : string) : api := ATypeAlias (TypeAlias CUnconditional [] (nm a) []).
Local Definition fn_ (l : lang) (x : string) (args : list ty) (ret : option ty) : extern_fn :=
  ExternFn CUnconditional l (nm x) false false [] None (map (fun t => ("x", t)) args) ret false true.
(** The world in which the names in [u] are Unpin and those in [v] are Trivial; built-in names as they
    are. *)
Local Definition is_in (x : string) (l : list string) : bool := existsb (String.eqb x) l.
Local Definition world_ (u v : list string) : world :=
  World (fun x => is_in x u || (is_some (atom_from_str x) && negb (String.eqb x "CxxString"))) (fun x => is_in x v).
Lemma world_builtin u v apis : is_in "CxxString" u = false -> is_in "CxxString" v = false -> builtin_names (world_ u v) apis.
Proof.
  intros Hu Hv x (a & E) _. destruct (String.eqb_spec x "CxxString") as [->|N].
  - cbn [w_unpin w_trivial world_]. rewrite Hu, Hv. split; reflexivity.
  - cbn [w_unpin world_]. rewrite E. apply String.eqb_neq in N. rewrite N. cbn. apply orb_true_r.
Qed.

(** [fn f(cb: fn(C))] with an opaque C++ type C is accepted, and C++ can call the Rust function
    with an object by value. *)
Theorem C102_callback_refuted : exists gen ord apis T w t, accepted_bridge gen ord apis T /\ rust_accepts w (rust_asserts T apis) /\ builtin_names w apis /\
  immovable w t /\ reach w apis (Own t) /\ reach w apis (Mut t).
Proof.
  set (apis := [C_ "C"; ACxxFunction (fn_ LCxx "f" [TFn false false [("x", I_ "C")] None] None)]).
  destruct (accepts_ok GBuild apis eq_refl) as (T & HT). pose proof HT as ((_ & Hc) & _). vm_compute in Hc. injection Hc as Hc.
  assert (R : reach (world_ [] []) apis (Own (I_ "C"))).
  { apply re_start. eapply st_callback; [right; left; reflexivity|left; reflexivity|left; reflexivity]. }
  exists GBuild, id_order, apis, T, (world_ [] []), (I_ "C"). split; [exact HT|].
  split; [rewrite <- Hc; repeat constructor|]. split; [apply world_builtin; reflexivity|]. split; [constructor; reflexivity|]. split; [exact R|].
  eapply re_std; [exact R|constructor].
Qed.
Print Assumptions C102_callback_refuted.
Theorem C102_claim_refuted : ~ C102_claim.
Proof. intros H. destruct C102_callback_refuted as (gen & ord & apis & T & w & t & A & R & B & I & O & _). exact (proj1 (H gen ord apis T w t A R B I) O). Qed.
Print Assumptions C102_claim_refuted.

(** A bridge with an opaque type C, an alias A of a Trivial type, an alias U of an opaque type which
    is Unpin, and a Rust type: C and the vector are only ever pinned, while A can be taken out of
    a vector and U can be borrowed mutably from its UniquePtr. *)
Example C102_nonvacuous :
  let apis := [C_ "C"; A_ "A"; A_ "U"; R_ "R";
    ACxxFunction (fn_ LCxx "f" [] (Some (TUniquePtr (TCxxVector (I_ "C")))));
    ACxxFunction (fn_ LCxx "g" [I_ "A"] (Some (TUniquePtr (TCxxVector (I_ "A")))));
    ACxxFunction (fn_ LCxx "h" [] (Some (TUniquePtr (I_ "U"))));
    ARustFunction (fn_ LRust "r" [TRef true true None (I_ "C"); TRef false true None (I_ "R")] None)] in
  let w := world_ ["R"; "U"] ["A"] in
  exists T, accepted_bridge GBuild id_order apis T /\ rust_accepts w (rust_asserts T apis) /\ builtin_names w apis /\
    (forall u, callback_takes apis u -> ~ immovable w u) /\
    immovable w (I_ "C") /\ reach w apis (Pinned (I_ "C")) /\ reach w apis (Pinned (TCxxVector (I_ "C"))) /\ ~ reach w apis (Mut (I_ "C")) /\
    reach w apis (Own (I_ "A")) /\ reach w apis (Mut (I_ "U")) /\ reach w apis (Mut (I_ "R")).
Proof.
  intros apis w. destruct (accepts_ok GBuild apis eq_refl) as (T & HT). pose proof HT as ((_ & Hc) & _). vm_compute in Hc. injection Hc as Hc.
  assert (HA : rust_accepts w (rust_asserts T apis)) by (rewrite <- Hc; repeat constructor).
  assert (HB : builtin_names w apis) by (apply world_builtin; reflexivity).
  assert (HC : forall u, callback_takes apis u -> ~ immovable w u).
  { intros u (f & y & un & th & args & ret & x & F & Y & _). exfalso. cbn in F. repeat destruct F as [F|F]; try discriminate; try contradiction; injection F as <-; cbn in Y; repeat destruct Y as [Y|Y]; try discriminate; contradiction. }
  assert (HI : immovable w (I_ "C")) by (constructor; reflexivity).
  exists T. split; [exact HT|]. split; [exact HA|]. split; [exact HB|]. split; [exact HC|]. split; [exact HI|].
  assert (V : forall x f, In (ACxxFunction f) apis -> fn_ret f = Some (TUniquePtr x) -> reach w apis (Mut (TUniquePtr x))).
  { intros x f F E. eapply re_std; [apply re_start, (st_ret _ f _ F E)|constructor]. }
  assert (VC : reach w apis (Pinned (TCxxVector (I_ "C")))).
  { eapply re_lib; [eapply V; [right; right; right; right; left; reflexivity|reflexivity]|constructor]. }
  split; [eapply re_lib; [exact VC|constructor]|]. split; [exact VC|]. split; [apply (C102_in_place_partial _ _ _ _ _ _ HT HA HB HC HI)|].
  split. { eapply re_lib; [|apply lg_vector_pop; reflexivity]. eapply re_lib; [eapply V; [do 5 right; left; reflexivity|reflexivity]|constructor]. }
  split. { eapply re_lib; [eapply V; [do 6 right; left; reflexivity|reflexivity]|apply lg_unique_deref_mut; reflexivity]. }
  eapply re_std; [apply re_start; eapply (st_arg _ _ "x" (TRef false true None (I_ "R"))); [do 7 right; left; reflexivity|right; left; reflexivity]|constructor].
Qed.
