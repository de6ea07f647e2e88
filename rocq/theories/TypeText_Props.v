(** C81: the C++ type written for a Rust type is the documented one.  Specification: TypeText_Spec.v. *)
From Verif Require Import Base Syntax_Model TypeEq_Model Types_Model Types_Spec Types_Proofs Types_Props Check_Model Check_Spec Check_Proofs Check_Proofs2 Check_Props
  Mangle_Model Mangle_Spec Mangle_Proofs2 Abi_Model Abi_Spec Abi_Proofs Abi_Props Deps_Model TypeText_Model TypeText_Spec TypeText_Proofs.

Local Definition I_ (a : string) : ty := TIdent (Syntax_Model.Named a []).
Local Definition nm (a : string) : pair_name := Pair [] a a.
Local Definition C_ (a : string) : api := ACxxType (ExternType CUnconditional LCxx [] (Pair ["ns"; "v1"] (a ++ "Cxx") a) [] [] true).
Local Definition R_ (a : string) : api := ARustType (ExternType CUnconditional LRust [] (nm a) [] [] true).
Local Definition F_ (args : list ty) (ret : option ty) : api :=
  ACxxFunction (ExternFn CUnconditional LCxx (nm "f") false true [] None (map (fun t => ("x", t)) args) ret false true).

(** the C++ name of the type declared as [x] *)
Definition cxx_path (apis : list api) (x : string) (path : list string) : Prop :=
  exists p, stands_for apis x p /\ path = p_ns p ++ [p_cxx p].
(** the C++ names and namespaces of the bridge are words of C++ (and not the keyword const; other keywords
    and reserved names are outside this model) *)
Definition cxx_identifiers (apis : list api) : Prop :=
  forall a p, In a apis -> decl_name a = Some p -> Forall identifier (p_ns p ++ [p_cxx p]).

(** * C81 *)
(** What is written for a type of an accepted bridge is a type of C++, namely the documented one, and no
    array or other template has references for elements, which C++ forbids. *)
Definition C81_claim : Prop := forall gen ord apis T t s, accepted_bridge gen ord apis T -> cxx_identifiers apis -> mentioned apis t -> write_type T t = Some s ->
  exists c, documented (cxx_path apis) t c /\ reads s c /\ objects_only c = true.

Lemma primitives x : primitive x = match atom_from_str x with Some a => Some (match a with
      | ABool => Named false ["bool"] [] | AChar => Named false ["char"] []
      | AU8 => std_ "uint8_t" [] | AU16 => std_ "uint16_t" [] | AU32 => std_ "uint32_t" [] | AU64 => std_ "uint64_t" [] | AUsize => std_ "size_t" []
      | AI8 => std_ "int8_t" [] | AI16 => std_ "int16_t" [] | AI32 => std_ "int32_t" [] | AI64 => std_ "int64_t" [] | AIsize => rust_ "isize" []
      | AF32 => Named false ["float"] [] | AF64 => Named false ["double"] []
      | ACxxString => std_ "string" [] | ARustString => rust_ "String" [] end) | None => None end.
Proof.
  destruct (atom_from_str x) as [a|] eqn:E; [apply atom_from_str_inv in E as ->; destruct a; reflexivity|].
  unfold primitive. destruct (find _ _) as [p|] eqn:F; [|reflexivity]. exfalso. apply find_some in F as [I F]. apply String.eqb_eq in F. subst x.
  cbn in I. repeat (destruct I as [<-|I]; [vm_compute in E; discriminate E|]). destruct I.
Qed.

Lemma checked_plain gen ord apis T : accepted_bridge gen ord apis T ->
  (forall m l p m' l' t, ~ mentioned apis (TSlice m l (TRef p m' l' t))) -> (forall p m l t n, ~ mentioned apis (TArray (TRef p m l t) n)) ->
  forall t, mentioned apis t -> plain t = true.
Proof.
  intros H Hs Ha t. induction t using ty_ind'; intros M; cbn [plain]; try reflexivity;
    try (pose proof (mentioned_checked _ _ _ _ H _ M) as C; cbn [check_type] in C; rewrite IHt by (eapply mentioned_occurs; [exact M|repeat constructor]); rewrite andb_true_r).
  - destruct t; cbn in C |- *; congruence.
  - destruct t; cbn in C |- *; congruence.
  - destruct t; cbn in C |- *; congruence.
  - destruct t; cbn in C |- *; congruence.
  - destruct t; cbn in C |- *; congruence.
  - unfold check_type_ref in C. apply app_nil in C. destruct C as [_ C]. destruct t; cbn in C |- *; congruence.
  - destruct t; cbn in C |- *; congruence.
  - destruct t; cbn in C |- *; congruence.
  - apply andb_true_intro. split.
    + apply forallb_forall. intros a I. rewrite Forall_forall in H0. apply (H0 a I). eapply mentioned_occurs; [exact M|]. destruct a as [x0 u0]. eapply oc_arg; [exact I|constructor].
    + destruct ret as [r|]; [|reflexivity]. apply (H1 r eq_refl). eapply mentioned_occurs; [exact M|]. apply oc_ret. constructor.
  - destruct t; try reflexivity. exfalso. exact (Hs _ _ _ _ _ _ M).
  - destruct t; try reflexivity. exfalso. exact (Ha _ _ _ _ _ M).
Qed.

Theorem C81_text_partial : forall gen ord apis T t s, accepted_bridge gen ord apis T -> cxx_identifiers apis ->
  (forall m l p m' l' u, ~ mentioned apis (TSlice m l (TRef p m' l' u))) -> (forall p m l u n, ~ mentioned apis (TArray (TRef p m l u) n)) ->
  mentioned apis t -> write_type T t = Some s ->
  exists c, documented (cxx_path apis) t c /\ reads s c /\ objects_only c = true.
Proof.
  intros gen ord apis T t s H Hi Hs Ha M E.
  destruct (written T (cxx_path apis)) with (t := t) (s := s) as (c & D & P & O); [|exact primitives|exact E|exact (checked_plain _ _ _ _ H Hs Ha t M)|].
  - intros x p R. apply (resolve_stands _ _ _ _ H) in R. split; [|exists p; auto].
    destruct R as (pre & a & post & -> & Dn & _). apply (Hi a p); [apply in_or_app; right; left; reflexivity|exact Dn].
  - exists c. split; [exact D|]. split; [exact (printed_reads _ _ _ P)|exact O].
Qed.
Print Assumptions C81_text_partial.

(** A text is read in one way only. *)
Theorem C81_unambiguous : forall s c c', reads s c -> reads s c' -> c = c'.
Proof. exact reads_det. Qed.
Print Assumptions C81_unambiguous.

(** Text is written exactly where C61 has a type. *)
Lemma write_defined T t : (exists s, write_type T t = Some s) <-> (exists c, cxx_type T t = Some c).
Proof.
  assert (X : is_some (write_type T t) = is_some (cxx_type T t)).
  { induction t using ty_ind'; cbn [write_type cxx_type]; try reflexivity;
      try (destruct (write_type T t), (cxx_type T t); cbn in *; congruence).
    - destruct (atom_from_str (n_rust n)); [reflexivity|]. destruct (resolve_name T (n_rust n)); reflexivity.
    - change (is_some (match (match ret with Some r => write_type T r | None => Some (chars "void") end) with None => None | Some r =>
                match write_args T args with None => None | Some ss => Some (chars "::rust::Fn<" ++ r ++ chars "(" ++ comma_separated ss ++ chars ")>") end end) =
              is_some (obind (otraverse (fun a => cxx_type T (snd a)) args)
        (fun cs => option_map (CFn cs) (match ret with Some r => option_map Some (cxx_type T r) | None => Some None end)))).
      assert (A : is_some (write_args T args) = is_some (otraverse (fun a => cxx_type T (snd a)) args)).
      { clear H0. induction H as [|a l Ha _ IH]; [reflexivity|]. cbn [otraverse write_args].
        change (is_some (match write_type T (snd a) with Some s => match write_args T l with Some ss => Some (s :: ss) | None => None end | None => None end) = is_some (otraverse (fun a => cxx_type T (snd a)) (a :: l))); cbn [otraverse].
        destruct (write_type T (snd a)), (cxx_type T (snd a)); cbn in Ha |- *; try discriminate; try reflexivity.
        destruct (write_args T l), (otraverse (fun a => cxx_type T (snd a)) l); cbn in IH |- *; congruence. }
      destruct (write_args T args), (otraverse (fun a => cxx_type T (snd a)) args); cbn in A |- *; try discriminate;
        (destruct ret as [r|]; [specialize (H0 r eq_refl); destruct (write_type T r), (cxx_type T r); cbn in H0 |- *; congruence|reflexivity]). }
  destruct (write_type T t), (cxx_type T t); cbn in X; try discriminate; split; intros [? ?]; eauto; discriminate.
Qed.
Theorem C81_written : forall gen ord apis T t, accepted_bridge gen ord apis T -> simple_callbacks apis ->
  mentioned apis t -> t <> TVoid -> exists s, write_type T t = Some s.
Proof. intros gen ord apis T t H Hs M N. apply write_defined. exact (C61_writable_partial gen ord apis T t H Hs M N). Qed.
Print Assumptions C81_written.

(** The claim is false: slices of references pass the checks; `&[&u8]` becomes
    ::rust::Slice<::std::uint8_t const &const>, which is not a type. *)
Theorem C81_text_refuted : exists gen ord apis T t s, accepted_bridge gen ord apis T /\ cxx_identifiers apis /\ mentioned apis t /\ write_type T t = Some s /\
  forall c, ~ reads s c.
Proof.
  pose (t := TSlice false None (TRef false false None (I_ "u8"))). pose (apis := [F_ [t] None]). destruct (accepts_ok GBuild apis eq_refl) as (T & HT).
  exists GBuild, id_order, apis, T, t, (chars "::rust::Slice<::std::uint8_t const &const>"). split; [exact HT|]. split; [intros a p [<-|[]] D; discriminate|].
  split; [eapply me_arg; [left; left; reflexivity|left; reflexivity|constructor]|]. split; [reflexivity|].
  intros c (ts & n & E & H). vm_compute in E. injection E as <-.
  destruct n as [|[|[|n]]]; try discriminate H.
Qed.
Print Assumptions C81_text_refuted.
(** … and so do arrays of references: `[&u8; 3]` becomes an array of references. *)
Theorem C81_array_refuted : exists gen ord apis T t s c, accepted_bridge gen ord apis T /\ cxx_identifiers apis /\ mentioned apis t /\ write_type T t = Some s /\
  reads s c /\ objects_only c = false.
Proof.
  pose (t := TArray (TRef false false None (I_ "u8")) 3). pose (apis := [F_ [t] None]). destruct (accepts_ok GBuild apis eq_refl) as (T & HT).
  exists GBuild, id_order, apis, T, t, (chars "::std::array<::std::uint8_t const &, 3>"), (std_ "array" [RefTo (Const (std_ "uint8_t" [])); Num 3]).
  split; [exact HT|]. split; [intros a p [<-|[]] D; discriminate|].
  split; [eapply me_arg; [left; left; reflexivity|left; reflexivity|constructor]|]. split; [reflexivity|]. split; [|reflexivity].
  eexists _, 9%nat. split; [vm_compute; reflexivity|reflexivity].
Qed.
Print Assumptions C81_array_refuted.

Example C81_nonvacuous :
  let t := TFn false false [("a", TRef true true None (I_ "C")); ("b", TSlice false None (TUniquePtr (TCxxVector (I_ "C")))); ("c", TArray (TPtr false (I_ "R")) 12)] (Some (TVec (I_ "String"))) in
  let apis := [C_ "C"; R_ "R"; F_ [t] None] in
  exists T, accepted_bridge GBuild id_order apis T /\ cxx_identifiers apis /\ mentioned apis t /\
  write_type T t = Some (chars "::rust::Fn<::rust::Vec<::rust::String>(::ns::v1::CCxx &, ::rust::Slice<::std::unique_ptr<::std::vector<::ns::v1::CCxx>> const>, ::std::array<::R const *, 12>)>").
Proof.
  cbv zeta. match goal with |- context [accepted_bridge _ _ ?apis _] => destruct (accepts_ok GBuild apis eq_refl) as (T & HT) end.
  exists T. split; [exact HT|]. split.
  - intros a p [<-|[<-|[<-|[]]]] D; cbn in D; try discriminate; injection D as <-; cbn; repeat (apply Forall_cons; [split; [split; reflexivity|discriminate]|]); apply Forall_nil.
  - split; [eapply me_arg; [left; right; right; left; reflexivity|left; reflexivity|constructor]|].
    destruct HT as ((_ & Hc) & _). vm_compute in Hc. injection Hc as <-. vm_compute. reflexivity.
Qed.
