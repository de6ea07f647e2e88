(** C31 and C63: the names that a bridge brings into the generated code are among the names
    that C31_generated and C63_generated speak of. *)
From Coq Require Import Permutation.
From Verif Require Import Base StrLib Syntax_Model Toposort_Model Toposort_Spec Toposort_Proofs Toposort_Props Types_Model Types_Spec Types_Proofs Types_Props
  Mangle_Model Abi_Model Builtin_Model Builtin_Spec Out_Model Out_Spec Uses_Model Uses_Spec Uses_Props Uses_Need_Spec.

Lemma primitive_w n u : primitive (n_rust n) = Some u -> In (Use u) (w_type (TIdent n)).
Proof.
  unfold primitive. cbn [w_type]. intros H.
  repeat match type of H with (if String.eqb ?x ?y then _ else _) = _ => destruct (String.eqb_spec x y) as [->|]; [injection H as <-; vm_compute; left; reflexivity|] end.
  discriminate H.
Qed.
Lemma representation_w a u : representation a = Some u -> In (Use u) (w_atom a).
Proof. destruct a; cbn [representation]; intros H; try discriminate H; vm_compute in H; injection H as <-; left; reflexivity. Qed.
Lemma spelled_w t u : spelled t u -> In (Use u) (w_type t).
Proof.
  induction 1; cbn [w_type]; try (left; reflexivity); try (right; assumption); try assumption.
  - apply primitive_w. assumption.
  - right. apply in_or_app. left. assumption.
  - right. apply in_or_app. right. revert H. induction args as [|y l IH]; [intros []|]. intros [->|I]; apply in_or_app; [left; assumption|right; exact (IH I)].
Qed.
Lemma declared_w f u : declared f u -> In (Use u) (w_shim_decl (fn_wsig f)).
Proof.
  unfold w_shim_decl. intros [t E S|x I S]; apply in_or_app; [left|right].
  - cbn [fn_wsig ws_ret]. rewrite E. apply spelled_w, S.
  - cbn [fn_wsig ws_args]. apply in_flat_map. exists (snd x). split; [apply in_map, I|apply spelled_w, S].
Qed.
Lemma method_w apis x f u : method_of apis x f -> declared f u -> In (Use u) (w_methods apis x).
Proof.
  intros (F & r & R & E) D. unfold w_methods. apply in_flat_map. exists f. split; [|apply declared_w, D].
  unfold methods_of. apply in_flat_map.
  destruct F as [I|I]; (eexists; split; [exact I|]); cbn beta iota; rewrite R, E, String.eqb_refl; left; reflexivity.
Qed.

Section Written.
  Context (indirect : ty -> bool) (header : bool) (ord : nat -> list string -> list string) (T : types) (apis : list api).
  Hypothesis Hc : collect ord apis = Some (T, []).
  Notation inc := (fun x => smem x (t_cxx T)).
  Notation em := (write_loop inc apis [] (t_toposorted T)).
  Notation ops := (generated_ops indirect header T apis).

  Lemma cxx_eq x : inc x = true <-> is_cxx_type apis x.
  Proof.
    rewrite <- cxx_mem. revert Hc. unfold collect. destruct (toposort (structs_of apis)) as [[order terrs]|]; [|discriminate].
    destruct (struct_improper_ctypes _ _ _ _); [|discriminate]. intros H. injection H as <- _. reflexivity.
  Qed.
  Lemma em_eq : write_data_structures inc apis = Some em.
  Proof.
    revert Hc. unfold collect, write_data_structures. destruct (toposort (structs_of apis)) as [[order terrs]|]; [|discriminate].
    destruct (struct_improper_ctypes _ _ _ _); [|discriminate]. intros H. injection H as <- _. reflexivity.
  Qed.
  Lemma em_facts :
    Permutation (flat_map (fun e => match e with EmStruct s => [s] | _ => [] end) em) (filter (fun s => negb (inc (struct_rust s))) (structs_of apis)) /\
    filter (fun e => match e with EmStruct _ => false | _ => true end) em =
      flat_map (fun a => match a with
        | AEnum e => if inc (p_rust (en_name e)) then (if en_from_header e then [] else [EmCheckEnum e]) else [EmEnum e]
        | ARustType t => [EmOpaque t]
        | _ => [] end) apis.
  Proof.
    destruct (C06_emitted_once inc apis) as (em' & E & P & Q); [apply (no_dup_distinct ord apis T []); [exact Hc|intros n []]|].
    rewrite em_eq in E. injection E as <-. auto.
  Qed.
  Lemma piece_ops p o : In p (pieces header T apis) -> In o (w_piece indirect header T apis p) -> In o ops.
  Proof. intros I J. apply in_or_app. right. apply in_flat_map. eauto. Qed.
  Lemma em_piece d : In d em -> In (definition_piece d) (pieces header T apis).
  Proof. intros I. unfold pieces. apply in_or_app. right. apply in_or_app. left. apply in_map, I. Qed.
  Lemma struct_piece s : In (AStruct s) apis -> ~ is_cxx_type apis (p_rust (st_name s)) -> In (PStruct s) (pieces header T apis).
  Proof.
    intros I N. apply (em_piece (EmStruct s)). destruct em_facts as (P & _).
    assert (J : In s (flat_map (fun e => match e with EmStruct s => [s] | _ => [] end) em)).
    { eapply Permutation_in; [apply Permutation_sym, P|]. apply filter_In. split; [apply structs_of_In, I|].
      apply negb_true_iff, not_true_iff_false. intros H. apply N, cxx_eq, H. }
    apply in_flat_map in J as (e & J & K). destruct e; cbn [In] in K; try contradiction. destruct K as [<-|[]]. exact J.
  Qed.
  Lemma other_piece a d : In a apis -> match d with EmStruct _ => False | _ => True end ->
    In d (match a with
        | AEnum e => if inc (p_rust (en_name e)) then (if en_from_header e then [] else [EmCheckEnum e]) else [EmEnum e]
        | ARustType t => [EmOpaque t]
        | _ => [] end) -> In (definition_piece d) (pieces header T apis).
  Proof.
    intros I N J. apply em_piece. destruct em_facts as (_ & Q).
    assert (K : In d (filter (fun e => match e with EmStruct _ => false | _ => true end) em)) by (rewrite Q; apply in_flat_map; eauto).
    apply filter_In in K. apply K.
  Qed.
  Lemma opaque_piece t : In (ARustType t) apis -> In (POpaque t) (pieces header T apis).
  Proof. intros I. apply (other_piece _ (EmOpaque t) I); [exact Logic.I|left; reflexivity]. Qed.
  Lemma shim_piece f : In (ARustFunction f) apis -> In (PRustShim f) (pieces header T apis).
  Proof.
    intros I. unfold pieces. do 3 (apply in_or_app; right). apply in_or_app. left. apply in_flat_map. exists (ARustFunction f). split; [exact I|left; reflexivity].
  Qed.
  Lemma decl_piece a p : header = false -> In a apis -> In p (match a with
                              | AStruct s => [POperatorDecls s] | ARustType t => [PLayoutDecls t]
                              | ACxxFunction f => [PCxxShim f] | ARustFunction f => [PRustDecl f] | _ => [] end) -> In p (pieces header T apis).
  Proof.
    intros H I J. unfold pieces. do 2 (apply in_or_app; right). apply in_or_app. left. rewrite H. cbn [negb when].
    apply in_or_app. right. apply in_or_app. left. apply in_flat_map. eauto.
  Qed.
  Lemma impl_piece k : header = false -> In k (t_impls T) -> In (PImplExtern (fst k)) (pieces header T apis).
  Proof.
    intros H I. unfold pieces. do 4 (apply in_or_app; right). rewrite H. cbn [negb when]. apply in_or_app. left. apply in_map_iff. eauto.
  Qed.
  Lemma hash_piece s : header = false -> In (AStruct s) apis -> derives DHash (st_derives s) = true -> In (PHash s) (pieces header T apis).
  Proof.
    intros H I D. unfold pieces. do 2 (apply in_or_app; right). apply in_or_app. left. rewrite H. cbn [negb when].
    do 2 (apply in_or_app; right). apply in_flat_map. exists (AStruct s). split; [exact I|]. rewrite D. left. reflexivity.
  Qed.
  Ltac one := cbn [In app]; tauto.

  Lemma written u : needs header T apis u -> In (Use u) ops.
  Proof.
    intros N. destruct N.
    - eapply piece_ops; [apply struct_piece; eassumption|]. cbn [w_piece]. apply in_or_app. left. apply in_flat_map. exists v. split; [assumption|apply spelled_w; assumption].
    - eapply piece_ops; [apply struct_piece; eassumption|]. cbn [w_piece]. apply in_or_app. right. apply in_or_app. left. eapply method_w; eassumption.
    - eapply piece_ops; [apply opaque_piece; eassumption|]. cbn [w_piece]. apply in_or_app. right. apply in_or_app. left. eapply method_w; eassumption.
    - eapply piece_ops; [apply shim_piece; eassumption|]. cbn [w_piece]. rewrite H0. unfold w_shim_impl. rewrite andb_false_r. apply in_or_app. left. apply declared_w. assumption.
    - destruct H0 as [I|I].
      + eapply piece_ops; [eapply decl_piece; [assumption|exact I|left; reflexivity]|]. cbn [w_piece]. apply declared_w in H1.
        unfold w_cxx_shim. do 3 (apply in_or_app; right). unfold w_shim_decl in H1. rewrite app_assoc. apply in_or_app. left. exact H1.
      + eapply piece_ops; [apply shim_piece; eassumption|]. cbn [w_piece]. unfold w_shim_impl. rewrite H at 1. cbn [andb]. apply in_or_app. left. apply declared_w. assumption.
    - eapply piece_ops; [apply struct_piece; eassumption|]. cbn [w_piece]. do 2 (apply in_or_app; right). right. left. reflexivity.
    - destruct (inc (p_rust (en_name e))) eqn:C.
      + assert (F : en_from_header e = false) by (apply not_true_iff_false; intros F; apply H1; split; [apply cxx_eq, C|exact F]).
        eapply piece_ops; [apply (other_piece _ (EmCheckEnum e) H Logic.I); rewrite C, F; left; reflexivity|]. cbn [w_piece definition_piece].
        apply in_or_app. right. apply representation_w. assumption.
      + eapply piece_ops; [apply (other_piece _ (EmEnum e) H Logic.I); rewrite C; left; reflexivity|]. cbn [w_piece definition_piece]. apply representation_w. assumption.
    - eapply piece_ops; [apply opaque_piece; eassumption|]. cbn [w_piece]. cbn [In] in H0. destruct H0 as [<-|[<-|[<-|[]]]].
      + right. left. reflexivity.
      + do 2 (apply in_or_app; right). one.
      + do 2 (apply in_or_app; right). one.
    - eapply piece_ops; [apply hash_piece; eassumption|]. cbn [w_piece In] in *. intuition (subst; tauto).
    - destruct H0 as [I|I].
      + eapply piece_ops; [eapply decl_piece; [assumption|exact I|left; reflexivity]|]. cbn [w_piece]. unfold w_cxx_shim. apply in_or_app. left. cbn [ws_throws fn_wsig]. rewrite H1. one.
      + eapply piece_ops; [eapply decl_piece; [assumption|exact I|left; reflexivity]|]. cbn [w_piece]. unfold w_rust_decl. apply in_or_app. left. cbn [ws_throws fn_wsig]. rewrite H1. one.
    - eapply piece_ops; [eapply decl_piece; [assumption|eassumption|left; reflexivity]|]. cbn [w_piece]. unfold w_cxx_shim. cbn [ws_throws fn_wsig]. rewrite H1. cbn [In] in H2.
      destruct H2 as [<-|[<-|[]]].
      + do 5 (apply in_or_app; right). apply in_or_app. left. cbn [when]. one.
      + do 9 (apply in_or_app; right). apply in_or_app. left. cbn [when]. one.
    - eapply piece_ops; [apply shim_piece; eassumption|]. cbn [w_piece]. unfold w_shim_impl. rewrite H. cbn [andb negb when ws_throws fn_wsig]. rewrite H1. cbn [when]. cbn [In] in H2.
      apply in_or_app. right. do 3 (apply in_or_app; right). apply in_or_app. left. cbn [In]. intuition (subst; tauto).
    - eapply piece_ops; [apply (impl_piece _ H H0)|]. cbn [w_piece fst]. unfold w_impl_extern. cbn [fst snd].
      destruct k; cbn [In] in H1; repeat (destruct H1 as [<-|H1]; [unfold w_unique_ptr; repeat (rewrite in_app_iff); cbn [In app]; tauto|]); destruct H1.
  Qed.
End Written.

(** Every name that the bridge needs is among the names of C31_generated: so it is defined
    by the supporting code or comes from an included header. *)
Theorem C31_written : forall indirect header cxx_header ord apis T, collect ord apis = Some (T, []) ->
  let ops := generated_ops indirect header T apis in
  forall u, needs header T apis u -> In (Use u) ops /\ resolved (asked ops) cxx_header u.
Proof.
  intros indirect header cxx ord apis T Hc ops u N. assert (W : In (Use u) ops) by (exact (written indirect header ord T apis Hc u N)).
  split; [exact W|]. exact (proj1 (C31_generated indirect header cxx ord apis T [] Hc) u W).
Qed.
Print Assumptions C31_written.

Definition W_ (name : string) (r : option receiver) (args : list (string * ty)) (ret : option ty) : extern_fn :=
  ExternFn CUnconditional LRust (Pair [] name name) false false [] r args ret false true.
Definition need_bridge : list api :=
  [ARustType (ExternType CUnconditional LRust [] (Pair [] "R" "R") [] [] true);
   ARustFunction (W_ "m" (Some (Receiver false None false (Named "R" []) true)) [("x", TCxxVector (I_ "u8"))] None);
   AStruct (Struct_ CUnconditional [] (Pair [] "S" "S") [] [Var CUnconditional (Pair [] "a" "a") (TBox (I_ "R"))])].
(** The vector in the method's declaration, and the box in the struct, are in the header. *)
Example C31_written_nonvacuous : exists T, collect ex_order need_bridge = Some (T, []) /\
  (forall header, needs header T need_bridge (UStd "vector") /\ needs header T need_bridge (UStd "uint8_t") /\ needs header T need_bridge (UHelper "Box")) /\
  ~ In (Use (UStd "string")) (generated_ops (fun _ => true) true T need_bridge).
Proof.
  assert (NC : forall x, ~ is_cxx_type need_bridge x).
  { intros x [(t & I & _)|[(t & I & _)|(e & I & _)]]; cbn [need_bridge In] in I; repeat (destruct I as [I|I]; [discriminate I|]); exact I. }
  eexists. split; [vm_compute; reflexivity|]. split; [intros header; split; [|split]|].
  - eapply ne_rust_method; [left; reflexivity| |].
    + split; [right; right; left; reflexivity|]. eexists. split; reflexivity.
    + eapply de_arg; [left; reflexivity|]. apply sp_vector.
  - eapply ne_rust_method; [left; reflexivity| |].
    + split; [right; right; left; reflexivity|]. eexists. split; reflexivity.
    + eapply de_arg; [left; reflexivity|]. apply sp_in_vector, sp_ident. reflexivity.
  - eapply ne_field; [right; right; left; reflexivity|apply NC|left; reflexivity|apply sp_box].
  - match goal with |- ~ In ?x ?l => let l' := eval vm_compute in l in change (~ In x l') end. cbn [In]. intros I. repeat (destruct I as [I|I]; [discriminate I|]). exact I.
Qed.
