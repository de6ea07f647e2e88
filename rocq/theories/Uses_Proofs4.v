(** Proofs about the names used in generated code: what is asked for together. *)
From Verif Require Import Base StrLib Syntax_Model Toposort_Model Toposort_Spec Toposort_Proofs2 TypeEq_Model Types_Model Types_Spec Types_Proofs Types_Proofs3 Types_Props
  Mangle_Model Abi_Model Header_Text Ifndef_Model Builtin_Model Builtin_Spec Builtin_Proofs Out_Model Out_Spec Uses_Model Uses_Spec Uses_Proofs Uses_Proofs2 Uses_Proofs3.
Local Opaque HEADER lines tokens_of text_of.

Section Only.
  Variable Q : want -> Prop.
  Definition only (l : list wop) : Prop := forall w, In (Want w) l -> Q w.
  Lemma only_nil : only []. Proof. intros w []. Qed.
  Lemma only_app a b : only a -> only b -> only (a ++ b). Proof. intros A B w I. apply in_app_or in I. destruct I; auto. Qed.
  Lemma only_flat_map {A} (f : A -> list wop) l : (forall x, In x l -> only (f x)) -> only (flat_map f l).
  Proof. intros H w I. apply in_flat_map in I. destruct I as [x [I J]]. exact (H x I w J). Qed.
  Lemma only_when b l : (b = true -> only l) -> only (when b l). Proof. destruct b; [auto|intros _; apply only_nil]. Qed.
  Lemma only_use u l : only l -> only (Use u :: l). Proof. intros H w [E|I]; [discriminate|auto]. Qed.
  Lemma only_want w l : Q w -> only l -> only (Want w :: l). Proof. intros H H' w' [E|I]; [injection E as <-; exact H|auto]. Qed.
  Lemma only_atom a : only (w_atom a).
  Proof. destruct a; cbn [w_atom]; repeat apply only_use; apply only_nil. Qed.
  Lemma only_type t : only (w_type t).
  Proof.
    induction t as [n|t IH|t IH|t IH|t IH|t IH|p m l t IH|m t IH|l|t IH|u th args ret IHa IHr| |m l t IH|t n IH] using ty_ind'; cbn [w_type];
      try apply only_use; try exact IH; try apply only_nil.
    - destruct (atom_from_str (n_rust n)); [apply only_atom|apply only_nil].
    - apply only_app; [destruct ret as [r|]; [apply (IHr r eq_refl)|apply only_nil]|].
      induction args as [|a args IHl]; [apply only_nil|]. inversion IHa; subst. apply only_app; auto.
  Qed.
  Lemma only_ext_arg t : only (w_extern_arg t). Proof. destruct t; apply only_type. Qed.
  Lemma only_ind_ret t : only (w_indirect_return_type t). Proof. destruct t; apply only_type. Qed.
  Lemma only_ref_ret r : only (match r with Some (TRef _ _ _ t) => w_type t | Some t => w_type t | None => [] end).
  Proof. destruct r as [t|]; [|apply only_nil]. destruct t; apply only_type. Qed.
  Lemma only_shim_decl s : only (w_shim_decl s).
  Proof. apply only_app; [destruct (ws_ret s); [apply only_type|apply only_nil]|]. apply only_flat_map. intros; apply only_type. Qed.
  Lemma only_methods apis x : only (w_methods apis x).
  Proof. apply only_flat_map. intros. apply only_shim_decl. Qed.
End Only.
Ltac lits := repeat first [apply only_use | apply only_want; [exact Logic.I|] | exact (only_nil _)].

Section All.
  Variables (indirect : ty -> bool) (header : bool) (ord : nat -> list string -> list string) (apis : list api) (T : types) (errs : list cerr).
  Hypothesis Hc : collect ord apis = Some (T, errs).
  Let ops := generated_ops indirect header T apis.

  Definition demands (w : want) : Prop :=
    match w with
    | WFlag (FStrNew | FStrRepr) => In (flag_ FStr) ops /\ In (flag_ FFat) ops
    | WFlag (FSliceNew | FSliceRepr) => In (flag_ FSlice) ops /\ In (flag_ FFat) ops
    | WFlag FError => In (flag_ FPtrLen) ops
    | _ => True
    end.
  Notation only := (only demands).

  Lemma only_ext_ret r : only (w_extern_return_type indirect r).
  Proof. destruct r as [t|]; [|lits]. destruct t; cbn [w_extern_return_type]; try (apply only_type); lits; destruct (indirect _); try apply only_type; lits. Qed.
  Lemma only_rust_decl s : only (w_rust_decl indirect s).
  Proof.
    unfold w_rust_decl. repeat apply only_app.
    - destruct (ws_throws s); [lits|apply only_ext_ret].
    - apply only_flat_map. intros. apply only_ext_arg.
    - apply only_when. intros _. apply only_ref_ret.
  Qed.
  Lemma direct_decl s : ws_indirect_return indirect s = false -> incl (if ws_throws s then [flag_ FPtrLen; rust_ "PtrLen"] else w_extern_return_type indirect (ws_ret s)) ops ->
    forall t, ws_ret s = Some t -> match t with TStr _ | TSlice _ _ _ => In (flag_ FFat) ops | _ => True end.
  Proof.
    unfold ws_indirect_return. intros E I t R. rewrite R in *. apply orb_false_iff in E. destruct E as [E _]. rewrite E in I.
    destruct t; try exact Logic.I; apply I; left; reflexivity.
  Qed.
  Lemma only_shim_impl receiver s : msig apis s -> (header = false -> incl (w_rust_decl indirect s) ops) -> incl (w_shim_impl indirect header receiver s) ops ->
    only (w_shim_impl indirect header receiver s).
  Proof.
    intros M D. unfold w_shim_impl. destruct (header && receiver); [intros _; lits|]. intros I. apply incl_app_r in I.
    apply only_app; [apply only_shim_decl|]. destruct (negb header) eqn:Hn; [|exact (only_nil _)]. apply negb_true_iff in Hn. specialize (D Hn). cbn [when] in *.
    apply incl_app_r in I. apply incl_app_r in I. pose proof (incl_app_l _ _ _ I) as I1. apply incl_app_r in I.
    apply only_app; [|apply only_app; [|apply only_app; [|apply only_app]]].
    - apply only_flat_map. intros t It. apply only_when. intros _. apply only_app; [lits|]. apply only_app; [apply only_type|lits].
    - destruct (ws_indirect_return indirect s) eqn:E; [apply only_app; [lits|apply only_ref_ret]|].
      pose proof (direct_decl s E (incl_app_l _ _ _ D)) as F. destruct M as [_ M].
      destruct (ws_ret s) as [t|]; [|lits]. specialize (F t eq_refl). specialize (M t eq_refl). destruct t; try apply only_type; try exact (only_nil _).
      + apply only_want; [|lits]. split; [|exact F]. apply (picks indirect header ord apis T errs Hc _ _ M). left; reflexivity.
      + apply only_want; [|apply only_use, only_type]. split; [|exact F]. apply (picks indirect header ord apis T errs Hc _ _ M). left; reflexivity.
    - apply only_when. intros _. lits.
    - apply only_when. intros E. rewrite E in I1. apply only_want; [|lits]. apply I1. left; reflexivity.
    - apply only_when. intros _. destruct (ws_ret s) as [t|]; [|lits]. destruct t; lits.
  Qed.
  Lemma only_trampoline t : mentioned apis t -> incl (w_trampoline indirect header t) ops -> only (w_trampoline indirect header t).
  Proof.
    intros M I. destruct t; try exact (only_nil _). cbn [w_trampoline] in *.
    match goal with |- only (w_rust_decl _ ?s ++ _) => assert (Ms : msig apis s) end.
    { split; cbn [ws_args ws_ret].
      - intros t It. apply in_map_iff in It. destruct It as [[x a] [<- It]]. eapply mentioned_trans; [exact M|]. eapply oc_arg; [exact It|constructor].
      - intros t ->. eapply mentioned_trans; [exact M|]. repeat constructor. }
    apply only_app; [apply only_rust_decl|]. apply only_shim_impl; [exact Ms|intros _; exact (incl_app_l _ _ _ I)|exact (incl_app_r _ _ _ I)].
  Qed.
  Lemma only_cxx_shim s : msig apis s -> incl (w_cxx_shim indirect header s) ops -> only (w_cxx_shim indirect header s).
  Proof.
    intros M I. unfold w_cxx_shim in *.
    pose proof (incl_app_l _ _ _ I) as I1. do 10 apply incl_app_r in I. pose proof (incl_flat_map _ _ _ I) as I6. clear I.
    apply only_app; [|apply only_app; [|apply only_app; [|apply only_app; [|apply only_app; [|apply only_app; [|apply only_app; [|apply only_app; [|apply only_app; [|apply only_app]]]]]]]]].
    - destruct (ws_throws s); [lits|apply only_ext_ret].
    - apply only_flat_map. intros t It. destruct (is_rust_string t); [apply only_type|]. destruct t; first [apply only_ext_arg | apply only_type].
    - apply only_when. intros _. destruct (ws_ret s); [apply only_ind_ret|lits].
    - destruct (ws_ret s); [apply only_type|exact (only_nil _)].
    - apply only_flat_map. intros. apply only_type.
    - apply only_when. intros _. lits.
    - apply only_when. intros _. apply only_app; [lits|]. destruct (ws_ret s); [apply only_ind_ret|lits].
    - destruct (ws_indirect_return indirect s) eqn:E.
      { destruct (ws_ret s) as [t|]; [|lits]. destruct t; exact (only_nil _). }
      pose proof (direct_decl s E I1) as F. destruct M as [_ M].
      destruct (ws_ret s) as [t|]; [|lits]. specialize (F t eq_refl). specialize (M t eq_refl). destruct t; try exact (only_nil _); cbn [negb when].
      + apply only_want; [|lits]. split; [|exact F]. apply (picks indirect header ord apis T errs Hc _ _ M). left; reflexivity.
      + apply only_want; [|apply only_use, only_type]. split; [|exact F]. apply (picks indirect header ord apis T errs Hc _ _ M). left; reflexivity.
    - apply only_flat_map. intros t It. assert (Ho : only (when (indirect t) [inc_ IUtility; std_ "move"])) by (apply only_when; intros _; lits).
      destruct t; try (apply only_type); cbn [is_rust_string]; try exact Ho.
      + destruct (String.eqb _ _); [lits|exact Ho].
      + apply only_want; [exact Logic.I|]. apply only_app; [apply only_type|lits].
    - apply only_when. intros _. lits.
    - apply only_flat_map. intros t It. apply only_trampoline; [apply (proj1 M), It|apply I6, It].
  Qed.
  Lemma only_unique vector x : only (w_unique_ptr T vector x).
  Proof.
    unfold w_unique_ptr. cbn zeta. repeat apply only_app; lits.
    all: match goal with |- only (when ?b _) => destruct b; cbn [when]; lits end.
  Qed.

  Lemma decl_piece f : header = false -> In (ARustFunction f) apis -> In (PRustDecl f) (pieces header T apis).
  Proof.
    intros -> I. unfold pieces. apply in_or_app. right. apply in_or_app. right. apply in_or_app. left. cbn [negb when].
    apply in_or_app. right. apply in_or_app. left. apply in_flat_map. exists (ARustFunction f). split; [exact I|left; reflexivity].
  Qed.
  Lemma only_piece p : In p (pieces header T apis) -> only (w_piece indirect header T apis p).
  Proof.
    intros Ip. pose proof (pieces_from indirect header ord apis T errs Hc p Ip) as F. pose proof (piece_incl indirect header apis T p Ip) as I. destruct p; cbn [w_piece from] in *.
    - lits.
    - apply only_flat_map. intros a Ia. destruct a; try exact (only_nil _). apply only_when. intros _. apply only_atom.
    - apply only_app; [|apply only_app; [apply only_methods|lits]]. apply only_flat_map. intros. apply only_type.
    - apply only_atom.
    - apply only_app; [lits|apply only_atom].
    - apply only_app; [lits|apply only_app; [apply only_methods|lits]].
    - apply only_want; [exact Logic.I|]. match goal with |- only (if ?b then _ else _) => destruct b end; lits.
    - apply only_when. intros _. lits.
    - lits.
    - apply only_cxx_shim; [apply fn_msig; auto|exact I].
    - apply only_rust_decl.
    - lits.
    - lits.
    - lits.
    - apply only_shim_impl; [apply fn_msig; auto| |exact I]. intros E. apply (piece_incl indirect header apis T (PRustDecl f)). apply decl_piece; auto.
    - destruct k as [k x]. unfold w_impl_extern. cbn [fst snd]. destruct k.
      + lits.
      + lits.
      + apply only_unique.
      + apply only_app; [lits|]. apply only_when. intros _. lits.
      + lits.
      + apply only_app; [lits|]. apply only_app; [apply only_when; intros _; lits|]. apply only_app; [lits|]. apply only_unique.
    - destruct k as [k x]. unfold w_impl_member. cbn [fst snd]. destruct k; lits.
  Qed.
  Lemma only_pick t : only (w_pick t).
  Proof. destruct t as [n| | | | | | | | | | | | | ]; cbn [w_pick]; lits. destruct (atom_from_str _) as [[]|]; lits. Qed.
  Lemma all_only : only ops.
  Proof.
    apply only_app; apply only_flat_map.
    - intros t _. apply only_pick.
    - intros p Ip. apply only_piece, Ip.
  Qed.

  Lemma all_coherent : coherent (propagate (asked ops)).
  Proof.
    assert (E1 : propagate (asked ops) (WFlag FStrNew) = asked ops (WFlag FStrNew)) by reflexivity.
    assert (E2 : propagate (asked ops) (WFlag FStrRepr) = asked ops (WFlag FStrRepr)) by reflexivity.
    assert (E3 : propagate (asked ops) (WFlag FSliceNew) = asked ops (WFlag FSliceNew)) by reflexivity.
    assert (E4 : propagate (asked ops) (WFlag FSliceRepr) = asked ops (WFlag FSliceRepr)) by reflexivity.
    assert (E5 : propagate (asked ops) (WFlag FError) = asked ops (WFlag FError)) by reflexivity.
    constructor.
    - apply propagate_closed.
    - rewrite E1, E2, !asked_In. intros [H|H]; apply all_only in H; destruct H as [H1 H2]; split; apply propagate_incr, asked_In; assumption.
    - rewrite E3, E4, !asked_In. intros [H|H]; apply all_only in H; destruct H as [H1 H2]; split; apply propagate_incr, asked_In; assumption.
    - rewrite E5, !asked_In. intros H; apply all_only in H. apply propagate_incr, asked_In, H.
  Qed.
End All.

(** * Headers *)
Definition header_flag (w : want) : Prop :=
  match w with
  | WFlag (FStrNew | FStrRepr | FSliceNew | FSliceRepr | FFat | FPtrLen | FMaybeUninit | FManuallyDrop | FTrycatch | FError | FDestroy | FDeleterIf | FRelocatableOrArray) => False
  | _ => True
  end.
Lemma header_asked indirect T apis w : In (Want w) (generated_ops indirect true T apis) -> header_flag w.
Proof.
  revert w. change (only header_flag (generated_ops indirect true T apis)).
  apply only_app; apply only_flat_map.
  - intros t _. destruct t as [n| | | | | | | | | | | | | ]; cbn [w_pick]; lits. destruct (atom_from_str _) as [[]|]; lits.
  - intros p Ip. unfold pieces in Ip. cbn [negb when app] in Ip. destruct Ip as [<-|[<-|Ip]].
    + lits.
    + apply only_flat_map. intros a Ia. destruct a; try exact (only_nil _). apply only_when. intros _. apply only_atom.
    + apply in_app_or in Ip. destruct Ip as [Ip|Ip].
      * apply in_map_iff in Ip. destruct Ip as [d [<- _]]. destruct d; cbn [definition_piece w_piece].
        -- apply only_app; [|apply only_app; [apply only_methods|lits]]. apply only_flat_map. intros. apply only_type.
        -- apply only_atom.
        -- apply only_app; [lits|apply only_atom].
        -- apply only_app; [lits|apply only_app; [apply only_methods|lits]].
      * rewrite app_nil_r in Ip. apply in_flat_map in Ip. destruct Ip as [a [_ Ip]]. destruct a; split_in Ip. subst p. cbn [w_piece]. unfold w_shim_impl.
        destruct (true && _); lits. apply only_app; [apply only_shim_decl|exact (only_nil _)].
Qed.
Lemma header_propagated indirect T apis w : propagate (asked (generated_ops indirect true T apis)) w = true -> header_flag w.
Proof.
  apply propagate_inv.
  - assert (E : Forall (fun r => header_flag (WFlag (fst r)) -> Forall header_flag (snd r)) rules).
    { unfold rules. repeat apply Forall_cons; try apply Forall_nil; cbn [fst snd header_flag]; intros H; try destruct H; repeat apply Forall_cons; try apply Forall_nil; exact Logic.I. }
    intros r I H w' Iw. rewrite Forall_forall in E. specialize (E r I H). rewrite Forall_forall in E. auto.
  - intros w' H. apply asked_In in H. eapply header_asked, H.
Qed.
