(** C47: a panic never unwinds across the language boundary. *)
From Verif Require Import Base Unwind_Model.

(** Which code an entry point can run.  Functions, comparison, hashing and dropping run code of
    the user, which may do anything.  Reserving memory panics if the capacity overflows.
    Everything else just returns. *)
Definition runs_user_code (e : entry) : Prop :=
  In e [Function; Trampoline; OpEq; OpNe; OpLt; OpLe; OpGt; OpGe; OpHash; BoxDrop; VecDrop; VecTruncate].
Definition reserves (e : entry) : Prop := In e [VecReserve; LibReserve].
Definition possible (e : entry) (r : rust) : Prop :=
  runs_user_code e \/ (exists v, r = RRet v) \/ (reserves e /\ r = RPanic).
(** everywhere in a program *)
Fixpoint possible_rust (P : entry -> rust -> Prop) (r : rust) : Prop :=
  match r with
  | RRet _ | RPanic => True
  | REvent _ r => possible_rust P r
  | RCallCpp _ c k => possible_cpp P c /\ forall o, possible_rust P (k o)
  | RCatch r k => possible_rust P r /\ forall o, possible_rust P (k o)
  | RLocal d b k => possible_rust P d /\ possible_rust P b /\ forall v, possible_rust P (k v)
  end
with possible_cpp (P : entry -> rust -> Prop) (c : cpp) : Prop :=
  match c with
  | CRet _ | CThrow => True
  | CEvent _ c => possible_cpp P c
  | CCallRust e r k => P e r /\ possible_rust P r /\ forall v, possible_cpp P (k v)
  | CTry c k => possible_cpp P c /\ forall o, possible_cpp P (k o)
  end.
(** ... without a capacity overflow *)
Definition no_overflow (e : entry) (r : rust) : Prop := runs_user_code e \/ exists v, r = RRet v.

(** The claim is false: C++ asking for too much capacity makes a panic leave the extern "C"
    function, which is undefined behaviour up to Rust 1.80 (cxx supports 1.73). *)
Theorem C47_refuted : exists c, possible_cpp possible c /\ snd (eval_cpp false c) = UB.
Proof.
  exists (CCallRust VecReserve RPanic CRet). split; [|reflexivity].
  cbn. split; [|auto]. right. right. split; [left; reflexivity|reflexivity].
Qed.

Scheme rust_ind2 := Induction for rust Sort Prop with cpp_ind2 := Induction for cpp Sort Prop.
Combined Scheme prog_ind from rust_ind2, cpp_ind2.

Lemma user_guarded e : runs_user_code e -> guarded e = true.
Proof. unfold runs_user_code. cbn. intuition (subst; reflexivity). Qed.
Lemma after_snd t r : snd (after t r) = snd r.
Proof. reflexivity. Qed.
Lemma entry_safe aborts e r : (guarded e = true \/ snd r <> Panicking) -> snd r <> UB -> snd r <> Throwing ->
  snd (entry_point aborts e r) <> Panicking /\ snd (entry_point aborts e r) <> UB /\ snd (entry_point aborts e r) <> Throwing.
Proof.
  unfold entry_point. intros G U T. destruct (guarded e) eqn:GE.
  - destruct r as [t [v| | | |]]; cbn in *; repeat split; congruence.
  - destruct G as [G|G]; [discriminate|]. destruct r as [t [v| | | |]]; cbn in *; repeat split; congruence.
Qed.
Lemma ev_call aborts throws c k : eval_rust aborts (RCallCpp throws c k) =
  match cxx_shim throws (eval_cpp aborts c) with (t, inl o) => after t (eval_rust aborts (k o)) | (t, inr o) => (t, o) end.
Proof. reflexivity. Qed.
Lemma ev_entry aborts e r k : eval_cpp aborts (CCallRust e r k) =
  match entry_point aborts e (eval_rust aborts r) with (t, Return v) => after t (eval_cpp aborts (k v)) | (t, o) => (t, o) end.
Proof. reflexivity. Qed.
Lemma ev_try aborts c k : eval_cpp aborts (CTry c k) =
  match eval_cpp aborts c with
  | (t, Return v) => after t (eval_cpp aborts (k (Some v)))
  | (t, Throwing) => after t (eval_cpp aborts (k None))
  | (t, o) => (t, o)
  end.
Proof. reflexivity. Qed.
(** no program ends badly *)
Definition rust_end (o : outcome) : Prop := o <> UB /\ o <> Throwing.
Definition cpp_end (o : outcome) : Prop := o <> UB /\ o <> Panicking.
Lemma safe aborts (P : entry -> rust -> Prop) : (forall e r, P e r -> guarded e = true \/ (exists v, r = RRet v) \/ aborts = true) ->
  (forall r, possible_rust P r -> rust_end (snd (eval_rust aborts r))) /\
  (forall c, possible_cpp P c -> cpp_end (snd (eval_cpp aborts c))).
Proof.
  intros HP. apply prog_ind; cbn [possible_rust possible_cpp].
  - split; discriminate.
  - split; discriminate.
  - intros n r IH W. now apply IH.
  - intros throws c IHc k IHk [W1 W2]. rewrite ev_call. specialize (IHc W1). destruct (eval_cpp aborts c) as [t [v| | | |]]; cbn in *; destruct IHc; try congruence.
    + now apply IHk.
    + destruct throws; [now apply IHk|split; discriminate].
    + split; discriminate.
  - intros r IHr k IHk [W1 W2]. cbn [eval_rust]. specialize (IHr W1). destruct (eval_rust aborts r) as [t [v| | | |]]; cbn in *; destruct IHr; try congruence.
    + now apply IHk.
    + now apply IHk.
    + split; discriminate.
  - intros d IHd b IHb k IHk (W1 & W2 & W3). cbn [eval_rust]. specialize (IHd W1). specialize (IHb W2).
    destruct (eval_rust aborts b) as [t [v| | | |]]; cbn in *; destruct IHb; try congruence.
    + destruct (eval_rust aborts d) as [t2 [v2| | | |]]; cbn in *; destruct IHd; try congruence; try (split; discriminate). now apply IHk.
    + destruct (eval_rust aborts d) as [t2 [v2| | | |]]; cbn in *; destruct IHd; try congruence; split; discriminate.
    + split; discriminate.
  - split; discriminate.
  - split; discriminate.
  - intros n c IH W. now apply IH.
  - intros e r IHr k IHk (W0 & W1 & W2). rewrite ev_entry. specialize (IHr W1). destruct IHr as [NU NT].
    assert (Q : snd (entry_point aborts e (eval_rust aborts r)) <> Panicking /\ snd (entry_point aborts e (eval_rust aborts r)) <> UB).
    { destruct (HP _ _ W0) as [G|[[v ->]|E]].
      - destruct (entry_safe aborts e (eval_rust aborts r)) as (A & B & _); auto.
      - destruct (entry_safe aborts e (eval_rust aborts (RRet v))) as (A & B & _); auto. right. discriminate.
      - unfold entry_point. rewrite E in *. destruct (guarded e); destruct (eval_rust true r) as [t [v| | | |]]; cbn in *; split; congruence. }
    destruct (entry_point aborts e (eval_rust aborts r)) as [t [v| | | |]]; cbn in *; destruct Q; try congruence; try (split; congruence). now apply IHk.
  - intros c IHc k IHk [W1 W2]. rewrite ev_try. specialize (IHc W1). destruct (eval_cpp aborts c) as [t [v| | | |]]; cbn in *; destruct IHc; try congruence.
    + now apply IHk.
    + now apply IHk.
    + split; discriminate.
Qed.

(** Without capacity overflow, on every toolchain and for all programs, calls nested in either
    direction to any depth: nothing undefined happens, no panic comes out of C++ code, and no
    exception comes out of Rust code. *)
Theorem C47_no_crossing_partial : forall aborts c, possible_cpp no_overflow c ->
  snd (eval_cpp aborts c) <> UB /\ snd (eval_cpp aborts c) <> Panicking.
Proof.
  intros aborts c W. apply (proj2 (safe aborts no_overflow ltac:(intros e r [U|E]; [left; now apply user_guarded|auto])) c W).
Qed.
Theorem C47_no_exception_partial : forall aborts r, possible_rust no_overflow r ->
  snd (eval_rust aborts r) <> UB /\ snd (eval_rust aborts r) <> Throwing.
Proof.
  intros aborts r W. apply (proj1 (safe aborts no_overflow ltac:(intros e r' [U|E]; [left; now apply user_guarded|auto])) r W).
Qed.
(** With Rust 1.81 or later the same without exception. *)
Theorem C47_recent : forall c, possible_cpp possible c -> snd (eval_cpp true c) <> UB /\ snd (eval_cpp true c) <> Panicking.
Proof. intros c W. apply (proj2 (safe true possible ltac:(auto)) c W). Qed.
(** A panic in code of the user ends the program there: what happened before it is all that
    happens, whatever C++ would do next or has around the call. *)
Theorem C47_panic_aborts : forall aborts e r k, runs_user_code e -> snd (eval_rust aborts r) = Panicking ->
  eval_cpp aborts (CCallRust e r k) = (fst (eval_rust aborts r), Abort)
  /\ forall k', eval_cpp aborts (CTry (CCallRust e r k) k') = (fst (eval_rust aborts r), Abort).
Proof.
  intros aborts e r k U P. assert (E : eval_cpp aborts (CCallRust e r k) = (fst (eval_rust aborts r), Abort)).
  { rewrite ev_entry. unfold entry_point. rewrite (user_guarded e U). destruct (eval_rust aborts r) as [t o]. cbn in *. subst o. cbn. now rewrite app_nil_r. }
  split; [exact E|]. intros k'. rewrite ev_try. now rewrite E.
Qed.
(** A call without panic is not affected. *)
Theorem C47_transparent : forall aborts e r k t v, eval_rust aborts r = (t, Return v) ->
  eval_cpp aborts (CCallRust e r k) = (t ++ fst (eval_cpp aborts (k v)), snd (eval_cpp aborts (k v))).
Proof.
  intros aborts e r k t v E. rewrite ev_entry, E. unfold entry_point. destruct (guarded e); reflexivity.
Qed.
(** An exception ends the program unless the function is declared to return Result. *)
Theorem C47_exceptions : forall aborts throws c k, snd (eval_cpp aborts c) = Throwing ->
  eval_rust aborts (RCallCpp throws c k) =
  if throws then (fst (eval_cpp aborts c) ++ fst (eval_rust aborts (k None)), snd (eval_rust aborts (k None)))
  else (fst (eval_cpp aborts c), Abort).
Proof.
  intros aborts throws c k E. rewrite ev_call. destruct (eval_cpp aborts c) as [t o]. cbn in E. subst o. destruct throws; reflexivity.
Qed.

(** A Rust function with a local variable calls a C++ function that calls a Rust function that
    panics; the C++ code would catch exceptions.  The event after it is not seen, nor is the
    destructor of the outer Rust frame. *)
Definition inner : rust := REvent 2 (RLocal (REvent 3 (RRet 0)) (RCatch RPanic (fun _ => REvent 4 RPanic)) RRet).
Definition outer (e : entry) : cpp :=
  CCallRust Function (RLocal (REvent 9 (RRet 0)) (RCallCpp true (CEvent 1 (CTry (CCallRust e inner (fun _ => CEvent 8 CThrow)) (fun _ => CRet 1))) (fun o => RRet 5)) RRet) CRet.
Example C47_nonvacuous :
  possible_cpp no_overflow (outer VecDrop) /\ eval_cpp false (outer VecDrop) = ([1; 2; 4; 3], Abort) /\
  runs_user_code OpHash /\ eval_rust false inner = ([2; 4; 3], Panicking) /\
  (* returning normally, with an exception on the way *)
  eval_cpp false (CCallRust Function (RCallCpp true (CEvent 1 CThrow) (fun o => match o with None => REvent 2 (RRet 7) | _ => RPanic end)) CRet) = ([1; 2], Return 7).
Proof.
  split; [|repeat split; cbn; auto 12]. cbn. unfold no_overflow, runs_user_code. cbn. repeat split; auto 15.
Qed.

Print Assumptions C47_refuted.
Print Assumptions C47_no_crossing_partial.
Print Assumptions C47_no_exception_partial.
Print Assumptions C47_recent.
Print Assumptions C47_panic_aborts.
Print Assumptions C47_transparent.
Print Assumptions C47_exceptions.
