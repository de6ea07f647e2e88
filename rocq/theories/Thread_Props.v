(** C96: smart pointers to C++ objects and threads. *)
From Coq Require Import List Bool Arith.
From Verif Require Import Thread_Model Thread_Spec Thread_Proofs Thread_Proofs2.
Import ListNotations.

(** The targets have the traits one expects: an opaque C++ type is neither
    Send nor Sync unless its author says so, lifetimes or not; a C++ string is
    both; a vector is what its elements are. *)
Theorem C96_types : forall t,
  auto_send (repr t) = sendable t /\ auto_sync (repr t) = shareable t.
Proof. intro t. split; [apply send_is|apply sync_is]. Qed.

(** Under the bounds of UniquePtr, SharedPtr and WeakPtr, in every schedule of
    every program that rustc accepts: no two threads are ever about to make
    conflicting accesses; objects of types that are not Send are changed and
    destroyed on their own thread only; nothing is used after it is destroyed
    or destroyed twice. *)
Theorem C96_safe : safe cxx.
Proof. apply within_safe. intros k s y. auto. Qed.

(** And the bounds are as wide as they can be: any other set of bounds is safe
    exactly if it accepts nothing more. *)
Theorem C96_weakest : forall B, safe B <-> within B cxx.
Proof. intro B. split; [apply safe_within|apply within_safe]. Qed.

(** In every schedule an object is alive exactly as long as some UniquePtr or
    SharedPtr on some thread owns it. *)
Theorem C96_lifetime : forall l s es o x,
  run cxx start l = Some (s, es) -> nth_error (objs s) o = Some x ->
  (alive x = true <->
   exists h H, nth_error (handles s) h = Some (Some H) /\ hobj H = o /\ hkind H <> Weak).
Proof.
  intros l s es o x R X. split.
  - intro A. destruct (run_kept _ _ _ _ _ kept_start R _ _ X A) as (h & H & G & W & O).
    exists h, H. unfold get in G. destruct (nth_error (handles s) h) as [[K|]|]; try discriminate.
    repeat split; congruence.
  - intros (h & H & G & O & W).
    assert (I : inv s) by (eapply run_inv; [|apply inv_start|exact R]; intros ? ? ?; auto).
    destruct (i_obj _ I h H) as (y & Y & A & _); [unfold get; now rewrite G|].
    rewrite O, X in Y. injection Y as <-. auto.
Qed.

(** A program in which two threads use an object of a type that is Send and
    Sync through pointers of all kinds; the second thread is the last owner
    and destroys it. *)
Example C96_nonvacuous :
  exists s, run cxx start
    [(0, New (CxxVector (Opaque 1 true true)) Shared); (0, Downgrade 0); (0, Move 1 7);
     (7, Upgrade 1); (0, Read 0); (7, Read 2); (0, Drop 0); (7, Read 2); (7, Drop 2); (7, Upgrade 1);
     (3, New (Opaque 0 true false) Unique); (3, Move 3 4); (4, Write 3); (4, LendMut 3 5); (5, Write 3);
     (4, Return 3); (4, Drop 3)]
  = Some (s, [Event 0 Reads 0; Event 7 Reads 0; Event 7 Reads 0; Event 7 Destroys 0;
              Event 4 Writes 1; Event 5 Writes 1; Event 4 Destroys 1]).
Proof. eexists. reflexivity. Qed.

(** The same program is rejected for a type that is only Send, or only Sync. *)
Example C96_rejected :
  run cxx start [(0, New (Opaque 0 true false) Shared); (0, Move 0 7)] = None /\
  run cxx start [(0, New (Opaque 0 false true) Shared); (0, Move 0 7)] = None /\
  run cxx start [(0, New (Opaque 0 false true) Unique); (0, Move 0 7)] = None /\
  exists s, run cxx start [(0, New (Opaque 0 false true) Unique); (0, LendPtr 0 7); (7, Read 0); (0, Read 0)]
    = Some (s, [Event 7 Reads 0; Event 0 Reads 0]).
Proof. repeat split. eexists. reflexivity. Qed.

Print Assumptions C96_types.
Print Assumptions C96_safe.
Print Assumptions C96_weakest.
Print Assumptions C96_lifetime.
