(** What the thread safety property (C96) says, apart from how the bounds are
    written. *)
From Coq Require Import List Bool Arith.
From Verif Require Import Thread_Model.
Import ListNotations.

(** The traits a reader of the bridge expects of a target: an opaque C++ type
    has those its author promised and no others, whatever its lifetimes; a
    C++ string has both; a vector has those of its elements. *)
Fixpoint sendable (t : target) : bool :=
  match t with
  | Opaque _ s _ => s
  | CxxString => true
  | CxxVector t => sendable t
  | Rust s _ => s
  end.

Fixpoint shareable (t : target) : bool :=
  match t with
  | Opaque _ _ y => y
  | CxxString => true
  | CxxVector t => shareable t
  | Rust _ y => y
  end.

(** The object number o of a state. *)
Definition is_object (s : state) (o : nat) (t : target) (creator : nat) : Prop :=
  exists live, nth_error (objs s) o = Some (Object t creator live).

(** Two accesses that must not be possible at the same time: different
    threads at one object, and either one of them changes or destroys it, or
    its type is not made for being looked at from two threads. *)
Definition conflict (s : state) (e f : event) : Prop :=
  by_thread e <> by_thread f /\ which e = which f /\
  (what e <> Reads \/ what f <> Reads \/
   exists t c, is_object s (which e) t c /\ shareable t = false).

(** In this state no two threads have conflicting accesses as their next
    operations. *)
Definition race_free (B : bounds) (s : state) : Prop :=
  forall x a sx es y b sy fs e f,
    step B s x a = Some (sx, es) -> step B s y b = Some (sy, fs) ->
    In e es -> In f fs -> ~ conflict s e f.

(** An object whose type is not Send is changed and destroyed only by the
    thread that made it, and also read only there unless its type is Sync. *)
Definition stays_home (s : state) (es : list event) : Prop :=
  forall e t c, In e es -> is_object s (which e) t c -> sendable t = false ->
    what e <> Reads \/ shareable t = false -> by_thread e = c.

(** Nothing is used after it is destroyed, and nothing destroyed twice. *)
Definition no_use_after (es : list event) : Prop :=
  forall l e r, es = l ++ e :: r -> what e = Destroys ->
    forall f, In f r -> which f <> which e.

(** A set of bounds is safe if all schedules of all programs accepted under it
    are. *)
Definition safe (B : bounds) : Prop :=
  forall l s es, run B start l = Some (s, es) ->
    race_free B s /\ stays_home s es /\ no_use_after es.

(** One set of bounds accepts nothing that the other rejects. *)
Definition within (B C : bounds) : Prop :=
  forall k s y, (sends B k s y = true -> sends C k s y = true) /\
                (syncs B k s y = true -> syncs C k s y = true).
