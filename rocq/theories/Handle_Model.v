(** The traits of UniquePtr and SharedPtr that forward to their target: src/unique_ptr.rs 59-95, 152-360,
    src/shared_ptr.rs 62-66, 122-205.  The code of both is the same but for Read, Seek and Write, which only
    UniquePtr has.  How a pointer holds on to its target is left to C37 and C38. *)
From Verif Require Import Base.

(** * Comparing, hashing, printing *)
(** What a type implements; [H] are the states of a hasher, [F] those of a formatter (None: an error while writing).
    PartialEq, PartialOrd, Ord, Hash, Debug, Display of core. *)
Record traits (T H F : Type) : Type := Traits
  { tr_eq : T -> T -> bool; tr_ne : T -> T -> bool;
    tr_partial_cmp : T -> T -> option comparison; tr_lt : T -> T -> bool; tr_le : T -> T -> bool; tr_gt : T -> T -> bool; tr_ge : T -> T -> bool;
    tr_cmp : T -> T -> comparison;
    tr_hash : T -> H -> H;
    tr_debug : T -> F -> option F; tr_display : T -> F -> option F }.
Arguments Traits {T H F}. Arguments tr_eq {T H F}. Arguments tr_ne {T H F}. Arguments tr_partial_cmp {T H F}. Arguments tr_lt {T H F}.
Arguments tr_le {T H F}. Arguments tr_gt {T H F}. Arguments tr_ge {T H F}. Arguments tr_cmp {T H F}. Arguments tr_hash {T H F}.
Arguments tr_debug {T H F}. Arguments tr_display {T H F}.

(** core::option: the implementations for Option<&T>; the Hash derived for Option writes the discriminant first *)
Definition option_eq {T} (eq : T -> T -> bool) (a b : option T) : bool :=
  match a, b with Some a, Some b => eq a b | None, None => true | _, _ => false end.
Definition option_partial_cmp {T} (pc : T -> T -> option comparison) (a b : option T) : option comparison :=
  match a, b with Some a, Some b => pc a b | Some _, None => Some Gt | None, Some _ => Some Lt | None, None => Some Eq end.
Definition option_cmp {T} (cmp : T -> T -> comparison) (a b : option T) : comparison :=
  match a, b with Some a, Some b => cmp a b | Some _, None => Gt | None, Some _ => Lt | None, None => Eq end.
Definition option_hash {T H} (write_isize : Z -> H -> H) (hash : T -> H -> H) (a : option T) (h : H) : H :=
  match a with Some a => hash a (write_isize 1%Z h) | None => write_isize 0%Z h end.

(** core::cmp: the provided methods ne, lt, le, gt, ge *)
Definition provided_lt (c : option comparison) : bool := match c with Some Lt => true | _ => false end.
Definition provided_le (c : option comparison) : bool := match c with Some Lt | Some Eq => true | _ => false end.
Definition provided_gt (c : option comparison) : bool := match c with Some Gt => true | _ => false end.
Definition provided_ge (c : option comparison) : bool := match c with Some Gt | Some Eq => true | _ => false end.

Section Pointer.
  Context {A T H F : Type} (heap : A -> T) (write_isize : Z -> H -> H) (write_str : string -> F -> option F) (tr : traits T H F).
  (** A pointer is null or the address of a live object. *)
  Definition ptr : Type := option A.
  (** unique_ptr.rs 59-63, shared_ptr.rs 62-66: as_ref *)
  Definition as_ref (p : ptr) : option T := option_map heap p.
  (** unique_ptr.rs 152-165, shared_ptr.rs 122-135: deref *)
  Definition deref (p : ptr) : res T := match as_ref p with Some t => Ok t | None => Panic "called deref on a null pointer" end.
  (** unique_ptr.rs 185-247, shared_ptr.rs 138-200 *)
  Definition ptr_eq (p q : ptr) : bool := option_eq (tr_eq tr) (as_ref p) (as_ref q).
  Definition ptr_partial_cmp (p q : ptr) : option comparison := option_partial_cmp (tr_partial_cmp tr) (as_ref p) (as_ref q).
  Definition ptr_cmp (p q : ptr) : comparison := option_cmp (tr_cmp tr) (as_ref p) (as_ref q).
  Definition ptr_hash (p : ptr) (h : H) : H := option_hash write_isize (tr_hash tr) (as_ref p) h.
  Definition ptr_debug (p : ptr) (f : F) : option F := match as_ref p with None => write_str "nullptr" f | Some t => tr_debug tr t f end.
  Definition ptr_display (p : ptr) (f : F) : option F := match as_ref p with None => write_str "nullptr" f | Some t => tr_display tr t f end.
  Definition ptr_traits : traits ptr H F :=
    Traits ptr_eq (fun p q => negb (ptr_eq p q))
      ptr_partial_cmp (fun p q => provided_lt (ptr_partial_cmp p q)) (fun p q => provided_le (ptr_partial_cmp p q))
      (fun p q => provided_gt (ptr_partial_cmp p q)) (fun p q => provided_ge (ptr_partial_cmp p q))
      ptr_cmp ptr_hash ptr_debug ptr_display.
End Pointer.

(** * Reading, writing, seeking *)
(** The calls of std::io::Read, Seek and Write; a buffer to be filled is its length, a text to be formatted its pieces *)
Inductive seek_from := Start (n : N) | End_ (z : Z) | Current (z : Z).
Inductive call :=
| Read (len : nat) | ReadVectored (lens : list nat) | ReadToEnd | ReadToString | ReadExact (len : nat)
| Seek (pos : seek_from) | Rewind | StreamPosition | SeekRelative (z : Z)
| Write (buf : list ascii) | WriteVectored (bufs : list (list ascii)) | Flush | WriteAll (buf : list ascii) | WriteFmt (pieces : list string).
(** What a call gives back: a number, the bytes that were put into the buffers (for ReadVectored, into each), or an error *)
Inductive answer := Count (n : N) | Bytes (l : list (list ascii)) | Done | Error (e : string).

Section Io.
  (** An object of the state [S] answers calls; each may change it. *)
  Context {S : Type}.
  Definition io : Type := call -> S -> S * answer.
  (** std::io::default_read_vectored: the first buffer that is not empty (or an empty one) is given to read *)
  Fixpoint first_buffer (lens : list nat) : nat * nat :=
    match lens with
    | [] => (0, 0)
    | O :: lens => let (i, n) := first_buffer lens in match n with O => (0, 0) | _ => (Datatypes.S i, n) end
    | n :: _ => (0, n)
    end.
  Definition spread (i : nat) (lens : list nat) (a : answer) : answer :=
    match a with
    | Bytes l => Bytes (map (fun j => if Nat.eqb j i then List.concat l else []) (seq 0 (List.length lens)))
    | a => a
    end.
  Definition default_read_vectored (read : nat -> S -> S * answer) (lens : list nat) (s : S) : S * answer :=
    let (i, n) := first_buffer lens in let (s, a) := read n s in (s, spread i lens a).

  (** unique_ptr.rs 83-95: pin_mut; None is null *)
  Definition pin_mut (p : option S) : res S := match p with Some s => Ok s | None => Panic "called pin_mut on a null UniquePtr" end.
  (** unique_ptr.rs 250-347: read_vectored is not among the methods of the implementation, so it is the provided one *)
  Definition ptr_io (target : io) (c : call) (p : option S) : res (option S * answer) :=
    let forward c := bind (pin_mut p) (fun s => let (s, a) := target c s in Ok (Some s, a)) in
    match c with
    | ReadVectored lens =>
        let (i, n) := first_buffer lens in bind (forward (Read n)) (fun r => Ok (fst r, spread i lens (snd r)))
    | c => forward c
    end.
End Io.
