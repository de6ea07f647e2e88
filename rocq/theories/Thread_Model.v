(** Model of the thread safety of the smart pointers and opaque types:
    which types are Send and Sync (src/opaque.rs, src/cxx_string.rs,
    src/cxx_vector.rs, macro/src/expand.rs), the bounds on the `unsafe impl`s
    of src/unique_ptr.rs, src/shared_ptr.rs and src/weak_ptr.rs, and a machine
    in which threads create, clone, move, lend, use and drop the pointers as
    far as those bounds let rustc accept the program. *)
From Coq Require Import List Bool Arith.
Import ListNotations.

(** ** Auto traits *)

(** The shapes of Rust types that occur as fields in the types above.
    `Promised s y t` is a type t for which somebody wrote `unsafe impl Send`
    (s) or `unsafe impl Sync` (y).  `Given s y` is a type parameter about
    which only the two traits are known. *)
Inductive rty :=
| U8
| ConstPtr
| Unit
| Pinned
| Arr (t : rty)
| Phantom (t : rty)
| Cell (t : rty)
| Ref (t : rty)
| Struct (fields : list rty)
| Promised (send sync : bool) (t : rty)
| Given (send sync : bool).

(** Rust's auto trait rules for those shapes (language reference and core:
    raw pointers are neither, UnsafeCell is not Sync, a reference is Send iff
    its target is Sync, everything else by its parts). *)
Fixpoint auto_sync (t : rty) : bool :=
  match t with
  | U8 | Unit | Pinned => true
  | ConstPtr => false
  | Arr t | Phantom t => auto_sync t
  | Cell _ => false
  | Ref t => auto_sync t
  | Struct fs => forallb auto_sync fs
  | Promised _ y t => y || auto_sync t
  | Given _ y => y
  end.

Fixpoint auto_send (t : rty) : bool :=
  match t with
  | U8 | Unit | Pinned => true
  | ConstPtr => false
  | Arr t | Phantom t | Cell t => auto_send t
  | Ref t => auto_sync t
  | Struct fs => forallb auto_send fs
  | Promised s _ t => s || auto_send t
  | Given s _ => s
  end.

(** src/opaque.rs 26-30: SyncUnsafeCell and its `unsafe impl Sync`. *)
Definition sync_unsafe_cell (t : rty) : rty := Promised false true (Struct [Cell t]).

(** src/opaque.rs 17-22: Opaque; `void` is src/lib.rs 537-538. *)
Definition opaque : rty :=
  Struct [Arr ConstPtr; Phantom Pinned; sync_unsafe_cell (Phantom Unit)].

(** macro/src/expand.rs 381-402: the struct generated for an opaque C++ type
    with n lifetime parameters. *)
Definition cxx_type (n : nat) : rty :=
  Struct (opaque :: repeat (Phantom (Ref Unit)) n).

(** src/cxx_string.rs 45-49. *)
Definition cxx_string : rty := Struct [Arr U8; Phantom Pinned].

(** src/cxx_vector.rs 24-34; `c_void` is an enum without fields that matter,
    and `[T]` has the auto traits of T. *)
Definition cxx_vector (t : rty) : rty := Struct [Arr Unit; Phantom t; Phantom Pinned].

(** ** The bounds of the smart pointers *)

Inductive kind := Unique | Shared | Weak.

(** The bounds of a family of pointers: may a pointer of this kind be sent,
    may it be shared, given whether its target is Send and Sync. *)
Record bounds := Bounds {
  sends : kind -> bool -> bool -> bool;
  syncs : kind -> bool -> bool -> bool
}.

(** src/unique_ptr.rs 138-139, src/shared_ptr.rs 88-89, src/weak_ptr.rs
    57-58.  The structs themselves hold raw pointers (`repr`), so that no auto
    trait adds to what is written there. *)
Definition cxx : bounds := {|
  sends := fun k send sync =>
    match k with
    | Unique => send
    | Shared => send && sync
    | Weak => send && sync
    end;
  syncs := fun k send sync =>
    match k with
    | Unique => sync
    | Shared => send && sync
    | Weak => send && sync
    end
|}.

(** The targets of the pointers in a program: an opaque C++ type, with the
    traits its author has promised for it; std::string; std::vector of
    another; or a type of the Rust side with given traits. *)
Inductive target :=
| Opaque (lifetimes : nat) (send sync : bool)
| CxxString
| CxxVector (t : target)
| Rust (send sync : bool).

Fixpoint repr (t : target) : rty :=
  match t with
  | Opaque n s y => Promised s y (cxx_type n)
  | CxxString => cxx_string
  | CxxVector t => cxx_vector (repr t)
  | Rust s y => Given s y
  end.

(** ** The machine *)

(** A loan of a pointer to another thread: `&Ptr<T>`, the `&T` got from it,
    or the `Pin<&mut T>` got from `UniquePtr::pin_mut`. *)
Inductive loan := LPtr | LTarget | LMut.

Record object := Object { otype : target; home : nat; alive : bool }.

Record handle := Handle {
  hkind : kind;
  hobj : nat;
  howner : nat;
  loans : list (nat * loan)
}.

(** Objects and handles are numbered in the order of their creation; a handle
    that was dropped leaves None. *)
Record state := State { objs : list object; handles : list (option handle) }.

Inductive access := Reads | Writes | Destroys.

Record event := Event { by_thread : nat; what : access; which : nat }.

(** What thread `me` does next. *)
Inductive op :=
| New (t : target) (k : kind)
| Clone (h : nat)
| Downgrade (h : nat)
| Upgrade (h : nat)
| Move (h : nat) (to : nat)
| LendPtr (h : nat) (to : nat)
| LendTarget (h : nat) (to : nat)
| LendMut (h : nat) (to : nat)
| Return (h : nat)
| Read (h : nat)
| Write (h : nat)
| Drop (h : nat).

Definition start : state := State [] [].

Fixpoint put {A} (i : nat) (x : A) (l : list A) : list A :=
  match l, i with
  | [], _ => []
  | _ :: l, 0 => x :: l
  | y :: l, S i => y :: put i x l
  end.

Definition is_loan (me : nat) (l : loan) (x : nat * loan) : bool :=
  Nat.eqb (fst x) me &&
  match l, snd x with LPtr, LPtr | LTarget, LTarget | LMut, LMut => true | _, _ => false end.

Definition lent_mut (H : handle) : bool :=
  existsb (fun x => match snd x with LMut => true | _ => false end) (loans H).

(** Thread me can name the pointer through `&`: it owns it and has not lent
    the target mutably, or the pointer is lent to it. *)
Definition holds (me : nat) (H : handle) : bool :=
  (Nat.eqb (howner H) me && negb (lent_mut H)) || existsb (is_loan me LPtr) (loans H).

(** Thread me can get a `&T`. *)
Definition sees (me : nat) (H : handle) : bool :=
  holds me H || existsb (is_loan me LTarget) (loans H) || existsb (is_loan me LMut) (loans H).

(** Thread me has the pointer to itself. *)
Definition owns (me : nat) (H : handle) : bool :=
  Nat.eqb (howner H) me && match loans H with [] => true | _ => false end.

Definition is_strong (o : nat) (x : option handle) : bool :=
  match x with
  | Some H => match hkind H with Weak => false | _ => Nat.eqb (hobj H) o end
  | None => false
  end.

Definition get (s : state) (h : nat) : option handle :=
  match nth_error (handles s) h with Some (Some H) => Some H | _ => None end.

Definition with_handle (s : state) (h : nat) (H : option handle) : state :=
  State (objs s) (put h H (handles s)).

Definition add (s : state) (H : handle) : state :=
  State (objs s) (handles s ++ [Some H]).

Definition destroy (s : state) (o : nat) : state :=
  match nth_error (objs s) o with
  | Some x => State (put o (Object (otype x) (home x) false) (objs s)) (handles s)
  | None => s
  end.

(** Whether the target of a handle is Send and Sync. *)
Definition traits (s : state) (H : handle) : bool * bool :=
  match nth_error (objs s) (hobj H) with
  | Some x => (auto_send (repr (otype x)), auto_sync (repr (otype x)))
  | None => (false, false)
  end.

Definition lend (s : state) (h : nat) (H : handle) (to : nat) (l : loan) : state :=
  with_handle s h (Some (Handle (hkind H) (hobj H) (howner H) ((to, l) :: loans H))).

(** One operation of one thread; None where rustc rejects the program or the
    operation has no object.  src/unique_ptr.rs 46-56, 65-94, 145-152;
    src/shared_ptr.rs 41-106, 110-118; src/weak_ptr.rs 43-84.  Simplified: null
    pointers are left out, because they reach no object; every operation is
    one step, since the reference counts of std::shared_ptr are atomic; a
    loan ends when the owner's borrow ends, all loans of a pointer together;
    a target holds no pointers of its own. *)
Definition step (B : bounds) (s : state) (me : nat) (a : op) : option (state * list event) :=
  match a with
  | New t k =>
      match k with
      | Weak => None
      | _ =>
          Some (State (objs s ++ [Object t me true])
                      (handles s ++ [Some (Handle k (List.length (objs s)) me [])]), [])
      end
  | Clone h =>
      match get s h with
      | Some H =>
          match hkind H with
          | Unique => None
          | k => if holds me H then Some (add s (Handle k (hobj H) me []), []) else None
          end
      | None => None
      end
  | Downgrade h =>
      match get s h with
      | Some H =>
          match hkind H with
          | Shared => if holds me H then Some (add s (Handle Weak (hobj H) me []), []) else None
          | _ => None
          end
      | None => None
      end
  | Upgrade h =>
      match get s h with
      | Some H =>
          match hkind H with
          | Weak =>
              if holds me H then
                if existsb (is_strong (hobj H)) (handles s)
                then Some (add s (Handle Shared (hobj H) me []), [])
                else Some (s, [])
              else None
          | _ => None
          end
      | None => None
      end
  | Move h to =>
      match get s h with
      | Some H =>
          let '(send, sync) := traits s H in
          if owns me H && sends B (hkind H) send sync
          then Some (with_handle s h (Some (Handle (hkind H) (hobj H) to [])), [])
          else None
      | None => None
      end
  | LendPtr h to =>
      match get s h with
      | Some H =>
          let '(send, sync) := traits s H in
          if holds me H && syncs B (hkind H) send sync
          then Some (lend s h H to LPtr, [])
          else None
      | None => None
      end
  | LendTarget h to =>
      match get s h with
      | Some H =>
          match hkind H with
          | Weak => None
          | _ =>
              let '(send, sync) := traits s H in
              if (holds me H || existsb (is_loan me LTarget) (loans H)) && sync
              then Some (lend s h H to LTarget, [])
              else None
          end
      | None => None
      end
  | LendMut h to =>
      match get s h with
      | Some H =>
          match hkind H with
          | Unique =>
              let '(send, sync) := traits s H in
              if owns me H && send then Some (lend s h H to LMut, []) else None
          | _ => None
          end
      | None => None
      end
  | Return h =>
      match get s h with
      | Some H =>
          if Nat.eqb (howner H) me
          then Some (with_handle s h (Some (Handle (hkind H) (hobj H) (howner H) [])), [])
          else None
      | None => None
      end
  | Read h =>
      match get s h with
      | Some H =>
          match hkind H with
          | Weak => None
          | _ => if sees me H then Some (s, [Event me Reads (hobj H)]) else None
          end
      | None => None
      end
  | Write h =>
      match get s h with
      | Some H =>
          match hkind H with
          | Unique =>
              if owns me H || existsb (is_loan me LMut) (loans H)
              then Some (s, [Event me Writes (hobj H)])
              else None
          | _ => None
          end
      | None => None
      end
  | Drop h =>
      match get s h with
      | Some H =>
          if owns me H then
            let s' := with_handle s h None in
            match hkind H with
            | Weak => Some (s', [])
            | _ =>
                if existsb (is_strong (hobj H)) (handles s')
                then Some (s', [])
                else Some (destroy s' (hobj H), [Event me Destroys (hobj H)])
            end
          else None
      | None => None
      end
  end.

(** A schedule: operations of threads one after the other. *)
Fixpoint run (B : bounds) (s : state) (l : list (nat * op)) : option (state * list event) :=
  match l with
  | [] => Some (s, [])
  | (me, a) :: l =>
      match step B s me a with
      | Some (s', es) =>
          match run B s' l with
          | Some (s'', fs) => Some (s'', es ++ fs)
          | None => None
          end
      | None => None
      end
  end.
