(** Model of [UniquePtr]: src/unique_ptr.rs, the [UniquePtrTarget] implementations written by
    macro/src/expand.rs (expand_unique_ptr) and the C++ functions they call, written by
    gen/src/write.rs 1664-1780 (write_unique_ptr_common) and src/cxx.cc 583-603.

    The heap is a list of cells, the address of an object is its position.  Addresses are not
    reused, which makes any use of a freed cell visible.  [None] as the result of an operation
    is undefined behaviour: a read of something that is not an object, a second destruction. *)
From Verif Require Import Base.

Section Unique.
Context {V : Type}.

Inductive cell := Uninit | Live (v : V) | Freed.
Definition heap := list cell.
(** a pointer: null or an address *)
Definition word := option nat.

Fixpoint set_cell (a : nat) (c : cell) (h : heap) : heap :=
  match h, a with
  | [], _ => []
  | _ :: h, 0 => c :: h
  | x :: h, S a => x :: set_cell a c h
  end.

(** C++ [new MaybeUninit<T>]: storage without an object *)
Definition new_storage (h : heap) : nat * heap := (List.length h, h ++ [Uninit]).
(** Rust [ptr::write]: the old content, if any, is forgotten *)
Definition write_cell (a : nat) (v : V) (h : heap) : option heap :=
  match nth_error h a with
  | Some Uninit | Some (Live _) => Some (set_cell a (Live v) h)
  | _ => None
  end.
Definition read_cell (a : nat) (h : heap) : option V :=
  match nth_error h a with Some (Live v) => Some v | _ => None end.
(** an assignment to an existing object; gives the old value, which is destroyed *)
Definition assign_cell (a : nat) (v : V) (h : heap) : option (V * heap) :=
  match nth_error h a with Some (Live old) => Some (old, set_cell a (Live v) h) | _ => None end.
(** C++ [delete p] *)
Definition delete_cell (a : nat) (h : heap) : option (V * heap) :=
  match nth_error h a with Some (Live v) => Some (v, set_cell a Freed h) | _ => None end.

(** * The C++ functions.  A std::unique_ptr in memory is one word. *)

(** write.rs 1708-1715: $null *)
Definition cxx_null : word := None.
(** write.rs 1717-1733: $uninit; the new contents of the slot and the returned pointer *)
Definition cxx_uninit (h : heap) : word * nat * heap :=
  let '(uninit, h) := new_storage h in (Some uninit, uninit, h).
(** write.rs 1735-1742: $raw *)
Definition cxx_raw (raw : word) : word := raw.
(** write.rs 1744-1751: $get *)
Definition cxx_get (slot : word) : word := slot.
(** write.rs 1753-1760: $release; the new contents of the slot and the returned pointer *)
Definition cxx_release (slot : word) : word * word := (None, slot).
(** write.rs 1762-1779: $drop.  deleter_if<true> and ~unique_ptr do the same; deleter_if<false>
    cannot be instantiated because of the static_assert at 1689-1699.  The result lists what was
    destroyed. *)
Definition cxx_drop (slot : word) (h : heap) : option (list V * heap) :=
  match slot with
  | None => Some ([], h)
  | Some a => match delete_cell a h with Some (v, h) => Some ([v], h) | None => None end
  end.

(** * The methods written by expand_unique_ptr.  [repr] is passed by value: the C++ function
    works on a copy. *)
Definition t_null : word := let repr := cxx_null in repr.
Definition t_new (value : V) (h : heap) : option (word * heap) :=
  let '(repr, p, h) := cxx_uninit h in
  match write_cell p value h with Some h => Some (repr, h) | None => None end.
Definition t_raw (raw : word) : word := let repr := cxx_raw raw in repr.
Definition t_get (repr : word) : word := cxx_get repr.
Definition t_release (repr : word) : word := let '(_, p) := cxx_release repr in p.
Definition t_drop (repr : word) (h : heap) : option (list V * heap) := cxx_drop repr h.

(** * src/unique_ptr.rs.  A UniquePtr is its [repr]. *)

(** 37-42 *)
Definition u_null : word := t_null.
(** 45-53 *)
Definition u_new (value : V) (h : heap) : option (word * heap) := t_new value h.
(** 99-101, 110-112 *)
Definition u_as_ptr (self : word) : word := t_get self.
Definition u_as_mut_ptr (self : word) : word := u_as_ptr self.
(** 58-60 *)
Definition u_is_null (self : word) : bool := match u_as_ptr self with None => true | Some _ => false end.
(** 64-67: the outer option is undefined behaviour *)
Definition u_as_ref (self : word) (h : heap) : option (option V) :=
  match u_as_ptr self with
  | None => Some None
  | Some a => match read_cell a h with Some v => Some (Some v) | None => None end
  end.
(** 71-77: the address of the object *)
Definition u_as_mut (self : word) : option nat := u_as_mut_ptr self.
(** 117-121: the pointer; what happens to [self] afterwards is [forget], i.e. nothing *)
Definition u_into_raw (self : word) : word := t_release self.
(** 131-136 *)
Definition u_from_raw (raw : word) : word := t_raw raw.
(** 146-153 *)
Definition u_drop (self : word) (h : heap) : option (list V * heap) := t_drop self h.

(** * Programs that use them *)

(** Who holds a pointer: a Rust UniquePtr, a raw pointer obtained from [into_raw], a C++
    std::unique_ptr *)
Inductive holder := KUnique | KRaw | KCxx.
Definition vars := list (nat * (holder * word)).

Fixpoint lookup {A} (x : nat) (e : list (nat * A)) : option A :=
  match e with [] => None | (y, a) :: e => if Nat.eqb x y then Some a else lookup x e end.
Fixpoint remove {A} (x : nat) (e : list (nat * A)) : list (nat * A) :=
  match e with [] => [] | (y, a) :: e => if Nat.eqb x y then e else (y, a) :: remove x e end.

Inductive op :=
| Null (x : nat) | New (x : nat) (v : V)
| IsNull (x : nat) | AsRef (x : nat) | AsMut (x : nat) (v : V)
| Deref (x : nat) | DerefMut (x : nat) (v : V) | PinMut (x : nat) (v : V)
| Fmt (x : nat) | Eq (x y : nat) | Cmp (x y : nat)
| IntoRaw (x : nat) | FromRaw (x : nat)
| Move (x y : nat) | Drop (x : nat)
| ToCxx (x : nat) | FromCxx (x : nat) | CxxNew (x : nat) (v : V) | CxxDrop (x : nat).

Inductive obs :=
| Done | Bool (b : bool) | Ref (r : option V) | Wrote (b : bool) | Panic | Order (c : comparison).

(** What an operation does: it is not a legal program (the borrow checker or the contract of
    an unsafe function forbids it), is undefined behaviour, or gives a new state, an
    observation and the objects that were destroyed *)
Inductive outcome (S : Type) := Illegal | UB | Ok (s : S) (o : obs) (destroyed : list V).
Arguments Illegal {S}. Arguments UB {S}. Arguments Ok {S}.

Variable veqb : V -> V -> bool.
Variable vcmp : V -> V -> comparison.
(** core: PartialEq and Ord for Option *)
Definition opt_eqb (a b : option V) : bool :=
  match a, b with None, None => true | Some x, Some y => veqb x y | _, _ => false end.
Definition opt_cmp (a b : option V) : comparison :=
  match a, b with
  | None, None => Datatypes.Eq | None, Some _ => Lt | Some _, None => Gt
  | Some x, Some y => vcmp x y
  end.

Definition state := (heap * vars)%type.

Definition bind_var (x : nat) (k : holder) (w : word) (h : heap) (e : vars) (o : obs) (d : list V) : outcome state :=
  match lookup x e with Some _ => Illegal | None => Ok (h, (x, (k, w)) :: e) o d end.
Definition with_var (x : nat) (k : holder) (e : vars) (f : word -> outcome state) : outcome state :=
  match lookup x e, k with
  | Some (KUnique, w), KUnique | Some (KRaw, w), KRaw | Some (KCxx, w), KCxx => f w
  | _, _ => Illegal
  end.

(** writing through a pinned reference *)
Definition write_through (a : nat) (v : V) (h : heap) (e : vars) (o : obs) : outcome state :=
  match assign_cell a v h with Some (old, h) => Ok (h, e) o [old] | None => UB end.

Definition step (o : op) (st : state) : outcome state :=
  let '(h, e) := st in
  match o with
  | Null x => bind_var x KUnique u_null h e Done []
  | New x v => match u_new v h with Some (w, h) => bind_var x KUnique w h e Done [] | None => UB end
  | IsNull x => with_var x KUnique e (fun w => Ok st (Bool (u_is_null w)) [])
  | AsRef x => with_var x KUnique e (fun w =>
      match u_as_ref w h with Some r => Ok st (Ref r) [] | None => UB end)
  | AsMut x v => with_var x KUnique e (fun w =>
      match u_as_mut w with None => Ok st (Wrote false) [] | Some a => write_through a v h e (Wrote true) end)
  (* 155-170 *)
  | Deref x => with_var x KUnique e (fun w =>
      match u_as_ref w h with Some (Some v) => Ok st (Ref (Some v)) [] | Some None => Ok st Panic [] | None => UB end)
  (* 172-185 *)
  | DerefMut x v => with_var x KUnique e (fun w =>
      match u_as_mut w with None => Ok st Panic [] | Some a => write_through a v h e (Wrote true) end)
  (* 85-93 *)
  | PinMut x v => with_var x KUnique e (fun w =>
      match u_as_mut w with None => Ok st Panic [] | Some a => write_through a v h e (Wrote true) end)
  (* 187-209: [Ref None] stands for the text nullptr *)
  | Fmt x => with_var x KUnique e (fun w =>
      match u_as_ref w h with Some r => Ok st (Ref r) [] | None => UB end)
  (* 211-220 *)
  | Eq x y => with_var x KUnique e (fun w => with_var y KUnique e (fun w' =>
      match u_as_ref w h, u_as_ref w' h with Some a, Some b => Ok st (Bool (opt_eqb a b)) [] | _, _ => UB end))
  (* 222-238 *)
  | Cmp x y => with_var x KUnique e (fun w => with_var y KUnique e (fun w' =>
      match u_as_ref w h, u_as_ref w' h with Some a, Some b => Ok st (Order (opt_cmp a b)) [] | _, _ => UB end))
  | IntoRaw x => with_var x KUnique e (fun w => Ok (h, (x, (KRaw, u_into_raw w)) :: remove x e) Done [])
  (* the contract: the raw pointer is not used again *)
  | FromRaw x => with_var x KRaw e (fun w => Ok (h, (x, (KUnique, u_from_raw w)) :: remove x e) Done [])
  (* a move copies the representation *)
  | Move x y => with_var x KUnique e (fun w => bind_var y KUnique w h (remove x e) Done [])
  | Drop x => with_var x KUnique e (fun w =>
      match u_drop w h with Some (d, h) => Ok (h, remove x e) Done d | None => UB end)
  (* expand.rs 646: into_raw; write.rs: std::unique_ptr<T>(arg) *)
  | ToCxx x => with_var x KUnique e (fun w => Ok (h, (x, (KCxx, cxx_raw (u_into_raw w))) :: remove x e) Done [])
  (* write.rs: result.release(); expand.rs: UniquePtr::from_raw *)
  | FromCxx x => with_var x KCxx e (fun w =>
      let '(_, p) := cxx_release w in Ok (h, (x, (KUnique, u_from_raw p)) :: remove x e) Done [])
  (* std::make_unique *)
  | CxxNew x v =>
      let '(p, h) := new_storage h in
      match write_cell p v h with Some h => bind_var x KCxx (Some p) h e Done [] | None => UB end
  | CxxDrop x => with_var x KCxx e (fun w =>
      match cxx_drop w h with Some (d, h) => Ok (h, remove x e) Done d | None => UB end)
  end.

Fixpoint run (ops : list op) (st : state) : outcome state * list (obs * list V) :=
  match ops with
  | [] => (Ok st Done [], [])
  | o :: ops => match step o st with
                | Ok st o d => let '(r, t) := run ops st in (r, (o, d) :: t)
                | bad => (bad, [])
                end
  end.
End Unique.
Arguments cell : clear implicits. Arguments heap : clear implicits. Arguments op : clear implicits.
Arguments obs : clear implicits. Arguments outcome : clear implicits. Arguments state : clear implicits.
Arguments Illegal {V S}. Arguments UB {V S}. Arguments Ok {V S}.
