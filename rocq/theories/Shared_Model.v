(** Model of [SharedPtr] and [WeakPtr]: src/shared_ptr.rs, src/weak_ptr.rs, the target traits
    written by macro/src/expand.rs (expand_shared_ptr, expand_weak_ptr), and the C++ functions
    they call (gen/src/write.rs 1782-1930, src/cxx.cc SHARED_PTR_OPS), over the reference counts
    of std::shared_ptr as the C++ standard describes them.

    The heap is a list of control blocks.  [None] as a result is undefined behaviour: using a
    block that is gone, an object that is not there, or a count below zero.  Overflow of the
    counts is not modelled, nor are threads (std::shared_ptr counts atomically). *)
From Verif Require Import Base.

Section Shared.
Context {V : Type}.

Inductive object := Uninit | Live (v : V) | Destroyed.
(** [Block strong weak object]; the block disappears with the last pointer of either kind *)
Inductive block := Block (strong weak : nat) (o : object) | Gone.
Definition heap := list block.
(** std::shared_ptr and std::weak_ptr: empty or a reference to a block *)
Notation ptr := (option nat).

Fixpoint set_block (a : nat) (b : block) (h : heap) : heap :=
  match h, a with
  | [], _ => []
  | _ :: h, 0 => b :: h
  | x :: h, S a => x :: set_block a b h
  end.
Definition settle (a : nat) (s w : nat) (o : object) (h : heap) : heap :=
  set_block a match s, w with 0, 0 => Gone | _, _ => Block s w o end h.

(** * The C++ standard library *)

(** shared_ptr(T *p) for storage just allocated *)
Definition std_adopt (h : heap) : ptr * heap := (Some (List.length h), h ++ [Block 1 0 Uninit]).
(** shared_ptr(const shared_ptr &) *)
Definition std_copy (p : ptr) (h : heap) : option (ptr * heap) :=
  match p with
  | None => Some (None, h)
  | Some a => match nth_error h a with
              | Some (Block (S s) w o) => Some (p, set_block a (Block (S (S s)) w o) h)
              | _ => None
              end
  end.
(** ~shared_ptr: the last one destroys the object *)
Definition std_release (p : ptr) (h : heap) : option (list V * heap) :=
  match p with
  | None => Some ([], h)
  | Some a => match nth_error h a with
              | Some (Block 1 w (Live v)) => Some ([v], settle a 0 w Destroyed h)
              | Some (Block (S (S s)) w o) => Some ([], settle a (S s) w o h)
              | _ => None
              end
  end.
(** weak_ptr(const shared_ptr &) and weak_ptr(const weak_ptr &) *)
Definition std_weak (p : ptr) (h : heap) : option (ptr * heap) :=
  match p with
  | None => Some (None, h)
  | Some a => match nth_error h a with
              | Some (Block s w o) => Some (p, set_block a (Block s (S w) o) h)
              | _ => None
              end
  end.
(** ~weak_ptr *)
Definition std_release_weak (p : ptr) (h : heap) : option heap :=
  match p with
  | None => Some h
  | Some a => match nth_error h a with
              | Some (Block s (S w) o) => Some (settle a s w o h)
              | _ => None
              end
  end.
(** weak_ptr::lock *)
Definition std_lock (p : ptr) (h : heap) : option (ptr * heap) :=
  match p with
  | None => Some (None, h)
  | Some a => match nth_error h a with
              | Some (Block 0 _ _) => Some (None, h)
              | Some (Block s w o) => Some (p, set_block a (Block (S s) w o) h)
              | _ => None
              end
  end.
(** move constructor: the new pointer and what is left behind *)
Definition std_move (p : ptr) : ptr * ptr := (p, None).

(** reading and writing the object *)
Definition read_object (a : nat) (h : heap) : option V :=
  match nth_error h a with Some (Block _ _ (Live v)) => Some v | _ => None end.
Definition init_object (a : nat) (v : V) (h : heap) : option heap :=
  match nth_error h a with Some (Block s w Uninit) => Some (set_block a (Block s w (Live v)) h) | _ => None end.
Definition assign_object (a : nat) (v : V) (h : heap) : option (V * heap) :=
  match nth_error h a with
  | Some (Block s w (Live old)) => Some (old, set_block a (Block s w (Live v)) h)
  | _ => None
  end.

(** * The C++ functions: each constructs its result in the memory it is given *)
(** write.rs 1808-1815, 1883-1890 *)
Definition cxx_null : ptr := None.
(** write.rs 1817-1833: the pointer and the address of the storage *)
Definition cxx_uninit (h : heap) : ptr * nat * heap :=
  let a := List.length h in let '(p, h) := std_adopt h in (p, a, h).
(** write.rs 1835-1842 *)
Definition cxx_clone (self : ptr) (h : heap) := std_copy self h.
(** write.rs 1844-1851 *)
Definition cxx_get (self : ptr) : ptr := self.
(** write.rs 1853-1860 *)
Definition cxx_drop (self : ptr) (h : heap) := std_release self h.
(** write.rs 1892-1899, 1901-1908, 1910-1920, 1922-1929 *)
Definition cxx_weak_clone (self : ptr) (h : heap) := std_weak self h.
Definition cxx_downgrade (shared : ptr) (h : heap) := std_weak shared h.
Definition cxx_upgrade (weak : ptr) (h : heap) := std_lock weak h.
Definition cxx_weak_drop (self : ptr) (h : heap) := std_release_weak self h.

(** * src/shared_ptr.rs, src/weak_ptr.rs *)
(** shared_ptr.rs 31-38 *)
Definition s_null : ptr := cxx_null.
(** 41-51, with __new of expand.rs *)
Definition s_new (value : V) (h : heap) : option (ptr * heap) :=
  let '(p, a, h) := cxx_uninit h in
  match init_object a value h with Some h => Some (p, h) | None => None end.
(** 56-60 *)
Definition s_is_null (self : ptr) : bool := match cxx_get self with None => true | Some _ => false end.
(** 64-67 *)
Definition s_as_ref (self : ptr) (h : heap) : option (option V) :=
  match cxx_get self with
  | None => Some None
  | Some a => match read_object a h with Some v => Some (Some v) | None => None end
  end.
(** 74-85 *)
Definition s_downgrade (self : ptr) (h : heap) := cxx_downgrade self h.
(** 91-104 *)
Definition s_clone (self : ptr) (h : heap) := cxx_clone self h.
(** 110-118 *)
Definition s_drop (self : ptr) (h : heap) := cxx_drop self h.
(** weak_ptr.rs 30-37, 43-55, 61-74, 76-84 *)
Definition w_null : ptr := cxx_null.
Definition w_upgrade (self : ptr) (h : heap) := cxx_upgrade self h.
Definition w_clone (self : ptr) (h : heap) := cxx_weak_clone self h.
Definition w_drop (self : ptr) (h : heap) := cxx_weak_drop self h.

(** * Programs *)
Inductive kind := KShared | KWeak | KCxxShared | KCxxWeak.
Definition kind_eqb (a b : kind) : bool :=
  match a, b with
  | KShared, KShared | KWeak, KWeak | KCxxShared, KCxxShared | KCxxWeak, KCxxWeak => true
  | _, _ => false
  end.
Definition vars := list (nat * (kind * ptr)).
Fixpoint lookup {A} (x : nat) (e : list (nat * A)) : option A :=
  match e with [] => None | (y, a) :: e => if Nat.eqb x y then Some a else lookup x e end.
Fixpoint remove {A} (x : nat) (e : list (nat * A)) : list (nat * A) :=
  match e with [] => [] | (y, a) :: e => if Nat.eqb x y then e else (y, a) :: remove x e end.

Inductive op :=
| Null (x : nat) | New (x : nat) (v : V) | IsNull (x : nat) | AsRef (x : nat) | Deref (x : nat)
| Clone (x y : nat) | Drop (x : nat) | Downgrade (x y : nat) | Eq (x y : nat) | Cmp (x y : nat)
| WNull (x : nat) | Upgrade (x y : nat) | WClone (x y : nat) | WDrop (x : nat) | WDebug (x : nat)
| ToCxx (x : nat) | FromCxx (x : nat) | WToCxx (x : nat) | WFromCxx (x : nat)
| CxxCopy (x y : nat) | CxxWrite (x : nat) (v : V) | CxxDrop (x : nat).

Inductive obs := Done | Bool (b : bool) | Ref (r : option V) | Panic | Order (c : comparison).
Inductive outcome (S : Type) := Illegal | UB | Ok (s : S) (o : obs) (destroyed : list V).
Arguments Illegal {S}. Arguments UB {S}. Arguments Ok {S}.

Variable veqb : V -> V -> bool.
Variable vcmp : V -> V -> comparison.
Definition opt_eqb (a b : option V) : bool :=
  match a, b with None, None => true | Some x, Some y => veqb x y | _, _ => false end.
Definition opt_cmp (a b : option V) : comparison :=
  match a, b with
  | None, None => Datatypes.Eq | None, Some _ => Lt | Some _, None => Gt
  | Some x, Some y => vcmp x y
  end.

Definition state := (heap * vars)%type.
Definition bind_var (x : nat) (k : kind) (r : option (ptr * heap)) (e : vars) : outcome state :=
  match r with
  | None => UB
  | Some (p, h) => match lookup x e with Some _ => Illegal | None => Ok (h, (x, (k, p)) :: e) Done [] end
  end.
Definition with_var (x : nat) (k : kind) (e : vars) (f : ptr -> outcome state) : outcome state :=
  match lookup x e with
  | Some (k', p) => if kind_eqb k k' then f p else Illegal
  | None => Illegal
  end.

Definition step (o : op) (st : state) : outcome state :=
  let '(h, e) := st in
  match o with
  | Null x => bind_var x KShared (Some (s_null, h)) e
  | New x v => bind_var x KShared (s_new v h) e
  | IsNull x => with_var x KShared e (fun p => Ok st (Bool (s_is_null p)) [])
  | AsRef x => with_var x KShared e (fun p => match s_as_ref p h with Some r => Ok st (Ref r) [] | None => UB end)
  (* shared_ptr.rs 120-135 *)
  | Deref x => with_var x KShared e (fun p =>
      match s_as_ref p h with Some (Some v) => Ok st (Ref (Some v)) [] | Some None => Ok st Panic [] | None => UB end)
  | Clone x y => with_var x KShared e (fun p => bind_var y KShared (s_clone p h) e)
  | Drop x => with_var x KShared e (fun p =>
      match s_drop p h with Some (d, h) => Ok (h, remove x e) Done d | None => UB end)
  | Downgrade x y => with_var x KShared e (fun p => bind_var y KWeak (s_downgrade p h) e)
  (* shared_ptr.rs 161-188 *)
  | Eq x y => with_var x KShared e (fun p => with_var y KShared e (fun q =>
      match s_as_ref p h, s_as_ref q h with Some a, Some b => Ok st (Bool (opt_eqb a b)) [] | _, _ => UB end))
  | Cmp x y => with_var x KShared e (fun p => with_var y KShared e (fun q =>
      match s_as_ref p h, s_as_ref q h with Some a, Some b => Ok st (Order (opt_cmp a b)) [] | _, _ => UB end))
  | WNull x => bind_var x KWeak (Some (w_null, h)) e
  | Upgrade x y => with_var x KWeak e (fun p => bind_var y KShared (w_upgrade p h) e)
  | WClone x y => with_var x KWeak e (fun p => bind_var y KWeak (w_clone p h) e)
  | WDrop x => with_var x KWeak e (fun p => match w_drop p h with Some h => Ok (h, remove x e) Done [] | None => UB end)
  (* weak_ptr.rs 86-93: a temporary SharedPtr that is dropped again *)
  | WDebug x => with_var x KWeak e (fun p =>
      match w_upgrade p h with
      | Some (q, h) => match s_as_ref q h with
                       | Some r => match s_drop q h with Some (d, h) => Ok (h, e) (Ref r) d | None => UB end
                       | None => UB end
      | None => UB end)
  (* by value to C++: C++ moves out of the argument, which Rust does not drop; and back *)
  | ToCxx x => with_var x KShared e (fun p => let '(q, _) := std_move p in Ok (h, (x, (KCxxShared, q)) :: remove x e) Done [])
  | FromCxx x => with_var x KCxxShared e (fun p => let '(q, _) := std_move p in Ok (h, (x, (KShared, q)) :: remove x e) Done [])
  | WToCxx x => with_var x KWeak e (fun p => let '(q, _) := std_move p in Ok (h, (x, (KCxxWeak, q)) :: remove x e) Done [])
  | WFromCxx x => with_var x KCxxWeak e (fun p => let '(q, _) := std_move p in Ok (h, (x, (KWeak, q)) :: remove x e) Done [])
  | CxxCopy x y => with_var x KCxxShared e (fun p => bind_var y KCxxShared (std_copy p h) e)
  | CxxWrite x v => with_var x KCxxShared e (fun p =>
      match p with
      | None => Illegal
      | Some a => match assign_object a v h with Some (old, h) => Ok (h, e) Done [old] | None => UB end
      end)
  | CxxDrop x => with_var x KCxxShared e (fun p =>
      match std_release p h with Some (d, h) => Ok (h, remove x e) Done d | None => UB end)
  end.

Fixpoint run (ops : list op) (st : state) : outcome state * list (obs * list V) :=
  match ops with
  | [] => (Ok st Done [], [])
  | o :: ops => match step o st with
                | Ok st o d => let '(r, t) := run ops st in (r, (o, d) :: t)
                | bad => (bad, [])
                end
  end.
End Shared.
Arguments object : clear implicits. Arguments block : clear implicits. Arguments heap : clear implicits.
Arguments op : clear implicits. Arguments obs : clear implicits. Arguments outcome : clear implicits.
Arguments state : clear implicits.
Arguments Illegal {V S}. Arguments UB {V S}. Arguments Ok {V S}.
