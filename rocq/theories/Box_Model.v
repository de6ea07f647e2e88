(** Model of rust::Box in C++: include/cxx.h 291-333 and 754-863, with alloc, dealloc and drop
    from the generated code (macro/src/expand.rs 1300-1347).

    The heap is a list of allocations (Store_Lib), each of which may hold an object; an object
    is a value.  Addresses are never reused.  [None] is undefined behaviour: freeing or
    destroying what is not there.  Destroying an object is observable.  A null box (moved from)
    may be moved, assigned, swapped and destroyed but not dereferenced. *)
From Verif Require Import Base Store_Lib.

Notation value := nat (only parsing).
Notation heap := (list (option (option nat))).
(** a rust::Box or a pointer from into_raw, with the pointer inside *)
Inductive kind := IsBox | IsRaw.
Notation holder := (kind * option nat)%type.
Notation vars := (list (nat * holder)).
Notation state := (heap * vars)%type.

Definition bind {A B} (o : option A) (f : A -> option B) : option B := match o with Some a => f a | None => None end.

(** expand.rs 1326-1333 *)
Definition box_alloc (h : heap) : nat * heap := alloc None h.
(** 1336-1339: no destructor runs *)
Definition box_dealloc (a : nat) (h : heap) : option heap := free a h.
(** 1342-1345: the object is destroyed, then the memory is freed *)
Definition box_drop (a : nat) (h : heap) : option (heap * list value) :=
  match cell h a with
  | Some (Some v) => bind (free a h) (fun h => Some (h, [v]))
  | _ => None
  end.

(** cxx.h 766-770: ~allocation *)
Definition allocation_dtor (ptr : option nat) (h : heap) : option heap :=
  match ptr with Some a => box_dealloc a h | None => Some h end.
(** 779-793: a constructor from a value; [throws] if the constructor of T throws.  The result
    is the pointer, or none if the exception leaves the constructor *)
Definition box_new (v : value) (throws : bool) (h : heap) : option (option nat * heap) :=
  let '(a, h) := box_alloc h in
  let alloc_ptr := Some a in
  if throws then bind (allocation_dtor alloc_ptr h) (fun h => Some (None, h))
  else bind (store a (Some v) h) (fun h =>
       let this_ptr := alloc_ptr in
       let alloc_ptr := None in
       bind (allocation_dtor alloc_ptr h) (fun h => Some (this_ptr, h))).
(** 832-840 *)
Definition box_in_place (v : value) (throws : bool) (h : heap) : option (option nat * heap) :=
  let '(a, h) := box_alloc h in
  let alloc_ptr := Some a in
  let ptr := a in
  if throws then bind (allocation_dtor alloc_ptr h) (fun h => Some (None, h))
  else bind (store ptr (Some v) h) (fun h =>
       let alloc_ptr := None in
       bind (allocation_dtor alloc_ptr h) (fun h => Some (Some ptr, h))).

Definition ptr_of (x : nat) (e : vars) : option (option nat) := option_map snd (lookup x e).
(** [x->ptr = p] *)
Definition set_ptr (x : nat) (p : option nat) (e : vars) : vars :=
  match lookup x e with Some (k, _) => set x (k, p) e | None => e end.
(** the destructor, 795-800, and the first part of the assignment: drop if not null *)
Definition drop_if (x : nat) (st : state) : option (state * list value) :=
  let '(h, e) := st in
  match ptr_of x e with
  | None => None
  | Some None => Some (st, [])
  | Some (Some a) => bind (box_drop a h) (fun '(h, ev) => Some ((h, e), ev))
  end.
(** 774-777 *)
Definition box_move (x y : nat) (st : state) : option state :=
  let '(h, e) := st in
  bind (ptr_of y e) (fun p => Some (h, set_ptr y None ((x, (IsBox, p)) :: e))).
(** 802-810 *)
Definition box_assign (x y : nat) (st : state) : option (state * list value) :=
  bind (drop_if x st) (fun '((h, e), ev) =>
  bind (ptr_of y e) (fun p => Some ((h, set_ptr y None (set_ptr x p e)), ev))).
(** 842-846 *)
Definition box_swap (x y : nat) (st : state) : option state :=
  let '(h, e) := st in
  bind (ptr_of x e) (fun p => bind (ptr_of y e) (fun q => Some (h, set_ptr y p (set_ptr x q e)))).
(** 848-853: [tmp] is the local variable; whether it is the result itself (copy elision) or
    moved into the result is up to the compiler *)
Definition box_from_raw (elide : bool) (tmp x : nat) (raw : option nat) (st : state) : option (state * list value) :=
  let '(h, e) := st in
  if elide then Some ((h, (x, (IsBox, raw)) :: e), [])
  else bind (box_move x tmp (h, (tmp, (IsBox, raw)) :: e)) (fun st =>
       bind (drop_if tmp st) (fun '((h, e), ev) => Some ((h, remove tmp e), ev))).
(** 855-860 *)
Definition box_into_raw (x : nat) (e : vars) : option (option nat * vars) :=
  bind (ptr_of x e) (fun raw => Some (raw, set_ptr x None e)).

(** * Programs *)
Inductive op :=
| New (x v : nat) (throws : bool) | InPlace (x v : nat) (throws : bool) (elide : bool)
| Move (x y : nat) | Assign (x y : nat) | Swap (x y : nat) | Destroy (x : nat)
| Get (x : nat) | Put (x v : nat) | IntoRaw (p x : nat) | FromRaw (x p : nat) (elide : bool).
(** what is seen: the objects destroyed, and a value or an exception *)
Inductive obs := Done (destroyed : list nat) | Thrown | Value (v : nat).
Inductive outcome (S : Type) := Illegal | UB | Ok (s : S) (o : obs).
Arguments Illegal {S}. Arguments UB {S}. Arguments Ok {S}.

Definition is_box (x : nat) (e : vars) : bool := match lookup x e with Some (IsBox, _) => true | _ => false end.
Definition is_raw (x : nat) (e : vars) : bool := match lookup x e with Some (IsRaw, _) => true | _ => false end.
Definition unused (x : nat) (e : vars) : bool := match lookup x e with None => true | _ => false end.
(** a name no variable has *)
Definition fresh_name (x : nat) (e : vars) : nat := S (fold_right Nat.max x (map fst e)).
Definition ret (o : option (state * list nat)) : outcome state :=
  match o with Some (st, ev) => Ok st (Done ev) | None => UB end.
Definition ret0 (o : option state) : outcome state := match o with Some st => Ok st (Done []) | None => UB end.
Definition step (o : op) (st : state) : outcome state :=
  let '(h, e) := st in
  match o with
  | New x v throws =>
      if unused x e then
        match box_new v throws h with
        | Some (Some a, h) => Ok (h, (x, (IsBox, Some a)) :: e) (Done [])
        | Some (None, h) => Ok (h, e) Thrown
        | None => UB
        end
      else Illegal
  | InPlace x v throws elide =>
      if unused x e then
        match box_in_place v throws h with
        | Some (Some a, h) => ret (box_from_raw elide (fresh_name x e) x (Some a) (h, e))
        | Some (None, h) => Ok (h, e) Thrown
        | None => UB
        end
      else Illegal
  | Move x y => if unused x e && is_box y e then ret0 (box_move x y st) else Illegal
  | Assign x y => if is_box x e && is_box y e then ret (box_assign x y st) else Illegal
  | Swap x y => if is_box x e && is_box y e then ret0 (box_swap x y st) else Illegal
  | Destroy x =>
      if is_box x e then ret (bind (drop_if x st) (fun '((h, e), ev) => Some ((h, remove x e), ev))) else Illegal
  | Get x =>
      match lookup x e with
      | Some (IsBox, Some a) => match cell h a with Some (Some v) => Ok st (Value v) | _ => UB end
      | _ => Illegal
      end
  | Put x v =>
      match lookup x e with
      | Some (IsBox, Some a) => match cell h a with
                                | Some (Some _) => ret0 (bind (store a (Some v) h) (fun h => Some (h, e)))
                                | _ => UB end
      | _ => Illegal
      end
  | IntoRaw p x =>
      if unused p e && is_box x e then
        match box_into_raw x e with Some (raw, e) => Ok (h, (p, (IsRaw, raw)) :: e) (Done []) | None => UB end
      else Illegal
  | FromRaw x p elide =>
      if unused x e && is_raw p e then
        match ptr_of p e with
        | Some raw => ret (box_from_raw elide (fresh_name x e) x raw (h, remove p e))
        | None => UB
        end
      else Illegal
  end.
Fixpoint run (ops : list op) (st : state) : outcome state * list obs :=
  match ops with
  | [] => (Ok st (Done []), [])
  | o :: ops => match step o st with
                | Ok st ob => let '(r, t) := run ops st in (r, ob :: t)
                | bad => (bad, [])
                end
  end.
