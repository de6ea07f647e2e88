(** Model of rust::Vec in C++: include/cxx.h 866-1041, src/rust_vec.rs 56-74 and the entry
    points of src/symbols/rust_vec.rs and macro/src/expand.rs 1384-1442, over alloc::vec::Vec as
    a buffer, a length and a capacity.

    Elements are objects with a value; copying one may throw, destroying one is observable and
    does not panic, moving a buffer moves the bits.  The element type has a size above 0 (a Vec
    of zero-sized elements never allocates).  The heap is a list of buffers (Store_Lib);
    addresses are never reused and growing always moves.  [None] as a result is undefined
    behaviour: freeing a buffer twice, reading one that is freed, reading or destroying what is
    not an object, writing outside.  Capacity overflow is not modelled. *)
From Verif Require Import Base Store_Lib.

(** a slot for an element *)
Notation buffer := (list (option nat)).
Notation heap := (list (option buffer)).
(** [repr], cxx.h: three words *)
Record repr := Repr { buf : option nat; len : nat; cap : nat }.
Notation vars := (list (nat * repr)).
Notation state := (heap * vars)%type.
Definition bind {A B} (o : option A) (f : A -> option B) : option B := match o with Some a => f a | None => None end.
Fixpoint set_nth {A} (n : nat) (v : A) (l : list A) : list A :=
  match l, n with [], _ => [] | _ :: l, 0 => v :: l | x :: l, S n => x :: set_nth n v l end.
Fixpoint all_objects (l : buffer) : option (list nat) :=
  match l with
  | [] => Some []
  | Some b :: l => option_map (cons b) (all_objects l)
  | None :: _ => None
  end.

Section RVec.
(** how much more than needed Vec::reserve takes *)
Variable slack : nat -> nat.

(** * alloc::vec::Vec *)
Definition v_new : repr := Repr None 0 0.
(** the elements from index [n] on *)
Definition v_tail (n : nat) (r : repr) (h : heap) : option (list nat) :=
  match buf r with
  | None => match len r with 0 => Some [] | _ => None end
  | Some a => match cell h a with
              | Some b => if Nat.leb (len r) (List.length b) then all_objects (skipn n (firstn (len r) b)) else None
              | None => None
              end
  end.
(** drop: the elements in order, then the buffer *)
Definition v_drop (r : repr) (h : heap) : option (heap * list nat) :=
  bind (v_tail 0 r h) (fun ev =>
  match buf r with None => Some (h, ev) | Some a => bind (free a h) (fun h => Some (h, ev)) end).
Definition v_reserve (additional : nat) (r : repr) (h : heap) : option (repr * heap) :=
  if Nat.leb additional (cap r - len r) then Some (r, h)
  else
    let new_cap := len r + additional + slack (len r + additional) in
    match buf r with
    | None => let '(a, h) := alloc (repeat None new_cap) h in Some (Repr (Some a) (len r) new_cap, h)
    | Some a =>
        bind (cell h a) (fun b =>
        bind (free a h) (fun h =>
        let '(a, h) := alloc (b ++ repeat None (new_cap - List.length b)) h in
        Some (Repr (Some a) (len r) new_cap, h)))
    end.
(** truncate: destroys the elements from [n] on *)
Definition v_truncate (n : nat) (r : repr) (h : heap) : option (repr * heap * list nat) :=
  if Nat.leb (len r) n then Some (r, h, [])
  else
    bind (v_tail n r h) (fun ev =>
    bind (buf r) (fun a =>
    bind (cell h a) (fun b =>
    bind (store a (firstn n b ++ repeat None (len r - n) ++ skipn (len r) b) h) (fun h =>
    Some (Repr (buf r) n (cap r), h, ev))))).
(** constructing an object in slot [i] *)
Definition v_poke (r : repr) (i v : nat) (h : heap) : option heap :=
  bind (buf r) (fun a =>
  bind (cell h a) (fun b => if Nat.ltb i (List.length b) then store a (set_nth i (Some v) b) h else None)).

(** * Objects in memory *)
Definition put (x : nat) (r : repr) (h : heap) (e : vars) : option state :=
  match lookup x e with Some _ => Some (h, set x r e) | None => None end.
(** $new *)
Definition vec_new (x : nat) (st : state) : option state := let '(h, e) := st in put x v_new h e.
(** $drop: the bits stay *)
Definition vec_drop (x : nat) (st : state) : option (state * list nat) :=
  let '(h, e) := st in bind (lookup x e) (fun r => bind (v_drop r h) (fun '(h, ev) => Some ((h, e), ev))).
(** rust_vec.rs 60-66 *)
Definition reserve_total (x new_cap : nat) (st : state) : option state :=
  let '(h, e) := st in
  bind (lookup x e) (fun r =>
  if Nat.ltb (cap r) new_cap
  then bind (v_reserve (new_cap - len r) r h) (fun '(r, h) => put x r h e)
  else Some st).
(** $set_len *)
Definition set_len (x n : nat) (st : state) : option state :=
  let '(h, e) := st in bind (lookup x e) (fun r => put x (Repr (buf r) n (cap r)) h e).
(** $truncate *)
Definition vec_truncate (x n : nat) (st : state) : option (state * list nat) :=
  let '(h, e) := st in
  bind (lookup x e) (fun r =>
  bind (v_truncate n r h) (fun '(r, h, ev) => bind (put x r h e) (fun st => Some (st, ev)))).

(** * cxx.h *)
(** a reference to an object: outside of any vector, or a slot of a buffer *)
Inductive ref := Temp (v : nat) | Slot (a i : nat).
Definition read (r : ref) (h : heap) : option nat :=
  match r with
  | Temp v => Some v
  | Slot a i => bind (cell h a) (fun b => match nth_error b i with Some (Some v) => Some v | _ => None end)
  end.
(** 986-995: emplace_back (and push_back, 976-984) with a copy of [r]; [throws] if the copy
    throws.  The result says whether an exception left the function. *)
Definition emplace_back (x : nat) (r : ref) (throws : bool) (st : state) : option (state * bool) :=
  bind (lookup x (snd st)) (fun r0 =>
  let size := len r0 in
  bind (reserve_total x (size + 1) st) (fun '(h, e) =>
  bind (read r h) (fun v =>
  if throws then Some ((h, e), true)
  else bind (lookup x e) (fun r1 =>
       bind (v_poke r1 size v h) (fun h =>
       bind (set_len x (size + 1) (h, e)) (fun st => Some (st, false))))))).
(** std::copy to a back_inserter: the copy of element number [limit] throws *)
Fixpoint push_all (x : nat) (refs : list ref) (limit : option nat) (st : state) : option (state * bool) :=
  match refs with
  | [] => Some (st, false)
  | r :: refs =>
      match limit with
      | Some 0 => emplace_back x r true st
      | Some (S k) => bind (emplace_back x r false st) (fun '(st, _) => push_all x refs (Some k) st)
      | None => bind (emplace_back x r false st) (fun '(st, _) => push_all x refs None st)
      end
  end.
(** 868-878: the constructors with elements.  They delegate to the default constructor, so an
    exception runs the destructor. *)
Definition construct (x : nat) (refs : list ref) (limit : option nat) (st : state) : option (state * list nat * bool) :=
  bind (vec_new x st) (fun st =>
  bind (reserve_total x (List.length refs) st) (fun st =>
  bind (push_all x refs limit st) (fun '(st, thrown) =>
  if thrown then bind (vec_drop x st) (fun '(st, ev) => Some (st, ev, true)) else Some (st, [], false)))).
(** begin() to end() *)
Definition refs_of (y : nat) (st : state) : option (list ref) :=
  bind (lookup y (snd st)) (fun r =>
  match buf r with
  | Some a => Some (map (Slot a) (seq 0 (len r)))
  | None => match len r with 0 => Some [] | _ => None end
  end).
Definition declare (x : nat) (st : state) : state := (fst st, (x, v_new) :: snd st).
Definition forget (x : nat) (st : state) : state := (fst st, remove x (snd st)).
(** 880-883 *)
Definition ctor_move (x y : nat) (st : state) : option state :=
  let '(h, e) := declare x st in
  bind (lookup y e) (fun r => bind (put x r h e) (vec_new y)).
(** 890-896 *)
Definition assign_move (x y : nat) (st : state) : option (state * list nat) :=
  bind (vec_drop x st) (fun '((h, e), ev) =>
  bind (lookup y e) (fun r => bind (put x r h e) (fun st => bind (vec_new y st) (fun st => Some (st, ev))))).
(** 898-905: if the constructor throws, the object stays destroyed *)
Definition assign_copy (x y : nat) (limit : option nat) (st : state) : option (state * list nat * bool) :=
  if negb (Nat.eqb x y) then
    bind (vec_drop x st) (fun '(st, ev) =>
    bind (refs_of y st) (fun refs =>
    bind (construct x refs limit st) (fun '(st, ev', thrown) => Some (st, ev ++ ev', thrown))))
  else Some (st, [], false).
(** 1032-1036 *)
Definition vec_swap (x y : nat) (st : state) : option state :=
  let '(h, e) := st in
  bind (lookup x e) (fun r => bind (lookup y e) (fun s => Some (h, set y r (set x s e)))).
(** 917-922, 944-949: operator[] *)
Definition index (x i : nat) (st : state) : option ref :=
  bind (lookup x (snd st)) (fun r => bind (buf r) (fun a => Some (Slot a i))).
(** assigning to an element *)
Definition assign_element (x i v : nat) (st : state) : option state :=
  let '(h, e) := st in
  bind (lookup x e) (fun r => bind (v_poke r i v h) (fun h => Some (h, e))).

(** * Programs *)
Inductive source := Value (v : nat) | Element (y i : nat).
Inductive op :=
| New (x : nat) | FromList (x : nat) (l : list nat) (limit : option nat) | Copy (x y : nat) (limit : option nat) | Move (x y : nat)
| Assign (x y : nat) (limit : option nat) | MoveAssign (x y : nat) | Swap (x y : nat) | Destroy (x : nat)
| Push (x : nat) (s : source) (throws : bool) | Reserve (x n : nat) | Truncate (x n : nat) | Clear (x : nat)
| At (x i : nat) | Index (x i : nat) | Back (x : nat) | Set_ (x i v : nat) | Size (x : nat) | All (x : nat).
(** what is seen: the elements destroyed, in order, and a value *)
Inductive obs := Done (destroyed : list nat) | Thrown (destroyed : list nat) | Got (l : list nat).
Inductive outcome (S : Type) := Illegal | UB | Ok (s : S) (o : obs).
Arguments Illegal {S}. Arguments UB {S}. Arguments Ok {S}.

Definition ret0 (o : option state) : outcome state := match o with Some st => Ok st (Done []) | None => UB end.
Definition ret1 (o : option (state * list nat)) : outcome state := match o with Some (st, ev) => Ok st (Done ev) | None => UB end.
Definition ret2 (o : option (state * list nat * bool)) : outcome state :=
  match o with
  | Some (st, ev, false) => Ok st (Done ev)
  | Some (st, ev, true) => Ok st (Thrown ev)
  | None => UB
  end.
(** the same for a constructor: no object is left *)
Definition ret_ctor (x : nat) (o : option (state * list nat * bool)) : outcome state :=
  match o with
  | Some (st, ev, false) => Ok st (Done ev)
  | Some (st, ev, true) => Ok (forget x st) (Thrown ev)
  | None => UB
  end.
Definition get (o : option nat) (st : state) : outcome state := match o with Some v => Ok st (Got [v]) | None => UB end.
Definition fresh (x : nat) (st : state) (k : outcome state) : outcome state :=
  match lookup x (snd st) with Some _ => Illegal | None => k end.
Definition needs (x : nat) (st : state) (k : repr -> outcome state) : outcome state :=
  match lookup x (snd st) with Some r => k r | None => Illegal end.
(** the reference an argument is, if the program may form it *)
Definition resolve (s : source) (st : state) : option (option ref) :=
  match s with
  | Value v => Some (Some (Temp v))
  | Element y i => match lookup y (snd st) with
                   | Some r => if Nat.ltb i (len r) then Some (index y i st) else None
                   | None => None
                   end
  end.
Definition step (o : op) (st : state) : outcome state :=
  match o with
  | New x => fresh x st (ret0 (vec_new x (declare x st)))
  | FromList x l limit => fresh x st (ret_ctor x (construct x (map Temp l) limit (declare x st)))
  | Copy x y limit => fresh x st (needs y st (fun _ =>
      ret_ctor x (bind (refs_of y st) (fun refs => construct x refs limit (declare x st)))))
  | Move x y => fresh x st (needs y st (fun _ => ret0 (ctor_move x y st)))
  | Assign x y limit => needs x st (fun _ => needs y st (fun _ => ret2 (assign_copy x y limit st)))
  | MoveAssign x y => needs x st (fun _ => needs y st (fun _ => ret1 (assign_move x y st)))
  | Swap x y => needs x st (fun _ => needs y st (fun _ => ret0 (vec_swap x y st)))
  | Destroy x => needs x st (fun _ => ret1 (bind (vec_drop x st) (fun '(st, ev) => Some (forget x st, ev))))
  | Push x s throws => needs x st (fun _ =>
      match resolve s st with
      | None => Illegal
      | Some r => ret2 (bind r (fun r => bind (emplace_back x r throws st) (fun '(st, thrown) => Some (st, [], thrown))))
      end)
  | Reserve x n => needs x st (fun _ => ret0 (reserve_total x n st))
  | Truncate x n => needs x st (fun _ => ret1 (vec_truncate x n st))
  (* 997-1000 *)
  | Clear x => needs x st (fun _ => ret1 (vec_truncate x 0 st))
  (* 924-930, 951-957 *)
  | At x i => needs x st (fun r => if Nat.leb (len r) i then Ok st (Thrown []) else get (bind (index x i st) (fun r => read r (fst st))) st)
  | Index x i => needs x st (fun r => if Nat.ltb i (len r) then get (bind (index x i st) (fun r => read r (fst st))) st else Illegal)
  (* 938-942, 965-969 *)
  | Back x => needs x st (fun r => if Nat.eqb (len r) 0 then Illegal else get (bind (index x (len r - 1) st) (fun r => read r (fst st))) st)
  | Set_ x i v => needs x st (fun r => if Nat.ltb i (len r) then ret0 (assign_element x i v st) else Illegal)
  | Size x => needs x st (fun r => Ok st (Got [len r]))
  | All x => needs x st (fun r => match v_tail 0 r (fst st) with Some l => Ok st (Got l) | None => UB end)
  end.
Fixpoint run (ops : list op) (st : state) : outcome state * list obs :=
  match ops with
  | [] => (Ok st (Done []), [])
  | o :: ops => match step o st with
                | Ok st ob => let '(r, t) := run ops st in (r, ob :: t)
                | bad => (bad, [])
                end
  end.
End RVec.
Arguments Illegal {S}. Arguments UB {S}. Arguments Ok {S}.
