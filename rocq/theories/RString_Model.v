(** Model of rust::String in C++: src/cxx.cc 95-298 and src/symbols/rust_string.rs, over
    alloc::string::String as a buffer, a length and a capacity.

    The heap is a list of buffers (Store_Lib); addresses are never reused and growing a buffer
    always moves it.  [None] as a result is undefined behaviour: freeing a buffer twice,
    reading one that is freed, reading bytes that were never written, writing outside.
    Sizes are natural numbers: what happens when a capacity overflows isize (the process
    aborts) is not modelled. *)
From Verif Require Import Base Store_Lib.
Require Import NArith.

(** a byte of memory, [None] if never written *)
Notation buffer := (list (option N)).
Notation heap := (list (option buffer)).
(** the three words of a String: [Repr buf len cap]; without buffer the capacity is 0 *)
Record repr := Repr { buf : option nat; len : nat; cap : nat }.

Section RString.
(** how much more than needed String::reserve takes *)
Variable slack : nat -> nat.
(** core::str::from_utf8(..).is_ok(); see Lossy_Model for what that is *)
Variable valid : list N -> bool.

(** * alloc::string::String *)
Fixpoint all_written (l : buffer) : option (list N) :=
  match l with
  | [] => Some []
  | Some b :: l => option_map (cons b) (all_written l)
  | None :: _ => None
  end.
(** String::new *)
Definition r_new : repr := Repr None 0 0.
(** the bytes of the string, as_bytes *)
Definition r_bytes (r : repr) (h : heap) : option (list N) :=
  match buf r with
  | None => match len r with 0 => Some [] | _ => None end
  | Some a => match cell h a with
              | Some b => if Nat.leb (len r) (List.length b) then all_written (firstn (len r) b) else None
              | None => None
              end
  end.
(** to_owned, clone: an exact allocation, none for the empty string *)
Definition r_from (bytes : list N) (h : heap) : repr * heap :=
  match bytes with
  | [] => (r_new, h)
  | _ => let '(a, h) := alloc (map Some bytes) h in (Repr (Some a) (List.length bytes) (List.length bytes), h)
  end.
(** drop *)
Definition r_drop (r : repr) (h : heap) : option heap :=
  match buf r with None => Some h | Some a => free a h end.
(** reserve *)
Definition r_reserve (additional : nat) (r : repr) (h : heap) : option (repr * heap) :=
  if Nat.leb additional (cap r - len r) then Some (r, h)
  else
    let new_cap := len r + additional + slack (len r + additional) in
    match buf r with
    | None => let '(a, h) := alloc (repeat None new_cap) h in Some (Repr (Some a) (len r) new_cap, h)
    | Some a =>
        match cell h a with
        | None => None
        | Some b => match free a h with
                    | None => None
                    | Some h => let '(a, h) := alloc (b ++ repeat None (new_cap - List.length b)) h in
                                Some (Repr (Some a) (len r) new_cap, h)
                    end
        end
    end.
(** writing a byte into the buffer *)
Fixpoint set_nth {A} (n : nat) (v : A) (l : list A) : list A :=
  match l, n with [], _ => [] | _ :: l, 0 => v :: l | x :: l, S n => x :: set_nth n v l end.
Definition r_poke (r : repr) (i : nat) (b : N) (h : heap) : option heap :=
  match buf r with
  | None => None
  | Some a => match cell h a with
              | Some bytes => if Nat.ltb i (List.length bytes) then store a (set_nth i (Some b) bytes) h else None
              | None => None
              end
  end.
(** push *)
Definition r_push (b : N) (r : repr) (h : heap) : option (repr * heap) :=
  match r_reserve 1 r h with
  | None => None
  | Some (r, h) => match r_poke r (len r) b h with
                   | Some h => Some (Repr (buf r) (S (len r)) (cap r), h)
                   | None => None
                   end
  end.

(** * Objects in memory.  The functions of symbols/rust_string.rs work on the memory of a
    variable; it must exist. *)
Notation vars := (list (nat * repr)).
Notation state := (heap * vars)%type.
Definition put (x : nat) (r : repr) (h : heap) (e : vars) : option state :=
  match lookup x e with Some _ => Some (h, set x r e) | None => None end.
(** rust_string.rs 10-15 *)
Definition string_new (x : nat) (st : state) : option state := let '(h, e) := st in put x r_new h e.
(** 17-22 *)
Definition string_clone (x y : nat) (st : state) : option state :=
  let '(h, e) := st in
  match lookup y e with
  | None => None
  | Some r => match r_bytes r h with
              | None => None
              | Some bytes => let '(r, h) := r_from bytes h in put x r h e
              end
  end.
(** 24-40: false leaves the memory as it is *)
Definition string_from_utf8 (x : nat) (bytes : list N) (st : state) : option (state * bool) :=
  let '(h, e) := st in
  if valid bytes then
    let '(r, h) := r_from bytes h in
    match put x r h e with Some st => Some (st, true) | None => None end
  else Some (st, false).
(** 82-85: the memory keeps its bits *)
Definition string_drop (x : nat) (st : state) : option state :=
  let '(h, e) := st in
  match lookup x e with
  | None => None
  | Some r => match r_drop r h with Some h => Some (h, e) | None => None end
  end.
(** 102-105 *)
Definition string_reserve_additional (x additional : nat) (st : state) : option state :=
  let '(h, e) := st in
  match lookup x e with
  | None => None
  | Some r => match r_reserve additional r h with Some (r, h) => put x r h e | None => None end
  end.
(** 107-113 *)
Definition string_reserve_total (x new_cap : nat) (st : state) : option state :=
  let '(h, e) := st in
  match lookup x e with
  | None => None
  | Some r => if Nat.ltb (cap r) new_cap
              then string_reserve_additional x (new_cap - len r) st
              else Some st
  end.

(** * cxx.cc.  A constructor runs on new memory, [declare]. *)
Definition declare (x : nat) (st : state) : state := (fst st, (x, Repr None 0 0) :: snd st).
Definition copy_repr (x y : nat) (st : state) : option state :=
  let '(h, e) := st in match lookup y e with Some r => put x r h e | None => None end.
Definition bind {A B} (o : option A) (f : A -> option B) : option B := match o with Some a => f a | None => None end.
(** 95 *)
Definition ctor_default (x : nat) (st : state) : option state := string_new x (declare x st).
(** 97-99 *)
Definition ctor_copy (x y : nat) (st : state) : option state := string_clone x y (declare x st).
(** 101-103 *)
Definition ctor_move (x y : nat) (st : state) : option state := bind (copy_repr x y (declare x st)) (string_new y).
(** 105 *)
Definition dtor (x : nat) (st : state) : option state :=
  bind (string_drop x st) (fun '(h, e) => Some (h, remove x e)).
(** 107-111, 119-131: the exception leaves no object behind *)
Definition ctor_bytes (x : nat) (bytes : list N) (st : state) : option (state * bool) :=
  match string_from_utf8 x bytes (declare x st) with
  | None => None
  | Some ((h, e), true) => Some ((h, e), true)
  | Some ((h, e), false) => Some ((h, remove x e), false)
  end.
(** 196-202 *)
Definition assign_copy (x y : nat) (st : state) : option state :=
  if negb (Nat.eqb x y) then bind (string_drop x st) (string_clone x y) else Some st.
(** 204-209 *)
Definition assign_move (x y : nat) (st : state) : option state :=
  bind (string_drop x st) (fun st => bind (copy_repr x y st) (string_new y)).
(** 211-227: data() and size() *)
Definition text (x : nat) (st : state) : option (list N) :=
  match lookup x (snd st) with Some r => r_bytes r (fst st) | None => None end.
(** 229-235: the pointer it returns, with the bytes there up to and including the NUL *)
Definition c_str (x : nat) (st : state) : option (state * list N) :=
  match lookup x (snd st) with
  | None => None
  | Some r =>
      let len := len r in
      bind (string_reserve_additional x 1 st) (fun '(h, e) =>
      bind (lookup x e) (fun r =>
      bind (r_poke r len 0 h) (fun h =>
      match buf r with
      | None => None
      | Some a => match cell h a with
                  | Some b => bind (all_written (firstn (S len) b)) (fun l => Some ((h, e), l))
                  | None => None
                  end
      end)))
  end.
(** 241-243 *)
Definition reserve (x new_cap : nat) (st : state) : option state := string_reserve_total x new_cap st.
(** 287-290 *)
Definition swap (x y : nat) (st : state) : option state :=
  let '(h, e) := st in
  match lookup x e, lookup y e with
  | Some r, Some s => Some (h, set y r (set x s e))
  | _, _ => None
  end.
(** writing through the iterator of 245-251 *)
Definition write_byte (x i : nat) (b : N) (st : state) : option state :=
  let '(h, e) := st in
  match lookup x e with
  | None => None
  | Some r => match r_poke r i b h with Some h => Some (h, e) | None => None end
  end.
(** Rust code appending through a [&mut String] *)
Fixpoint rust_append (x : nat) (bytes : list N) (st : state) : option state :=
  match bytes with
  | [] => Some st
  | b :: bytes =>
      let '(h, e) := st in
      match lookup x e with
      | None => None
      | Some r => match r_push b r h with
                  | Some (r, h) => bind (put x r h e) (rust_append x bytes)
                  | None => None
                  end
      end
  end.

(** * Programs *)
Inductive op :=
| New (x : nat) | FromBytes (x : nat) (bytes : list N) | Copy (x y : nat) | Move (x y : nat)
| Assign (x y : nat) | MoveAssign (x y : nat) | Swap (x y : nat) | Destroy (x : nat)
| Text (x : nat) | CStr (x : nat) | Reserve (x n : nat) | Write (x i : nat) (b : N) | Append (x : nat) (bytes : list N).
Inductive obs := Done | Thrown | Bytes (l : list N).
Inductive outcome (S : Type) := Illegal | UB | Ok (s : S) (o : obs).
Arguments Illegal {S}. Arguments UB {S}. Arguments Ok {S}.

Definition done (o : option state) : outcome state := match o with Some st => Ok st Done | None => UB end.
(** [needs] the variables used to exist, [fresh] the new one not to *)
Definition needs (x : nat) (st : state) (k : outcome state) : outcome state :=
  match lookup x (snd st) with Some _ => k | None => Illegal end.
Definition fresh (x : nat) (st : state) (k : outcome state) : outcome state :=
  match lookup x (snd st) with Some _ => Illegal | None => k end.
Definition step (o : op) (st : state) : outcome state :=
  match o with
  | New x => fresh x st (done (ctor_default x st))
  | FromBytes x bytes => fresh x st (match ctor_bytes x bytes st with
                                     | Some (st, true) => Ok st Done | Some (st, false) => Ok st Thrown | None => UB end)
  | Copy x y => fresh x st (needs y st (done (ctor_copy x y st)))
  | Move x y => fresh x st (needs y st (done (ctor_move x y st)))
  | Assign x y => needs x st (needs y st (done (assign_copy x y st)))
  | MoveAssign x y => needs x st (needs y st (done (assign_move x y st)))
  | Swap x y => needs x st (needs y st (done (swap x y st)))
  | Destroy x => needs x st (done (dtor x st))
  | Text x => needs x st (match text x st with Some l => Ok st (Bytes l) | None => UB end)
  | CStr x => needs x st (match c_str x st with Some (st, l) => Ok st (Bytes l) | None => UB end)
  | Reserve x n => needs x st (done (reserve x n st))
  | Write x i b => match lookup x (snd st) with
                   | Some r => if Nat.ltb i (len r) then done (write_byte x i b st) else Illegal
                   | None => Illegal end
  | Append x bytes => needs x st (done (rust_append x bytes st))
  end.
Fixpoint run (ops : list op) (st : state) : outcome state * list obs :=
  match ops with
  | [] => (Ok st Done, [])
  | o :: ops => match step o st with
                | Ok st ob => let '(r, t) := run ops st in (r, ob :: t)
                | bad => (bad, [])
                end
  end.
End RString.
Arguments Illegal {S}. Arguments UB {S}. Arguments Ok {S}.
