(** Model of [CxxVector]: src/cxx_vector.rs and the C++ functions it calls (gen/src/write.rs
    1932-1990, src/cxx.cc STD_VECTOR_OPS and STD_VECTOR_TRIVIAL_OPS), over a std::vector that
    is a buffer of memory cells and a size.  How much the buffer grows is not fixed.

    [None] is undefined behaviour.  Sizes are natural numbers: a vector never has more than
    usize::MAX elements, so the index arithmetic of the iterators cannot overflow. *)
From Verif Require Import Base.

Section CxxVec.
Context {V : Type}.
(** memory for an element: no object, an object, an object that was moved from *)
Inductive cell := Raw | Full (v : V) | Shell.
Record vec := Vec { cells : list cell; size : nat }.

(** the growth of a full buffer, minus one; the standard requires only that it suffices *)
Variable grow : nat -> nat.

Fixpoint set_cell (a : nat) (c : cell) (h : list cell) : list cell :=
  match h, a with
  | [], _ => []
  | _ :: h, 0 => c :: h
  | x :: h, S a => x :: set_cell a c h
  end.
Definition read_cell (v : vec) (p : nat) : option V :=
  match nth_error (cells v) p with Some (Full x) => Some x | _ => None end.

(** * C++ *)
(** $new *)
Definition cxx_new : vec := Vec [] 0.
(** $size *)
Definition cxx_size (v : vec) : nat := size v.
(** $get_unchecked: operator[] beyond the size is undefined *)
Definition cxx_get_unchecked (v : vec) (pos : nat) : option nat :=
  if Nat.ltb pos (size v) then Some pos else None.
(** std::vector::push_back: with a full buffer the elements move to a larger one *)
Definition std_push_back (v : vec) (x : V) : option vec :=
  let cells' :=
    if Nat.eqb (size v) (List.length (cells v))
    then cells v ++ repeat Raw (S (grow (size v)))
    else cells v in
  match nth_error cells' (size v) with
  | Some Raw => Some (Vec (set_cell (size v) (Full x) cells') (S (size v)))
  | _ => None
  end.
(** $push_back: move-construct from [*value], then destroy what is left there.  The result is
    the vector and the memory of [value] afterwards. *)
Definition cxx_push_back (v : vec) (value : cell) : option (vec * cell) :=
  match value with
  | Full x => match std_push_back v x with
              | Some v => let value := Shell in
                          match value with Raw => None | _ => Some (v, Raw) end
              | None => None
              end
  | _ => None
  end.
(** $pop_back: move-construct [*out] from back(), then pop_back.  Result: the vector and [out]. *)
Definition cxx_pop_back (v : vec) : option (vec * cell) :=
  match size v with
  | 0 => None
  | S n => match nth_error (cells v) n with
           | Some (Full x) => Some (Vec (set_cell n Raw (cells v)) n, Full x)
           | _ => None
           end
  end.
(** destructor of the vector: the elements destroyed *)
Definition cxx_destroy (v : vec) : option (list V) :=
  fold_right (fun c l => match c, l with Full x, Some l => Some (x :: l) | _, _ => None end) (Some [])
             (firstn (size v) (cells v)).

(** * Rust: src/cxx_vector.rs *)
(** 48-50, 56-58 *)
Definition r_len (v : vec) : nat := cxx_size v.
Definition r_is_empty (v : vec) : bool := Nat.eqb (r_len v) 0.
(** 67-73: the position of the element, [Some None] being None *)
Definition r_get (v : vec) (pos : nat) : option (option nat) :=
  if Nat.ltb pos (r_len v)
  then match cxx_get_unchecked v pos with Some p => Some (Some p) | None => None end
  else Some None.
(** 81-87 *)
Definition r_index_mut (v : vec) (pos : nat) : option (option nat) :=
  if Nat.ltb pos (r_len v)
  then match cxx_get_unchecked v pos with Some p => Some (Some p) | None => None end
  else Some None.
(** slice::from_raw_parts: every element must be there *)
Fixpoint from_raw_parts (v : vec) (p len : nat) : option (list V) :=
  match len with
  | 0 => Some []
  | S len => match read_cell v p, from_raw_parts v (S p) len with Some x, Some l => Some (x :: l) | _, _ => None end
  end.
(** 130-148 *)
Definition r_as_slice (v : vec) : option (list V) :=
  let len := r_len v in
  if Nat.eqb len 0 then Some []
  else match cxx_get_unchecked v 0 with Some p => from_raw_parts v p len | None => None end.
(** 152-163: the first element of the slice and the length *)
Definition r_as_mut_slice (v : vec) : option (nat * nat) :=
  let len := r_len v in
  if Nat.eqb len 0 then Some (0, 0)
  else match cxx_get_unchecked v 0 with
       | Some p => match from_raw_parts v p len with Some _ => Some (p, len) | None => None end
       | None => None
       end.
(** 180-189: ManuallyDrop, so Rust does not drop [value] afterwards *)
Definition r_push (v : vec) (value : V) : option vec :=
  match cxx_push_back v (Full value) with
  | Some (v, _) => Some v
  | None => None
  end.
(** 193-206: assume_init of [value] *)
Definition r_pop (v : vec) : option (vec * option V) :=
  if r_is_empty v then Some (v, None)
  else match cxx_pop_back v with
       | Some (v, Full x) => Some (v, Some x)
       | _ => None
       end.

(** 212-254, 261-308: both iterators are the vector and an index.  [next] gives a position. *)
Record iter := Iter { it_v : vec; it_index : nat }.
Definition r_iter (v : vec) : iter := Iter v 0.
Definition iter_next (i : iter) : option (iter * option nat) :=
  match r_get (it_v i) (it_index i) with
  | None => None
  | Some None => Some (i, None)
  | Some (Some p) => Some (Iter (it_v i) (it_index i + 1), Some p)
  end.
Definition iter_mut_next (i : iter) : option (iter * option nat) :=
  match r_index_mut (it_v i) (it_index i) with
  | None => None
  | Some None => Some (i, None)
  | Some (Some p) => Some (Iter (it_v i) (it_index i + 1), Some p)
  end.
(** [None]: subtraction with overflow *)
Definition iter_len (i : iter) : option nat :=
  if Nat.leb (it_index i) (r_len (it_v i)) then Some (r_len (it_v i) - it_index i) else None.
(** writing through a reference *)
Definition assign (v : vec) (p : nat) (x : V) : option vec :=
  match nth_error (cells v) p with Some (Full _) => Some (Vec (set_cell p (Full x) (cells v)) (size v)) | _ => None end.

(** writes to elements of the mutable slice; those outside of it are skipped *)
Fixpoint write_all (p len : nat) (ws : list (nat * V)) (v : vec) : option vec :=
  match ws with
  | [] => Some v
  | (k, x) :: ws =>
      if Nat.ltb k len
      then match assign v (p + k) x with Some v => write_all p len ws v | None => None end
      else write_all p len ws v
  end.

(** * Programs *)
Inductive op :=
| Len | IsEmpty | Get (pos : nat) | IndexMut (pos : nat) (x : V) | AsSlice | AsMutSlice (ws : list (nat * V)) | Push (x : V) | Pop.
Inductive obs := ODone | OLen (n : nat) | OBool (b : bool) | OElem (x : option V) | OSlice (l : list V) | OWrote (b : bool).

Definition step (o : op) (v : vec) : option (vec * obs) :=
  match o with
  | Len => Some (v, OLen (r_len v))
  | IsEmpty => Some (v, OBool (r_is_empty v))
  | Get pos => match r_get v pos with
               | Some None => Some (v, OElem None)
               | Some (Some p) => match read_cell v p with Some x => Some (v, OElem (Some x)) | None => None end
               | None => None end
  | IndexMut pos x => match r_index_mut v pos with
                      | Some None => Some (v, OWrote false)
                      | Some (Some p) => match assign v p x with Some v => Some (v, OWrote true) | None => None end
                      | None => None end
  | AsSlice => match r_as_slice v with Some l => Some (v, OSlice l) | None => None end
  | AsMutSlice ws => match r_as_mut_slice v with
                     | Some (p, len) => match write_all p len ws v with Some v => Some (v, OLen len) | None => None end
                     | None => None end
  | Push x => match r_push v x with Some v => Some (v, ODone) | None => None end
  | Pop => match r_pop v with Some (v, x) => Some (v, OElem x) | None => None end
  end.
Fixpoint run (ops : list op) (v : vec) : option (vec * list obs) :=
  match ops with
  | [] => Some (v, [])
  | o :: ops => match step o v with
                | Some (v, ob) => match run ops v with Some (v, t) => Some (v, ob :: t) | None => None end
                | None => None end
  end.

(** Programs over an iterator.  References already given out stay usable: [Write k x] writes
    through the [k]-th of them. *)
Inductive iop := Next | Remaining | Read (k : nat) | Write (k : nat) (x : V).
Inductive iobs := IElem (p : option nat) | ILen (n : nat) | IRead (x : V) | IDone.
(** [None] is undefined behaviour or a panic; writes to references that were not given out are skipped *)
Definition istep (mutable : bool) (o : iop) (st : iter * list nat) : option ((iter * list nat) * iobs) :=
  let '(i, refs) := st in
  match o with
  | Next => match (if mutable then iter_mut_next i else iter_next i) with
            | Some (i, Some p) => Some ((i, refs ++ [p]), IElem (Some p))
            | Some (i, None) => Some ((i, refs), IElem None)
            | None => None end
  | Remaining => match iter_len i with Some n => Some (st, ILen n) | None => None end
  | Read k => match nth_error refs k with
              | None => Some (st, IDone)
              | Some p => match read_cell (it_v i) p with Some x => Some (st, IRead x) | None => None end end
  | Write k x => if mutable then
      match nth_error refs k with
      | None => Some (st, IDone)
      | Some p => match assign (it_v i) p x with Some v => Some ((Iter v (it_index i), refs), IDone) | None => None end end
      else Some (st, IDone)
  end.
Fixpoint irun (mutable : bool) (ops : list iop) (st : iter * list nat) : option ((iter * list nat) * list iobs) :=
  match ops with
  | [] => Some (st, [])
  | o :: ops => match istep mutable o st with
                | Some (st, ob) => match irun mutable ops st with Some (st, t) => Some (st, ob :: t) | None => None end
                | None => None end
  end.
End CxxVec.
Arguments cell : clear implicits. Arguments vec : clear implicits. Arguments op : clear implicits.
Arguments obs : clear implicits. Arguments iop : clear implicits. Arguments iobs : clear implicits. Arguments iter : clear implicits.
