(** Model of errors and exceptions that cross the bridge: src/result.rs, src/exception.rs,
    src/symbols/exception.rs, src/cxx.cc 465-569 (rust::Error, Fail), gen/src/builtin.rs 350-362
    and 400-421, the parts of the shims that report errors (gen/src/write.rs 818-825, 891-896,
    1109-1112 and 1157-1162; macro/src/expand.rs 630-656 and 1132-1139).

    The heap is a list of allocations (Store_Lib), each made by C++ (new char[]) or by Rust (a
    Box of str), with its bytes.  Addresses are never reused.  [None] is undefined behaviour:
    freeing twice or with the wrong allocator or size, reading what is freed, reading past the
    end, reading what was not written, strlen of null.  A returned value is a number; whether a
    function has a return value at all makes no difference here.  The text of the Rust error
    before it is copied is a list of bytes, its own allocation is not modelled. *)
From Verif Require Import Base Store_Lib.
Require Import NArith.

Notation bytes := (list N) (only parsing).
Inductive allocator := InCpp | InRust.
Notation heap := (list (option (allocator * list N))).
(** a pointer: null, to nothing but not null (the pointer of an empty Box of str), to a cell *)
Inductive ptr := PNull | PDangling | PAt (a : nat).
(** result.rs 13-18, cxx.cc 525-530, and the two fields of rust::Error, cxx.h 438-439: pointer
    and length *)
Notation ptr_len := (ptr * nat)%type.

Definition bind {A B} (o : option A) (f : A -> option B) : option B := match o with Some a => f a | None => None end.
(** the first [n] bytes *)
Definition take (n : nat) (l : list N) : option (list N) := if Nat.leb n (List.length l) then Some (firstn n l) else None.
(** what a pointer points at *)
Definition memory (p : ptr) (h : heap) : option (list N) :=
  match p with PAt a => option_map snd (cell h a) | _ => None end.
(** the bytes of a C string, for strlen: up to the first zero byte, which must exist *)
Fixpoint c_string (l : list N) : option (list N) :=
  match l with [] => None | b :: l => if N.eqb b 0 then Some [] else option_map (cons b) (c_string l) end.
(** delete[] *)
Definition delete (p : ptr) (h : heap) : option heap :=
  match p with
  | PNull => Some h
  | PDangling => None
  | PAt a => match cell h a with Some (InCpp, _) => free a h | _ => None end
  end.
(** cxx.cc 465-469 *)
Definition error_copy (src : list N) (len : nat) (h : heap) : option (ptr * heap) :=
  bind (take len src) (fun l => let '(a, h) := alloc (InCpp, l) h in Some (PAt a, h)).

(** ** From Rust to C++ *)
Inductive result (V E : Type) := IsOk (v : V) | IsErr (e : E).
Arguments IsOk {V E}. Arguments IsErr {V E}.
(** result.rs 39-53 *)
Definition to_c_error (msg : list N) (h : heap) : option (ptr_len * heap) :=
  let msg := msg ++ [0%N] in
  let len := List.length msg in
  bind (error_copy msg len h) (fun '(copy, h) => Some ((copy, len), h)).
(** result.rs 26-37: what is written to [ret], and the result; [ok] is the first word, the
    other one is not initialized *)
Definition r_try (r : result nat (list N)) (h : heap) : option (option nat * (ptr * option nat) * heap) :=
  match r with
  | IsOk v => Some (Some v, (PNull, None), h)
  | IsErr msg => bind (to_c_error msg h) (fun '((p, len), h) => Some (None, (p, Some len), h))
  end.
(** builtin.rs 355-360 *)
Definition error_of (repr : ptr * option nat) : option ptr_len := bind (snd repr) (fun len => Some (fst repr, len)).

(** rust::Error, cxx.cc 477-513.  The functions take the fields and give the new ones. *)
(** 477-480: [oom] if there is no memory: [Some None] *)
Definition error_ctor_copy (oom : bool) (other : ptr_len) (h : heap) : option (option ptr_len * heap) :=
  let '(msg, len) := other in
  match msg with
  | PNull => Some (Some (PNull, len), h)
  | _ => if oom then Some (None, h)
         else bind (memory msg h) (fun src => bind (error_copy src len h) (fun '(p, h) => Some (Some (p, len), h)))
  end.
(** 482-486: this and other *)
Definition error_ctor_move (other : ptr_len) : ptr_len * ptr_len := (other, (PNull, 0)).
(** 488 *)
Definition error_dtor (this : ptr_len) (h : heap) : option heap := delete (fst this) h.

Inductive kind := CppError | RustException.
Notation holder := (kind * ptr_len)%type.
Notation vars := (list (nat * holder)).
Notation state := (heap * vars)%type.
Definition fields (x : nat) (e : vars) : option ptr_len := option_map snd (lookup x e).
Definition set_fields (x : nat) (f : ptr_len) (e : vars) : vars :=
  match lookup x e with Some (k, _) => set x (k, f) e | None => e end.
(** 490-501: false if there is no memory *)
Definition error_assign_copy (oom : bool) (x y : nat) (st : state) : option (bool * state) :=
  let '(h, e) := st in
  if Nat.eqb x y then Some (true, st)
  else
    bind (fields x e) (fun this =>
    bind (delete (fst this) h) (fun h =>
    let e := set_fields x (PNull, snd this) e in
    bind (fields y e) (fun other =>
    match fst other with
    | PNull => Some (true, (h, e))
    | msg => if oom then Some (false, (h, e))
             else bind (memory msg h) (fun src =>
                  bind (error_copy src (snd other) h) (fun '(p, h) => Some (true, (h, set_fields x (p, snd other) e))))
    end))).
(** 503-511 *)
Definition error_assign_move (x y : nat) (st : state) : option state :=
  let '(h, e) := st in
  bind (fields x e) (fun this =>
  bind (delete (fst this) h) (fun h =>
  bind (fields y e) (fun other =>
  let e := set_fields x other e in
  Some (h, set_fields y (PNull, 0) e)))).
(** 513: the text seen by who reads the C string; null if there is none *)
Definition error_what (this : ptr_len) (h : heap) : option (option (list N)) :=
  match fst this with
  | PNull => Some None
  | p => bind (memory p h) (fun l => bind (c_string l) (fun s => Some (Some s)))
  end.
(** write.rs 1157-1162 after the call: the error, or the value read from [return$] *)
Definition rust_shim (r : result nat (list N)) (h : heap) : option (result nat ptr_len * heap) :=
  bind (r_try r h) (fun '(return_, error_, h) =>
  match fst error_ with
  | PNull => bind return_ (fun v => Some (IsOk v, h))
  | _ => bind (error_of error_) (fun f => Some (IsErr f, h))
  end).
(** the error is caught as [x]; [moves] is how often the compiler does not elide a move of the
    object on the way there *)
Fixpoint move_around (moves : nat) (f : ptr_len) (h : heap) : option (ptr_len * heap) :=
  match moves with
  | 0 => Some (f, h)
  | S n => let '(this, other) := error_ctor_move f in bind (error_dtor other h) (fun h => move_around n this h)
  end.

(** ** From C++ to Rust *)
(** What the C++ function does: it returns, it throws a std::exception whose what() is
    the given bytes and a zero byte (or null), it throws something else, it throws a rust::Error that is a
    copy of a variable, or a handler of the user reports a std::string *)
Inductive behaviour := Returns (v : nat) | Throws (what : option (list N)) | ThrowsOther | Rethrows (y : nat) | Reports (s : list N).

(** ** Programs *)
Inductive op :=
| CallRust (x : nat) (moves : nat) (r : result nat (list N))   (* from C++, catching the error as x *)
| CallCpp (x : nat) (b : behaviour)                           (* from Rust, binding the exception to x *)
| Copy (x y : nat) (oom : bool) | Move (x y : nat) | AssignCopy (x y : nat) (oom : bool) | AssignMove (x y : nat)
| What (x : nat) | Destroy (x : nat).
Inductive obs := Done | Value (v : nat) | Caught | Text (t : option (list N)) | BadAlloc | Terminate.
Inductive outcome (S : Type) := Illegal | UB | Ok (s : S) (o : obs).
Arguments Illegal {S}. Arguments UB {S}. Arguments Ok {S}.

Section Lossy.
(** String::from_utf8_lossy *)
Variable from_utf8_lossy : list N -> list N.
(** a Box of str: no allocation if it is empty *)
Definition box_str (l : list N) (h : heap) : ptr * heap :=
  match l with [] => (PDangling, h) | _ => let '(a, h) := alloc (InRust, l) h in (PAt a, h) end.
(** symbols/exception.rs 9-18 *)
Definition exception (src : list N) (len : nat) (h : heap) : option (ptr_len * heap) :=
  bind (take len src) (fun slice =>
  let string := from_utf8_lossy slice in
  let len := List.length string in
  let '(p, h) := box_str string h in
  Some ((p, len), h)).
(** cxx.cc 563-565: [src] is the memory that the C string is in; null is [None] *)
Definition fail_c_string (what : option (list N)) (h : heap) : option (ptr_len * heap) :=
  bind what (fun src => bind (c_string src) (fun s => exception src (List.length s) h)).
(** 567-569 *)
Definition fail_string (s : list N) (h : heap) : option (ptr_len * heap) := exception s (List.length s) h.

(** what write_cxx_function_shim leaves behind: [return$] and [throw$]; [inr tt] is
    std::terminate.  The temporary copy of a rethrown error is destroyed at the end of the
    catch. *)
Definition cxx_shim (b : behaviour) (st : state) : option (option nat * (ptr * option nat) * heap + unit) :=
  let '(h, e) := st in
  match b with
  | Returns v => Some (inl (Some v, (PNull, None), h))
  | ThrowsOther => Some (inr tt)
  | Throws what => bind (fail_c_string (option_map (fun l => l ++ [0%N]) what) h) (fun '((p, len), h) => Some (inl (None, (p, Some len), h)))
  | Reports s => bind (fail_string s h) (fun '((p, len), h) => Some (inl (None, (p, Some len), h)))
  | Rethrows y =>
      bind (fields y e) (fun other =>
      bind (error_ctor_copy false other h) (fun '(o, h) =>
      bind o (fun tmp =>
      bind (fail_c_string (memory (fst tmp) h) h) (fun '((p, len), h) =>
      bind (error_dtor tmp h) (fun h => Some (inl (None, (p, Some len), h)))))))
  end.
(** result.rs 55-70 *)
Definition result_exception (r : ptr * option nat) : option (result unit ptr_len) :=
  match fst r with
  | PNull => Some (IsOk tt)
  | p => bind (snd r) (fun len => Some (IsErr (p, len)))
  end.
(** expand.rs 630-656 *)
Definition call_cxx (b : behaviour) (st : state) : option (result nat ptr_len * heap + unit) :=
  bind (cxx_shim b st) (fun o =>
  match o with
  | inr tt => Some (inr tt)
  | inl (return_, throw_, h) =>
      bind (result_exception throw_) (fun r =>
      match r with
      | IsErr f => Some (inl (IsErr f, h))
      | IsOk _ => bind return_ (fun v => Some (inl (IsOk v, h)))
      end)
  end).
(** exception.rs 33-36 *)
Definition exception_what (f : ptr_len) (h : heap) : option (list N) :=
  match fst f, snd f with
  | PDangling, 0 => Some []
  | p, n => bind (memory p h) (take n)
  end.
(** dropping the Box of str: the size given to the allocator must be right *)
Definition exception_drop (f : ptr_len) (h : heap) : option heap :=
  match fst f with
  | PAt a => match cell h a with Some (InRust, l) => if Nat.eqb (List.length l) (snd f) then free a h else None | _ => None end
  | PDangling => if Nat.eqb (snd f) 0 then Some h else None
  | PNull => None
  end.

Definition unused (x : nat) (e : vars) : bool := match lookup x e with None => true | _ => false end.
Definition is_error (x : nat) (e : vars) : bool := match lookup x e with Some (CppError, _) => true | _ => false end.
Definition legal (b : behaviour) (e : vars) : bool := match b with Rethrows y => is_error y e | _ => true end.

Definition step (o : op) (st : state) : outcome state :=
  let '(h, e) := st in
  match o with
  | CallRust x moves r =>
      if unused x e then
        match rust_shim r h with
        | None => UB
        | Some (IsOk v, h) => Ok (h, e) (Value v)
        | Some (IsErr f, h) => match move_around moves f h with
                               | Some (f, h) => Ok (h, (x, (CppError, f)) :: e) Caught
                               | None => UB
                               end
        end
      else Illegal
  | CallCpp x b =>
      if unused x e && legal b e then
        match call_cxx b st with
        | None => UB
        | Some (inr _) => Ok st Terminate
        | Some (inl (IsOk v, h)) => Ok (h, e) (Value v)
        | Some (inl (IsErr f, h)) => Ok (h, (x, (RustException, f)) :: e) Caught
        end
      else Illegal
  | Copy x y oom =>
      if unused x e && is_error y e then
        match bind (fields y e) (fun f => error_ctor_copy oom f h) with
        | None => UB
        | Some (None, h) => Ok (h, e) BadAlloc
        | Some (Some f, h) => Ok (h, (x, (CppError, f)) :: e) Done
        end
      else Illegal
  | Move x y =>
      if unused x e && is_error y e then
        match fields y e with
        | None => UB
        | Some f => let '(this, other) := error_ctor_move f in Ok (h, (x, (CppError, this)) :: set_fields y other e) Done
        end
      else Illegal
  | AssignCopy x y oom =>
      if is_error x e && is_error y e then
        match error_assign_copy oom x y st with
        | None => UB
        | Some (true, st) => Ok st Done
        | Some (false, st) => Ok st BadAlloc
        end
      else Illegal
  | AssignMove x y =>
      if is_error x e && is_error y e then
        match error_assign_move x y st with None => UB | Some st => Ok st Done end
      else Illegal
  | What x =>
      match lookup x e with
      | None => Illegal
      | Some (CppError, f) => match error_what f h with Some t => Ok st (Text t) | None => UB end
      | Some (RustException, f) => match exception_what f h with Some t => Ok st (Text (Some t)) | None => UB end
      end
  | Destroy x =>
      match lookup x e with
      | None => Illegal
      | Some (CppError, f) => match error_dtor f h with Some h => Ok (h, remove x e) Done | None => UB end
      | Some (RustException, f) => match exception_drop f h with Some h => Ok (h, remove x e) Done | None => UB end
      end
  end.
(** after std::terminate nothing more happens *)
Fixpoint run (ops : list op) (st : state) : outcome state * list obs :=
  match ops with
  | [] => (Ok st Done, [])
  | o :: ops => match step o st with
                | Ok st Terminate => (Ok st Terminate, [Terminate])
                | Ok st ob => let '(r, t) := run ops st in (r, ob :: t)
                | bad => (bad, [])
                end
  end.
End Lossy.
