(** Model of unwinding at the language boundary: src/unwind.rs, the Rust entry points that C++
    can call (macro/src/expand.rs 202-306, 785-830, 917-925, 966-1180, 1300-1445; src/symbols)
    and the C++ entry points that Rust can call (gen/src/write.rs 782, 818-825, 891-896).

    Programs of both languages are trees that call each other to any depth.  Only control flow
    is modelled: what is returned, panics, exceptions, destructors, the order of events.
    [panic = "unwind"] is assumed; with [panic = "abort"] there is no unwinding at all. *)
From Verif Require Import Base.

(** the functions exported to C++ *)
Inductive entry :=
| Function | Trampoline                                          (* expand.rs 966-1180 *)
| OpEq | OpNe | OpLt | OpLe | OpGt | OpGe | OpHash                 (* 202-306 *)
| SizeOf | AlignOf                                               (* 917-925 *)
| BoxAlloc | BoxDealloc | BoxDrop                                (* 1324-1345 *)
| VecNew | VecDrop | VecLen | VecCapacity | VecData | VecReserve | VecSetLen | VecTruncate   (* 1383-1442 *)
| LibReserve                                                     (* symbols/rust_vec.rs 39-42, symbols/rust_string.rs 102-113 *)
| LibOther.                                                      (* the other functions of src/symbols *)
(** whether the body is inside of prevent_unwind *)
Definition guarded (e : entry) : bool :=
  match e with
  | Function | Trampoline => true                                (* 1156 *)
  | OpEq | OpNe | OpLt | OpLe | OpGt | OpGe | OpHash => true       (* 219, 232, 246, 258, 271, 283, 298 *)
  | SizeOf | AlignOf => false
  | BoxAlloc | BoxDealloc => false                               (* 1327, 1337 *)
  | BoxDrop => true                                              (* 1344 *)
  | VecDrop | VecTruncate => true                                (* 1395, 1438 *)
  | VecNew | VecLen | VecCapacity | VecData | VecReserve | VecSetLen => false
  | LibReserve | LibOther => false
  end.

Inductive rust :=
| RRet (v : nat)
| RPanic
| REvent (n : nat) (r : rust)
(** a call of a C++ function, declared to return a Result or not; [None] is the error *)
| RCallCpp (throws : bool) (c : cpp) (k : option nat -> rust)
(** catch_unwind *)
| RCatch (r : rust) (k : option nat -> rust)
(** a local variable with a destructor *)
| RLocal (destructor body : rust) (k : nat -> rust)
with cpp :=
| CRet (v : nat)
| CThrow
| CEvent (n : nat) (c : cpp)
| CCallRust (e : entry) (r : rust) (k : nat -> cpp)
| CTry (c : cpp) (k : option nat -> cpp).

(** how a piece of code ends.  [UB]: a panic left an extern "C" function, an exception a
    noexcept one is std::terminate, that is [Abort] *)
Inductive outcome := Return (v : nat) | Panicking | Throwing | Abort | UB.
Notation ran := (list nat * outcome)%type.
(** first one thing, then another *)
Definition after (t : list nat) (r : ran) : ran := (t ++ fst r, snd r).

(** Destructors during unwinding: a panic that leaves one aborts *)
Definition cleanup (r : ran) : ran :=
  match r with
  | (t, Return _) => (t, Panicking)
  | (t, Panicking) => (t, Abort)
  | (t, o) => (t, o)
  end.
(** unwind.rs 35-40: the destructor of the guard panics *)
Definition guard_drop : ran := ([], Panicking).
(** 5-28: the guard is a local variable, alive unless the call returned *)
Definition prevent_unwind (foreign_call : ran) : ran :=
  let guard := guard_drop in
  match foreign_call with
  | (t, Panicking) => after t (cleanup guard)
  | (t, Return ret) => (t, Return ret)     (* mem::forget *)
  | (t, o) => (t, o)
  end.
(** the end of an extern "C" function: since Rust 1.81 a panic aborts here, before that it is
    undefined behaviour *)
Definition extern_c (aborts : bool) (r : ran) : ran :=
  match r with
  | (t, Panicking) => (t, if aborts then Abort else UB)
  | (t, o) => (t, o)
  end.
Definition entry_point (aborts : bool) (e : entry) (body : ran) : ran :=
  extern_c aborts (if guarded e then prevent_unwind body else body).
(** the C++ shim of a function called from Rust: noexcept (782) ends the program; for a
    function that returns Result, trycatch makes it an error *)
Definition cxx_shim (throws : bool) (body : ran) : list nat * (option nat + outcome) :=
  match body with
  | (t, Return v) => (t, inl (Some v))
  | (t, Throwing) => (t, if throws then inl None else inr Abort)
  | (t, o) => (t, inr o)
  end.

Section Eval.
Variable aborts : bool.
Fixpoint eval_rust (r : rust) : ran :=
  match r with
  | RRet v => ([], Return v)
  | RPanic => ([], Panicking)
  | REvent n r => after [n] (eval_rust r)
  | RCallCpp throws c k =>
      match cxx_shim throws (eval_cpp c) with
      | (t, inl o) => after t (eval_rust (k o))
      | (t, inr o) => (t, o)
      end
  | RCatch r k =>
      match eval_rust r with
      | (t, Return v) => after t (eval_rust (k (Some v)))
      | (t, Panicking) => after t (eval_rust (k None))
      | (t, o) => (t, o)
      end
  | RLocal destructor body k =>
      match eval_rust body with
      | (t, Return v) => match eval_rust destructor with
                         | (t2, Return _) => after (t ++ t2) (eval_rust (k v))
                         | (t2, o) => (t ++ t2, o)
                         end
      | (t, Panicking) => after t (cleanup (eval_rust destructor))
      | (t, o) => (t, o)
      end
  end
with eval_cpp (c : cpp) : ran :=
  match c with
  | CRet v => ([], Return v)
  | CThrow => ([], Throwing)
  | CEvent n c => after [n] (eval_cpp c)
  | CCallRust e r k =>
      match entry_point aborts e (eval_rust r) with
      | (t, Return v) => after t (eval_cpp (k v))
      | (t, o) => (t, o)
      end
  | CTry c k =>
      match eval_cpp c with
      | (t, Return v) => after t (eval_cpp (k (Some v)))
      | (t, Throwing) => after t (eval_cpp (k None))
      | (t, o) => (t, o)
      end
  end.
End Eval.
