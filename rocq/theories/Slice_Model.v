(** Model of rust::Slice and its iterators in C++: include/cxx.h 183-290 and 555-751, with
    cxx.cc 395-403 and src/symbols/rust_slice.rs.  rust::Vec iterates through a Slice of its
    data and size (cxx.h 1002-1030).

    Pointers and std::size_t are 64-bit numbers; std::ptrdiff_t is signed.  Arithmetic on them
    is that of the machine: adding to a pointer wraps around (the C++ standard would make a
    pointer outside of its array undefined already). *)
From Verif Require Import Base.
Require Import ZArith.
Local Open Scope Z_scope.

Definition W : Z := 18446744073709551616.
Definition half : Z := 9223372036854775808.
(** conversion to std::size_t, and of a difference to std::ptrdiff_t *)
Definition u (z : Z) : Z := z mod W.
Definition signed (z : Z) : Z := if u z <? half then u z else u z - W.

(** [elem_size] is size_of<T>(), cxx.h 1058-1079: sizeof(T), or what Rust says for an opaque
    Rust type *)
Record slice := Slice { ptr : Z; count : Z; elem_size : Z }.
(** 557-560 *)
Definition slice_default (align size : Z) : slice := Slice align 0 size.
(** 562-570: a null pointer is [0] *)
Definition slice_new (p n align size : Z) : slice := Slice (if (p =? 0) && (n =? 0) then align else p) n size.
(** 592-597: operator[], the address of the element *)
Definition index (s : slice) (n : Z) : Z := u (ptr s + u (elem_size s * n)).
(** 599-605: [None] is the exception *)
Definition at_ (s : slice) (n : Z) : option Z := if count s <=? n then None else Some (index s n).
(** 607-617 *)
Definition front (s : slice) : Z := index s 0.
Definition back (s : slice) : Z := index s (count s - 1).

Record iter := Iter { pos : Z; stride : Z }.
(** 619-623, 625-629 *)
Definition deref (it : iter) : Z := pos it.
(** 631-636: [stride * n] is a product of std::size_t *)
Definition it_index (it : iter) (n : Z) : Z := u (pos it + u (stride it * u n)).
(** 638-642, 644-649 *)
Definition incr (it : iter) : iter := Iter (u (pos it + stride it)) (stride it).
Definition post_incr (it : iter) : iter * iter := (it, Iter (u (pos it + stride it)) (stride it)).
(** 651-655, 657-662 *)
Definition decr (it : iter) : iter := Iter (u (pos it - stride it)) (stride it).
Definition post_decr (it : iter) : iter * iter := (it, Iter (u (pos it - stride it)) (stride it)).
(** 664-669, 678-684 *)
Definition plus (it : iter) (n : Z) : iter := Iter (u (pos it + u (stride it * u n))) (stride it).
(** 671-676, 686-692 *)
Definition minus (it : iter) (n : Z) : iter := Iter (u (pos it - u (stride it * u n))) (stride it).
(** 694-701: [None] is a division by zero *)
Definition diff (it other : iter) : option Z :=
  if signed (stride it) =? 0 then None else Some (Z.quot (signed (pos it - pos other)) (signed (stride it))).
(** 703-731 *)
Definition eq (a b : iter) : bool := pos a =? pos b.
Definition ne (a b : iter) : bool := negb (pos a =? pos b).
Definition lt (a b : iter) : bool := pos a <? pos b.
Definition le (a b : iter) : bool := pos a <=? pos b.
Definition gt (a b : iter) : bool := pos b <? pos a.
Definition ge (a b : iter) : bool := pos b <=? pos a.
(** 733-739 *)
Definition begin (s : slice) : iter := Iter (ptr s) (elem_size s).
(** 741-746 *)
Definition end_ (s : slice) : iter := Iter (u (ptr s + u (stride (begin s) * count s))) (stride (begin s)).

(** [for (auto it = begin; it != end; ++it) visit( *it )]: the addresses visited; [None] if it
    takes more than [fuel] rounds *)
Fixpoint traverse (fuel : nat) (it stop : iter) : option (list Z) :=
  if ne it stop then
    match fuel with
    | O => None
    | S fuel => option_map (cons (deref it)) (traverse fuel (incr it) stop)
    end
  else Some [].
