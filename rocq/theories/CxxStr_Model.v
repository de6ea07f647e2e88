(** Model of [CxxString] and [let_cxx_string!]: src/cxx_string.rs and the C++ functions it
    calls, src/cxx.cc 8-36.

    A std::string is its bytes, its capacity and whatever lies in its buffer behind the
    terminator.  Undefined behaviour is the outcome [UB]; a C++ exception inside a noexcept
    function is [Abort]. *)
From Verif Require Import Base.
Require Import NArith.

Definition byte := N.
Definition usize_max : N := 18446744073709551615.

Record cxx_string := Str { buffer : list byte; length : nat; capacity : N }.

Section CxxStr.
(** what the standard library leaves open: the capacity it chooses when it needs at least that
    much and has so much (before C++20 [reserve] may also give capacity back, as [clear] may
    in every standard), and the largest size it supports *)
Variable choose_cap : N -> N -> N.
Variable max_size : N.

(** the buffer always has a terminator after the text: std::string::data since C++11 *)
Definition make (text : list byte) (cap : N) : cxx_string := Str (text ++ [0%N]) (List.length text) cap.
Definition need (n : N) (cap : N) : N := N.max n (choose_cap n cap).

(** cxx.cc 8-36.  [None] is the abort of a noexcept function that throws length_error. *)
Definition cxx_init (bytes : list byte) : option cxx_string :=
  if N.leb (N.of_nat (List.length bytes)) max_size
  then Some (make bytes (need (N.of_nat (List.length bytes)) 0)) else None.
(** data() and length() *)
Definition cxx_data (s : cxx_string) : list byte := buffer s.
Definition cxx_length (s : cxx_string) : nat := length s.
Definition text_of (s : cxx_string) : list byte := firstn (length s) (buffer s).
Definition cxx_clear (s : cxx_string) : cxx_string := make [] (need 0 (capacity s)).
Definition cxx_reserve_total (s : cxx_string) (new_cap : N) : option cxx_string :=
  if N.leb new_cap max_size then Some (Str (buffer s) (length s) (need new_cap (capacity s))) else None.
Definition cxx_push (s : cxx_string) (bytes : list byte) : option cxx_string :=
  let new := text_of s ++ bytes in
  if N.leb (N.of_nat (List.length new)) max_size
  then Some (make new (need (N.of_nat (List.length new)) (capacity s))) else None.

(** * src/cxx_string.rs *)
Inductive outcome (A : Type) := Val (a : A) | Panics | Abort | UB.
Arguments Val {A}. Arguments Panics {A}. Arguments Abort {A}. Arguments UB {A}.

(** 103-105, 112-114, 117-121: the slice must lie inside the buffer *)
Definition r_len (s : cxx_string) : nat := cxx_length s.
Definition r_is_empty (s : cxx_string) : bool := Nat.eqb (r_len s) 0.
Definition r_as_bytes (s : cxx_string) : outcome (list byte) :=
  let data := cxx_data s in let len := r_len s in
  if Nat.leb len (List.length data) then Val (firstn len data) else UB.
(** 148-151: CStr::from_ptr: up to the first zero; there must be one *)
Fixpoint until_nul (l : list byte) : outcome (list byte) :=
  match l with
  | [] => UB
  | b :: l => if N.eqb b 0 then Val [] else match until_nul l with Val r => Val (b :: r) | e => e end
  end.
Definition r_as_c_str (s : cxx_string) : outcome (list byte) := until_nul (cxx_data s).
(** 186-188 *)
Definition r_clear (s : cxx_string) : outcome cxx_string := Val (cxx_clear s).
(** 208-214 *)
Definition r_reserve (s : cxx_string) (additional : N) : outcome cxx_string :=
  let sum := (N.of_nat (r_len s) + additional)%N in
  if N.leb sum usize_max
  then match cxx_reserve_total s sum with Some s => Val s | None => Abort end
  else Panics.
(** 217-224 *)
Definition r_push_bytes (s : cxx_string) (bytes : list byte) : outcome cxx_string :=
  match cxx_push s bytes with Some s => Val s | None => Abort end.
Definition r_push_str (s : cxx_string) (t : list byte) : outcome cxx_string := r_push_bytes s t.
(** 239-277: comparisons of the byte slices; core: lexicographic, unsigned *)
Fixpoint bytes_cmp (a b : list byte) : comparison :=
  match a, b with
  | [], [] => Eq | [], _ => Lt | _, [] => Gt
  | x :: a, y :: b => match N.compare x y with Eq => bytes_cmp a b | c => c end
  end.
Definition r_cmp (s t : cxx_string) : outcome comparison :=
  match r_as_bytes s, r_as_bytes t with Val a, Val b => Val (bytes_cmp a b) | _, _ => UB end.

Inductive sop :=
| Len | IsEmpty | AsBytes | AsCStr | Clear | Reserve (additional : N) | Push (bytes : list byte) | PushStr (bytes : list byte).
Inductive sobs := ODone | OLen (n : nat) | OBool (b : bool) | OBytes (l : list byte).
Definition map_out {A B} (f : A -> B) (o : outcome A) : outcome B :=
  match o with Val a => Val (f a) | Panics => Panics | Abort => Abort | UB => UB end.
Definition step (o : sop) (s : cxx_string) : outcome (cxx_string * sobs) :=
  match o with
  | Len => Val (s, OLen (r_len s))
  | IsEmpty => Val (s, OBool (r_is_empty s))
  | AsBytes => map_out (fun l => (s, OBytes l)) (r_as_bytes s)
  | AsCStr => map_out (fun l => (s, OBytes l)) (r_as_c_str s)
  | Clear => map_out (fun s => (s, ODone)) (r_clear s)
  | Reserve n => map_out (fun s => (s, ODone)) (r_reserve s n)
  | Push l => map_out (fun s => (s, ODone)) (r_push_bytes s l)
  | PushStr l => map_out (fun s => (s, ODone)) (r_push_str s l)
  end.

(** * let_cxx_string! *)

(** The memory of the StackString, 298-303: nothing there, a std::string, a destroyed one *)
Inductive space := Uninit | Holds (s : cxx_string) | Dead.
(** How evaluating an expression or a statement ends: normally, by unwinding, or by leaving the
    scope (return, break, continue, the question mark operator) *)
Inductive exit (A : Type) := Normally (a : A) | Unwinds | Leaves.
Arguments Normally {A}. Arguments Unwinds {A}. Arguments Leaves {A}.

Inductive event := Constructed (bytes : list byte) | Observed (o : sobs) | Destroyed (bytes : list byte).

(** 321-329: drop runs the destructor, whatever is there *)
Definition drop_stack_string (sp : space) : option (list event) :=
  match sp with
  | Holds s => Some [Destroyed (text_of s)]
  | _ => None
  end.

(** the statements after the macro, up to the end of the scope, as operations on the string,
    and how the scope ends if no operation panics *)
Fixpoint body (ops : list sop) (last : exit unit) (s : cxx_string) : outcome (list event * cxx_string * exit unit) :=
  match ops with
  | [] => Val ([], s, last)
  | o :: ops => match step o s with
                | Val (s, ob) => map_out (fun '(t, s, x) => (Observed ob :: t, s, x)) (body ops last s)
                | Panics => Val ([], s, Unwinds)
                | Abort => Abort
                | UB => UB
                end
  end.

(** 82-90: [value] is how the expression given to the macro ends; its value is given by how
    AsRef<[u8]>::as_ref, called by [init] at 313, ends for it.  The scope of
    cxx_stack_string begins before the expression is evaluated. *)
Definition let_cxx_string (value : exit (exit (list byte))) (ops : list sop) (last : exit unit)
  : outcome (list event * exit unit) :=
  let cxx_stack_string := Uninit in
  let leave (t : list event) (sp : space) (x : exit unit) :=
    match drop_stack_string sp with Some d => Val (t ++ d, x) | None => UB end in
  match value with
  | Unwinds => leave [] cxx_stack_string Unwinds
  | Leaves => leave [] cxx_stack_string Leaves
  | Normally as_ref =>
      match as_ref with
      | Unwinds => leave [] cxx_stack_string Unwinds
      | Leaves => leave [] cxx_stack_string Leaves
      | Normally bytes =>
          match cxx_init bytes with
          | None => Abort
          | Some s =>
              match body ops last s with
              | Val (t, s, x) => leave (Constructed bytes :: t) (Holds s) x
              | Panics => Panics | Abort => Abort | UB => UB
              end
          end
      end
  end.
End CxxStr.
Arguments Val {A}. Arguments Panics {A}. Arguments Abort {A}. Arguments UB {A}.
Arguments Normally {A}. Arguments Unwinds {A}. Arguments Leaves {A}.
