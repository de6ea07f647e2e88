(** What the generated shims do with each argument and with the result:
    gen/src/write.rs 735-900 and 1037-1173, macro/src/expand.rs 501-785 and 966-1179.
    The first part is the code that is written, per type; the second part is what that
    code does.  Each argument is treated alone: the expression written for an argument
    mentions no other variable (distinctness of the names is C55).  Conversions between a
    view and its representation (RustStr::from, as_str, impl<Str>::repr, pointer casts,
    Pin) do not touch ownership and are left out. *)
From Verif Require Import Base Syntax_Model Types_Model Mangle_Model Abi_Model.

(** The two smart pointers that cross as a raw pointer. *)
Inductive raw_kind : Type := RKBox | RKUnique.
Definition raw_kind_eqb (a b : raw_kind) : bool :=
  match a, b with RKBox, RKBox | RKUnique, RKUnique => true | _, _ => false end.

(** * The code *)
Section Code.
  Context (fuel : nat) (T : types).
  Notation indirect := (needs_indirect_abi fuel T).

  (** ** Rust calls C++ *)
  (** expand.rs 612-626: whether `let mut x = MaybeUninit::new(x);` is written *)
  Definition rust_setup (t : ty) : option bool := indirect t.
  (** expand.rs 534-599: arg_vars *)
  Inductive rust_out : Type :=
  | ROSlot                              (* x.as_mut_ptr() *)
  | ROIntoRaw (k : raw_kind)            (* Box::into_raw(x), UniquePtr::into_raw(x) *)
  | ROValue.                            (* x, possibly converted *)
  Definition rust_arg_out (t : ty) : option rust_out :=
    if is_rust_string t then Some ROSlot else
    match t with
    | TBox _ => Some (ROIntoRaw RKBox)
    | TUniquePtr _ => Some (ROIntoRaw RKUnique)
    | TVec _ => Some ROSlot
    | TRef _ _ _ _ | TPtr _ _ | TStr _ | TSlice _ _ _ => Some ROValue
    | _ => option_map (fun b : bool => if b then ROSlot else ROValue) (indirect t)
    end.
  (** write.rs 852-879: the argument given to the C++ function *)
  Inductive cxx_in : Type :=
  | CIFromRaw (k : raw_kind)            (* Box<T>::from_raw(x), unique_ptr<T>(x) *)
  | CIBitcopy                           (* String(unsafe_bitcopy, *x), Vec<T>(unsafe_bitcopy, *x) *)
  | CIMove                              (* std::move( *x) *)
  | CIValue.                            (* x *)
  Definition cxx_arg_in (t : ty) : option cxx_in :=
    match t with
    | TBox _ => Some (CIFromRaw RKBox)
    | TUniquePtr _ => Some (CIFromRaw RKUnique)
    | _ =>
        if is_rust_string t then Some CIBitcopy else
        match t with
        | TVec _ => Some CIBitcopy
        | _ => option_map (fun b : bool => if b then CIMove else CIValue) (indirect t)
        end
    end.
  (** write.rs 834-846, 881-886: how the result leaves C++ *)
  Inductive leave : Type := LIntoRaw (k : raw_kind) | LPlain.
  Definition cxx_ret_out (t : ty) : leave :=
    match t with TBox _ => LIntoRaw RKBox | TUniquePtr _ => LIntoRaw RKUnique | _ => LPlain end.
  (** expand.rs 656-724: how it enters Rust *)
  Inductive enter : Type := EFromRaw (k : raw_kind) | EPlain.
  Definition rust_ret_in (t : ty) : enter :=
    match t with TBox _ => EFromRaw RKBox | TUniquePtr _ => EFromRaw RKUnique | _ => EPlain end.

  (** ** C++ calls Rust *)
  (** write.rs 1058-1066: whether `ManuallyDrop<T> x$(std::move(x));` is written *)
  Definition cxx_setup (t : ty) : option bool := if is_rust_string t then Some false else indirect t.
  (** write.rs 1119-1134: the argument: whether `&` precedes and what follows the name *)
  Inductive suffix : Type := SNone | SIntoRaw | SRelease | SValue.
  Definition cxx_arg_out (t : ty) : option (bool * suffix) :=
    obind (indirect t) (fun amp : bool =>
      match t with
      | TBox _ => Some (amp, SIntoRaw)
      | TUniquePtr _ => Some (amp, SRelease)
      | _ =>
          if is_rust_string t then Some (amp, SNone)
          else option_map (fun b : bool => (amp, if b then SValue else SNone)) (indirect t)
      end).
  (** expand.rs 1000-1056: arg_vars *)
  Inductive rust_in : Type :=
  | RITake                              (* mem::take((_x).as_mut_string()) … *)
  | RIFromRaw (k : raw_kind)
  | RIRead                              (* ptr::read(x) *)
  | RIValue.
  Definition rust_arg_in (t : ty) : option rust_in :=
    if is_rust_string t then Some RITake else
    match t with
    | TBox _ => Some (RIFromRaw RKBox)
    | TVec _ => Some RITake
    | TUniquePtr _ => Some (RIFromRaw RKUnique)
    | TRef _ _ _ _ | TStr _ | TSlice _ _ _ => Some RIValue
    | _ => option_map (fun b : bool => if b then RIRead else RIValue) (indirect t)
    end.
  (** expand.rs 1078-1113: conversion *)
  Definition rust_ret_out (t : ty) : leave :=
    match t with TBox _ => LIntoRaw RKBox | TUniquePtr _ => LIntoRaw RKUnique | _ => LPlain end.
  (** write.rs 1084-1108: around the call of a function that returns directly *)
  Definition cxx_ret_in (t : ty) : enter :=
    match t with TBox _ => EFromRaw RKBox | TUniquePtr _ => EFromRaw RKUnique | _ => EPlain end.
End Code.

(** * What it does *)
Section Machine.
  Context {V E : Type}.

  (** What a variable holds: a value it is responsible for, or nothing that needs to be
      destroyed (moved from, or taken from). *)
  Inductive content : Type := Owns (v : V) | Hollow.
  Definition held (c : content) : list V := match c with Owns v => [v] | Hollow => [] end.
  (** What crosses: a value, a raw pointer responsible for its target, or the address of
      a variable of the sender. *)
  Inductive wire : Type := WValue (c : content) | WRaw (k : raw_kind) (v : V) | WSlot.
  (** The sender during the call: what it passed, its variable, and whether a destructor
      runs for that variable when the call returns. *)
  Record sender : Type := Sender { s_wire : wire; s_var : content; s_drop : bool }.

  (** ** Arguments *)
  (** Rust: MaybeUninit has no destructor; a moved variable holds nothing.  [None]: the
      code does not compile. *)
  Definition rust_sends (setup : bool) (o : rust_out) (v : V) : option sender :=
    match o, setup with
    | ROSlot, true => Some (Sender WSlot (Owns v) false)
    | ROIntoRaw k, false => Some (Sender (WRaw k v) Hollow true)
    | ROValue, false => Some (Sender (WValue (Owns v)) Hollow true)
    | _, _ => None
    end.
  (** C++: what the function receives, what the sender is left with, and what the shim
      destroys: naming a parameter passes a copy, and the parameter is destroyed at the
      end of the shim. *)
  Definition cxx_receives (i : cxx_in) (s : sender) : option (content * sender * list V) :=
    match i, s_wire s with
    | CIFromRaw k, WRaw k' v => if raw_kind_eqb k k' then Some (Owns v, s, []) else None
    | CIBitcopy, WSlot => Some (s_var s, s, [])
    | CIMove, WSlot => Some (s_var s, Sender WSlot Hollow (s_drop s), [])
    | CIValue, WValue c => Some (c, s, held c)
    | _, _ => None
    end.

  (** C++: [drop]: whether x was moved into a ManuallyDrop, whose destructor does
      nothing.  `&x$.value` needs that local.  Passing x by name passes a copy. *)
  Definition cxx_sends (t : ty) (drop : bool) (o : bool * suffix) (v : V) : option sender :=
    match o, drop, t with
    | (true, SValue), true, _ => Some (Sender WSlot (Owns v) false)
    | (true, SNone), false, _ => Some (Sender WSlot (Owns v) true)
    | (false, SIntoRaw), false, TBox _ => Some (Sender (WRaw RKBox v) Hollow true)
    | (false, SRelease), false, TUniquePtr _ => Some (Sender (WRaw RKUnique v) Hollow true)
    | (false, SNone), false, _ => Some (Sender (WValue (Owns v)) (Owns v) true)
    | _, _, _ => None
    end.
  (** Rust: a parameter named once is moved; mem::take leaves an empty value behind;
      ptr::read copies the bits and leaves the original. *)
  Definition rust_receives (i : rust_in) (s : sender) : option (content * sender * list V) :=
    match i, s_wire s with
    | RITake, WSlot => Some (s_var s, Sender WSlot Hollow (s_drop s), [])
    | RIFromRaw k, WRaw k' v => if raw_kind_eqb k k' then Some (Owns v, s, []) else None
    | RIRead, WSlot => Some (s_var s, s, [])
    | RIValue, WValue c => Some (c, s, [])
    | _, _ => None
    end.

  (** A complete transfer: what the function receives and what the two shims destroy. *)
  Definition transfer (send : option sender) (receive : sender -> option (content * sender * list V))
    : option (content * list V) :=
    obind send (fun s => obind (receive s) (fun r =>
      let '(c, s, destroyed) := r in Some (c, destroyed ++ (if s_drop s then held (s_var s) else [])))).

  (** ** Results *)
  (** How a function ends; [None]: the unit value of a function without result. *)
  Inductive outcome : Type := Ok (v : option V) | Err (e : E).
  (** What a shim hands back: the return value, the error pointer (of a fallible
      function: None is null), and what it wrote to the return slot. *)
  Record reply : Type := Reply { r_value : option wire; r_error : option E; r_slot : option wire }.
  (** A call: it does not compile or is undefined, aborts the process, or ends. *)
  Inductive run (A : Type) : Type := Undefined | Aborts | Ends (a : A).
  Arguments Undefined {A}. Arguments Aborts {A}. Arguments Ends {A} a.
  Definition run_bind {A B} (r : run A) (f : A -> run B) : run B :=
    match r with Undefined => Undefined | Aborts => Aborts | Ends a => f a end.

  Definition leaves (l : leave) (v : V) : wire :=
    match l with LIntoRaw k => WRaw k v | LPlain => WValue (Owns v) end.
  Definition enters (e : enter) (w : wire) : option V :=
    match e, w with
    | EFromRaw k, WRaw k' v => if raw_kind_eqb k k' then Some v else None
    | EPlain, WValue (Owns v) => Some v
    | _, _ => None
    end.

  (** write.rs 815-896: the end of a C++ shim.  The shim is noexcept, so an exception
      that is not caught aborts; trycatch stores it in throw$.  [None] in place of the
      value of a function that has one does not happen. *)
  Definition cxx_replies (ret : option ty) (throws slot : bool) (o : outcome) : run reply :=
    match o with
    | Err e => if throws then Ends (Reply None (Some e) None) else Aborts
    | Ok v =>
        match ret, v with
        | None, None => Ends (Reply None None None)
        | Some t, Some v =>
            let w := leaves (cxx_ret_out t) v in
            if slot then Ends (Reply None None (Some w))
            else if throws then Undefined (* `return` a value from the lambda *)
            else Ends (Reply (Some w) None None)
        | _, _ => Undefined
        end
    end.
  (** expand.rs 628-730: the end of a Rust wrapper; assume_init of a slot that was not
      written is undefined *)
  Definition rust_concludes (ret : option ty) (throws slot : bool) (r : reply) : run outcome :=
    match ret with
    | None => match r_error r with Some e => if throws then Ends (Err e) else Undefined | None => Ends (Ok None) end
    | Some t =>
        let read w := match obind w (enters (rust_ret_in t)) with Some v => Ends (Ok (Some v)) | None => Undefined end in
        if slot then
          match r_error r with
          | Some e => if throws then Ends (Err e) else Undefined
          | None => read (r_slot r)
          end
        else if throws then Undefined
        else read (r_value r)
    end.

  (** expand.rs 1126-1143 and src/result.rs 26-37 (r#try): the end of a Rust shim.  A
      function that is not fallible has no Err. *)
  Definition rust_replies (ret : option ty) (throws slot : bool) (o : outcome) : run reply :=
    match o with
    | Err e => if throws then Ends (Reply None (Some e) None) else Undefined
    | Ok v =>
        match ret, v with
        | None, None => Ends (Reply None None None)
        | Some t, Some v =>
            let w := leaves (rust_ret_out t) v in
            if throws then if slot then Ends (Reply None None (Some w)) else Undefined
            else if slot then Ends (Reply None None (Some w))
            else Ends (Reply (Some w) None None)
        | _, _ => Undefined
        end
    end.
  (** Reading return$.value, declared with the type of the result: a Box or unique_ptr
      is a single pointer. *)
  Definition slot_holds (t : ty) (w : wire) : option V :=
    match t, w with
    | TBox _, WRaw RKBox v | TUniquePtr _, WRaw RKUnique v => Some v
    | TBox _, _ | TUniquePtr _, _ => None
    | _, WValue (Owns v) => Some v
    | _, _ => None
    end.
  (** write.rs 1068-1108, 1157-1173: the end of a C++ function implemented in Rust.
      MaybeUninit has no destructor, and what is moved out is owned by the result. *)
  Definition cxx_concludes (ret : option ty) (throws slot : bool) (r : reply) : run outcome :=
    match ret with
    | None => match r_error r with Some e => if throws then Ends (Err e) else Undefined | None => Ends (Ok None) end
    | Some t =>
        match r_error r with
        | Some e => if throws then Ends (Err e) else Undefined
        | None =>
            match (if slot then obind (r_slot r) (slot_holds t) else obind (r_value r) (enters (cxx_ret_in t))) with
            | Some v => Ends (Ok (Some v))
            | None => Undefined
            end
        end
    end.
End Machine.
Arguments content V : clear implicits.
Arguments wire V : clear implicits.
Arguments sender V : clear implicits.
Arguments outcome V E : clear implicits.
Arguments reply V E : clear implicits.
Arguments Undefined {A}. Arguments Aborts {A}. Arguments Ends {A} a.

(** * Calls *)
(** [T1], [n1]: the C++ generator; [T2], [n2]: the macro. *)
Section Calls.
  Context {V E : Type} (n1 n2 : nat) (T1 T2 : types).

  (** Rust passes [v] to a C++ function. *)
  Definition pass_to_cxx (t : ty) (v : V) : option (content V * list V) :=
    obind (rust_setup n2 T2 t) (fun setup =>
    obind (rust_arg_out n2 T2 t) (fun o =>
    obind (cxx_arg_in n1 T1 t) (fun i => transfer (rust_sends setup o v) (cxx_receives i)))).
  (** C++ passes [v] to a Rust function. *)
  Definition pass_to_rust (t : ty) (v : V) : option (content V * list V) :=
    obind (cxx_setup n1 T1 t) (fun drop =>
    obind (cxx_arg_out n1 T1 t) (fun o =>
    obind (rust_arg_in n2 T2 t) (fun i => transfer (cxx_sends t drop o v) (rust_receives i)))).

  (** The result of a C++ function as seen by its Rust caller, and vice versa. *)
  Definition return_to_rust (s : signature) (o : outcome V E) : option (run (outcome V E)) :=
    obind (indirect_return n1 T1 s) (fun b1 => obind (indirect_return n2 T2 s) (fun b2 =>
      Some (run_bind (cxx_replies (sg_ret s) (sg_throws s) b1 o) (rust_concludes (sg_ret s) (sg_throws s) b2)))).
  Definition return_to_cxx (s : signature) (o : outcome V E) : option (run (outcome V E)) :=
    obind (indirect_return n2 T2 s) (fun b2 => obind (indirect_return n1 T1 s) (fun b1 =>
      Some (run_bind (rust_replies (sg_ret s) (sg_throws s) b2 o) (cxx_concludes (sg_ret s) (sg_throws s) b1)))).
End Calls.
