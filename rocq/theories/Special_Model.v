(** The classes that C++ sees: which of the special member functions of the generated classes
    and of the classes in cxx.h exist, which initialisations of an object compile, and what
    copying and default initialisation do. *)
From Verif Require Import Base Syntax_Model Types_Spec.

(** * Rules of C++ *)
Inductive cstd : Type := Cxx11 | Cxx14 | Cxx17 | Cxx20.
(** How a class declares one of its special member functions: not at all, [= default], [= delete],
    or with a body of its own. *)
Inductive decl : Type := Implicit | Defaulted | Deleted | User.
(** [d_other]: there are other constructors; [d_private]: there are private data members. *)
Record specials : Type := Decls
  { d_default : decl; d_copy : decl; d_move : decl; d_copy_assign : decl; d_move_assign : decl; d_dtor : decl; d_other : bool; d_private : bool }.
(** Enums, arithmetic types and pointers; references; classes.  [inits]: which members have a
    default member initialiser. *)
Inductive ctype : Type :=
| Scalar
| Reference
| Class (d : specials) (bases : list ctype) (members : list ctype) (inits : list bool).

Definition declared (d : decl) : bool := match d with Implicit => false | _ => true end.

(** Whether the function exists and is not deleted: C++17, [class.dtor] 5, [class.copy.ctor] 6-10,
    [class.copy.assign] 2-7, [class.ctor] 4-5; the other standards do not differ in this.  Access control and virtual
    functions play no role in the classes at hand.  For Move and MoveAssign: whether an rvalue can
    be moved from, by the move operation or, where there is none, by the copy operation. *)
Fixpoint can_destroy (t : ctype) : bool :=
  match t with
  | Scalar | Reference => true
  | Class d bs ms _ =>
      match d_dtor d with
      | Deleted => false
      | User => true
      | _ => forallb can_destroy bs && forallb can_destroy ms
      end
  end.
Fixpoint can_copy (t : ctype) : bool :=
  match t with
  | Scalar | Reference => true
  | Class d bs ms _ =>
      match d_copy d with
      | Deleted => false
      | User => true
      | c => if negb (declared c) && (declared (d_move d) || declared (d_move_assign d)) then false
             else forallb can_copy bs && forallb can_copy ms && forallb can_destroy bs && forallb can_destroy ms
      end
  end.
Fixpoint can_move (t : ctype) : bool :=
  match t with
  | Scalar | Reference => true
  | Class d bs ms _ =>
      let memberwise := forallb can_move bs && forallb can_move ms && forallb can_destroy bs && forallb can_destroy ms in
      match d_move d with
      | Deleted => false
      | User => true
      | Defaulted => memberwise || can_copy t
      | Implicit => if declared (d_copy d) || declared (d_copy_assign d) || declared (d_move_assign d) || declared (d_dtor d) then can_copy t
                    else memberwise || can_copy t
      end
  end.
Fixpoint can_copy_assign (t : ctype) : bool :=
  match t with
  | Scalar => true
  | Reference => false
  | Class d bs ms _ =>
      match d_copy_assign d with
      | Deleted => false
      | User => true
      | c => if negb (declared c) && (declared (d_move d) || declared (d_move_assign d)) then false
             else forallb can_copy_assign bs && forallb can_copy_assign ms
      end
  end.
Fixpoint can_move_assign (t : ctype) : bool :=
  match t with
  | Scalar => true
  | Reference => false
  | Class d bs ms _ =>
      let memberwise := forallb can_move_assign bs && forallb can_move_assign ms in
      match d_move_assign d with
      | Deleted => false
      | User => true
      | Defaulted => memberwise || can_copy_assign t
      | Implicit => if declared (d_copy d) || declared (d_copy_assign d) || declared (d_move d) || declared (d_dtor d) then can_copy_assign t
                    else memberwise || can_copy_assign t
      end
  end.
Fixpoint can_default (t : ctype) : bool :=
  match t with
  | Scalar => true
  | Reference => false
  | Class d bs ms is_ =>
      match d_default d with
      | Deleted => false
      | User => true
      | c => if negb (declared c) && (declared (d_copy d) || declared (d_move d) || d_other d) then false
             else forallb can_default bs &&
                  (fix go (ms : list ctype) (is_ : list bool) : bool :=
                     match ms with [] => true | m :: ms => (hd false is_ || can_default m) && go ms (tl is_) end) ms is_ &&
                  forallb can_destroy bs && forallb can_destroy ms
      end
  end.

(** [dcl.init.aggr] 1 in the four standards *)
Definition provided (d : decl) : bool := match d with User => true | _ => false end.
Definition is_aggregate (s : cstd) (t : ctype) : bool :=
  match t with
  | Class d bs ms is_ =>
      negb (d_private d) && negb (d_other d) &&
      match s with
      | Cxx11 => negb (existsb (fun b => b) is_) && match bs with [] => true | _ => false end
      | Cxx14 => match bs with [] => true | _ => false end
      | _ => true
      end &&
      match s with
      | Cxx20 => negb (declared (d_default d) || declared (d_copy d) || declared (d_move d))
      | _ => negb (provided (d_default d) || provided (d_copy d) || provided (d_move d))
      end
  | _ => false
  end.

(** What follows the name of the type: nothing or [()]; an object of the same type, an lvalue
    or an rvalue; such an object in braces; a list of initialisers for the elements in braces. *)
Inductive init : Type := Nothing | Self (rvalue : bool) | BraceSelf (rvalue : bool) | Braces (l : list init).
(** Compilers differ.  [default_first]: whether [{}] asks for the default constructor also where the class
    is an aggregate (C++11 says so; GCC does it in every standard unless the braces are inside others);
    [checks_elements]: whether the elements of an aggregate must have a destructor (CWG 2227; Clang checks it, GCC does not). *)
Record dialect : Type := Dialect { std : cstd; default_first : bool -> bool; checks_elements : bool }.
Definition elements_ok (D : dialect) (bs ms : list ctype) : bool := negb (checks_elements D) || (forallb can_destroy bs && forallb can_destroy ms).

(** An object initialised by [{}]; [inner]: the braces are inside others, or left out. *)
Fixpoint can_empty (D : dialect) (inner : bool) (t : ctype) : bool :=
  match t with
  | Scalar => true
  | Reference => false
  | Class d bs ms is_ =>
      if is_aggregate (std D) t && negb (default_first D inner) then
        forallb (can_empty D true) bs &&
        (fix go (ms : list ctype) (is_ : list bool) : bool :=
           match ms with [] => true | m :: ms => (hd false is_ || can_empty D true m) && go ms (tl is_) end) ms is_ &&
        elements_ok D bs ms
      else can_default t
  end.
(** The elements that have no initialiser *)
Fixpoint can_rest (D : dialect) (es : list ctype) (is_ : list bool) : bool :=
  match es with [] => true | e :: es => (hd false is_ || can_empty D true e) && can_rest D es (tl is_) end.
Definition can_take (rvalue : bool) (t : ctype) : bool := if rvalue then can_move t else can_copy t.
(** An object with an initialiser.  Simplifications: braces may not be left out inside
    braces; where a class has other constructors, any non-empty list is taken to suit one of them. *)
Fixpoint can_make (D : dialect) (inner : bool) (i : init) (t : ctype) {struct i} : bool :=
  match i with
  | Nothing => can_default t
  | Self r | BraceSelf r => can_take r t
  | Braces [] => can_empty D inner t
  | Braces ((i0 :: l0) as l) =>
      match t with
      | Scalar => match l0 with [] => can_make D true i0 Scalar | _ => false end
      | Reference => match l0, i0 with [], Self false => true | _, _ => false end
      | Class d bs ms is_ =>
          if is_aggregate (std D) t then
            (fix go (l : list init) (es : list ctype) (is_ : list bool) : bool :=
               match l, es with
               | [], es => can_rest D es is_
               | i :: l, e :: es => can_make D true i e && go l es (tl is_)
               | _, [] => false
               end) l (bs ++ ms) (map (fun _ => false) bs ++ is_) && elements_ok D bs ms
          else d_other d
      end
  end.

(** * The classes *)
(** A class that declares none of them *)
Definition plain : specials := Decls Implicit Implicit Implicit Implicit Implicit Implicit false false.
(** cxx.h 458-463 *)
Definition opaque_base : ctype := Class (Decls Deleted Deleted Implicit Implicit Implicit Deleted false false) [] [] [].
(** write.rs 380-423: write_opaque_type; the functions of the class and the static functions of
    its member layout play no role *)
Definition opaque_class : ctype := Class (Decls Implicit Implicit Implicit Implicit Implicit Deleted false false) [opaque_base] [] [].
(** std::array<std::uintptr_t, n> *)
Definition words : ctype := Class plain [] [Scalar] [].
(** cxx.h 44-115 *)
Definition string_class : ctype := Class (Decls User User User User User User true true) [] [words] [].
(** cxx.h 120-168 *)
Definition str_class : ctype := Class (Decls User Defaulted Implicit Defaulted Implicit Defaulted true true) [] [words] [].
(** cxx.h 172-183: copy_assignable_if<true> and copy_assignable_if<false> *)
Definition copy_assignable_if (b : bool) : ctype :=
  if b then Class plain [] [] [] else Class (Decls Defaulted Defaulted Implicit Deleted Defaulted Implicit false false) [] [] [].
(** cxx.h 185-230 *)
Definition slice_class (mutable : bool) : ctype :=
  Class (Decls User Defaulted Implicit Defaulted Defaulted Defaulted true true) [copy_assignable_if (negb mutable)] [words] [].
(** cxx.h 290-334 *)
Definition box_class : ctype := Class (Decls Deleted Implicit User Implicit User User true true) [] [Scalar] [].
(** cxx.h 339-402 *)
Definition vec_class : ctype := Class (Decls User User User User User User true true) [] [words] [].
(** cxx.h 409-419 *)
Definition fn_class : ctype := Class (Decls Implicit Implicit Implicit Implicit Implicit Implicit false true) [] [Scalar; Scalar] [].
(** The C++ standard: [unique.ptr.single], [util.smartptr.shared], [util.smartptr.weak] *)
Definition unique_ptr_class : ctype := Class (Decls User Deleted User Deleted User User true true) [] [Scalar] [].
Definition shared_ptr_class : ctype := Class (Decls User User User User User User true true) [] [Scalar; Scalar] [].

(** primitive.rs 4-28: kind.  The initialiser is a zero of the type. *)
Definition primitive_kind (t : ty) : bool :=
  match t with
  | TIdent n => match atom_from_str (n_rust n) with
                | Some ACxxString | Some ARustString | None => false
                | Some _ => true
                end
  | TPtr _ _ => true
  | _ => false
  end.
(** write.rs 37-57 (write_macros) and 284-298: CXX_DEFAULT_VALUE is nothing before C++14 *)
Definition default_value (s : cstd) (t : ty) : bool := match s with Cxx11 => false | _ => primitive_kind t end.

Section Bridge.
  (** The standard, the bridge, and the types that the user's headers define *)
  Variables (s : cstd) (apis : list api) (user : string -> ctype).

  (** The C++ type that a type of the bridge is written as: write.rs 1186-1345 (write_type) with
      the definitions above; no rule for what has no values in C++ (void, str, C++ vectors by value). *)
  Inductive cxx_type : ty -> ctype -> Prop :=
  | ct_prim n a : atom_from_str (n_rust n) = Some a -> a <> ARustString -> a <> ACxxString -> cxx_type (TIdent n) Scalar
  | ct_string n : atom_from_str (n_rust n) = Some ARustString -> cxx_type (TIdent n) string_class
  (* write.rs 273-378: write_struct declares no special member function *)
  | ct_struct n st cs : atom_from_str (n_rust n) = None -> In (AStruct st) apis -> p_rust (st_name st) = n_rust n -> ~ is_cxx_type apis (n_rust n) ->
      cxx_types (map v_ty (st_fields st)) cs ->
      cxx_type (TIdent n) (Class plain [] cs (map (fun f => default_value s (v_ty f)) (st_fields st)))
  | ct_enum n : atom_from_str (n_rust n) = None -> is_enum apis (n_rust n) -> ~ is_cxx_type apis (n_rust n) -> cxx_type (TIdent n) Scalar
  | ct_rust n : atom_from_str (n_rust n) = None -> is_rust_type apis (n_rust n) -> cxx_type (TIdent n) opaque_class
  | ct_user n : atom_from_str (n_rust n) = None -> is_cxx_type apis (n_rust n) -> cxx_type (TIdent n) (user (n_rust n))
  | ct_box t : cxx_type (TBox t) box_class
  | ct_vec t : cxx_type (TVec t) vec_class
  | ct_unique t : cxx_type (TUniquePtr t) unique_ptr_class
  | ct_shared t : cxx_type (TSharedPtr t) shared_ptr_class
  | ct_weak t : cxx_type (TWeakPtr t) shared_ptr_class
  | ct_ref p m l t : cxx_type (TRef p m l t) Reference
  | ct_ptr m t : cxx_type (TPtr m t) Scalar
  | ct_str l : cxx_type (TStr l) str_class
  | ct_slice m l t : cxx_type (TSlice m l t) (slice_class m)
  | ct_array t k c : cxx_type t c -> cxx_type (TArray t k) (Class plain [] [c] [])
  | ct_fn u th args ret : cxx_type (TFn u th args ret) fn_class
  with cxx_types : list ty -> list ctype -> Prop :=
  | cts_nil : cxx_types [] []
  | cts_cons t c ts cs : cxx_type t c -> cxx_types ts cs -> cxx_types (t :: ts) (c :: cs).

  (** Copying an object of type [t] copies objects of these types: the members of a struct, the
      elements of an array, and in the body of the copy constructor of rust::Vec (cxx.h 873-876
      with 978-992) its elements. *)
  Inductive copies : ty -> ty -> Prop :=
  | cp_field n st f : atom_from_str (n_rust n) = None -> In (AStruct st) apis -> p_rust (st_name st) = n_rust n -> ~ is_cxx_type apis (n_rust n) ->
      In f (st_fields st) -> copies (TIdent n) (v_ty f)
  | cp_array t k : copies (TArray t k) t
  | cp_vec t : copies (TVec t) t.
  (** A function template is compiled when it is used, so that a copy compiles if nothing that
      it copies, directly or indirectly, has a deleted copy constructor. *)
  Inductive copies_all : ty -> ty -> Prop :=
  | ca_self t : copies_all t t
  | ca_step t u v : copies t u -> copies_all u v -> copies_all t v.
  Definition copy_compiles (t : ty) : Prop := forall u c, copies_all t u -> cxx_type u c -> can_copy c = true.
End Bridge.

(** * The members of the library *)
(** What a public member of rust::Box<T>, rust::Vec<T> and rust::Slice<T> does with objects
    of type T in C++ itself. *)
Inductive need : Type := Makes (i : init) | Destroys.
Inductive lib_op : Type :=
| BoxMove | BoxDrop | BoxFromLvalue | BoxFromRvalue | BoxAssign | BoxDeref | BoxInPlaceSelf (rvalue : bool) | BoxInPlace (l : list bool)
| BoxSwap | BoxFromRaw | BoxIntoRaw
| VecNew | VecList (n : nat) | VecCopy | VecMove | VecDrop | VecMoveAssign | VecCopyAssign | VecSize | VecData | VecIndex | VecReserve
| VecPushLvalue | VecPushRvalue | VecEmplaceSelf (rvalue : bool) | VecEmplace (l : list bool) | VecTruncate | VecIterate | VecSwap
| SliceNew | SliceFrom | SliceIndex | SliceIterate | SliceSwap.
(** cxx.h 772-852 (Box), 859-1029 (Vec), 554-757 (Slice).  Box::drop, Vec::drop, truncate, reserve_total
    and Box::allocation are functions of the bridge, written in Rust (write.rs 1588-1677).
    push_back copies or moves one element into place; the elements of an initializer_list are
    constant objects that the caller makes, so that the std::move of cxx.h 871 copies them.  What is passed to in_place and to emplace_back are objects, lvalues or
    rvalues, not braces.  emplace_back writes parentheses, which do for an aggregate what braces do only since C++20:
    here they always do, which is generous. *)
Definition needs (o : lib_op) : list need :=
  match o with
  | BoxFromLvalue => [Makes (Self false)]
  | BoxFromRvalue => [Makes (Self true)]
  | BoxInPlaceSelf r => [Makes (BraceSelf r)]
  | BoxInPlace l => [Makes (Braces (map Self l))]
  | VecList n => Makes (Self false) :: repeat Destroys n
  | VecCopy | VecCopyAssign => [Makes (Self false)]
  | VecPushLvalue => [Makes (Self false)]
  | VecPushRvalue => [Makes (Self true)]
  | VecEmplaceSelf r => [Makes (Self r)]
  | VecEmplace [] => [Makes Nothing]
  | VecEmplace l => [Makes (Braces (map Self l))]
  | _ => []
  end.
Definition op_compiles (D : dialect) (t : ctype) (o : lib_op) : bool :=
  forallb (fun n => match n with Makes i => can_make D false i t | Destroys => can_destroy t end) (needs o).

(** How many scalars an object has inline: what an assignment member by member writes *)
Fixpoint scalars (t : ctype) : nat :=
  match t with
  | Scalar => 1
  | Reference => 0
  | Class _ bs ms _ => list_sum (map scalars bs) + list_sum (map scalars ms)
  end.

(** * Copies *)
(** Values: plain data (also an object of a type of the user); a rust::String with its buffer;
    a rust::Vec with its buffer; what owns its target alone (Box, unique_ptr); what refers to
    something that others may refer to; a struct or array.  Addresses and data are numbers. *)
Inductive val : Type :=
| Data (n : nat)
| Text (buf : nat) (s : list nat)
| Seq (buf : nat) (vs : list val)
| Owner (target : nat)
| Refers (target : nat)
| Parts (vs : list val).
(** The copy constructors; [next]: the first address that is free.  String: cxx.cc 97-99; Vec: cxx.h 873-876 (one buffer for all, then element by element); Box and unique_ptr have none; the others copy bytes or count. *)
Fixpoint copy_val (next : nat) (v : val) : option (val * nat) :=
  match v with
  | Data n => Some (Data n, next)
  | Text _ s => Some (Text next s, S next)
  | Seq _ vs =>
      match (fix go (next : nat) (vs : list val) : option (list val * nat) :=
               match vs with
               | [] => Some ([], next)
               | v :: vs => match copy_val next v with
                            | Some (v', next) => match go next vs with Some (vs', next) => Some (v' :: vs', next) | None => None end
                            | None => None
                            end
               end) (S next) vs with
      | Some (vs', n) => Some (Seq next vs', n)
      | None => None
      end
  | Owner _ => None
  | Refers a => Some (Refers a, next)
  | Parts vs =>
      match (fix go (next : nat) (vs : list val) : option (list val * nat) :=
               match vs with
               | [] => Some ([], next)
               | v :: vs => match copy_val next v with
                            | Some (v', next) => match go next vs with Some (vs', next) => Some (v' :: vs', next) | None => None end
                            | None => None
                            end
               end) next vs with
      | Some (vs', n) => Some (Parts vs', n)
      | None => None
      end
  end.

(** * Default initialisation *)
(** The state of an object after [T x;]: has its value (from a constructor or an initialiser);
    anything; by parts. *)
Inductive made : Type := Ready | Anything | ByParts (l : list made).
Fixpoint after_default (t : ctype) : made :=
  match t with
  | Scalar | Reference => Anything
  | Class d bs ms is_ =>
      match d_default d with
      | User => Ready
      | _ => ByParts (map after_default bs ++
                (fix go (ms : list ctype) (is_ : list bool) : list made :=
                   match ms with [] => [] | m :: ms => (if hd false is_ then Ready else after_default m) :: go ms (tl is_) end) ms is_)
      end
  end.
