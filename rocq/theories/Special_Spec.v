(** Specification for C104, C105 and C106. *)
From Verif Require Import Base Syntax_Model Types_Spec Special_Model.
Local Open Scope nat_scope.

(** * C104 *)
(** The members of the library that make or destroy objects of the element type in C++ *)
Inductive makes_in_cxx : lib_op -> Prop :=
| mk_box_copy : makes_in_cxx BoxFromLvalue
| mk_box_move : makes_in_cxx BoxFromRvalue
| mk_in_place_self r : makes_in_cxx (BoxInPlaceSelf r)
| mk_in_place l : makes_in_cxx (BoxInPlace l)
| mk_list n : makes_in_cxx (VecList n)
| mk_vec_copy : makes_in_cxx VecCopy
| mk_vec_assign : makes_in_cxx VecCopyAssign
| mk_push_copy : makes_in_cxx VecPushLvalue
| mk_push_move : makes_in_cxx VecPushRvalue
| mk_emplace_self r : makes_in_cxx (VecEmplaceSelf r)
| mk_emplace l : makes_in_cxx (VecEmplace l).

(** Compilers in which an aggregate needs destructors for its elements, or that are not in
    C++17 mode. *)
Definition careful (D : dialect) : Prop := std D <> Cxx17 \/ checks_elements D = true.

(** * C105 *)
(** A struct whose definition in C++ cxx writes *)
Definition defined_struct (apis : list api) (x : string) (st : struct_) : Prop :=
  In (AStruct st) apis /\ p_rust (st_name st) = x /\ ~ is_cxx_type apis x.

(** [u] is held in a value of type [t] itself (not behind a pointer): a field, an element of an array. *)
Inductive held (apis : list api) : ty -> ty -> Prop :=
| hd_self t : held apis t t
| hd_field n st f u : ~ is_primitive (n_rust n) -> defined_struct apis (n_rust n) st -> In f (st_fields st) -> held apis (v_ty f) u -> held apis (TIdent n) u
| hd_array t k u : held apis t u -> held apis (TArray t k) u.
(** [u] is part of a value of type [t]: also the elements of a Vec. *)
Inductive part (apis : list api) : ty -> ty -> Prop :=
| pt_self t : part apis t t
| pt_field n st f u : ~ is_primitive (n_rust n) -> defined_struct apis (n_rust n) st -> In f (st_fields st) -> part apis (v_ty f) u -> part apis (TIdent n) u
| pt_array t k u : part apis t u -> part apis (TArray t k) u
| pt_vec t u : part apis t u -> part apis (TVec t) u.

(** What has one owner only; a user's type if its class cannot be copied. *)
Inductive alone (apis : list api) (user : string -> ctype) : ty -> Prop :=
| al_box t : alone apis user (TBox t)
| al_unique t : alone apis user (TUniquePtr t)
| al_rust n : is_rust_type apis (n_rust n) -> alone apis user (TIdent n)
| al_user n : ~ is_primitive (n_rust n) -> is_cxx_type apis (n_rust n) -> can_copy (user (n_rust n)) = false -> alone apis user (TIdent n).
(** What cannot be assigned to, by copying *)
Inductive fixed (apis : list api) (user : string -> ctype) : ty -> Prop :=
| fx_ref p m l t : fixed apis user (TRef p m l t)
| fx_slice l t : fixed apis user (TSlice true l t)
| fx_box t : fixed apis user (TBox t)
| fx_unique t : fixed apis user (TUniquePtr t)
| fx_user n : ~ is_primitive (n_rust n) -> is_cxx_type apis (n_rust n) -> can_copy_assign (user (n_rust n)) = false -> fixed apis user (TIdent n).
(** The classes of the user's headers that are used by value can be moved and destroyed. *)
Definition movable (apis : list api) (user : string -> ctype) : Prop :=
  forall x, is_cxx_type apis x -> can_move (user x) = true /\ can_destroy (user x) = true.

(** The members of rust::Box and rust::Vec that move an object of the element type into
    place, and those that copy one *)
Inductive moves_one : lib_op -> Prop :=
| mo_box : moves_one BoxFromRvalue
| mo_in_place : moves_one (BoxInPlaceSelf true)
| mo_push : moves_one VecPushRvalue
| mo_emplace : moves_one (VecEmplaceSelf true).
Inductive copies_one : lib_op -> Prop :=
| co_box : copies_one BoxFromLvalue
| co_in_place : copies_one (BoxInPlaceSelf false)
| co_list n : copies_one (VecList n)
| co_vec : copies_one VecCopy
| co_assign : copies_one VecCopyAssign
| co_push : copies_one VecPushLvalue
| co_emplace : copies_one (VecEmplaceSelf false).

(** Values of a type: a Vec and a String have a buffer of their own. *)
Inductive has_val (apis : list api) : ty -> val -> Prop :=
| hv_prim n a k : atom_from_str (n_rust n) = Some a -> a <> ARustString -> has_val apis (TIdent n) (Data k)
| hv_string n b s : atom_from_str (n_rust n) = Some ARustString -> has_val apis (TIdent n) (Text b s)
| hv_struct n st vs : ~ is_primitive (n_rust n) -> defined_struct apis (n_rust n) st -> has_vals apis (map v_ty (st_fields st)) vs -> has_val apis (TIdent n) (Parts vs)
| hv_other n k : ~ is_primitive (n_rust n) -> is_enum apis (n_rust n) \/ is_cxx_type apis (n_rust n) \/ is_rust_type apis (n_rust n) -> has_val apis (TIdent n) (Data k)
| hv_owner t a u : u = TBox t \/ u = TUniquePtr t -> has_val apis u (Owner a)
| hv_refers u t a : (exists p m l, u = TRef p m l t \/ u = TPtr m t \/ u = TStr l \/ u = TSlice m l t) \/ u = TSharedPtr t \/ u = TWeakPtr t -> has_val apis u (Refers a)
| hv_fn u th args ret a : has_val apis (TFn u th args ret) (Refers a)
| hv_vec t b vs : Forall (has_val apis t) vs -> has_val apis (TVec t) (Seq b vs)
| hv_array t k vs : List.length vs = N.to_nat k -> Forall (has_val apis t) vs -> has_val apis (TArray t k) (Parts vs)
with has_vals (apis : list api) : list ty -> list val -> Prop :=
| hvs_nil : has_vals apis [] []
| hvs_cons t v ts vs : has_val apis t v -> has_vals apis ts vs -> has_vals apis (t :: ts) (v :: vs).

(** Two values that differ at most in where their buffers are *)
Inductive same : val -> val -> Prop :=
| sm_data n : same (Data n) (Data n)
| sm_text b b' s : same (Text b s) (Text b' s)
| sm_seq b b' vs vs' : Forall2 same vs vs' -> same (Seq b vs) (Seq b' vs')
| sm_owner a : same (Owner a) (Owner a)
| sm_refers a : same (Refers a) (Refers a)
| sm_parts vs vs' : Forall2 same vs vs' -> same (Parts vs) (Parts vs').
(** What a value frees when it is destroyed *)
Fixpoint frees (v : val) : list nat :=
  match v with
  | Data _ | Refers _ => []
  | Text b _ => [b]
  | Owner a => [a]
  | Seq b vs => b :: flat_map frees vs
  | Parts vs => flat_map frees vs
  end.

(** * C106 *)
(** [u] is the type of the field that one gets to from [t] by field numbers. *)
Inductive field_at (apis : list api) : ty -> list nat -> ty -> Prop :=
| fa_here t : field_at apis t [] t
| fa_field n st k f p u : ~ is_primitive (n_rust n) -> defined_struct apis (n_rust n) st -> nth_error (st_fields st) k = Some f ->
    field_at apis (v_ty f) p u -> field_at apis (TIdent n) (k :: p) u.
Fixpoint made_at (m : made) (p : list nat) : option made :=
  match p, m with
  | [], _ => Some m
  | k :: p, ByParts l => match nth_error l k with Some m => made_at m p | None => None end
  | _, _ => None
  end.
(** Types without a default member initialiser or constructor that gives a value *)
Definition without_default (apis : list api) (t : ty) : Prop :=
  (exists n, t = TIdent n /\ (is_enum apis (n_rust n) \/ is_cxx_type apis (n_rust n) \/ is_struct apis (n_rust n))) \/ (exists u k, t = TArray u k).
(** Types whose objects need an initialiser; a user's type if its class has no default constructor. *)
Inductive needs_value (apis : list api) (user : string -> ctype) : ty -> Prop :=
| nv_box t : needs_value apis user (TBox t)
| nv_ref p m l t : needs_value apis user (TRef p m l t)
| nv_rust n : is_rust_type apis (n_rust n) -> needs_value apis user (TIdent n)
| nv_user n : ~ is_primitive (n_rust n) -> is_cxx_type apis (n_rust n) -> can_default (user (n_rust n)) = false -> needs_value apis user (TIdent n).
(** Types whose objects need an initialiser of their own also inside braces. *)
Inductive never_empty : ty -> Prop :=
| ne_box t : never_empty (TBox t)
| ne_ref p m l t : never_empty (TRef p m l t).
