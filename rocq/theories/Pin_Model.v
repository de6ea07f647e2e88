(** What safe Rust can get hold of through a bridge: by value, by mutable reference, by shared
    reference, by pinned mutable reference.  The functions and traits of the library that hand
    out such access, with their bounds; the assertions that the expansion leaves to rustc; and
    what rustc's standard library allows to do with a value or a reference. *)
From Verif Require Import Base Syntax_Model Types_Model Types_Spec Check_Model.

(** What rustc knows of each type name in scope of the bridge: whether it implements Unpin, and
    whether it implements ExternType with Kind = Trivial. *)
Record world : Type := World { w_unpin : string -> bool; w_trivial : string -> bool }.

(** * The assertions in the expansion *)
Inductive rust_assert : Type :=
| NotUnpin (x : string)        (* expand.rs 422-460: ambiguous unless x is not Unpin *)
| IsUnpin (x : string)         (* expand.rs 866-882 *)
| KindIs (x : string) (trivial : bool).   (* an impl of ExternType, or verify_extern_kind *)
(** expand.rs 52-92: expand, as far as pinning is concerned.  An opaque C++ type becomes a Rust
    type that contains cxx::private::Opaque (opaque.rs 16-21: not Unpin) with Kind = Opaque
    (expand_cxx_type 381-420) and the assertion of 422-460; a shared struct or enum has
    Kind = Trivial (195, 374); a Rust type is asserted to be Unpin (866-882); for an alias
    that the bridge uses by value, 1266-1289 asks for Kind = Trivial. *)
Definition rust_asserts (T : types) (apis : list api) : list rust_assert :=
  flat_map (fun a => match a with
    | AStruct s => [KindIs (p_rust (st_name s)) true]
    | AEnum e => [KindIs (p_rust (en_name e)) true]
    | ACxxType t =>
        if negb (has (p_rust (et_name t)) (t_structs T)) && negb (has (p_rust (et_name t)) (t_enums T))
        then [KindIs (p_rust (et_name t)) false; NotUnpin (p_rust (et_name t))] else []
    | ARustType t => [IsUnpin (p_rust (et_name t))]
    | ATypeAlias a => if has (p_rust (ta_name a)) (t_required_trivial T) then [KindIs (p_rust (ta_name a)) true] else []
    | _ => []
    end) apis.

(** * The traits *)
(** Unpin: cxx_vector.rs 25-34 (PhantomPinned), unique_ptr.rs 143, shared_ptr.rs 108, weak_ptr.rs
    15-21 (automatic: PhantomData of the target); Box, references, pointers: always; Vec, array:
    as the element. *)
Fixpoint unpin (w : world) (t : ty) : bool :=
  match t with
  | TIdent n => w_unpin w (n_rust n)
  | TCxxVector _ => false
  | TVec t | TArray t _ | TWeakPtr t => unpin w t
  | TUniquePtr _ | TSharedPtr _ | TBox _ | TRef _ _ _ _ | TPtr _ _ | TStr _ | TFn _ _ _ _ | TVoid | TSlice _ _ _ => true
  end.
(** ExternType<Kind = Trivial>: implemented for named types only *)
Definition trivial (w : world) (t : ty) : bool := match t with TIdent n => w_trivial w (n_rust n) | _ => false end.

(** * Access *)
Inductive cap : Type :=
| Own (t : ty)    (* a value of type t *)
| Mut (t : ty)    (* &mut t *)
| Ref (t : ty)    (* &t *)
| Pinned (t : ty) (* Pin<&mut t> *).

(** Standard library and language.  Simplification, on the generous side: what can be
    exchanged through &mut (mem::replace, mem::take) counts as owned. *)
Inductive std_gives (w : world) : cap -> cap -> Prop :=
| sg_borrow_mut t : std_gives w (Own t) (Mut t)
| sg_reborrow t : std_gives w (Mut t) (Ref t)
| sg_take t : std_gives w (Mut t) (Own t)
| sg_pin t : std_gives w (Own t) (Pinned t)
| sg_pin_ref t : std_gives w (Pinned t) (Ref t)
| sg_pin_get_mut t : unpin w t = true -> std_gives w (Pinned t) (Mut t)
| sg_pin_new t : unpin w t = true -> std_gives w (Mut t) (Pinned t)
  (* references as values *)
| sg_ref_of l t : std_gives w (Ref t) (Own (TRef false false l t))
| sg_mut_of l t : std_gives w (Mut t) (Own (TRef false true l t))
| sg_pinned_of l t : std_gives w (Pinned t) (Own (TRef true true l t))
| sg_deref p l t : std_gives w (Own (TRef p false l t)) (Ref t)
| sg_deref_mut l t : std_gives w (Own (TRef false true l t)) (Mut t)
| sg_deref_pinned l t : std_gives w (Own (TRef true true l t)) (Pinned t)
| sg_ref_ref p m l t : std_gives w (Ref (TRef p m l t)) (Ref t)
  (* Box, Vec, arrays, slices *)
| sg_box t : std_gives w (Own t) (Own (TBox t))
| sg_unbox t : std_gives w (Own (TBox t)) (Own t)
| sg_box_ref t : std_gives w (Ref (TBox t)) (Ref t)
| sg_vec t : std_gives w (Own t) (Own (TVec t))
| sg_vec_elem t : std_gives w (Own (TVec t)) (Own t)
| sg_vec_slice l t : std_gives w (Ref (TVec t)) (Own (TSlice false l t))
| sg_vec_slice_mut l t : std_gives w (Mut (TVec t)) (Own (TSlice true l t))
| sg_array t n : std_gives w (Own t) (Own (TArray t n))
| sg_array_elem t n : std_gives w (Own (TArray t n)) (Own t)
| sg_array_slice l t n : std_gives w (Ref (TArray t n)) (Own (TSlice false l t))
| sg_array_slice_mut l t n : std_gives w (Mut (TArray t n)) (Own (TSlice true l t))
| sg_slice_of l t : std_gives w (Ref t) (Own (TSlice false l t))
| sg_slice_mut_of l t : std_gives w (Mut t) (Own (TSlice true l t))
| sg_slice_elem m l t : std_gives w (Ref (TSlice m l t)) (Ref t)
| sg_slice_elem_own l t : std_gives w (Own (TSlice false l t)) (Ref t)
| sg_slice_elem_mut l t : std_gives w (Own (TSlice true l t)) (Mut t).

(** The safe API of the library; what is not listed hands out plain data or raw pointers. *)
Inductive lib_gives (w : world) : cap -> cap -> Prop :=
(* unique_ptr.rs 46, 65, 72 and 86, 160, 171-184 *)
| lg_unique_new t : trivial w t = true -> lib_gives w (Own t) (Own (TUniquePtr t))
| lg_unique_ref t : lib_gives w (Ref (TUniquePtr t)) (Ref t)
| lg_unique_pin t : lib_gives w (Mut (TUniquePtr t)) (Pinned t)
| lg_unique_deref_mut t : unpin w t = true -> lib_gives w (Mut (TUniquePtr t)) (Mut t)
(* shared_ptr.rs 41, 64 and 126, 91-105, 74; weak_ptr.rs 43, 60-73 *)
| lg_shared_new t : trivial w t = true -> lib_gives w (Own t) (Own (TSharedPtr t))
| lg_shared_ref t : lib_gives w (Ref (TSharedPtr t)) (Ref t)
| lg_shared_clone t : lib_gives w (Ref (TSharedPtr t)) (Own (TSharedPtr t))
| lg_downgrade t : lib_gives w (Ref (TSharedPtr t)) (Own (TWeakPtr t))
| lg_upgrade t : lib_gives w (Ref (TWeakPtr t)) (Own (TSharedPtr t))
| lg_weak_clone t : lib_gives w (Ref (TWeakPtr t)) (Own (TWeakPtr t))
(* cxx_vector.rs 67 and 166 and 217, 81 and 171 and 266, 130, 152, 193 *)
| lg_vector_get t : lib_gives w (Ref (TCxxVector t)) (Ref t)
| lg_vector_index_mut t : lib_gives w (Pinned (TCxxVector t)) (Pinned t)
| lg_vector_as_slice l t : trivial w t = true -> lib_gives w (Ref (TCxxVector t)) (Own (TSlice false l t))
| lg_vector_as_mut_slice l t : trivial w t = true -> lib_gives w (Pinned (TCxxVector t)) (Own (TSlice true l t))
| lg_vector_pop t : trivial w t = true -> lib_gives w (Pinned (TCxxVector t)) (Own t).

(** The fields of a shared struct are public in effect (they have the visibility that the user
    writes); expand.rs 166-200 *)
Inductive struct_gives (apis : list api) : cap -> cap -> Prop :=
| fg_own s f n : In (AStruct s) apis -> In f (st_fields s) -> n_rust n = p_rust (st_name s) -> struct_gives apis (Own (TIdent n)) (Own (v_ty f))
| fg_mut s f n : In (AStruct s) apis -> In f (st_fields s) -> n_rust n = p_rust (st_name s) -> struct_gives apis (Mut (TIdent n)) (Mut (v_ty f))
| fg_ref s f n : In (AStruct s) apis -> In f (st_fields s) -> n_rust n = p_rust (st_name s) -> struct_gives apis (Ref (TIdent n)) (Ref (v_ty f)).

(** What is there to start with. *)
Inductive start (apis : list api) : cap -> Prop :=
(* C++ calls a Rust function: its arguments and its receiver *)
| st_arg f x t : In (ARustFunction f) apis -> In (x, t) (fn_args f) -> start apis (Own t)
| st_receiver f r : In (ARustFunction f) apis -> fn_receiver f = Some r ->
    start apis (Own (TRef (rc_pinned r) (rc_mutable r) (rc_lt r) (TIdent (rc_ty r))))
(* Rust calls a C++ function: its result *)
| st_ret f t : In (ACxxFunction f) apis -> fn_ret f = Some t -> start apis (Own t)
(* C++ calls a function pointer that Rust has passed *)
| st_callback f y u th args ret x t : In (ACxxFunction f) apis -> In (y, TFn u th args ret) (fn_args f) -> In (x, t) args -> start apis (Own t)
(* Rust makes values of its own types, of shared types and of the primitive types other than
   CxxString (a name that the bridge does not give to something else) *)
| st_own n : is_struct apis (n_rust n) \/ is_enum apis (n_rust n) \/ is_rust_type apis (n_rust n) -> start apis (Own (TIdent n))
| st_prim n : is_primitive (n_rust n) -> n_rust n <> "CxxString"%string -> ~ is_alias apis (n_rust n) -> start apis (Own (TIdent n))
(* null pointers (unique_ptr.rs 38, shared_ptr.rs 31, weak_ptr.rs 30), CxxVector::new (43) *)
| st_unique n : start apis (Own (TUniquePtr (TIdent n)))
| st_vector n : start apis (Own (TUniquePtr (TCxxVector (TIdent n))))
| st_shared n : start apis (Own (TSharedPtr (TIdent n)))
| st_weak n : start apis (Own (TWeakPtr (TIdent n)))
(* let_cxx_string! (cxx_string.rs 82-90) *)
| st_string l : ~ is_alias apis "CxxString" -> start apis (Pinned (TIdent (Named "CxxString" l))).

(** Everything safe Rust can get. *)
Inductive reach (w : world) (apis : list api) : cap -> Prop :=
| re_start c : start apis c -> reach w apis c
| re_std c d : reach w apis c -> std_gives w c d -> reach w apis d
| re_lib c d : reach w apis c -> lib_gives w c d -> reach w apis d
| re_field c d : reach w apis c -> struct_gives apis c d -> reach w apis d.
