(** Specification for C91. *)
From Verif Require Import Base Syntax_Model Types_Spec Check_Spec Reloc_Model.

(** Moving the bytes of an object is as good as moving the object: by the rules of C++, or
    because the user has said so (the specialisation counts before the member). *)
Inductive bytewise : cdesc -> Prop :=
| bw_trivial : bytewise (DClass true true None None)
| bw_member m d : bytewise (DClass m d (Some true) None)
| bw_special m d b : bytewise (DClass m d b (Some true)).
Inductive bytewise_elements : cdesc -> Prop :=
| be_class d : bytewise d -> bytewise_elements d
| be_array d : bytewise_elements d -> bytewise_elements (DArray d).

(** The C++ compiler accepts the assertions, given what each name means in C++. *)
Definition asserts_hold (w : pair_name -> cdesc) (l : list assertion) : Prop :=
  Forall (fun a => match a with AssertRelocatable p => IsRelocatable (w p) = true | AssertRelocatableOrArray p => IsRelocatableOrArray (w p) = true end) l.

(** Only C++ knows its definition. *)
Definition foreign (apis : list api) (a : type_alias) : Prop :=
  In (ATypeAlias a) apis /\ ~ is_struct apis (p_rust (ta_name a)) /\ ~ is_enum apis (p_rust (ta_name a)).
(** Uses for which an array will do, since the other side of the bridge never sees it as a
    parameter or result *)
Definition inside (p : position) : Prop := match p with PosField _ | PosVec => True | _ => False end.
(** The type may be used where the bridge uses it. *)
Definition usable (apis : list api) (x : string) (d : cdesc) : Prop :=
  (forall p, used_at apis x p -> bytewise_elements d) /\ (forall p, used_at apis x p -> ~ inside p -> bytewise d).

(** Where a program can obtain a C++ object of the bridge by value, or a reference through which
    it can move it, in Rust: the positions of [used_at], elements of arrays, arguments and
    results of function pointers, and UniquePtr::new, SharedPtr::new, CxxVector::push and pop
    (for a type whose Kind is Trivial). *)
Inductive rust_holds (apis : list api) (n : named) : Prop :=
| rh_position p : used_at apis (n_rust n) p -> rust_holds apis n
| rh_value t : by_value apis t -> inline_in (TIdent n) t -> rust_holds apis n
| rh_callback_arg un th args ret x t : mentioned apis (TFn un th args ret) -> In (x, t) args -> inline_in (TIdent n) t -> rust_holds apis n
| rh_callback_ret un th args t : mentioned apis (TFn un th args (Some t)) -> inline_in (TIdent n) t -> rust_holds apis n
| rh_new u : mentioned apis u -> u = TUniquePtr (TIdent n) \/ u = TSharedPtr (TIdent n) \/ u = TCxxVector (TIdent n) -> rust_holds apis n.
