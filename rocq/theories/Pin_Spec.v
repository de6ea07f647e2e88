(** Specification for C102. *)
From Verif Require Import Base Syntax_Model Types_Spec Pin_Model.

(** rustc accepts the assertions. *)
Definition rust_accepts (w : world) (l : list rust_assert) : Prop :=
  Forall (fun a => match a with NotUnpin x => w_unpin w x = false | IsUnpin x => w_unpin w x = true | KindIs x b => w_trivial w x = b end) l.
(** The built-in names mean what they say: CxxString is neither Unpin nor Trivial
    (cxx_string.rs 45-48, extern_type.rs 201-224), the others are plain Rust types. *)
Definition builtin_names (w : world) (apis : list api) : Prop :=
  forall x, is_primitive x -> ~ is_alias apis x ->
    if String.eqb x "CxxString" then w_unpin w x = false /\ w_trivial w x = false else w_unpin w x = true.

(** An object that must stay where it is: of a type that is not declared to be Trivial, and which
    is not Unpin; a std::vector; an array of such. *)
Inductive immovable (w : world) : ty -> Prop :=
| imm_name n : w_unpin w (n_rust n) = false -> w_trivial w (n_rust n) = false -> immovable w (TIdent n)
| imm_vector t : immovable w (TCxxVector t)
| imm_array t n : immovable w t -> immovable w (TArray t n).

(** A function pointer in the bridge takes an argument of type [t]. *)
Definition callback_takes (apis : list api) (t : ty) : Prop :=
  exists f y u th args ret x, In (ACxxFunction f) apis /\ In (y, TFn u th args ret) (fn_args f) /\ In (x, t) args.
