(** Checks that C++ types used by value can be moved bytewise: write.rs 153-160, 474-536
    (static assertions in the generated C++), include/cxx.h 1110-1145 and builtin.rs 389-398 (the traits that
    they use), macro/src/expand.rs 1263-1289 (the checks in the macro's expansion), src/extern_type.rs 176-186. *)
From Verif Require Import Base Syntax_Model Types_Model.

(** What C++ knows of a type: for a class or a scalar, whether its move constructor and its
    destructor are trivial, its member type IsRelocatable (Some true: std::true_type, Some
    false: another type), a specialisation of rust::IsRelocatable by the user; or an array. *)
Inductive cdesc : Type :=
| DClass (move dtor : bool) (member special : option bool)
| DArray (d : cdesc).
(** std::is_trivially_move_constructible, std::is_trivially_destructible.  An array cannot be
    initialised from another, so it is not move constructible. *)
Definition is_trivially_move_constructible (d : cdesc) : bool := match d with DClass m _ _ _ => m | DArray _ => false end.
Fixpoint is_trivially_destructible (d : cdesc) : bool := match d with DClass _ b _ _ => b | DArray d => is_trivially_destructible d end.
(** cxx.h 1112-1135: detect_IsRelocatable, get_IsRelocatable (substitution fails for a type
    without the member, also for an array) *)
Definition detect_IsRelocatable (d : cdesc) : bool := match d with DClass _ _ (Some _) _ => true | _ => false end.
Definition get_IsRelocatable (d : cdesc) : bool := match d with DClass _ _ (Some b) _ => b | _ => false end.
(** cxx.h 1137-1145; a specialisation replaces the template.  Simplification: nobody
    specialises it for an array type. *)
Definition IsRelocatable (d : cdesc) : bool :=
  match d with
  | DClass _ _ _ (Some b) => b
  | _ => if detect_IsRelocatable d then get_IsRelocatable d else is_trivially_move_constructible d && is_trivially_destructible d
  end.
(** builtin.rs 389-398 *)
Fixpoint IsRelocatableOrArray (d : cdesc) : bool := match d with DArray d => IsRelocatableOrArray d | _ => IsRelocatable d end.

Inductive assertion : Type := AssertRelocatable (p : pair_name) | AssertRelocatableOrArray (p : pair_name).
(** write.rs 474-536: check_trivial_extern_type *)
Definition check_trivial_extern_type (a : type_alias) (reasons : list reason) : assertion :=
  if forallb (fun r => match r with RField _ | RVecElement => true | _ => false end) reasons then AssertRelocatableOrArray (ta_name a) else AssertRelocatable (ta_name a).
(** write.rs 153-160 *)
Definition static_asserts (T : types) (apis : list api) : list assertion :=
  flat_map (fun a => match a with
    | ATypeAlias a => match assoc (p_rust (ta_name a)) (t_required_trivial T) with Some reasons => [check_trivial_extern_type a reasons] | None => [] end
    | _ => []
    end) apis.
(** expand.rs 1263-1289: the names for which the expansion asks that Kind be Trivial *)
Definition verify_kinds (T : types) (apis : list api) : list string :=
  flat_map (fun a => match a with
    | ATypeAlias a => if has (p_rust (ta_name a)) (t_required_trivial T) then [p_rust (ta_name a)] else []
    | _ => []
    end) apis.
