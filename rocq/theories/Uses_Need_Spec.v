(** Specification for C31 and C63: the names that a bridge's types, functions and requested
    instantiations bring into the generated code, read off the bridge itself. *)
From Verif Require Import Base Syntax_Model Types_Model Types_Spec Mangle_Model Uses_Model.

(** The spelling of the built-in types without a parameter. *)
Definition primitive (x : string) : option use :=
  let number c n := Some (UStd (c ++ n ++ "_t")%string) in
  if String.eqb x "u8" then number "uint" "8" else if String.eqb x "u16" then number "uint" "16"
  else if String.eqb x "u32" then number "uint" "32" else if String.eqb x "u64" then number "uint" "64"
  else if String.eqb x "i8" then number "int" "8" else if String.eqb x "i16" then number "int" "16"
  else if String.eqb x "i32" then number "int" "32" else if String.eqb x "i64" then number "int" "64"
  else if String.eqb x "usize" then Some (UStd "size_t") else if String.eqb x "isize" then Some (UHelper "isize")
  else if String.eqb x "CxxString" then Some (UStd "string") else if String.eqb x "String" then Some (UHelper "String")
  else None.

(** The type that represents a shared enum. *)
Definition representation (a : atom) : option use :=
  match a with
  | AU8 => primitive "u8" | AU16 => primitive "u16" | AU32 => primitive "u32" | AU64 => primitive "u64"
  | AI8 => primitive "i8" | AI16 => primitive "i16" | AI32 => primitive "i32" | AI64 => primitive "i64"
  | AUsize => primitive "usize" | AIsize => primitive "isize" | _ => None
  end.

(** [u] stands in the C++ spelling of the type. *)
Inductive spelled : ty -> use -> Prop :=
| sp_ident n u : primitive (n_rust n) = Some u -> spelled (TIdent n) u
| sp_box t : spelled (TBox t) (UHelper "Box")
| sp_vec t : spelled (TVec t) (UHelper "Vec")
| sp_unique t : spelled (TUniquePtr t) (UStd "unique_ptr")
| sp_shared t : spelled (TSharedPtr t) (UStd "shared_ptr")
| sp_weak t : spelled (TWeakPtr t) (UStd "weak_ptr")
| sp_vector t : spelled (TCxxVector t) (UStd "vector")
| sp_str m : spelled (TStr m) (UHelper "Str")
| sp_slice l m t : spelled (TSlice l m t) (UHelper "Slice")
| sp_fn a b args ret : spelled (TFn a b args ret) (UHelper "Fn")
| sp_array t n : spelled (TArray t n) (UStd "array")
| sp_in_box t u : spelled t u -> spelled (TBox t) u
| sp_in_vec t u : spelled t u -> spelled (TVec t) u
| sp_in_unique t u : spelled t u -> spelled (TUniquePtr t) u
| sp_in_shared t u : spelled t u -> spelled (TSharedPtr t) u
| sp_in_weak t u : spelled t u -> spelled (TWeakPtr t) u
| sp_in_vector t u : spelled t u -> spelled (TCxxVector t) u
| sp_in_ref p l m t u : spelled t u -> spelled (TRef p l m t) u
| sp_in_ptr m t u : spelled t u -> spelled (TPtr m t) u
| sp_in_slice l m t u : spelled t u -> spelled (TSlice l m t) u
| sp_in_array t n u : spelled t u -> spelled (TArray t n) u
| sp_fn_ret a b args r u : spelled r u -> spelled (TFn a b args (Some r)) u
| sp_fn_arg a b args ret x u : In x args -> spelled (snd x) u -> spelled (TFn a b args ret) u.

(** [u] stands in the declaration of the function. *)
Inductive declared (f : extern_fn) (u : use) : Prop :=
| de_ret t : fn_ret f = Some t -> spelled t u -> declared f u
| de_arg x : In x (fn_args f) -> spelled (snd x) u -> declared f u.

Definition function (apis : list api) (f : extern_fn) : Prop := In (ACxxFunction f) apis \/ In (ARustFunction f) apis.
Definition method_of (apis : list api) (x : string) (f : extern_fn) : Prop :=
  function apis f /\ exists r, fn_receiver f = Some r /\ n_rust (rc_ty r) = x.

(** What a bridge needs in its header ([header]) or source file.  A shared struct, or the
    representation of a shared enum whose values come from a header, is left out when C++
    defines it. *)
Section Needs.
  Context (header : bool) (T : types) (apis : list api).
  Inductive needs : use -> Prop :=
  | ne_field s v u : In (AStruct s) apis -> ~ is_cxx_type apis (p_rust (st_name s)) -> In v (st_fields s) -> spelled (v_ty v) u -> needs u
  | ne_struct_method s f u : In (AStruct s) apis -> ~ is_cxx_type apis (p_rust (st_name s)) -> method_of apis (p_rust (st_name s)) f -> declared f u -> needs u
  | ne_rust_method t f u : In (ARustType t) apis -> method_of apis (p_rust (et_name t)) f -> declared f u -> needs u
  | ne_free f u : In (ARustFunction f) apis -> fn_receiver f = None -> declared f u -> needs u
  | ne_function f u : header = false -> function apis f -> declared f u -> needs u
  | ne_relocatable s : In (AStruct s) apis -> ~ is_cxx_type apis (p_rust (st_name s)) -> needs (UStd "true_type")
  | ne_enum e u : In (AEnum e) apis -> representation (en_repr e) = Some u -> ~ (is_cxx_type apis (p_rust (en_name e)) /\ en_from_header e = true) -> needs u
  | ne_opaque t n : In (ARustType t) apis -> In n [UHelper "Opaque"; UHelper "layout"; UStd "size_t"] -> needs n
  | ne_hash s n : header = false -> In (AStruct s) apis -> derives DHash (st_derives s) = true -> In n [UStd "hash"; UStd "size_t"] -> needs n
  | ne_throws f : header = false -> function apis f -> fn_throws f = true -> needs (UHelper "PtrLen")
  | ne_catch f n : header = false -> In (ACxxFunction f) apis -> fn_throws f = true -> In n [UHelper "trycatch"; UHelper "Fail"] -> needs n
  | ne_rethrow f n : header = false -> In (ARustFunction f) apis -> fn_throws f = true -> In n [UHelper "Error"; UMember "Error" "error"] -> needs n
  | ne_impl k x v n : header = false -> In ((k, x), v) (t_impls T) ->
      In n (match k with
            | KBox => [UHelper "Box"] | KVec => [UHelper "Vec"; UStd "size_t"] | KUnique => [UStd "unique_ptr"; UStd "new"]
            | KShared => [UStd "shared_ptr"; UStd "new"] | KWeak => [UStd "weak_ptr"; UStd "shared_ptr"; UStd "new"]
            | KVector => [UStd "vector"; UStd "size_t"; UStd "unique_ptr"]
            end) -> needs n.
End Needs.
