(** The bodies of the classes and enums of the generated C++: gen/src/write.rs 273-358
    (write_struct), 381-425 (write_opaque_type) and 427-449 (write_enum).  Left out:
    comments, default member initialisers, blank lines, the friend declaration. *)
From Verif Require Import Base Syntax_Model Types_Model Mangle_Model Abi_Model Derive_Model CxxExpr_Model Unit_Model.

Inductive cmember : Type :=
| MField (x : string) (t : cty)                    (* t x; *)
| MMethod (x : string) (sig : msig)                (* ret x(params) const noexcept; *)
| MOperator (o : op) (x : string)                  (* bool operator==(x const &) const noexcept; *)
| MAlias (x : string)                              (* using x = ::std::true_type; *)
| MDestructor (x : string)                         (* ~x() = delete; *)
| MStruct (x : string) (statics : list string).    (* struct x { static ::std::size_t size() noexcept; ... }; *)

Section Body.
  Context (T : types) (apis : list api).

  (** write.rs 284-299 *)
  Definition field_members (s : struct_) : option (list cmember) := option_map (map (fun f => MField (fst f) (snd f))) (cxx_fields T s).
  (** write.rs 303-316, 397-411 *)
  Definition method_members (x : string) : option (list cmember) :=
    option_map (map (fun m => MMethod (fst m) (snd m))) (otraverse (method_decl T) (methods_for apis x)).
  (** write.rs 273-358: write_struct *)
  Definition struct_body (s : struct_) : option (list cmember) :=
    obind (field_members s) (fun fields =>
    obind (method_members (p_rust (st_name s))) (fun methods =>
      Some (fields ++ methods ++ map (fun o => MOperator o (p_cxx (st_name s))) (class_operators s) ++ [MAlias "IsRelocatable"]))).
  (** write.rs 381-425: write_opaque_type *)
  Definition opaque_body (t : extern_type) : option (list cmember) :=
    option_map (fun methods => methods ++ [MDestructor (p_cxx (et_name t)); MStruct "layout" ["size"; "align"]%string])
      (method_members (p_rust (et_name t))).
  (** write.rs 443-446: the enumerators of write_enum *)
  Definition enumerators (e : enum_) : list string := map (fun v => p_cxx (vr_name v)) (en_variants e).
End Body.
