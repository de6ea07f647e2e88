(** Specification for C62: a value handed across the boundary has exactly one owner. *)
From Verif Require Import Base Syntax_Model Abi_Spec Abi_Model Shim_Model.

(** The function that is called becomes responsible for [v], and the shims destroy
    nothing but copies of plain data. *)
Definition delivered {V} (apis : list api) (t : ty) (v : V) (r : option (content V * list V)) : Prop :=
  exists destroyed, r = Some (Owns v, destroyed) /\ forall w, In w destroyed -> w = v /\ plain_data apis t.

(** How a function with the signature [s] may end. *)
Definition outcome_of {V E} (s : signature) (o : outcome V E) : Prop :=
  match o with
  | Ok None => sg_ret s = None
  | Ok (Some _) => sg_ret s <> None
  | Err _ => sg_throws s = true
  end.
