(** Specification for C59: under a configuration, every name that is referred to in the
    part of the expansion that is compiled is also defined there. *)
From Verif Require Import Base Syntax_Model Cfg_Spec Cfg_Model Expand_Model.

Definition present (c : config) (i : ritem) (l : list (cfg_expr * rname)) (n : rname) : Prop :=
  holds c (ri_cfg i) = true /\ exists e, In (e, n) l /\ holds c e = true.

(** What the user defines next to the bridge: the Rust types and functions it declares,
    each under the cfg of its declaration. *)
Definition provided (c : config) (apis : list api) (x : string) : Prop :=
  exists a, In a apis /\ holds c (api_cfg a) = true /\
    match a with
    | ARustType t => p_rust (et_name t) = x
    | ARustFunction f => p_rust (fn_name f) = x
    | _ => False
    end.

Definition all_defined (c : config) (apis : list api) (items : list ritem) : Prop :=
  forall i n, In i items -> present c i (ri_uses i) n ->
    (exists j, In j items /\ present c j (ri_defs j) n) \/ exists x, n = NOuter x /\ provided c apis x.
