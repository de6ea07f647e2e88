(** Specification for C97. *)
From Verif Require Import Base Syntax_Model Types_Model Types_Spec Cfg_Model Cfg_Spec Mangle_Spec.

(** Only functions are conditional: no type, impl, field or variant has a cfg
    attribute. *)
Definition functions_only (apis : list api) : Prop :=
  forall a, In a apis ->
    match a with
    | ACxxFunction _ | ARustFunction _ => True
    | _ => api_cfg a = CUnconditional /\ forall e, In e (inner_cfgs a) -> e = CUnconditional
    end.

(** The generic [g] over [x] occurs in the bridge, but only in what is switched
    off. *)
Definition leftover (c : config) (apis : list api) (g x : string) : Prop :=
  instantiates apis g x /\ ~ instantiates (enabled c apis) g x.

(** [s] is the name of an operation of an instantiation that is left over. *)
Definition dangling (c : config) (apis : list api) (s : string) : Prop :=
  exists g x p i op, leftover c apis g x /\ stands_for apis x p /\ instance_type i = cxx_name p /\
    s = link_name (EGeneric i op).
