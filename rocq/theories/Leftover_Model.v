(** The symbols in what rustc compiles of an expansion, when some functions of
    the bridge are switched off by cfg attributes. *)
From Verif Require Import Base Syntax_Model Types_Model Cfg_Model Cfg_Spec Mangle_Model.

(** macro/src/expand.rs 503 and 739-785 (the attributes of an extern "C++" function
    stand on the wrapper that declares the import), 806 (its trampolines), 961
    (extern "Rust" functions): these functions are emitted with their cfg attributes.
    381-402, 897-924 and 157-307: types and struct operators are modelled as in
    C12, that is without conditions.  96-115 with 1445-1851: an instantiation is emitted
    without attributes, whichever items asked for it. *)
Definition live_imports (c : config) (T : types) (apis : list api) : list (option string) :=
  flat_map (fun a => when (holds c (api_cfg a)) (rust_api_imports T a)) apis ++
  flat_map (fun e => rust_impl_imports T (fst e)) (t_impls T).

Definition live_exports (c : config) (T : types) (apis : list api) : list (option string) :=
  flat_map (fun a => match a with
                     | ACxxFunction _ | ARustFunction _ => when (holds c (api_cfg a)) (rust_api_exports T a)
                     | _ => rust_api_exports T a
                     end) apis ++
  flat_map (fun e => rust_impl_exports T (fst e)) (t_impls T).
