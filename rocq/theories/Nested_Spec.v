(** Specification for C30: reading the forward declarations. *)
From Verif Require Import Base Syntax_Model Nested_Model.

(** [located st l r o]: reading [l] inside the namespace [st] (innermost first), all
    namespaces are closed in the end; [r] are the declarations with the namespace each
    one is in and [o] the namespaces in the order they are opened, both outermost first. *)
Inductive located : list string -> list ftok -> list (list string * api) -> list (list string) -> Prop :=
| lo_done : located [] [] [] []
| lo_decl st a l r o : located st l r o -> located st (FDecl a :: l) ((rev st, a) :: r) o
| lo_open st x l r o : located (x :: st) l r o -> located st (FOpen x :: l) r (rev (x :: st) :: o)
| lo_close st x l r o : located st l r o -> located (x :: st) (FClose :: l) r o.

(** The declarations in the namespace [ns], in order. *)
Definition declared_in (r : list (list string * api)) (ns : list string) : list api :=
  flat_map (fun x => if list_eq_dec string_dec (fst x) ns then [snd x] else []) r.
Definition belonging_to (l : list api) (ns : list string) : list api :=
  filter (fun a => if list_eq_dec string_dec (api_namespace a) ns then true else false) l.

(** The items that define or name a type of the namespace [ns], in the order of the bridge:
    every struct, every opaque type, and every enum whose definition is not left to C++. *)
Definition type_items (in_cxx : string -> bool) (apis : list api) (ns : list string) : list api :=
  filter (fun a => match a with
                   | AStruct s => if list_eq_dec string_dec (p_ns (st_name s)) ns then true else false
                   | AEnum e => negb (in_cxx (p_rust (en_name e))) && if list_eq_dec string_dec (p_ns (en_name e)) ns then true else false
                   | ACxxType t | ARustType t => if list_eq_dec string_dec (p_ns (et_name t)) ns then true else false
                   | _ => false
                   end) apis.
