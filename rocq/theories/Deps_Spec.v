(** What a build script should see of its direct dependencies' header directories. *)
From Verif Require Import Base Paths_Model Deps_Model.
Require Import NArith.

(** The variables that cargo sets for a dependent of a crate whose [links] name, in upper
    case, is [n]: one for each line printed by the crate's build script. *)
Definition env_of (n : key) (c : crate) : list (key * string) :=
  map (fun kv => (chars "DEP_" ++ n ++ chars "_" ++ fst kv, snd kv)) (print_to_cargo c).

(** A variable that has nothing to do with this *)
Definition unrelated (kv : key * string) : Prop :=
  forall a b, fst kv <> a ++ chars "_CXXBRIDGE_" ++ b.

(** What the dependent should learn of a crate: everything but the private directories *)
Definition visible (c : crate) : crate := Crate (c_prefix c) (c_links c) (filter exported (c_dirs c)).

(** Does an entry of the configuration select a dependency? *)
Definition selected_by_link (l : string) (c : crate) : Prop := c_links c = Some l.
Definition selected_by_prefix (e : string) (c : crate) : Prop :=
  exists p rest, c_prefix c = Some p /\ components p = components e ++ rest.
