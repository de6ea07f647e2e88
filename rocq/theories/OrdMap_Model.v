(** Model of syntax/set.rs and syntax/map.rs.  A std HashSet/HashMap is a list of
    entries; a probe compares the hashes first and then calls [==], as hashbrown
    does.  Key equality [eqb] and hash [h] are parameters: [h] stands for the
    (randomly keyed) hash of the key. *)
From Verif Require Import Base.

Section Coll.
  Context {K V : Type} (h : K -> N) (eqb : K -> K -> bool).

  (** The probe: [stored == key] after hash comparison. *)
  Definition probe (key stored : K) : bool := N.eqb (h stored) (h key) && eqb key stored.

  (** set.rs 62-96: UnorderedSet: insert returns whether the value is new *)
  Definition hs_contains (s : list K) (k : K) : bool := existsb (probe k) s.
  Definition hs_insert (s : list K) (k : K) : list K * bool :=
    if hs_contains s k then (s, false) else (k :: s, true).

  (** set.rs 11-33: OrderedSet; [os_vec] in insertion order *)
  Record oset : Type := OSet { os_set : list K; os_vec : list K }.
  Definition os_new : oset := OSet [] [].
  Definition os_insert (s : oset) (k : K) : oset * bool :=
    let '(set, new) := hs_insert (os_set s) k in
    if new then (OSet set (os_vec s ++ [k]), true) else (OSet set (os_vec s), false).

  (** map.rs 203-258: UnorderedMap *)
  Fixpoint hm_get {W : Type} (m : list (K * W)) (k : K) : option W :=
    match m with
    | [] => None
    | (x, w) :: m => if probe k x then Some w else hm_get m k
    end.
  Definition hm_contains {W : Type} (m : list (K * W)) (k : K) : bool := is_some (hm_get m k).
  (** HashMap::insert: the stored key is kept, the value replaced *)
  Fixpoint hm_insert {W : Type} (m : list (K * W)) (k : K) (w : W) : list (K * W) :=
    match m with
    | [] => [(k, w)]
    | (x, w0) :: m => if probe k x then (x, w) :: m else (x, w0) :: hm_insert m k w
    end.

  (** map.rs 16-19 and 43-55: OrderedMap *)
  Record omap : Type := OMap { om_map : list (K * nat); om_vec : list (K * V) }.
  Definition om_new : omap := OMap [] [].
  Fixpoint replace_nth (i : nat) (v : V) (l : list (K * V)) : list (K * V) :=
    match l, i with
    | [], _ => []
    | (k, _) :: l, O => (k, v) :: l
    | p :: l, S i => p :: replace_nth i v l
    end.
  (** [vec[i]] panics when out of bounds. *)
  Definition om_insert (m : omap) (k : K) (v : V) : res (omap * option V) :=
    match hm_get (om_map m) k with
    | Some i =>
        match nth_error (om_vec m) i with
        | Some (_, old) => Ok (OMap (om_map m) (replace_nth i v (om_vec m)), Some old)
        | None => Panic "index out of bounds"
        end
    | None => Ok (OMap (hm_insert (om_map m) k (List.length (om_vec m))) (om_vec m ++ [(k, v)]), None)
    end.
  (** map.rs 57-63: contains_key *)
  Definition om_contains (m : omap) (k : K) : bool := hm_contains (om_map m) k.

  (** A history of insertions. *)
  Fixpoint om_run (ops : list (K * V)) (m : omap) : res omap :=
    match ops with
    | [] => Ok m
    | (k, v) :: ops => match om_insert m k v with
                       | Ok (m, _) => om_run ops m
                       | Err e => Err e
                       | Panic e => Panic e
                       end
    end.
End Coll.
Arguments OSet {K}. Arguments os_set {K}. Arguments os_vec {K}.
Arguments OMap {K V}. Arguments om_map {K V}. Arguments om_vec {K V}.
