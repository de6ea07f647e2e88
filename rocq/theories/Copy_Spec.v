(** What should be copied: the header files of the package. *)
From Verif Require Import Base Copy_Model.

(** Every name that is there is in a directory. *)
Definition sane (s : fs) : Prop := forall d x n, get s (d ++ [x]) = Some n -> d = [] \/ get s d = Some Dir.
(** Every entry of a directory is listed, once. *)
Definition lists (order : name -> list string -> list string) : Prop :=
  forall d l, NoDup (order d l) /\ forall x, In x (order d l) <-> In x l.

(** A file name as C++ headers have it *)
Definition header_name (x : string) : Prop :=
  exists stem e, In e ["h"; "hh"; "hpp"] /\ stem <> "" /\ x = (stem ++ String "." e)%string.
Definition dotted (x : string) : Prop := exists r, x = String "." r.
(** Something called [x] can be reached in directory [d] *)
Definition holds (s : fs) (d : name) (x : string) : Prop :=
  exists n, get s (d ++ [x]) = Some n /\ n <> Link false.
(** Another package, or a cache *)
Definition foreign (s : fs) (d : name) : Prop := holds s d "Cargo.toml" \/ holds s d "CACHEDIR.TAG".

(** [rel] is a header of the package in directory [src], with content [b]: at most [depth] directories deep, not
    in a hidden directory, nor in that of another package, nor in [not_in]. *)
Definition header_of (s : fs) (depth : nat) (src not_in rel : name) (b : list ascii) : Prop :=
  exists ds x, rel = ds ++ [x] /\ (List.length ds <= depth)%nat /\ header_name x /\
    get s (src ++ rel) = Some (File b) /\
    Forall (fun c => ~ dotted c) rel /\
    (forall d more, ds = d ++ more -> d <> [] ->
       get s (src ++ d) = Some Dir /\ ~ foreign s (src ++ d) /\ src ++ d <> not_in).

(** Where the copy goes can be made: nothing but directories on the way. *)
Definition free_way (s : fs) (out way : name) : Prop :=
  get s out = Some Dir /\
  forall a b, way = a ++ b -> b <> [] -> get s (out ++ a) = None \/ get s (out ++ a) = Some Dir.
