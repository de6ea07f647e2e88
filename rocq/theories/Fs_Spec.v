(** What a build script may rely on when it writes a file or a link. *)
From Verif Require Import Base Paths_Model Fs_Model.

(** every entry is in a directory, every file exists *)
Record wf (s : fs) : Prop := Wf
  { wf_root : tree s [] = Some Dir;
    wf_parent : forall q x n, tree s (q ++ [x]) = Some n -> tree s q = Some Dir;
    wf_fresh : forall q i, tree s q = Some (File i) -> (i < fresh s)%nat }.

(** an absolute path without `..` *)
Definition absolute (names : name) : path := RootDir :: map Normal names.
(** what has to exist above [q ++ [x]] are directories (not files or links), or nothing yet *)
Definition real_parents (s : fs) (p : name) : Prop :=
  forall q x r, p = q ++ x :: r -> tree s q = None \/ tree s q = Some Dir.

(** the file called [p] consists of [content] *)
Definition contains (s : fs) (p : name) (content : list ascii) : Prop := exists i, tree s p = Some (File i) /\ data s i = content.
(** reading [p], through links if need be, gives [content] *)
Definition reading_gives (s : fs) (p : path) (content : list ascii) : Prop := forall n, sys n s (Read p) = (s, RBytes content).
(** all that may differ between [s] and [s']: what is called [p] or lies below, directories above [p] that are
    new, and files that are new *)
Definition only_touches (p : name) (s s' : fs) : Prop :=
  (forall q, is_prefix p q = false -> tree s' q = tree s q \/ is_prefix q p = true /\ tree s q = None /\ tree s' q = Some Dir) /\
  (forall i, (i < fresh s)%nat -> data s' i = data s i) /\ (fresh s <= fresh s')%nat.
