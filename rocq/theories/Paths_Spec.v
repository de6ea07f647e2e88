(** Specification for generated paths and symlinks, without the model's path functions. *)
From Verif Require Import Base StrLib Paths_Model.

(** A name that denotes an entry of a directory *)
Definition valid_name (n : string) : Prop :=
  n <> "" /\ n <> "." /\ n <> ".." /\ has_char "/" n = false.

(** [p] lies below the directory [dir]: it is [dir] followed by entry names. *)
Definition inside (dir p : path) : Prop :=
  exists names, names <> [] /\ Forall valid_name names /\ p = dir ++ map Normal names.

(** Following a path from a directory of a tree without symbolic links.  A location is the
    list of names leading to it from the root; [..] at the root stays there. *)
Definition step (at_ : list string) (c : component) : list string :=
  match c with
  | RootDir => []
  | CurDir => at_
  | ParentDir => removelast at_
  | Normal n => at_ ++ [n]
  end.
Definition follow (at_ : list string) (p : path) : list string := fold_left step p at_.

(** Where a symbolic link at [link] with content [target] leads: the content is followed
    from the directory containing the link. *)
Definition link_leads_to (link target : path) : list string :=
  follow (removelast (follow [] link)) target.

Definition prefix_of {A} (l l' : list A) : Prop := exists r, l' = l ++ r.
