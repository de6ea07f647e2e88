(** What a build has to leave behind, in terms of names and of what the compiler finds. *)
From Verif Require Import Base StrLib Paths_Model Fs_Model Fs_Spec Build_Model.

(** The names that a source path given by the user stands for: `..` drops a name, the root and `.` nothing *)
Definition landing (p : path) : name :=
  fold_left (fun l c => match c with Normal n => l ++ [n] | ParentDir => removelast l | RootDir | CurDir => l end) p [].
(** the last name with something appended *)
Definition dotted (r : name) (ext : string) : name := removelast r ++ [(last r "" ++ ext)%string].

(** A project in terms of names: the include prefix, the manifest directory, the output directory, the shared
    directory; an existing cxx.h, if there is one. *)
Record place := Place { at_prefix : name; at_manifest : name; at_out : name; at_shared : name; at_header : option name }.

(** the project as it is given to the build script: absolute paths without links or `..`, a prefix of plain names *)
Definition located (p : place) (prj : project) : Prop :=
  pr_prefix prj = map Normal (at_prefix p) /\ pr_manifest prj = absolute (at_manifest p) /\ pr_out prj = absolute (at_out p) /\
  pr_shared prj = absolute (at_shared p) /\ pr_header prj = option_map absolute (at_header p).

Inductive sort := AFile | ALink.
Section Layout.
  Variable p : place.
  Definition include_dir : name := at_out p ++ ["cxxbridge"; "include"].
  Definition header_at (r : name) : name := include_dir ++ at_prefix p ++ dotted r ".h".
  Definition magic_at (r : name) : name := include_dir ++ at_prefix p ++ r.
  Definition code_at (r : name) : name := at_out p ++ ["cxxbridge"; "sources"] ++ at_prefix p ++ dotted r ".cc".
  Definition crate_at : name := at_out p ++ ["cxxbridge"; "crate"] ++ at_prefix p.
  Definition cxx_h_at : name := include_dir ++ ["rust"; "cxx.h"].
  Definition shared_cxx_h_at : name := at_shared p ++ ["rust"; "cxx.h"].
  Definition shared_header_at (r : name) : name := at_shared p ++ at_prefix p ++ dotted r ".h".
  Definition shared_code_at (r : name) : name := at_shared p ++ at_prefix p ++ dotted r ".cc".
  (** the files written and the links made, in this order *)
  Definition outputs (l : list name) : list (sort * name) :=
    match at_prefix p with [] => [] | _ => [(ALink, crate_at)] end ++
    match at_header p with
    | None => [(AFile, shared_cxx_h_at); (ALink, cxx_h_at)]
    | Some _ => [(ALink, cxx_h_at); (ALink, shared_cxx_h_at)]
    end ++
    flat_map (fun r => [(AFile, header_at r); (ALink, magic_at r); (AFile, code_at r); (ALink, shared_header_at r); (ALink, shared_code_at r)]) l.
  (** the directory of the crate's own headers on the include path *)
  Definition crate_dir : name := match at_prefix p with [] => at_manifest p | _ => at_out p ++ ["cxxbridge"; "crate"] end.
End Layout.

(** neither is the other or a directory above it *)
Definition unrelated (a b : name) : Prop := is_prefix a b = false /\ is_prefix b a = false.
Definition clear (p : place) (l : list name) : Prop := ForallOrdPairs unrelated (map snd (outputs p l)).
(** Before the build: each output can be put in its place, and where a file is to be written there is no link. *)
Record ready (p : place) (l : list name) (s : fs) : Prop := Ready
  { rd_wf : wf s;
    rd_parents : forall k q, In (k, q) (outputs p l) -> real_parents s q;
    rd_files : forall q t, In (AFile, q) (outputs p l) -> tree s q <> Some (Link t) }.
(** [q] is none of the outputs, nor below one *)
Definition elsewhere (p : place) (l : list name) (q : name) : Prop := forall k o, In (k, o) (outputs p l) -> is_prefix o q = false.
(** all that may differ between [s] and [s']: the outputs and what lies below, new directories above, new files *)
Definition only_outputs (p : place) (l : list name) (s s' : fs) : Prop :=
  (forall q, elsewhere p l q -> tree s' q = tree s q \/ tree s q = None /\ tree s' q = Some Dir /\ exists k o, In (k, o) (outputs p l) /\ is_prefix q o = true) /\
  (forall i, (i < fresh s)%nat -> data s' i = data s i) /\ (fresh s <= fresh s')%nat.

(** What `#include "rest"` finds: the first directory that has a file of that name gives the content. *)
Inductive found (s : fs) (rest : path) (content : list ascii) : list path -> Prop :=
| found_here d dirs : reading_gives s (d ++ rest) content -> found s rest content (d :: dirs)
| found_later d dirs : (forall n, exists e, sys n s (Stat (d ++ rest)) = (s, RErr e)) -> found s rest content dirs -> found s rest content (d :: dirs).

(** the sources of a build, as names *)
Definition sources (l : list bridge) : list name := map (fun b => landing (br_source b)) l.

(** a Rust file in directories whose names have no dot *)
Definition usual (r : name) : Prop := exists dirs stem, r = dirs ++ [(stem ++ ".rs")%string] /\ Forall (fun d => has_char "." d = false) dirs.

(** ** The target directory *)
(** stat succeeds *)
Definition exists_at (s : fs) (p : path) : Prop := forall n, exists k, sys n s (Stat p) = (s, RKind k).
(** Cargo has left its mark in the directory, or it is called target and lies in the directory of a manifest *)
Definition marked (s : fs) (d : name) : Prop :=
  exists_at s (absolute (d ++ [".rustc_info.json"])) \/ exists_at s (absolute (d ++ ["CACHEDIR.TAG"])) \/
  exists q, d = q ++ ["target"] /\ exists_at s (absolute (q ++ ["Cargo.toml"])).
