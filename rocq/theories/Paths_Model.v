(** Where cxx-build puts generated files and how it links to them: gen/build/src/paths.rs,
    gen/build/src/out.rs and gen/build/src/lib.rs, on Unix. *)
From Verif Require Import Base StrLib.

(** * std::path *)
(** Component (std); Prefix does not occur on Unix. *)
Inductive component := RootDir | CurDir | ParentDir | Normal (name : string).

Definition slash : ascii := "/"%char.

(** Path::components: a leading [/] is RootDir, empty segments and [.] are skipped except
    for a [.] at the very start, and [..] is kept. *)
Definition part (p : string) : list component :=
  if String.eqb p "" then [] else if String.eqb p "." then []
  else if String.eqb p ".." then [ParentDir] else [Normal p].
Definition components (s : string) : list component :=
  match split_on slash s with
  | [] => []
  | first :: rest =>
      match rest with
      | [] => if String.eqb first "." then [CurDir] else part first
      | _ =>
          (if String.eqb first "" then [RootDir]
           else if String.eqb first "." then [CurDir] else part first)
          ++ flat_map part rest
      end
  end.

(** Paths are represented by their components from here on: Path's equality, parent,
    file_name, pop and iteration are all defined on components.  What is lost is how the
    separators are repeated in the text. *)
Definition path := list component.

Definition component_eqb (a b : component) : bool :=
  match a, b with
  | RootDir, RootDir | CurDir, CurDir | ParentDir, ParentDir => true
  | Normal x, Normal y => String.eqb x y
  | _, _ => false
  end.

(** Path::is_absolute (has_root on Unix) *)
Definition is_absolute (p : path) : bool := match p with RootDir :: _ => true | _ => false end.

(** Path::parent: everything but the last component; none for the root and the empty path *)
Definition parent (p : path) : option path :=
  match rev p with
  | [] | RootDir :: _ => None
  | _ :: r => Some (rev r)
  end.

(** PathBuf::push and Path::join: an absolute argument replaces the path; a leading [.]
    of the argument becomes an inner one, which is skipped, unless the path is empty. *)
Definition join (p q : path) : path :=
  match q with
  | RootDir :: _ => q
  | CurDir :: q' => match p with [] => q | _ => p ++ q' end
  | _ => p ++ q
  end.

(** PathBuf::pop: no-op if there is no parent *)
Definition pop (p : path) : path := match parent p with Some q => q | None => p end.

(** Path::file_name *)
Definition file_name (p : path) : option string :=
  match rev p with Normal n :: _ => Some n | _ => None end.

(** * paths.rs *)
(** paths.rs 18-28: local_relative_path *)
Definition local_relative_path (p : path) : path :=
  fold_left (fun rel c =>
    match c with
    | RootDir | CurDir => rel
    | ParentDir => pop rel
    | Normal _ => join rel [c]
    end) p [].

(** paths.rs 35-39: with_appended_extension; [None]: the unwrap panics.
    Path::with_file_name replaces the last component. *)
Definition with_appended_extension (p : path) (suffix : string) : option path :=
  match file_name p with
  | Some n => Some (removelast p ++ [Normal (n ++ suffix)%string])
  | None => None
  end.

(** lib.rs 141-147: Project::init, the include prefix; [None]: the assertion fails *)
Definition include_prefix (cfg : string) : option path :=
  let p := components cfg in if is_absolute p then None else Some p.

(** lib.rs 361-393: generate_bridge, the paths written: the header, the link to it, and the
    implementation *)
Definition generated_paths (out_dir prefix source : path) : option (path * path * path) :=
  let rel := local_relative_path source in
  let cxxbridge := join out_dir [Normal "cxxbridge"] in
  let include_dir := join (join cxxbridge [Normal "include"]) prefix in
  let sources_dir := join (join cxxbridge [Normal "sources"]) prefix in
  match with_appended_extension rel ".h", with_appended_extension rel ".cc" with
  | Some h, Some cc => Some (join include_dir h, join include_dir rel, join sources_dir cc)
  | _, _ => None
  end.

(** * out.rs *)
(** out.rs 236-263: split_after_common_prefix, for [first] = [entire].  The common prefix is
    found by taking the parent of the first path once per remaining component. *)
Fixpoint take_parents {A} (rest : list A) (p : path) : path :=
  match rest with
  | [] => p
  | _ :: rest => match parent p with Some q => take_parents rest q | None => [] end
  end.
Fixpoint split_loop (entire first second : path) : path * path * path :=
  match first, second with
  | a :: first', b :: second' =>
      if component_eqb a b then split_loop entire first' second'
      else (take_parents first entire, first, second)
  | _, _ => (take_parents first entire, first, second)
  end.
Definition split_after_common_prefix (first second : path) : path * path * path :=
  split_loop first first second.

Definition contains_parent_dir (p : path) : bool := existsb (component_eqb ParentDir) p.

(** out.rs 180-228: abstractly_relativize_symlink.  [env]: CARGO_TARGET_DIR is set.  The
    outer option is the result, [Panic] the failed expect. *)
Inductive rel_result := Relative (p : path) | NotRelative | Panic.
Definition abstractly_relativize_symlink (env : bool) (original link : path) : rel_result :=
  if env || negb (is_absolute original) || negb (is_absolute link)
     || contains_parent_dir original || contains_parent_dir link
  then NotRelative
  else
    let '(common_prefix, rest_of_original, rest_of_link) := split_after_common_prefix original link in
    match common_prefix with
    | [] => NotRelative
    | _ =>
        match rest_of_link with
        | [] => Panic
        | _ => Relative (join (map (fun _ => ParentDir) (removelast rest_of_link)) rest_of_original)
        end
    end.

(** out.rs 154-178: best_effort_relativize_symlink.  [canon] is fs::canonicalize on the file
    system of the moment, [None] for an error. *)
Section BestEffort.
  Context {F : Type} (F_eqb : F -> F -> bool) (canon : path -> option F).
  Definition best_effort_relativize_symlink (env : bool) (original link : path) : option path :=
    match abstractly_relativize_symlink env original link with
    | Panic => None
    | NotRelative => Some original
    | Relative r =>
        match canon original with
        | Some a =>
            match parent link with
            | None => None      (* unwrap on None *)
            | Some d =>
                match canon (join d r) with
                | Some b => if F_eqb a b then Some r else Some original
                | None => Some original
                end
            end
        | None => Some original
        end
    end.
End BestEffort.
