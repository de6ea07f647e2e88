(** What cxx_build does to the file system: gen/build/src/lib.rs and target.rs, as programs over the system
    calls of Fs_Model, on Unix. *)
From Verif Require Import Base Paths_Model Fs_Model.

(** * The target directory *)
(** Path::exists *)
Definition path_exists (p : path) : prog bool := Call (Stat p) (fun r => Ret match r with RKind _ => true | _ => false end).
(** target.rs 28-34: the conditions of the loop, evaluated from left to right as far as needed *)
Definition is_target_dir (dir : path) : prog bool :=
  bind (path_exists (join dir [Normal ".rustc_info.json"])) (fun a => if a then Ret true else
  bind (path_exists (join dir [Normal "CACHEDIR.TAG"])) (fun b => if b then Ret true else
  match file_name dir, parent dir with
  | Some n, Some d => if String.eqb n "target" then path_exists (join d [Normal "Cargo.toml"]) else Ret false
  | _, _ => Ret false
  end)).
(** target.rs 26-39: the directory and its parents, as far as there are any.  [n]: there are no more parents
    than components. *)
Fixpoint climb (n : nat) (dir : path) : prog (option path) :=
  bind (is_target_dir dir) (fun t =>
    if t then Ret (Some dir)
    else match n, parent dir with
         | S n, Some d => climb n d
         | _, _ => Ret None
         end).
(** target.rs 10-49 find_target_dir; [env] is CARGO_TARGET_DIR, [None] is TargetDir::Unknown.  The second turn
    through the loop starts from the canonical path. *)
Definition find_target_dir (env : option path) (out : path) : prog (option path) :=
  match env with
  | Some t => Ret (if is_absolute t then Some t else None)
  | None =>
      bind (climb (List.length out) out) (fun r =>
        match r with
        | Some d => Ret (Some d)
        | None => Call (Realpath out) (fun r =>
            match r with RName q => let c := RootDir :: map Normal q in climb (List.length c) c | _ => Ret None end)
        end)
  end.

(** * The project *)
(** lib.rs 140-160 struct Project, with what is read from the environment later: whether CARGO_TARGET_DIR is set
    (out.rs 200) and DEP_CXXBRIDGE1_HEADER (lib.rs 384).  The links attribute is in Deps_Model. *)
Record project := Project
  { pr_prefix : path; pr_manifest : path; pr_out : path; pr_shared : path;
    pr_target_set : bool; pr_header : option path }.
(** lib.rs 163-186 Project::init.  [scratch] is scratch::path("cxxbridge"); the include prefix is relative
    (Paths_Model.include_prefix). *)
Definition init (prefix manifest out : path) (target_env header : option path) (scratch : path) : prog project :=
  bind (find_target_dir target_env out) (fun t =>
    Ret (Project prefix manifest out match t with Some d => join d [Normal "cxxbridge"] | None => scratch end
           match target_env with Some _ => true | None => false end header)).

(** * Links to directories *)
(** out.rs 108-118 symlink_dir: unlike for files, a link that is there already is an error *)
Definition symlink_dir (target link : path) (parent_error : outcome) : prog outcome :=
  Call (Symlink target link) (fun r => Ret match r with ROk => None | _ => prefer parent_error (Some (err_of r)) end).
(** out.rs 57-68 relative_symlink_dir *)
Definition relative_symlink_dir (env : bool) (original link : path) : prog outcome :=
  bind (prepare_parent link) (fun err => bind (relativize env original link) (fun t => symlink_dir t link err)).

(** * The build *)
(** `?` *)
Definition andthen {A} (m : prog outcome) (k : prog (errno + A)) : prog (errno + A) :=
  bind m (fun o => match o with Some e => Ret (inl e) | None => k end).
(** `let _ =` *)
Definition ignoring {A} (m : prog outcome) (k : prog A) : prog A := bind m (fun _ => k).

(** lib.rs 361-378 make_crate_dir; where links are not to be had (not on Unix), headers are copied instead (Copy_Model) *)
Definition make_crate_dir (prj : project) : prog path :=
  match pr_prefix prj with
  | [] => Ret (pr_manifest prj)
  | _ =>
      let crate_dir := join (join (pr_out prj) [Normal "cxxbridge"]) [Normal "crate"] in
      ignoring (relative_symlink_dir (pr_target_set prj) (pr_manifest prj) (join crate_dir (pr_prefix prj))) (Ret crate_dir)
  end.

(** lib.rs 380-392 make_include_dir; [embedded] is the text of cxx.h in the library *)
Definition make_include_dir (prj : project) (embedded : list ascii) : prog (errno + path) :=
  let include_dir := join (join (pr_out prj) [Normal "cxxbridge"]) [Normal "include"] in
  let cxx_h := join (join include_dir [Normal "rust"]) [Normal "cxx.h"] in
  let shared_cxx_h := join (join (pr_shared prj) [Normal "rust"]) [Normal "cxx.h"] in
  match pr_header prj with
  | Some original =>
      andthen (absolute_symlink_file original cxx_h) (
      andthen (absolute_symlink_file original shared_cxx_h) (
      Ret (inr include_dir)))
  | None =>
      andthen (out_write shared_cxx_h embedded) (
      andthen (relative_symlink_file (pr_target_set prj) shared_cxx_h cxx_h) (
      Ret (inr include_dir)))
  end.

(** One bridge: the path given by the build script and what is generated from the file.  Reading the file and
    generating (gen/src/mod.rs) come first for each bridge; here the result is given, so a build that fails
    because of a bridge is not covered. *)
Record bridge := Bridge { br_source : path; br_header : list ascii; br_implementation : list ascii }.

(** lib.rs 394-425 generate_bridge; the result is the file given to the compiler.  A source path without a file
    name (a panic, see C35) is an error here. *)
Definition generate_bridge (prj : project) (b : bridge) : prog (errno + path) :=
  let rel_path := local_relative_path (br_source b) in
  match generated_paths (pr_out prj) (pr_prefix prj) (br_source b),
        with_appended_extension rel_path ".h", with_appended_extension rel_path ".cc" with
  | Some (header_path, link_path, implementation_path), Some rel_path_h, Some rel_path_cc =>
      let shared_h := join (join (pr_shared prj) (pr_prefix prj)) rel_path_h in
      let shared_cc := join (join (pr_shared prj) (pr_prefix prj)) rel_path_cc in
      andthen (out_write header_path (br_header b)) (
      ignoring (relative_symlink_file (pr_target_set prj) header_path link_path) (
      andthen (out_write implementation_path (br_implementation b)) (
      ignoring (relative_symlink_file (pr_target_set prj) header_path shared_h) (
      ignoring (relative_symlink_file (pr_target_set prj) implementation_path shared_cc) (
      Ret (inr implementation_path))))))
  | _, _, _ => Ret (inl EIO)
  end.
(** lib.rs 219-221 *)
Fixpoint generate_bridges (prj : project) (l : list bridge) : prog (errno + list path) :=
  match l with
  | [] => Ret (inr [])
  | b :: l => bind (generate_bridge prj b) (fun r => match r with
                | inl e => Ret (inl e)
                | inr f => bind (generate_bridges prj l) (fun r => Ret match r with inl e => inl e | inr fs => inr (f :: fs) end)
                end)
  end.

(** lib.rs 210-235 build and 265-294 make_this_crate: the files to compile and the include path.  [others]: the
    directories exported by this crate and those of its dependencies (Deps_Model, C66). *)
Definition build (prj : project) (embedded : list ascii) (others : list path) (l : list bridge) : prog (errno + (list path * list path)) :=
  bind (make_crate_dir prj) (fun crate_dir =>
  bind (make_include_dir prj embedded) (fun r => match r with
    | inl e => Ret (inl e)
    | inr include_dir =>
        bind (generate_bridges prj l) (fun r => Ret match r with
          | inl e => inl e
          | inr files => inr (files, include_dir :: crate_dir :: others)
          end)
    end)).
