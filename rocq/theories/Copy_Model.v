(** Where symbolic links cannot be made (not on Unix), cxx-build copies the headers of the crate:
    gen/build/src/lib.rs 361-378 make_crate_dir and 427-467 best_effort_copy_headers. *)
From Verif Require Import Base.

(** * The file system *)
(** Names are listed from the root.  A link is never followed: only whether it leads to something matters. *)
Definition name := list string.
Inductive node : Set := File (bytes : list ascii) | Dir | Link (leads : bool).
Definition fs := list (name * node).

Fixpoint name_eqb (a b : name) : bool :=
  match a, b with [], [] => true | x :: a, y :: b => String.eqb x y && name_eqb a b | _, _ => false end.
(** What is left of [b] after [a] *)
Fixpoint after (a b : name) : option name :=
  match a, b with
  | [], _ => Some b
  | x :: a, y :: b => if String.eqb x y then after a b else None
  | _, _ => None
  end.
Fixpoint get (s : fs) (q : name) : option node :=
  match s with [] => None | (r, n) :: s => if name_eqb q r then Some n else get s q end.
Definition del (p : name -> bool) (s : fs) : fs := filter (fun e => negb (p (fst e))) s.
Definition put (s : fs) (q : name) (n : node) : fs := (q, n) :: del (name_eqb q) s.
Definition children (s : fs) (d : name) : list string :=
  flat_map (fun e => match after d (fst e) with Some [x] => [x] | _ => [] end) s.

(** Each call to the system consults the oracle: 0, it does what it should; otherwise it fails, possibly after
    having done a part. *)
Record world := World { files : fs; clock : nat }.

Section Calls.
  Variable faults : nat -> nat.
  (** The order in which read_dir lists a directory *)
  Variable order : name -> list string -> list string.

  Definition fault (w : world) : nat := faults (clock w).
  Definition after_call (w : world) (s : fs) : world := World s (S (clock w)).

  (** std::fs::create_dir_all: the missing directories are made from the root on (the original tries the last one
      first and goes back); [limit]: how many can be made.  A file or a link in the way is an error. *)
  Fixpoint make_dirs (limit : option nat) (s : fs) (done todo : name) : bool * fs :=
    match todo with
    | [] => (true, s)
    | x :: todo =>
        let q := done ++ [x] in
        match get s q with
        | Some Dir => make_dirs limit s q todo
        | Some _ => (false, s)
        | None => match limit with
                  | Some O => (false, s)
                  | Some (S k) => make_dirs (Some k) (put s q Dir) q todo
                  | None => make_dirs None (put s q Dir) q todo
                  end
        end
    end.
  Definition create_dir_all (w : world) (q : name) : bool * world :=
    let '(ok, s) := make_dirs (match fault w with O => None | S k => Some k end) (files w) [] q in
    (ok, after_call w s).

  (** Path::exists; an error counts as no *)
  Definition path_exists (w : world) (q : name) : bool * world :=
    (match fault w with
     | O => match get (files w) q with None | Some (Link false) => false | _ => true end
     | _ => false
     end, after_call w (files w)).
  (** DirEntry::file_type, links not followed *)
  Definition file_type (w : world) (q : name) : option node * world :=
    (match fault w with O => get (files w) q | _ => None end, after_call w (files w)).
  (** std::fs::remove_file *)
  Definition remove_file (w : world) (q : name) : world :=
    after_call w (match fault w, get (files w) q with
                  | O, Some (File _ | Link _) => del (name_eqb q) (files w)
                  | _, _ => files w
                  end).
  (** Opening for writing, writing: a link is an error here (it would be followed) *)
  Definition write_file (limit : nat) (s : fs) (q : name) (bytes : list ascii) : fs :=
    let bytes := match limit with O | S O => bytes | S (S k) => firstn k bytes end in
    if Nat.eqb limit 1 then s else
    match get s q with
    | Some (File _) => put s q (File bytes)
    | Some _ => s
    | None => match get s (removelast q) with Some Dir => put s q (File bytes) | _ => s end
    end.
  (** std::fs::copy *)
  Definition copy (w : world) (src dst : name) : world :=
    after_call w (match get (files w) src with
                  | Some (File bytes) => write_file (fault w) (files w) dst bytes
                  | _ => files w
                  end).
  (** std::fs::read_dir and the entries that its iterator gives until an error; entries that are made after
      opening the directory are not listed *)
  Definition read_dir (w : world) (q : name) : list string * world :=
    (match get (files w) q with
     | Some Dir => let l := order q (children (files w) q) in
                   match fault w with O => l | S k => firstn k l end
     | _ => []
     end, after_call w (files w)).

  (** file_name.to_string_lossy().starts_with('.') *)
  Definition hidden (x : string) : bool := match x with String "." _ => true | _ => false end.
  (** Path::extension of a name that is not "..": what follows the last dot, if something is in front of it *)
  Fixpoint last_dot (x : string) : option string :=
    match x with
    | EmptyString => None
    | String c r => match last_dot r with
                    | Some e => Some e
                    | None => if Ascii.eqb c "." then Some r else None
                    end
    end.
  Definition extension (x : string) : option string :=
    match x with String _ r => last_dot r | EmptyString => None end.
  (** lib.rs 453-456 *)
  Definition is_header (x : string) : bool :=
    match extension x with
    | Some e => String.eqb e "h" || String.eqb e "hh" || String.eqb e "hpp"
    | None => false
    end.

  (** lib.rs 427-467 best_effort_copy_headers *)
  Fixpoint copy_headers (max_depth : nat) (src dst : name) (w : world) : world :=
    let '(entries, w) := read_dir w src in
    (fix loop (entries : list string) (dst_created : bool) (w : world) : world :=
       match entries with
       | [] => w
       | x :: entries =>
           if hidden x then loop entries dst_created w else
           let '(t, w) := file_type w (src ++ [x]) in
           match t with
           | Some Dir =>
               match max_depth with
               | O => loop entries dst_created w
               | S depth =>
                   let '(a, w) := path_exists w (src ++ [x; "Cargo.toml"]) in
                   if a then loop entries dst_created w else
                   let '(b, w) := path_exists w (src ++ [x; "CACHEDIR.TAG"]) in
                   if b then loop entries dst_created w else
                   loop entries dst_created (copy_headers depth (src ++ [x]) (dst ++ [x]) w)
               end
           | Some (File _) =>
               if is_header x then
                 let '(ok, w) := if dst_created then (true, w) else create_dir_all w dst in
                 if ok then loop entries true (copy (remove_file w (dst ++ [x])) (src ++ [x]) (dst ++ [x]))
                 else w
               else loop entries dst_created w
           | _ => loop entries dst_created w
           end
       end) entries false w.

  (** out.rs 116-152 best_effort_remove, of something that is there; on Windows as elsewhere a link is removed
      itself.  remove_dir_all removes the directory last; after a failure some of its content is left, here
      what the oracle's number selects. *)
  Definition best_effort_remove (w : world) (q : name) : world :=
    after_call w (match get (files w) q with
                  | Some Dir =>
                      match fault w with
                      | O => del (fun r => match after q r with Some _ => true | None => false end) (files w)
                      | S k => del (fun r => match after q r with Some (_ :: _ as l) => Nat.ltb (List.length l) k | _ => false end) (files w)
                      end
                  | Some _ => match fault w with O => del (name_eqb q) (files w) | _ => files w end
                  | None => files w
                  end).
  (** fs.rs 71-76 exists: a link counts *)
  Definition there (w : world) (q : name) : bool * world :=
    (match fault w with O => match get (files w) q with None => false | _ => true end | _ => false end,
     after_call w (files w)).
  Fixpoint bytes_eqb (a b : list ascii) : bool :=
    match a, b with [], [] => true | x :: a, y :: b => Ascii.eqb x y && bytes_eqb a b | _, _ => false end.
  (** out.rs 7-30 write, the result ignored *)
  Definition out_write (w : world) (q : name) (content : list ascii) : world :=
    let '(e, w) := there w q in
    if e then
      let same := match fault w, get (files w) q with O, Some (File b) => bytes_eqb b content | _, _ => false end in
      let w := after_call w (files w) in
      if same then w
      else let w := best_effort_remove w q in after_call w (write_file (fault w) (files w) q content)
    else
      let '(_, w) := create_dir_all w (removelast q) in
      after_call w (write_file (fault w) (files w) q content).
  (** out.rs 70-78 *)
  Definition prepare_parent (w : world) (link : name) : world :=
    let '(e, w) := there w link in
    if e then best_effort_remove w link else snd (create_dir_all w (removelast link)).

  (** lib.rs 361-378 make_crate_dir, where [relative_symlink_dir] prepares the place and then fails.  [tag] is
      the text of CACHEDIR.TAG. *)
  Definition make_crate_dir (tag : list ascii) (manifest_dir out_dir prefix : name) (w : world) : world * name :=
    match prefix with
    | [] => (w, manifest_dir)
    | _ =>
        let crate_dir := out_dir ++ ["cxxbridge"; "crate"] in
        let link := crate_dir ++ prefix in
        let w := prepare_parent w link in
        let w := out_write w (crate_dir ++ ["CACHEDIR.TAG"]) tag in
        (copy_headers 6 manifest_dir link w, crate_dir)
    end.
End Calls.
