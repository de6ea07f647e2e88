(** How cxx-build writes files: gen/build/src/out.rs 7-152 and gen/src/fs.rs on Unix, as programs over the
    system calls that std::fs makes, and those system calls on a file system with symbolic links. *)
From Verif Require Import Base Paths_Model.

(** * The file system *)
(** A name leads to a file (an inode), a directory or a symbolic link.  Names are listed from the root.
    Permissions, ownership and times are not modelled; an inode that is left alone keeps its times. *)
Definition name := list string.
Inductive node := File (ino : nat) | Dir | Link (target : path).
Record fs := Fs { tree : name -> option node; data : nat -> list ascii; fresh : nat }.

Fixpoint name_eqb (a b : name) : bool :=
  match a, b with [], [] => true | x :: a, y :: b => String.eqb x y && name_eqb a b | _, _ => false end.
Fixpoint is_prefix (a b : name) : bool :=
  match a, b with [], _ => true | x :: a, y :: b => String.eqb x y && is_prefix a b | _, _ => false end.
Definition set_node (s : fs) (q : name) (n : option node) : fs :=
  Fs (fun r => if name_eqb r q then n else tree s r) (data s) (fresh s).
Definition set_data (s : fs) (i : nat) (d : list ascii) : fs :=
  Fs (tree s) (fun j => if Nat.eqb j i then d else data s j) (fresh s).

Inductive errno := ENOENT | EEXIST | ENOTDIR | EISDIR | ELOOP | EIO.

(** path_resolution(7): at most 40 links are followed; the last component is not if [follow] is false *)
Inductive walked := At (q : name) | Missing (q : name) | Fails (e : errno).
Definition is_nil {A} (l : list A) : bool := match l with [] => true | _ => false end.
Fixpoint walk (links : nat) (t : name -> option node) (follow : bool) : name -> path -> walked :=
  fix go (cur : name) (rest : path) : walked :=
    match rest with
    | [] => At cur
    | c :: rest =>
        match t cur with
        | Some Dir =>
            match c with
            | RootDir => go [] rest
            | CurDir => go cur rest
            | ParentDir => go (removelast cur) rest
            | Normal x =>
                match t (cur ++ [x]) with
                | None => if is_nil rest then Missing (cur ++ [x]) else Fails ENOENT
                | Some (Link tgt) =>
                    if is_nil rest && negb follow then At (cur ++ [x])
                    else match links with O => Fails ELOOP | S links => walk links t follow cur (tgt ++ rest) end
                | Some _ => go (cur ++ [x]) rest
                end
            end
        | _ => Fails ENOTDIR
        end
    end.
Arguments walk : simpl never.
Definition resolve (s : fs) (follow : bool) (p : path) : walked := walk 40 (tree s) follow [] p.

(** * System calls *)
Inductive kind := KFile | KDir | KLink.
Definition kind_of (n : node) : kind := match n with File _ => KFile | Dir => KDir | Link _ => KLink end.
Inductive op :=
| Lstat (p : path) | Stat (p : path) | Read (p : path) | Realpath (p : path)
| Mkdir (p : path) | Unlink (p : path) | RemoveAll (p : path) | Symlink (target : path) (p : path)
| OpenTrunc (p : path)                                  (* O_WRONLY | O_CREAT | O_TRUNC *)
| Write (ino : nat) (offset : nat) (bytes : list ascii).
Inductive res := ROk | RErr (e : errno) | RKind (k : kind) | RBytes (l : list ascii) | RName (q : name) | RFd (ino : nat) | RCount (n : nat).

Definition zero : ascii := Ascii.zero.
Definition overwrite (d : list ascii) (off : nat) (b : list ascii) : list ascii :=
  firstn off d ++ repeat zero (off - List.length d) ++ b ++ skipn (off + List.length b) d.

(** [short]: how many bytes after the first a write takes, as far as there are any.  Reading a whole file and
    removing a directory tree are one step each (std::fs::read, std::fs::remove_dir_all). *)
Definition sys (short : nat) (s : fs) (o : op) : fs * res :=
  match o with
  | Lstat p => (s, match resolve s false p with
                   | At q => match tree s q with Some n => RKind (kind_of n) | None => RErr ENOENT end
                   | Missing _ => RErr ENOENT | Fails e => RErr e end)
  | Stat p => (s, match resolve s true p with
                  | At q => match tree s q with Some n => RKind (kind_of n) | None => RErr ENOENT end
                  | Missing _ => RErr ENOENT | Fails e => RErr e end)
  | Read p => (s, match resolve s true p with
                  | At q => match tree s q with Some (File i) => RBytes (data s i) | Some _ => RErr EISDIR | None => RErr ENOENT end
                  | Missing _ => RErr ENOENT | Fails e => RErr e end)
  | Realpath p => (s, match resolve s true p with At q => RName q | Missing _ => RErr ENOENT | Fails e => RErr e end)
  | Mkdir p => match resolve s false p with
               | At _ => (s, RErr EEXIST) | Missing q => (set_node s q (Some Dir), ROk) | Fails e => (s, RErr e) end
  | Unlink p => match resolve s false p with
                | At q => match tree s q with Some Dir => (s, RErr EISDIR) | _ => (set_node s q None, ROk) end
                | Missing _ => (s, RErr ENOENT) | Fails e => (s, RErr e) end
  | RemoveAll p => match resolve s false p with
                   | At q => match tree s q with
                             | Some Dir => (Fs (fun r => if is_prefix q r then None else tree s r) (data s) (fresh s), ROk)
                             | Some (Link _) => (set_node s q None, ROk)
                             | _ => (s, RErr ENOTDIR) end
                   | Missing _ => (s, RErr ENOENT) | Fails e => (s, RErr e) end
  | Symlink t p => match resolve s false p with
                   | At _ => (s, RErr EEXIST) | Missing q => (set_node s q (Some (Link t)), ROk) | Fails e => (s, RErr e) end
  | OpenTrunc p => match resolve s true p with
                   | At q => match tree s q with Some (File i) => (set_data s i [], RFd i) | _ => (s, RErr EISDIR) end
                   | Missing q => (Fs (fun r => if name_eqb r q then Some (File (fresh s)) else tree s r)
                                      (fun j => if Nat.eqb j (fresh s) then [] else data s j) (S (fresh s)), RFd (fresh s))
                   | Fails e => (s, RErr e) end
  | Write i off b => let n := Nat.min (S short) (List.length b) in (set_data s i (overwrite (data s i) off (firstn n b)), RCount n)
  end.

(** * Programs *)
Inductive prog (A : Type) := Ret (a : A) | Call (o : op) (k : res -> prog A).
Arguments Ret {A}. Arguments Call {A}.
Fixpoint bind {A B} (m : prog A) (f : A -> prog B) : prog B :=
  match m with Ret a => f a | Call o k => Call o (fun r => bind (k r) f) end.

(** [None] is Ok *)
Definition outcome := option errno.

(** std::fs::create_dir_all *)
Definition is_dir (p : path) : prog bool := Call (Stat p) (fun r => Ret match r with RKind KDir => true | _ => false end).
Definition unless_dir (p : path) (e : errno) : prog outcome := bind (is_dir p) (fun d => Ret (if d then None else Some e)).
Definition err_of (r : res) : errno := match r with RErr e => e | _ => EIO end.
Fixpoint create_dir_all (n : nat) (p : path) : prog outcome :=
  match n with
  | O => Ret (Some EIO)             (* not reached: a path has fewer parents than components *)
  | S n =>
      if is_nil p then Ret None else
      Call (Mkdir p) (fun r =>
        match r with
        | ROk => Ret None
        | RErr ENOENT =>
            match parent p with
            | None => Ret (Some EIO)
            | Some d =>
                bind (create_dir_all n d) (fun o =>
                  match o with
                  | Some e => Ret (Some e)
                  | None => Call (Mkdir p) (fun r => match r with ROk => Ret None | _ => unless_dir p (err_of r) end)
                  end)
            end
        | _ => unless_dir p (err_of r)
        end)
  end.
(** fs.rs 56-62 *)
Definition fs_create_dir_all (p : path) : prog outcome := create_dir_all (S (List.length p)) p.

(** fs.rs 71-76 *)
Definition fs_exists (p : path) : prog bool := Call (Lstat p) (fun r => Ret match r with RKind _ => true | _ => false end).

(** fs.rs 78-84 *)
Definition fs_read (p : path) : prog (option (list ascii)) := Call (Read p) (fun r => Ret match r with RBytes l => Some l | _ => None end).

(** std::fs::write and Write::write_all; fs.rs 166-172.  [n] bounds the writes, each of which takes at least one byte *)
Fixpoint write_all (n : nat) (i off : nat) (b : list ascii) : prog outcome :=
  match b with
  | [] => Ret None
  | _ =>
      match n with
      | O => Ret (Some EIO)
      | S n => Call (Write i off b) (fun r =>
                 match r with
                 | RCount 0 => Ret (Some EIO)
                 | RCount k => write_all n i (off + k) (skipn k b)
                 | _ => Ret (Some (err_of r))
                 end)
      end
  end.
Definition fs_write (p : path) (content : list ascii) : prog outcome :=
  Call (OpenTrunc p) (fun r => match r with RFd i => write_all (List.length content) i 0 content | _ => Ret (Some (err_of r)) end).

(** out.rs 116-152 best_effort_remove, not on Windows *)
Definition best_effort_remove (p : path) : prog unit :=
  Call (Lstat p) (fun r =>
    match r with
    | RKind KDir => Call (RemoveAll p) (fun _ => Ret tt)
    | RKind _ => Call (Unlink p) (fun _ => Ret tt)
    | _ => Ret tt
    end).

Definition prefer (first : outcome) (o : outcome) : outcome :=
  match o with None => None | Some e => Some match first with Some f => f | None => e end end.
Fixpoint bytes_eqb (a b : list ascii) : bool :=
  match a, b with [], [] => true | x :: a, y :: b => Ascii.eqb x y && bytes_eqb a b | _, _ => false end.

(** out.rs 7-30 write; a path without a parent (a panic) is an error here *)
Definition out_write (p : path) (content : list ascii) : prog outcome :=
  bind (fs_exists p) (fun e =>
    if e then
      bind (fs_read p) (fun r =>
        match r with
        | Some existing =>
            if bytes_eqb existing content then Ret None
            else bind (best_effort_remove p) (fun _ => fs_write p content)
        | None => bind (best_effort_remove p) (fun _ => fs_write p content)
        end)
    else
      match parent p with
      | None => Ret (Some EIO)
      | Some d => bind (fs_create_dir_all d) (fun err => bind (fs_write p content) (fun o => Ret (prefer err o)))
      end).

(** out.rs 70-78 prepare_parent_directory_for_symlink *)
Definition prepare_parent (link : path) : prog outcome :=
  bind (fs_exists link) (fun e =>
    if e then bind (best_effort_remove link) (fun _ => Ret None)
    else match parent link with None => Ret (Some EIO) | Some d => fs_create_dir_all d end).

(** out.rs 80-105 symlink_file; paths.rs 41-48 symlink_or_copy and fs.rs 110-124, 143-146 *)
Definition symlink_file (target link : path) (parent_error : outcome) : prog outcome :=
  Call (Symlink target link) (fun r =>
    Ret match r with ROk => None | RErr EEXIST => None | _ => prefer parent_error (Some (err_of r)) end).

(** out.rs 45-55 absolute_symlink_file *)
Definition absolute_symlink_file (original link : path) : prog outcome :=
  bind (prepare_parent link) (symlink_file original link).

(** out.rs 154-178 best_effort_relativize_symlink: as in Paths_Model, but the two questions to the file system
    are asked one after the other; the panics of Paths_Model (a link with no parent or above the original) are
    the original path here *)
Definition relativize (env : bool) (original link : path) : prog path :=
  match abstractly_relativize_symlink env original link, parent link with
  | Relative r, Some d =>
      Call (Realpath original) (fun a =>
        match a with
        | RName a => Call (Realpath (join d r)) (fun b => Ret match b with RName b => if name_eqb a b then r else original | _ => original end)
        | _ => Ret original
        end)
  | _, _ => Ret original
  end.
(** out.rs 32-43 relative_symlink_file *)
Definition relative_symlink_file (env : bool) (original link : path) : prog outcome :=
  bind (prepare_parent link) (fun err => bind (relativize env original link) (fun t => symlink_file t link err)).

(** * Executions *)
(** A system call that fails for a reason outside of this model (no space, no permission, …) has no effect,
    except that a directory tree may be removed in part. *)
Inductive faulted (s : fs) : op -> fs -> Prop :=
| f_none o : faulted s o s
| f_partly p q t : resolve s false p = At q -> tree s q = Some Dir ->
    (forall r, t r = tree s r \/ t r = None /\ is_prefix q r = true /\ r <> q) ->
    (forall r x n, t (r ++ [x]) = Some n -> t r = Some Dir) ->
    faulted s (RemoveAll p) (Fs t (data s) (fresh s)).
Inductive step {A} (faults : bool) : fs * prog A -> fs * prog A -> Prop :=
| s_call short s o k s' r : sys short s o = (s', r) -> step faults (s, Call o k) (s', k r)
| s_fault s o k s' : faults = true -> faulted s o s' -> step faults (s, Call o k) (s', k (RErr EIO)).
(** what one process can reach; a crash may happen in each of these states *)
Inductive steps {A} (faults : bool) : fs * prog A -> fs * prog A -> Prop :=
| ss_refl x : steps faults x x
| ss_step x y z : step faults x y -> steps faults y z -> steps faults x z.
(** several processes, in any order *)
Inductive schedule {A} : fs * list (prog A) -> fs * list (prog A) -> Prop :=
| sc_refl x : schedule x x
| sc_step s pre m post s' m' z : step false (s, m) (s', m') -> schedule (s', pre ++ m' :: post) z -> schedule (s, pre ++ m :: post) z.
