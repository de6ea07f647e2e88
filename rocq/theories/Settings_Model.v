(** The settings of a build script: [CFG] of gen/build/src/cfg.rs 318-498, with
    gen/build/src/intern.rs 1-28 and gen/build/src/vec.rs 1-51.

    Every mention of [CFG] in a build script makes a value of the type [Cfg] of cfg.rs 429-432,
    a handle, that is dropped at the end of the statement, or lives longer if it is bound to a
    variable.  A history is a sequence of steps of any threads on any handles; each step is
    atomic: what [current()] and [intern] protect by locks is done under the lock, and the rest
    concerns the thread alone (cfg.rs 427-428).

    Simplified: the environment does not change while the build script runs; the memory of the
    thread local table is not given back at the end of a thread; text is a list of bytes. *)
From Verif Require Import Base.
From Verif Require Import Construct_Model.
Require Import NArith.

Notation text := (list N) (only parsing).

(** cfg.rs 6-18: super::Cfg *)
Record cfg := Cfg { include_prefix : list N; exported_header_dirs : list (list N); exported_header_prefixes : list (list N);
                    exported_header_links : list (list N); doxygen : bool }.

(** std: OsStr::to_string_lossy, of Unix *)
Definition to_string_lossy (s : list N) : list N := from_utf8_lossy (List.length s) s.

(** * intern.rs *)
(** intern.rs 4-5: an InternedString is a pointer to leaked text, here an index into all the
    text that has been leaked, which is also the set of intern.rs 14 *)
Definition pool := list (list N).
Definition text_eqb (a b : list N) : bool := if list_eq_dec N.eq_dec a b then true else false.
Fixpoint position (s : list N) (p : pool) : option nat :=
  match p with
  | [] => None
  | x :: p => if text_eqb s x then Some 0 else option_map S (position s p)
  end.
(** intern.rs 7-11; what is not there cannot be read *)
Definition str (p : pool) (i : nat) : list N := nth i p [].
(** intern.rs 13-28 *)
Definition intern (s : list N) (p : pool) : pool * nat :=
  match position s p with
  | Some interned => (p, interned)
  | None => (p ++ [s], List.length p)
  end.
(** vec.rs 20-25, with [f] the conversion of vec.rs 32-35 for str and of vec.rs 42-45 for Path *)
Fixpoint intern_vec (f : list N -> list N) (elements : list (list N)) (p : pool) : pool * list nat :=
  match elements with
  | [] => (p, [])
  | e :: elements => let (p, i) := intern (f e) p in let (p, is) := intern_vec f elements p in (p, i :: is)
  end.
(** vec.rs 11-18, 37-39, 46-50 *)
Definition vec (p : pool) (is : list nat) : list (list N) := map (str p) is.

(** * cfg.rs *)
(** cfg.rs 353-359 *)
Record current_cfg := Current { c_include_prefix : nat; c_dirs : list nat; c_prefixes : list nat; c_links : list nat; c_doxygen : bool }.

(** cfg.rs 429-432 *)
Inductive handle := HMut (c : cfg) | HCFG.
(** where a handle is: its thread and its address *)
Record obj := Obj { o_thread : nat; o_addr : nat; o_handle : handle }.

(** [cur]: the OnceLock of cfg.rs 380-383; [derefs]: CONST_DEREFS of cfg.rs 385-402 of each
    thread, by address; [heap]: its boxes, [None] once freed; [objs]: the handles in existence, by the name of the
    variable or temporary; [loans]: the references that [deref] returned and that may still be
    used, that is those whose handle has neither been mutated nor moved since: into a box, or
    into the handle itself *)
Record state := State { st_pool : pool; cur : option current_cfg; derefs : nat -> nat -> option nat; heap : list (option cfg);
                        objs : list (nat * obj); loans : list (nat * option nat) }.

Section Run.
(** the environment variable CARGO_PKG_NAME *)
Variable pkg : option (list N).

(** cfg.rs 361-378; the default InternedString is the empty string *)
Definition default (p : pool) : pool * current_cfg :=
  let (p, include_prefix) := intern (match pkg with Some pkg => to_string_lossy pkg | None => [] end) p in
  (p, Current include_prefix [] [] [] false).

(** cfg.rs 380-383, without the lock *)
Definition current (s : state) : state * current_cfg :=
  match cur s with
  | Some c => (s, c)
  | None => let (p, c) := default (st_pool s) in (State p (Some c) (derefs s) (heap s) (objs s) (loans s), c)
  end.

(** cfg.rs 404-420 *)
Definition cfg_current (s : state) : state * cfg :=
  let (s, c) := current s in
  let p := st_pool s in
  (s, Cfg (str p (c_include_prefix c)) (vec p (c_dirs c)) (vec p (c_prefixes c)) (vec p (c_links c)) (c_doxygen c)).

Definition get {A} (x : nat) (l : list (nat * A)) : option A := option_map snd (find (fun e => Nat.eqb (fst e) x) l).
Definition del {A} (x : nat) (l : list (nat * A)) : list (nat * A) := filter (fun e => negb (Nat.eqb (fst e) x)) l.
Definition set_heap (b : nat) (c : option cfg) (h : list (option cfg)) : list (option cfg) :=
  firstn b h ++ c :: skipn (S b) h.
Definition box (h : list (option cfg)) (b : nat) : option cfg := match nth_error h b with Some c => c | None => None end.
Definition at_ (t a : nat) (v : option nat) (d : nat -> nat -> option nat) : nat -> nat -> option nat :=
  fun t' a' => if Nat.eqb t' t && Nat.eqb a' a then v else d t' a'.

(** What a step shows: the contents of a reference or the output of Debug *)
Inductive obs := Silent | Saw (c : cfg).
(** [Impossible]: no program does this; [UB]: a freed box was read or freed again *)
Inductive res := Impossible | UB | Ok (s : state) (o : obs).

(** CONST_DEREFS.with(|derefs| derefs.borrow_mut().remove(&self.handle())), cfg.rs 465, 493;
    [None]: the box had been freed *)
Definition remove (t a : nat) (s : state) : option state :=
  match derefs s t a with
  | None => Some s
  | Some b =>
      match box (heap s) b with
      | None => None
      | Some _ => Some (State (st_pool s) (cur s) (at_ t a None (derefs s)) (set_heap b None (heap s)) (objs s) (loans s))
      end
  end.

(** cfg.rs 444-460, with the key of 422-424: [deref] of the handle [x] of thread [t] at [a], and reading the reference *)
Definition deref (x : nat) (o : obj) (s : state) : res :=
  match o_handle o with
  | HMut c => Ok (State (st_pool s) (cur s) (derefs s) (heap s) (objs s) ((x, None) :: del x (loans s))) (Saw c)
  | HCFG =>
      let (s, b) :=
        match derefs s (o_thread o) (o_addr o) with
        | Some b => (s, b)
        | None =>
            let (s, c) := cfg_current s in
            let b := List.length (heap s) in
            (State (st_pool s) (cur s) (at_ (o_thread o) (o_addr o) (Some b) (derefs s)) (heap s ++ [Some c]) (objs s) (loans s), b)
        end in
      match box (heap s) b with
      | Some c => Ok (State (st_pool s) (cur s) (derefs s) (heap s) (objs s) ((x, Some b) :: del x (loans s))) (Saw c)
      | None => UB
      end
  end.

(** cfg.rs 462-473: [deref_mut], and changing what it refers to by [f]; the assignment of 466
    drops the old value, which removes the entry that 465 has removed already *)
Definition deref_mut (x : nat) (o : obj) (f : cfg -> cfg) (s : state) : res :=
  match o_handle o with
  | HMut c =>
      Ok (State (st_pool s) (cur s) (derefs s) (heap s) ((x, Obj (o_thread o) (o_addr o) (HMut (f c))) :: del x (objs s)) (del x (loans s))) Silent
  | HCFG =>
      match remove (o_thread o) (o_addr o) s with
      | None => UB
      | Some s =>
          let (s, c) := cfg_current s in
          Ok (State (st_pool s) (cur s) (derefs s) (heap s) ((x, Obj (o_thread o) (o_addr o) (HMut (f c))) :: del x (objs s)) (del x (loans s))) Silent
      end
  end.

(** cfg.rs 475-496, and the end of the handle *)
Definition drop (x : nat) (o : obj) (s : state) : res :=
  match o_handle o with
  | HMut c =>
      let (s, _) := current s in
      let (p, include_prefix) := intern (include_prefix c) (st_pool s) in
      let (p, dirs) := intern_vec to_string_lossy (exported_header_dirs c) p in
      let (p, prefixes) := intern_vec (fun s => s) (exported_header_prefixes c) p in
      let (p, links) := intern_vec (fun s => s) (exported_header_links c) p in
      Ok (State p (Some (Current include_prefix dirs prefixes links (doxygen c))) (derefs s) (heap s) (del x (objs s)) (del x (loans s))) Silent
  | HCFG =>
      match remove (o_thread o) (o_addr o) s with
      | None => UB
      | Some s => Ok (State (st_pool s) (cur s) (derefs s) (heap s) (del x (objs s)) (del x (loans s))) Silent
      end
  end.

(** cfg.rs 434-442 *)
Definition fmt (o : obj) (s : state) : res :=
  match o_handle o with
  | HMut c => Ok s (Saw c)
  | HCFG => let (s, c) := cfg_current s in Ok s (Saw c)
  end.

(** The steps of build scripts: [New t x a] is a mention of [CFG] by thread [t] that is placed
    at the address [a]; [Read] looks at fields; [Look] looks again at what was read, through
    the same reference; [Write x f] assigns to fields or changes them in place; [Show] formats
    the handle; [Move x a] moves it to another address; [Forget] is std::mem::forget *)
Inductive op :=
| New (t x a : nat) | Read (x : nat) | Look (x : nat) | Write (x : nat) (f : cfg -> cfg) | Show (x : nat) | Move (x a : nat) | Forget (x : nat) | Drop (x : nat).

Definition occupied (a : nat) (s : state) : bool := existsb (fun e => Nat.eqb (o_addr (snd e)) a) (objs s).
Definition step (o : op) (s : state) : res :=
  match o with
  | New t x a =>
      match get x (objs s) with
      | Some _ => Impossible
      | None => if occupied a s then Impossible else Ok (State (st_pool s) (cur s) (derefs s) (heap s) ((x, Obj t a HCFG) :: objs s) (loans s)) Silent
      end
  | Read x => match get x (objs s) with Some o => deref x o s | None => Impossible end
  | Look x =>
      match get x (loans s), get x (objs s) with
      | Some (Some b), _ => match box (heap s) b with Some c => Ok s (Saw c) | None => UB end
      | Some None, Some (Obj _ _ (HMut c)) => Ok s (Saw c)
      | Some None, _ => UB
      | None, _ => Impossible
      end
  | Write x f => match get x (objs s) with Some o => deref_mut x o f s | None => Impossible end
  | Show x => match get x (objs s) with Some o => fmt o s | None => Impossible end
  | Move x a =>
      match get x (objs s) with
      | Some o => if occupied a s then Impossible
                  else Ok (State (st_pool s) (cur s) (derefs s) (heap s) ((x, Obj (o_thread o) a (o_handle o)) :: del x (objs s)) (del x (loans s))) Silent
      | None => Impossible
      end
  | Forget x =>
      match get x (objs s) with
      | Some _ => Ok (State (st_pool s) (cur s) (derefs s) (heap s) (del x (objs s)) (del x (loans s))) Silent
      | None => Impossible
      end
  | Drop x => match get x (objs s) with Some o => drop x o s | None => Impossible end
  end.

(** The end of a history: [Stuck]: not a history of any program *)
Inductive outcome := Stuck | Undefined | Done (s : state) (l : list obs).
Fixpoint run (ops : list op) (s : state) : outcome :=
  match ops with
  | [] => Done s []
  | o :: ops =>
      match step o s with
      | Impossible => Stuck
      | UB => Undefined
      | Ok s b => match run ops s with Done s l => Done s (b :: l) | r => r end
      end
  end.
Definition start : state := State [] None (fun _ _ => None) [] [] [].
End Run.
