(** C95: what a build script expects of [CFG].  Every handle has its own copy of the settings,
    taken when it is first used; the settings themselves change when a handle that was changed
    is dropped. *)
From Verif Require Import Base Lossy_Spec Settings_Model.
Require Import NArith.

(** A directory is kept as text *)
Definition as_text (l l' : list N) : Prop := exists ps, parts l ps /\ l' = utf8_text (lossy ps).
Record kept (c c' : cfg) : Prop := {
  kept_prefix : include_prefix c' = include_prefix c;
  kept_dirs : Forall2 as_text (exported_header_dirs c) (exported_header_dirs c');
  kept_prefixes : exported_header_prefixes c' = exported_header_prefixes c;
  kept_links : exported_header_links c' = exported_header_links c;
  kept_doxygen : doxygen c' = doxygen c }.

(** [Fresh]: not used; [Seen c]: read, when the settings were [c]; [Own c]: changed, to [c] *)
Inductive view := Fresh | Seen (c : cfg) | Own (c : cfg).
Record world := World { settings : cfg; handles : nat -> option view }.
Definition put (x : nat) (v : option view) (h : nat -> option view) : nat -> option view := fun y => if Nat.eqb y x then v else h y.

(** One step, with what it shows *)
Inductive does : world -> op -> obs -> world -> Prop :=
| d_new g h t x a : h x = None -> does (World g h) (New t x a) Silent (World g (put x (Some Fresh) h))
| d_read_fresh g h x : h x = Some Fresh -> does (World g h) (Read x) (Saw g) (World g (put x (Some (Seen g)) h))
| d_read_seen g h x c : h x = Some (Seen c) -> does (World g h) (Read x) (Saw c) (World g h)
| d_read_own g h x c : h x = Some (Own c) -> does (World g h) (Read x) (Saw c) (World g h)
| d_look_seen g h x c : h x = Some (Seen c) -> does (World g h) (Look x) (Saw c) (World g h)
| d_look_own g h x c : h x = Some (Own c) -> does (World g h) (Look x) (Saw c) (World g h)
| d_write_fresh g h x f : h x = Some Fresh -> does (World g h) (Write x f) Silent (World g (put x (Some (Own (f g))) h))
| d_write_seen g h x c f : h x = Some (Seen c) -> does (World g h) (Write x f) Silent (World g (put x (Some (Own (f g))) h))
| d_write_own g h x c f : h x = Some (Own c) -> does (World g h) (Write x f) Silent (World g (put x (Some (Own (f c))) h))
| d_show_fresh g h x : h x = Some Fresh -> does (World g h) (Show x) (Saw g) (World g h)
| d_show_seen g h x c : h x = Some (Seen c) -> does (World g h) (Show x) (Saw g) (World g h)
| d_show_own g h x c : h x = Some (Own c) -> does (World g h) (Show x) (Saw c) (World g h)
| d_move g h x a v : h x = Some v -> does (World g h) (Move x a) Silent (World g h)
| d_forget g h x v : h x = Some v -> does (World g h) (Forget x) Silent (World g (put x None h))
| d_drop_fresh g h x : h x = Some Fresh -> does (World g h) (Drop x) Silent (World g (put x None h))
| d_drop_seen g h x c : h x = Some (Seen c) -> does (World g h) (Drop x) Silent (World g (put x None h))
| d_drop_own g h x c g' : h x = Some (Own c) -> kept c g' -> does (World g h) (Drop x) Silent (World g' (put x None h)).

(** A history, from one world to another *)
Inductive history : world -> list op -> list obs -> world -> Prop :=
| h_nil w : history w [] [] w
| h_cons w o b w1 ops l w2 : does w o b w1 -> history w1 ops l w2 -> history w (o :: ops) (b :: l) w2.

(** At first there is no handle, and the settings are the name of the package as the prefix,
    and nothing else. *)
Definition first (pkg : option (list N)) (w : world) : Prop :=
  (forall x, handles w x = None) /\
  exists prefix, settings w = Cfg prefix [] [] [] false /\ match pkg with Some name => as_text name prefix | None => prefix = [] end.

(** No handle is moved or forgotten between being read and being dropped or changed: a step is
    not that if ... *)
Definition in_place (w : world) (o : op) : Prop :=
  match o with Move x _ | Forget x => forall c, handles w x <> Some (Seen c) | _ => True end.
(** ... changes are not made on two handles at a time if ... *)
Definition alone (w : world) (o : op) : Prop :=
  match o with
  | Write x _ => forall y c, y <> x -> handles w y <> Some (Own c)
  | Forget x => forall c, handles w x <> Some (Own c)
  | _ => True
  end.
(** Every step of a history, in the world it happens in *)
Inductive always (P : world -> op -> Prop) : world -> list op -> list obs -> world -> Prop :=
| a_nil w : always P w [] [] w
| a_cons w o b w1 ops l w2 : P w o -> does w o b w1 -> always P w1 ops l w2 -> always P w (o :: ops) (b :: l) w2.

(** The changes of a history, in order *)
Definition changes (ops : list op) : list (cfg -> cfg) := flat_map (fun o => match o with Write _ f => [f] | _ => [] end) ops.
(** directories whose names are text *)
Definition textual (c : cfg) : Prop := Forall valid_utf8 (exported_header_dirs c).

(** Statements of a build script: each mentions [CFG] once, in thread [t], the value being at
    the address [a] until the end of the statement *)
Inductive use := Get | Set_ (f : cfg -> cfg).
Definition statement (s : nat * nat * use) : list op :=
  match s with
  | (t, a, Get) => [New t 0 a; Read 0; Drop 0]
  | (t, a, Set_ f) => [New t 0 a; Write 0 f; Drop 0]
  end.
(** What they show, if each acts on the settings as the one before left them *)
Inductive script : cfg -> list (nat * nat * use) -> list obs -> cfg -> Prop :=
| s_nil g : script g [] [] g
| s_get g t a ss l g' : script g ss l g' -> script g ((t, a, Get) :: ss) (Silent :: Saw g :: Silent :: l) g'
| s_set g t a f ss l g1 g' : kept (f g) g1 -> script g1 ss l g' -> script g ((t, a, Set_ f) :: ss) (Silent :: Silent :: Silent :: l) g'.

(** Looking at fields *)
Definition is_read (o : op) : Prop := match o with Read _ | Look _ => True | _ => False end.
