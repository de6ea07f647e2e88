(** gen/src/nested.rs: grouping by namespace, and gen/src/write.rs 59-92: the forward
    declarations written from it. *)
From Verif Require Import Base Syntax_Model Toposort_Model Types_Model.

(** gen/src/namespace.rs 4-18: Api::namespace *)
Definition api_namespace (a : api) : list string :=
  match a with
  | ACxxFunction f | ARustFunction f => p_ns (fn_name f)
  | ACxxType t | ARustType t => p_ns (et_name t)
  | AEnum e => p_ns (en_name e)
  | AStruct s => p_ns (st_name s)
  | AImpl _ | AInclude _ | ATypeAlias _ => []
  end.

(** nested.rs 5-8: NamespaceEntries *)
Inductive entries : Type := Entries (direct : list api) (nested : list (string * entries)).

(** nested.rs 31-42: one more item for a nested namespace.  `index_of_namespace` finds
    the position of the namespace in `nested_namespaces`. *)
Fixpoint add_nested (x : string) (a : api) (l : list (string * list api)) : list (string * list api) :=
  match l with
  | [] => [(x, [a])]
  | (y, m) :: l => if String.eqb x y then (y, m ++ [a]) :: l else (y, m) :: add_nested x a l
  end.
(** nested.rs 31-44: the loop *)
Definition group_step (depth : nat) (s : list api * list (string * list api)) (a : api) : list api * list (string * list api) :=
  match nth_error (api_namespace a) depth with
  | Some x => (fst s, add_nested x a (snd s))
  | None => (fst s ++ [a], snd s)
  end.
Definition group (depth : nat) (apis : list api) : list api * list (string * list api) := fold_left (group_step depth) apis ([], []).

(** nested.rs 26-52: sort_by_inner_namespace; [None]: the recursion is deeper than [fuel] *)
Fixpoint sort_by_inner_namespace (fuel : nat) (apis : list api) (depth : nat) : option entries :=
  match fuel with
  | O => None
  | S fuel =>
      let '(direct, groups) := group depth apis in
      option_map (Entries direct)
        ((fix go l := match l with
                      | [] => Some []
                      | (x, m) :: l =>
                          match sort_by_inner_namespace fuel m (S depth), go l with
                          | Some e, Some es => Some ((x, e) :: es)
                          | _, _ => None
                          end
                      end) groups)
  end.

(** What is written: a declaration, `namespace x {` and `}`; indentation is left out. *)
Inductive ftok : Type := FDecl (a : api) | FOpen (x : string) | FClose.
(** write.rs 72-91: write *)
Fixpoint write_entries (e : entries) : list ftok :=
  match e with
  | Entries direct nested =>
      map FDecl direct ++
      (fix go l := match l with [] => [] | (x, e) :: l => FOpen x :: write_entries e ++ FClose :: go l end) nested
  end.
(** write.rs 60-64: needs_forward_declaration *)
Definition needs_forward (T : types) (a : api) : bool :=
  match a with
  | AStruct _ | ACxxType _ | ARustType _ => true
  | AEnum e => negb (smem (p_rust (en_name e)) (t_cxx T))
  | _ => false
  end.
(** write.rs 59-70: write_forward_declarations *)
Definition forward_declarations (fuel : nat) (T : types) (apis : list api) : option (list ftok) :=
  option_map write_entries (sort_by_inner_namespace fuel (filter (needs_forward T) apis) 0).
