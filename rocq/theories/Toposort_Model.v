(** Model of syntax/toposort.rs and of the struct part of
    gen/src/write.rs: write_data_structures (94-141). *)
From Verif Require Import Base Syntax_Model.

(** The structs among the items, in order.  A struct's identity (its address in
    toposort.rs) is its index in this list. *)
Definition structs_of (apis : list api) : list struct_ :=
  flat_map (fun a => match a with AStruct s => [s] | _ => [] end) apis.

(** types.structs.get(name) (types.rs 84: later inserts replace earlier ones): the
    index of the last struct with that Rust name. *)
Fixpoint struct_index_from (i : nat) (name : string) (l : list struct_) : option nat :=
  match l with
  | [] => None
  | s :: r =>
      match struct_index_from (S i) name r with
      | Some j => Some j
      | None => if String.eqb (p_rust (st_name s)) name then Some i else None
      end
  end.
Definition struct_index := struct_index_from 0.

(** toposort.rs 5-8 *)
Inductive mark : Set := Visiting | Visited.

(** sorted, marks, errors: the state threaded through [visit].  An error is the
    index of the struct whose field was reported, with the field. *)
Record tstate : Type := TState
  { ts_sorted : list nat; ts_marks : list (nat * mark); ts_errors : list (nat * var) }.

Fixpoint get_mark (i : nat) (m : list (nat * mark)) : option mark :=
  match m with
  | [] => None
  | (j, k) :: r => if Nat.eqb i j then Some k else get_mark i r
  end.

Definition set_mark (i : nat) (k : mark) (st : tstate) : tstate :=
  TState (ts_sorted st) ((i, k) :: ts_marks st) (ts_errors st).

(** toposort.rs 38-47: the loop over fields, with [v] the recursive call. *)
Fixpoint visit_fields (structs : list struct_) (v : nat -> tstate -> option (tstate * bool))
         (i : nat) (fs : list var) (st : tstate) (ok : bool) : option (tstate * bool) :=
  match fs with
  | [] => Some (st, ok)
  | f :: fs =>
      match v_ty f with
      | TIdent n =>
          match struct_index (n_rust n) structs with
          | Some j =>
              match v j st with
              | None => None
              | Some (st', true) => visit_fields structs v i fs st' ok
              | Some (st', false) =>
                  visit_fields structs v i fs
                    (TState (ts_sorted st') (ts_marks st') (ts_errors st' ++ [(i, f)])) false
              end
          | None => visit_fields structs v i fs st ok
          end
      | _ => visit_fields structs v i fs st ok
      end
  end.

(** toposort.rs 21-51: visit.  [None] = out of fuel; the bool is Result::is_ok. *)
Fixpoint visit (fuel : nat) (structs : list struct_) (i : nat) (st : tstate) : option (tstate * bool) :=
  match fuel with
  | O => None
  | S fuel =>
      match get_mark i (ts_marks st) with
      | Some Visiting => Some (st, false)
      | Some Visited => Some (st, true)
      | None =>
          let st := set_mark i Visiting st in
          let fields := match nth_error structs i with Some s => st_fields s | None => [] end in
          match visit_fields structs (visit fuel structs) i fields st true with
          | None => None
          | Some (st, ok) =>
              let st := set_mark i Visited st in
              Some (TState (ts_sorted st ++ [i]) (ts_marks st) (ts_errors st), ok)
          end
      end
  end.

(** toposort.rs 10-19: sort.  The result of each visit is ignored. *)
Fixpoint sort_loop (fuel : nat) (structs : list struct_) (is : list nat) (st : tstate) : option tstate :=
  match is with
  | [] => Some st
  | i :: is => match visit fuel structs i st with
               | None => None
               | Some (st, _) => sort_loop fuel structs is st
               end
  end.
Definition toposort (structs : list struct_) : option (list nat * list (nat * var)) :=
  match sort_loop (S (List.length structs)) structs (seq 0 (List.length structs)) (TState [] [] []) with
  | Some st => Some (ts_sorted st, ts_errors st)
  | None => None
  end.

(** write.rs 113-127: consume the toposorted iterator until the named struct has
    been written.  Returns the remaining iterator, the names written and the
    structs for which a definition was emitted. *)
Fixpoint write_until (in_cxx : string -> bool) (name : string) (it : list struct_)
  : list struct_ * list string * list struct_ :=
  match it with
  | [] => ([], [], [])
  | next :: it =>
      let out := if in_cxx (p_rust (st_name next)) then [] else [next] in
      if String.eqb (p_rust (st_name next)) name then (it, [p_rust (st_name next)], out)
      else let '(it', names, outs) := write_until in_cxx name it in
           (it', p_rust (st_name next) :: names, out ++ outs)
  end.

(** A definition emitted by write_data_structures. *)
Inductive emitted : Type :=
| EmStruct (s : struct_)       (* write_struct, write.rs 119 *)
| EmEnum (e : enum_)           (* write_enum, write.rs 132 *)
| EmCheckEnum (e : enum_)      (* check_enum, write.rs 134 *)
| EmOpaque (t : extern_type).  (* write_opaque_type, write.rs 143 *)

(** write.rs 107-147: the emission loop of write_data_structures. *)
Fixpoint write_loop (in_cxx : string -> bool) (apis : list api) (written : list string) (it : list struct_)
  : list emitted :=
  match apis with
  | [] => []
  | AStruct s :: apis =>
      if smem (p_rust (st_name s)) written then write_loop in_cxx apis written it
      else let '(it', names, outs) := write_until in_cxx (p_rust (st_name s)) it in
           map EmStruct outs ++ write_loop in_cxx apis (names ++ written) it'
  | AEnum e :: apis =>
      (if in_cxx (p_rust (en_name e))
       then (if en_from_header e then [] else [EmCheckEnum e])
       else [EmEnum e]) ++ write_loop in_cxx apis written it
  | ARustType t :: apis => EmOpaque t :: write_loop in_cxx apis written it
  | _ :: apis => write_loop in_cxx apis written it
  end.

(** Whole emission for a bridge: [in_cxx] is types.cxx.contains. *)
Definition write_data_structures (in_cxx : string -> bool) (apis : list api) : option (list emitted) :=
  match toposort (structs_of apis) with
  | None => None
  | Some (order, _) =>
      Some (write_loop in_cxx apis []
              (flat_map (fun i => match nth_error (structs_of apis) i with Some s => [s] | None => [] end) order))
  end.
