(** What the derived Debug and Default of shared structs do: macro/src/derive.rs with the parts
    of core::fmt that its output goes through. *)
From Verif Require Import Base Syntax_Model.
Local Open Scope string_scope.
Local Open Scope list_scope.

Definition newline : ascii := ascii_of_nat 10.
Definition nl : string := String newline EmptyString.

(** * core::fmt *)
(** What a Debug implementation writes: the pieces given to write_str, in order.  Simplification:
    writing does not fail. *)
Notation output := (list string).

(** str::split_inclusive('\n') *)
Fixpoint split_inclusive (s : string) : list string :=
  match s with
  | EmptyString => []
  | String c s' =>
      if Ascii.eqb c newline then String c EmptyString :: split_inclusive s'
      else match split_inclusive s' with
           | [] => [String c EmptyString]
           | l :: ls => String c l :: ls
           end
  end.
Fixpoint ends_with_newline (s : string) : bool :=
  match s with
  | EmptyString => false
  | String c EmptyString => Ascii.eqb c newline
  | String _ s => ends_with_newline s
  end.
(** core/src/fmt/builders.rs: PadAdapter::write_str, for one piece; [on_newline] is its state *)
Fixpoint pad_lines (on_newline : bool) (ls : list string) : output * bool :=
  match ls with
  | [] => ([], on_newline)
  | l :: ls => let (out, st) := pad_lines (ends_with_newline l) ls in ((if on_newline then ["    "; l] else [l]) ++ out, st)
  end.
Fixpoint pad (on_newline : bool) (o : output) : output :=
  match o with
  | [] => []
  | s :: o => let (out, st) := pad_lines on_newline (split_inclusive s) in out ++ pad st o
  end.

(** core/src/fmt/builders.rs: DebugStruct::field.  [has_fields]: not the first field. *)
Definition field (alternate has_fields : bool) (name : string) (value : output) : output :=
  if alternate then (if has_fields then [] else [(" {" ++ nl)%string]) ++ pad true ([name; ": "] ++ value ++ [("," ++ nl)%string])
  else [if has_fields then ", " else " { "; name; ": "] ++ value.
Fixpoint all_fields (alternate has_fields : bool) (l : list (string * output)) : output * bool :=
  match l with
  | [] => ([], has_fields)
  | (n, v) :: l => let (out, h) := all_fields alternate true l in (field alternate has_fields n v ++ out, h)
  end.
(** DebugStruct::finish *)
Definition finish (alternate has_fields : bool) : output := if has_fields then [if alternate then "}" else " }"] else [].

(** * derive.rs *)
Section Struct.
  Context {V : Type}.
  (** What the type of each field does (its Rust name given): Debug, in both styles, and Default *)
  Variables (debug : string -> bool -> V -> output) (default : string -> V).

  (** derive.rs 141-159: struct_debug.  Ident::to_string keeps the r# of a raw identifier. *)
  Definition struct_debug (s : struct_) (alternate : bool) (a : string -> V) : output :=
    let (out, h) := all_fields alternate false
      (map (fun f => (p_rust (v_name f), debug (p_rust (v_name f)) alternate (a (p_rust (v_name f))))) (st_fields s)) in
    [p_rust (st_name s)] ++ out ++ finish alternate h.
  (** derive.rs 161-181: struct_default; [None]: the field is not set *)
  Definition struct_default (s : struct_) (f : string) : option V :=
    if existsb (String.eqb f) (map (fun f => p_rust (v_name f)) (st_fields s)) then Some (default f) else None.
End Struct.
