(** Specification for C55. *)
From Verif Require Import Base StrLib Syntax_Model Check_Spec Names_Model.

(** An identifier as a user can write it: it has no dollar sign and is not a keyword.
    (Only the keywords that matter here are listed.) *)
Definition identifier (x : string) : Prop :=
  has_char "$" x = false /\ ~ In x ["self"; "return"; "extern"; "fn"; "_"].

(** The names the user wrote, in order. *)
Fixpoint written (l : list fn_arg) : list string :=
  match l with
  | [] => []
  | AIdent x :: l => x :: written l
  | _ :: l => written l
  end.
Fixpoint written_bare (l : list (option string)) : list string :=
  match l with
  | [] => []
  | Some x :: l => x :: written_bare l
  | None :: l => written_bare l
  end.

(** Nothing is declared twice in one scope. *)
Definition distinct (o : option (list string)) : Prop := forall l, o = Some l -> NoDup l.
