(** What rust::String should be: a variable holds a text, nothing else matters. *)
From Verif Require Import Base Store_Lib RString_Model.
Require Import NArith.

Section Spec.
Variable valid : list N -> bool.
Notation texts := (list (nat * list N)).
Definition replace (l : list N) (i : nat) (b : N) : list N := firstn i l ++ b :: skipn (S i) l.

Definition spec_step (o : op) (s : texts) : outcome texts :=
  match o with
  | New x => match lookup x s with None => Ok ((x, []) :: s) Done | Some _ => Illegal end
  | FromBytes x l => match lookup x s with
                     | None => if valid l then Ok ((x, l) :: s) Done else Ok s Thrown
                     | Some _ => Illegal end
  | Copy x y => match lookup x s, lookup y s with None, Some t => Ok ((x, t) :: s) Done | _, _ => Illegal end
  | Move x y => match lookup x s, lookup y s with None, Some t => Ok ((x, t) :: set y [] s) Done | _, _ => Illegal end
  | Assign x y => match lookup x s, lookup y s with Some _, Some t => Ok (set x t s) Done | _, _ => Illegal end
  (* assigning a string to itself by move leaves it empty *)
  | MoveAssign x y => match lookup x s, lookup y s with Some _, Some t => Ok (set y [] (set x t s)) Done | _, _ => Illegal end
  | Swap x y => match lookup x s, lookup y s with Some t, Some u => Ok (set y t (set x u s)) Done | _, _ => Illegal end
  | Destroy x => match lookup x s with Some _ => Ok (remove x s) Done | None => Illegal end
  | Text x => match lookup x s with Some t => Ok s (Bytes t) | None => Illegal end
  | CStr x => match lookup x s with Some t => Ok s (Bytes (t ++ [0%N])) | None => Illegal end
  | Reserve x _ => match lookup x s with Some _ => Ok s Done | None => Illegal end
  | Write x i b => match lookup x s with
                   | Some t => if Nat.ltb i (List.length t) then Ok (set x (replace t i b) s) Done else Illegal
                   | None => Illegal end
  | Append x l => match lookup x s with Some t => Ok (set x (t ++ l) s) Done | None => Illegal end
  end.
Fixpoint spec_run (ops : list op) (s : texts) : outcome texts * list obs :=
  match ops with
  | [] => (Ok s Done, [])
  | o :: ops => match spec_step o s with
                | Ok s ob => let '(r, t) := spec_run ops s in (r, ob :: t)
                | bad => (bad, [])
                end
  end.
End Spec.
