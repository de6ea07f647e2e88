(** What rust::Box should be: a variable holds an object or nothing. *)
From Verif Require Import Base Store_Lib Box_Model.

Notation thing := (kind * option nat)%type.
Notation things := (list (nat * thing)).
Definition free_name (x : nat) (s : things) : bool := match lookup x s with None => true | _ => false end.
Definition box (x : nat) (s : things) : option (option nat) := match lookup x s with Some (IsBox, o) => Some o | _ => None end.
Definition raw (x : nat) (s : things) : option (option nat) := match lookup x s with Some (IsRaw, o) => Some o | _ => None end.
Definition destroyed (o : option nat) : list nat := match o with Some v => [v] | None => [] end.

Definition spec_step (o : op) (s : things) : outcome things :=
  match o with
  | New x v throws | InPlace x v throws _ =>
      if free_name x s then if throws then Ok s Thrown else Ok ((x, (IsBox, Some v)) :: s) (Done []) else Illegal
  | Move x y =>
      if free_name x s then
        match box y s with Some o => Ok ((x, (IsBox, o)) :: set y (IsBox, None) s) (Done []) | None => Illegal end
      else Illegal
  | Assign x y =>
      match box x s, box y s with
      (* a box assigned to itself loses its object, which is destroyed *)
      | Some o, Some o' =>
          if Nat.eqb x y then Ok (set x (IsBox, None) s) (Done (destroyed o))
          else Ok (set y (IsBox, None) (set x (IsBox, o') s)) (Done (destroyed o))
      | _, _ => Illegal
      end
  | Swap x y =>
      match box x s, box y s with
      | Some o, Some o' => Ok (set y (IsBox, o) (set x (IsBox, o') s)) (Done [])
      | _, _ => Illegal
      end
  | Destroy x => match box x s with Some o => Ok (remove x s) (Done (destroyed o)) | None => Illegal end
  | Get x => match box x s with Some (Some v) => Ok s (Value v) | _ => Illegal end
  | Put x v => match box x s with Some (Some _) => Ok (set x (IsBox, Some v) s) (Done []) | _ => Illegal end
  | IntoRaw p x =>
      if free_name p s then
        match box x s with Some o => Ok ((p, (IsRaw, o)) :: set x (IsBox, None) s) (Done []) | None => Illegal end
      else Illegal
  | FromRaw x p _ =>
      if free_name x s then
        match raw p s with Some o => Ok ((x, (IsBox, o)) :: remove p s) (Done []) | None => Illegal end
      else Illegal
  end.
Fixpoint spec_run (ops : list op) (s : things) : outcome things * list obs :=
  match ops with
  | [] => (Ok s (Done []), [])
  | o :: ops => match spec_step o s with
                | Ok s ob => let '(r, t) := spec_run ops s in (r, ob :: t)
                | bad => (bad, [])
                end
  end.
