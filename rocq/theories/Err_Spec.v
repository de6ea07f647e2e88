(** What errors and exceptions should be: a variable holds a text, or nothing if it was moved
    from. *)
From Verif Require Import Base Store_Lib Err_Model.
Require Import NArith.

Notation things := (list (nat * (kind * option (list N)))).
(** a text as a C string: what comes before the first zero byte *)
Fixpoint before_nul (l : list N) : list N :=
  match l with [] => [] | b :: l => if N.eqb b 0 then [] else b :: before_nul l end.
Definition free_name (x : nat) (s : things) : bool := match lookup x s with None => true | _ => false end.
Definition error (x : nat) (s : things) : option (option (list N)) := match lookup x s with Some (CppError, o) => Some o | _ => None end.

Section Lossy.
Variable from_utf8_lossy : list N -> list N.
Definition spec_step (o : op) (s : things) : outcome things :=
  match o with
  | CallRust x _ r =>
      if free_name x s then
        match r with IsOk v => Ok s (Value v) | IsErr text => Ok ((x, (CppError, Some text)) :: s) Caught end
      else Illegal
  | CallCpp x b =>
      if free_name x s then
        let caught text := Ok ((x, (RustException, Some (from_utf8_lossy text))) :: s) Caught in
        match b with
        | Returns v => Ok s (Value v)
        | Throws (Some text) => caught (before_nul text)
        | Throws None => UB
        | ThrowsOther => Ok s Terminate
        | Reports text => caught text
        | Rethrows y => match error y s with
                        | Some (Some text) => caught (before_nul text)
                        | Some None => UB
                        | None => Illegal
                        end
        end
      else Illegal
  | Copy x y oom =>
      if free_name x s then
        match error y s with
        | Some None => Ok ((x, (CppError, None)) :: s) Done
        | Some (Some text) => if oom then Ok s BadAlloc else Ok ((x, (CppError, Some text)) :: s) Done
        | None => Illegal
        end
      else Illegal
  | Move x y =>
      if free_name x s then
        match error y s with Some o => Ok ((x, (CppError, o)) :: set y (CppError, None) s) Done | None => Illegal end
      else Illegal
  | AssignCopy x y oom =>
      match error x s, error y s with
      | Some _, Some o =>
          if Nat.eqb x y then Ok s Done
          else match o with
               | None => Ok (set x (CppError, None) s) Done
               (* without memory the old text is gone, too *)
               | Some text => if oom then Ok (set x (CppError, None) s) BadAlloc else Ok (set x (CppError, Some text) s) Done
               end
      | _, _ => Illegal
      end
  | AssignMove x y =>
      match error x s, error y s with
      | Some _, Some o =>
          (* an error assigned to itself loses its text *)
          if Nat.eqb x y then Ok (set x (CppError, None) s) Done
          else Ok (set y (CppError, None) (set x (CppError, o) s)) Done
      | _, _ => Illegal
      end
  | What x =>
      match lookup x s with
      | None => Illegal
      | Some (CppError, o) => Ok s (Text (option_map before_nul o))
      | Some (RustException, o) => Ok s (Text o)
      end
  | Destroy x => match lookup x s with None => Illegal | Some _ => Ok (remove x s) Done end
  end.
Fixpoint spec_run (ops : list op) (s : things) : outcome things * list obs :=
  match ops with
  | [] => (Ok s Done, [])
  | o :: ops => match spec_step o s with
                | Ok s Terminate => (Ok s Terminate, [Terminate])
                | Ok s ob => let '(r, t) := spec_run ops s in (r, ob :: t)
                | bad => (bad, [])
                end
  end.
End Lossy.
