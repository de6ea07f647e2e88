(** What rust::Vec should be: a variable holds a list. *)
From Verif Require Import Base Store_Lib RVec_Model.

Notation lists := (list (nat * list nat)).
(** copying [l], where the copy of element number [limit] throws: the elements that had been
    copied are destroyed *)
Definition copied (l : list nat) (limit : option nat) : option (list nat) :=
  match limit with
  | Some k => if Nat.ltb k (List.length l) then Some (firstn k l) else None
  | None => None
  end.
Definition value (s : source) (st : lists) : option nat :=
  match s with
  | Value v => Some v
  | Element y i => match lookup y st with Some l => nth_error l i | None => None end
  end.
Definition replace (l : list nat) (i v : nat) : list nat := firstn i l ++ v :: skipn (S i) l.

Definition spec_step (o : op) (s : lists) : outcome lists :=
  match o with
  | New x => match lookup x s with None => Ok ((x, []) :: s) (Done []) | Some _ => Illegal end
  | FromList x l limit =>
      match lookup x s with
      | None => match copied l limit with None => Ok ((x, l) :: s) (Done []) | Some gone => Ok s (Thrown gone) end
      | Some _ => Illegal
      end
  | Copy x y limit =>
      match lookup x s, lookup y s with
      | None, Some l => match copied l limit with None => Ok ((x, l) :: s) (Done []) | Some gone => Ok s (Thrown gone) end
      | _, _ => Illegal
      end
  | Move x y => match lookup x s, lookup y s with None, Some l => Ok ((x, l) :: set y [] s) (Done []) | _, _ => Illegal end
  | Assign x y limit =>
      match lookup x s, lookup y s with
      | Some l, Some l' =>
          if Nat.eqb x y then Ok s (Done [])
          else match copied l' limit with
               | None => Ok (set x l' s) (Done l)
               (* any list would do; the code leaves none *)
               | Some gone => Ok (set x [] s) (Thrown (l ++ gone))
               end
      | _, _ => Illegal
      end
  (* a vector moved to itself loses its elements, which are destroyed *)
  | MoveAssign x y => match lookup x s, lookup y s with
                      | Some l, Some l' => Ok (set y [] (set x l' s)) (Done l) | _, _ => Illegal end
  | Swap x y => match lookup x s, lookup y s with Some l, Some l' => Ok (set y l (set x l' s)) (Done []) | _, _ => Illegal end
  | Destroy x => match lookup x s with Some l => Ok (remove x s) (Done l) | None => Illegal end
  | Push x src throws =>
      match lookup x s, value src s with
      | Some l, Some v => if throws then Ok s (Thrown []) else Ok (set x (l ++ [v]) s) (Done [])
      | _, _ => Illegal
      end
  | Reserve x _ => match lookup x s with Some _ => Ok s (Done []) | None => Illegal end
  | Truncate x n => match lookup x s with Some l => Ok (set x (firstn n l) s) (Done (skipn n l)) | None => Illegal end
  | Clear x => match lookup x s with Some l => Ok (set x [] s) (Done l) | None => Illegal end
  | At x i => match lookup x s with
              | Some l => match nth_error l i with Some v => Ok s (Got [v]) | None => Ok s (Thrown []) end
              | None => Illegal end
  | Index x i => match lookup x s with
                 | Some l => match nth_error l i with Some v => Ok s (Got [v]) | None => Illegal end
                 | None => Illegal end
  | Back x => match lookup x s with
              | Some l => match rev l with v :: _ => Ok s (Got [v]) | [] => Illegal end
              | None => Illegal end
  | Set_ x i v => match lookup x s with
                  | Some l => if Nat.ltb i (List.length l) then Ok (set x (replace l i v) s) (Done []) else Illegal
                  | None => Illegal end
  | Size x => match lookup x s with Some l => Ok s (Got [List.length l]) | None => Illegal end
  | All x => match lookup x s with Some l => Ok s (Got l) | None => Illegal end
  end.
Fixpoint spec_run (ops : list op) (s : lists) : outcome lists * list obs :=
  match ops with
  | [] => (Ok s (Done []), [])
  | o :: ops => match spec_step o s with
                | Ok s ob => let '(r, t) := spec_run ops s in (r, ob :: t)
                | bad => (bad, [])
                end
  end.

(** The two things a program must not do: append an element of a vector to the vector itself
    when it is full, and copy-assign when copying an element throws. *)
Definition careful (o : op) (st : list (option (list (option nat))) * list (nat * repr)) : bool :=
  match o with
  | Push x (Element y _) _ =>
      if Nat.eqb x y then match lookup x (snd st) with Some r => Nat.ltb (len r) (cap r) | None => true end else true
  | Assign x y (Some k) =>
      if Nat.eqb x y then true else match lookup y (snd st) with Some r => Nat.leb (len r) k | None => true end
  | _ => true
  end.
Fixpoint careful_run slack (ops : list op) (st : list (option (list (option nat))) * list (nat * repr)) : bool :=
  match ops with
  | [] => true
  | o :: ops => careful o st && match step slack o st with Ok st _ => careful_run slack ops st | _ => true end
  end.

(** Amortised growth.  Vec::reserve at least doubles the capacity when it allocates. *)
Definition doubling (slack : nat -> nat) : Prop := forall n, 2 * (n - 1) <= n + slack n.
(** The number of elements that are moved to another buffer while [vs] are appended to [x]. *)
Fixpoint moved slack (x : nat) (vs : list nat) (st : list (option (list (option nat))) * list (nat * repr)) : nat :=
  match vs with
  | [] => 0
  | v :: vs =>
      match step slack (Push x (Value v) false) st with
      | Ok st' _ =>
          match lookup x (snd st), lookup x (snd st') with
          | Some r, Some r' => (match buf r, buf r' with
                                | Some a, Some b => if Nat.eqb a b then 0 else len r
                                | _, _ => 0 (* there was no buffer and so no element *)
                                end) + moved slack x vs st'
          | _, _ => 0
          end
      | _ => 0
      end
  end.
