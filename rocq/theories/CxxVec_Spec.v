(** What CxxVector should be: a list. *)
From Verif Require Import Base CxxVec_Model.

Section Spec.
Context {V : Type}.
Fixpoint replace (i : nat) (x : V) (l : list V) : list V :=
  match l, i with [], _ => [] | _ :: l, 0 => x :: l | y :: l, S i => y :: replace i x l end.
Definition lstep (o : op V) (l : list V) : list V * obs V :=
  match o with
  | Len => (l, OLen (List.length l))
  | IsEmpty => (l, OBool match l with [] => true | _ => false end)
  | Get i => (l, OElem (nth_error l i))
  | IndexMut i x => (replace i x l, OWrote match nth_error l i with Some _ => true | None => false end)
  | AsSlice => (l, OSlice l)
  | AsMutSlice ws => (fold_left (fun l w => replace (fst w) (snd w) l) ws l, OLen (List.length l))
  | Push x => (l ++ [x], ODone)
  | Pop => (removelast l, OElem match l with [] => None | x :: _ => Some (last l x) end)
  end.
Fixpoint lrun (ops : list (op V)) (l : list V) : list V * list (obs V) :=
  match ops with
  | [] => (l, [])
  | o :: ops => let '(l, ob) := lstep o l in let '(l, t) := lrun ops l in (l, ob :: t)
  end.

(** An iterator that has given out the first [n] elements *)
Definition listep (mutable : bool) (o : iop V) (st : list V * nat) : (list V * nat) * iobs V :=
  let '(l, n) := st in
  match o with
  | Next => if Nat.ltb n (List.length l) then ((l, S n), IElem (Some n)) else (st, IElem None)
  | Remaining => (st, ILen (List.length l - n))
  | Read k => (st, match nth_error (firstn n l) k with Some x => IRead x | None => IDone end)
  | Write k x => ((if mutable && Nat.ltb k n then replace k x l else l, n), IDone)
  end.
Fixpoint lirun (mutable : bool) (ops : list (iop V)) (st : list V * nat) : (list V * nat) * list (iobs V) :=
  match ops with
  | [] => (st, [])
  | o :: ops => let '(st, ob) := listep mutable o st in let '(st, t) := lirun mutable ops st in (st, ob :: t)
  end.
End Spec.
