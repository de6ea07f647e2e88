(** What SharedPtr and WeakPtr should be: names of objects.  An object is alive as long as a
    shared pointer names it; there are no counts. *)
From Verif Require Import Base Shared_Model.

Section SharedSpec.
Context {V : Type}.
Variable veqb : V -> V -> bool.
Variable vcmp : V -> V -> comparison.

(** the values of all objects made so far, and the variables *)
Definition sstate := (list V * list (nat * (kind * option nat)))%type.

Definition owning (k : kind) : bool := match k with KShared | KCxxShared => true | _ => false end.
Definition alive (a : nat) (e : list (nat * (kind * option nat))) : bool :=
  existsb (fun x => owning (fst (snd x)) && match snd (snd x) with Some b => Nat.eqb a b | None => false end) e.

Definition var (x : nat) (k : kind) (e : list (nat * (kind * option nat))) (f : option nat -> outcome V sstate) : outcome V sstate :=
  match lookup x e with
  | Some (k', p) => if kind_eqb k k' then f p else Illegal
  | None => Illegal
  end.
Definition add (x : nat) (k : kind) (p : option nat) (st : sstate) : outcome V sstate :=
  match lookup x (snd st) with Some _ => Illegal | None => Ok (fst st, (x, (k, p)) :: snd st) Done [] end.
Definition value (p : option nat) (objs : list V) : option V :=
  match p with None => None | Some a => nth_error objs a end.
(** removing a variable; the object goes if it was the last owner *)
Definition forget (x : nat) (p : option nat) (st : sstate) : outcome V sstate :=
  let e := remove x (snd st) in
  Ok (fst st, e) Done
     match p with
     | None => []
     | Some a => if alive a e then [] else match nth_error (fst st) a with Some v => [v] | None => [] end
     end.
Fixpoint update (a : nat) (v : V) (l : list V) : list V :=
  match l, a with [], _ => [] | _ :: l, 0 => v :: l | x :: l, S a => x :: update a v l end.
Definition lock (p : option nat) (e : list (nat * (kind * option nat))) : option nat :=
  match p with Some a => if alive a e then Some a else None | None => None end.

Definition sstep (o : op V) (st : sstate) : outcome V sstate :=
  let '(objs, e) := st in
  match o with
  | Null x => add x KShared None st
  | New x v => add x KShared (Some (List.length objs)) (objs ++ [v], e)
  | IsNull x => var x KShared e (fun p => Ok st (Bool match p with None => true | _ => false end) [])
  | AsRef x => var x KShared e (fun p => Ok st (Ref (value p objs)) [])
  | Deref x => var x KShared e (fun p => Ok st match p with None => Panic | Some _ => Ref (value p objs) end [])
  | Clone x y => var x KShared e (fun p => add y KShared p st)
  | Drop x => var x KShared e (fun p => forget x p st)
  | Downgrade x y => var x KShared e (fun p => add y KWeak p st)
  | Eq x y => var x KShared e (fun p => var y KShared e (fun q =>
      Ok st (Bool match value p objs, value q objs with None, None => true | Some a, Some b => veqb a b | _, _ => false end) []))
  | Cmp x y => var x KShared e (fun p => var y KShared e (fun q =>
      Ok st (Order match value p objs, value q objs with
                   | None, None => Datatypes.Eq | None, _ => Lt | _, None => Gt | Some a, Some b => vcmp a b end) []))
  | WNull x => add x KWeak None st
  | Upgrade x y => var x KWeak e (fun p => add y KShared (lock p e) st)
  | WClone x y => var x KWeak e (fun p => add y KWeak p st)
  | WDrop x => var x KWeak e (fun _ => Ok (objs, remove x e) Done [])
  | WDebug x => var x KWeak e (fun p => Ok st (Ref (value (lock p e) objs)) [])
  | ToCxx x => var x KShared e (fun p => Ok (objs, (x, (KCxxShared, p)) :: remove x e) Done [])
  | FromCxx x => var x KCxxShared e (fun p => Ok (objs, (x, (KShared, p)) :: remove x e) Done [])
  | WToCxx x => var x KWeak e (fun p => Ok (objs, (x, (KCxxWeak, p)) :: remove x e) Done [])
  | WFromCxx x => var x KCxxWeak e (fun p => Ok (objs, (x, (KWeak, p)) :: remove x e) Done [])
  | CxxCopy x y => var x KCxxShared e (fun p => add y KCxxShared p st)
  | CxxWrite x v => var x KCxxShared e (fun p =>
      match p with
      | None => Illegal
      | Some a => Ok (update a v objs, e) Done match nth_error objs a with Some old => [old] | None => [] end
      end)
  | CxxDrop x => var x KCxxShared e (fun p => forget x p st)
  end.

Fixpoint srun (ops : list (op V)) (st : sstate) : outcome V sstate * list (obs V * list V) :=
  match ops with
  | [] => (Ok st Done [], [])
  | o :: ops => match sstep o st with
                | Ok st o d => let '(r, t) := srun ops st in (r, (o, d) :: t)
                | bad => (bad, [])
                end
  end.
End SharedSpec.
