(** What UniquePtr should be: an owned value that may be absent.  No addresses, no sharing. *)
From Verif Require Import Base Unique_Model.

Section UniqueSpec.
Context {V : Type}.
Variable veqb : V -> V -> bool.
Variable vcmp : V -> V -> comparison.

(** every variable holds nothing or a value of its own *)
Definition sstate := list (nat * (holder * option V)).

Definition get_var (x : nat) (k : holder) (e : sstate) : option (option V) :=
  match lookup x e, k with
  | Some (KUnique, w), KUnique | Some (KRaw, w), KRaw | Some (KCxx, w), KCxx => Some w
  | _, _ => None
  end.
Definition drop_of (o : option V) : list V := match o with Some v => [v] | None => [] end.
Fixpoint put (x : nat) (v : V) (e : sstate) : sstate :=
  match e with
  | [] => []
  | (y, (k, o)) :: e => if Nat.eqb x y then (y, (k, Some v)) :: e else (y, (k, o)) :: put x v e
  end.
Definition add (x : nat) (k : holder) (o : option V) (e : sstate) : outcome V sstate :=
  match lookup x e with Some _ => Illegal | None => Ok ((x, (k, o)) :: e) Done [] end.
(** change the kind of the holder *)
Definition pass (x : nat) (k k' : holder) (e : sstate) : outcome V sstate :=
  match get_var x k e with Some o => Ok ((x, (k', o)) :: remove x e) Done [] | None => Illegal end.
Definition write (x : nat) (v : V) (e : sstate) (if_null : obs V) : outcome V sstate :=
  match get_var x KUnique e with
  | Some (Some old) => Ok (put x v e) (Wrote true) [old]
  | Some None => Ok e if_null []
  | None => Illegal
  end.
Definition destroy (x : nat) (k : holder) (e : sstate) : outcome V sstate :=
  match get_var x k e with Some o => Ok (remove x e) Done (drop_of o) | None => Illegal end.

Definition sstep (o : op V) (e : sstate) : outcome V sstate :=
  match o with
  | Null x => add x KUnique None e
  | New x v => add x KUnique (Some v) e
  | IsNull x => match get_var x KUnique e with Some None => Ok e (Bool true) [] | Some (Some _) => Ok e (Bool false) [] | None => Illegal end
  | AsRef x | Fmt x => match get_var x KUnique e with Some r => Ok e (Ref r) [] | None => Illegal end
  | AsMut x v => write x v e (Wrote false)
  | Deref x => match get_var x KUnique e with Some (Some v) => Ok e (Ref (Some v)) [] | Some None => Ok e Panic [] | None => Illegal end
  | DerefMut x v | PinMut x v => write x v e Panic
  | Eq x y => match get_var x KUnique e, get_var y KUnique e with
              | Some a, Some b => Ok e (Bool match a, b with None, None => true | Some v, Some w => veqb v w | _, _ => false end) []
              | _, _ => Illegal end
  | Cmp x y => match get_var x KUnique e, get_var y KUnique e with
               | Some a, Some b => Ok e (Order match a, b with
                   | None, None => Datatypes.Eq | None, _ => Lt | _, None => Gt | Some v, Some w => vcmp v w end) []
               | _, _ => Illegal end
  | IntoRaw x => pass x KUnique KRaw e
  | FromRaw x => pass x KRaw KUnique e
  | ToCxx x => pass x KUnique KCxx e
  | FromCxx x => pass x KCxx KUnique e
  | Move x y => match get_var x KUnique e with Some o => add y KUnique o (remove x e) | None => Illegal end
  | Drop x => destroy x KUnique e
  | CxxNew x v => add x KCxx (Some v) e
  | CxxDrop x => destroy x KCxx e
  end.

Fixpoint srun (ops : list (op V)) (st : sstate) : outcome V sstate * list (obs V * list V) :=
  match ops with
  | [] => (Ok st Done [], [])
  | o :: ops => match sstep o st with
                | Ok st o d => let '(r, t) := srun ops st in (r, (o, d) :: t)
                | bad => (bad, [])
                end
  end.

(** the values held by the variables *)
Definition held (e : sstate) : list V := flat_map (fun x => drop_of (snd (snd x))) e.
End UniqueSpec.
