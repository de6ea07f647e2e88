(** Model of syntax/impls.rs: equality and hashing of types. *)
From Verif Require Import Base Syntax_Model.

(** Option<Lifetime> == Option<Lifetime> (syn: lifetimes compare by name) *)
Definition lt_eqb (a b : option string) : bool :=
  match a, b with
  | Some x, Some y => String.eqb x y
  | None, None => true
  | _, _ => false
  end.

(** impls.rs 86-102: PartialEq for Lifetimes *)
Fixpoint lts_eqb (a b : list string) : bool :=
  match a, b with
  | [], [] => true
  | x :: a, y :: b => String.eqb x y && lts_eqb a b
  | _, _ => false
  end.

(** mod.rs 340: derive(PartialEq) for NamedType *)
Definition named_eqb (a b : named) : bool :=
  String.eqb (n_rust a) (n_rust b) && lts_eqb (n_lts a) (n_lts b).

(** impls.rs 66-84: PartialEq for Type, with the component impls 118-136 (Ty1; the
    name is determined by the constructor), 151-175 (Ref), 231-253 (SliceRef) and
    307-363 (Signature; asyncness and receiver are always None in a function
    pointer).  There is no arm for two [Ptr]s nor for two [Array]s. *)
Fixpoint ty_eqb (a b : ty) : bool :=
  match a, b with
  | TIdent n, TIdent m => named_eqb n m
  | TBox s, TBox t => ty_eqb s t
  | TUniquePtr s, TUniquePtr t => ty_eqb s t
  | TSharedPtr s, TSharedPtr t => ty_eqb s t
  | TWeakPtr s, TWeakPtr t => ty_eqb s t
  | TRef p m l s, TRef p' m' l' t =>
      Bool.eqb p p' && lt_eqb l l' && Bool.eqb m m' && ty_eqb s t
  | TStr l, TStr l' => lt_eqb l l'
  | TVec s, TVec t => ty_eqb s t
  | TCxxVector s, TCxxVector t => ty_eqb s t
  | TFn u th args ret, TFn u' th' args' ret' =>
      Bool.eqb u u'
      && (match ret, ret' with
          | Some r, Some r' => ty_eqb r r'
          | None, None => true
          | _, _ => false
          end)
      && Bool.eqb th th'
      && Nat.eqb (List.length args) (List.length args')
      && (fix all (l : list (string * ty)) (l' : list (string * ty)) : bool :=
            match l, l' with
            | x :: l, y :: l' => ty_eqb (snd x) (snd y) && all l l'
            | _, _ => true
            end) args args'
  | TSlice m l s, TSlice m' l' t => lt_eqb l l' && Bool.eqb m m' && ty_eqb s t
  | TVoid, TVoid => true
  | _, _ => false
  end.

(** What is fed to the Hasher, as a stream. *)
Inductive hval : Set :=
| HDisc (variant : string) | HStr (s : string) | HBool (b : bool) | HLen (n : N) | HNone | HSome.

Definition lt_hash (l : option string) : list hval :=
  match l with None => [HNone] | Some s => [HSome; HStr s] end.

(** impls.rs 104-116 and mod.rs 340 *)
Definition named_hash (n : named) : list hval :=
  HStr (n_rust n) :: HLen (N.of_nat (List.length (n_lts n))) :: map HStr (n_lts n).

(** impls.rs 42-62: Hash for Type, with 138-149 (Ty1), 177-193 (Ref), 217-229 (Ptr),
    255-269 (SliceRef), 293-305 (Array), 365-397 (Signature). *)
Fixpoint ty_hash (t : ty) : list hval :=
  match t with
  | TIdent n => HDisc "Ident" :: named_hash n
  | TBox t => HDisc "RustBox" :: HStr "Box" :: ty_hash t
  | TVec t => HDisc "RustVec" :: HStr "Vec" :: ty_hash t
  | TUniquePtr t => HDisc "UniquePtr" :: HStr "UniquePtr" :: ty_hash t
  | TSharedPtr t => HDisc "SharedPtr" :: HStr "SharedPtr" :: ty_hash t
  | TWeakPtr t => HDisc "WeakPtr" :: HStr "WeakPtr" :: ty_hash t
  | TRef p m l t => HDisc "Ref" :: HBool p :: lt_hash l ++ HBool m :: ty_hash t
  | TPtr m t => HDisc "Ptr" :: HBool m :: ty_hash t
  | TStr l => HDisc "Str" :: HBool false :: lt_hash l ++ [HBool false; HStr "str"]
  | TCxxVector t => HDisc "CxxVector" :: HStr "CxxVector" :: ty_hash t
  | TFn u th args ret =>
      HDisc "Fn" :: HBool false :: HBool u :: HNone
      :: (fix go (l : list (string * ty)) : list hval :=
            match l with [] => [] | x :: l => ty_hash (snd x) ++ go l end) args
      ++ (match ret with None => [HNone] | Some r => HSome :: ty_hash r end)
      ++ [HBool th]
  | TVoid => [HDisc "Void"]
  | TSlice m l t => HDisc "SliceRef" :: lt_hash l ++ HBool m :: ty_hash t
  | TArray t n => HDisc "Array" :: ty_hash t ++ [HLen n]
  end.

(** impls.rs 399-429: PartialEq for Receiver (var and shorthand are ignored) *)
Definition receiver_eqb (a b : receiver) : bool :=
  Bool.eqb (rc_pinned a) (rc_pinned b) && lt_eqb (rc_lt a) (rc_lt b)
  && Bool.eqb (rc_mutable a) (rc_mutable b) && named_eqb (rc_ty a) (rc_ty b).

(** impls.rs 431-450: Hash for Receiver *)
Definition receiver_hash (r : receiver) : list hval :=
  HBool (rc_pinned r) :: lt_hash (rc_lt r) ++ HBool (rc_mutable r) :: named_hash (rc_ty r).
