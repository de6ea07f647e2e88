(** Model of syntax/types.rs (Types::collect and the queries), visit.rs,
    instantiate.rs, trivial.rs: required_trivial_reasons, pod.rs, primitive.rs,
    improper.rs, resolve.rs. *)
From Verif Require Import Base Syntax_Model TypeEq_Model Toposort_Model.

(** syntax/visit.rs 9-34: the types visited from [t], in order, [t] first
    (types.rs 44-55 inserts before recursing).  Function pointers: the return type
    before the arguments. *)
Fixpoint subtypes (t : ty) : list ty :=
  t :: match t with
       | TIdent _ | TStr _ | TVoid => []
       | TBox t | TUniquePtr t | TSharedPtr t | TWeakPtr t | TCxxVector t | TVec t => subtypes t
       | TRef _ _ _ t | TPtr _ t | TArray t _ | TSlice _ _ t => subtypes t
       | TFn _ _ args ret =>
           (match ret with Some r => subtypes r | None => [] end)
           ++ (fix go (l : list (string * ty)) : list ty :=
                 match l with [] => [] | a :: l => subtypes (snd a) ++ go l end) args
       end.

(** OrderedSet<&Type>::insert (set.rs 27-33; the hash is consistent with equality, C15). *)
Definition all_insert (all : list ty) (t : ty) : list ty :=
  if existsb (ty_eqb t) all then all else all ++ [t].
Definition visit_all (all : list ty) (t : ty) : list ty := fold_left all_insert (subtypes t) all.

(** instantiate.rs 7-14: ImplKey; a NamedImplKey is compared by its identifier (59-64) *)
Inductive impl_kind : Set := KBox | KVec | KUnique | KShared | KWeak | KVector.
Definition impl_kind_eqb (a b : impl_kind) : bool :=
  match a, b with
  | KBox, KBox | KVec, KVec | KUnique, KUnique | KShared, KShared | KWeak, KWeak | KVector, KVector => true
  | _, _ => false
  end.
Definition impl_key : Type := impl_kind * string.
Definition impl_key_eqb (a b : impl_key) : bool :=
  impl_kind_eqb (fst a) (fst b) && String.eqb (snd a) (snd b).

(** instantiate.rs 29-58: Type::impl_key *)
Definition key_of (t : ty) : option impl_key :=
  match t with
  | TBox (TIdent n) => Some (KBox, n_rust n)
  | TVec (TIdent n) => Some (KVec, n_rust n)
  | TUniquePtr (TIdent n) => Some (KUnique, n_rust n)
  | TSharedPtr (TIdent n) => Some (KShared, n_rust n)
  | TWeakPtr (TIdent n) => Some (KWeak, n_rust n)
  | TCxxVector (TIdent n) => Some (KVector, n_rust n)
  | _ => None
  end.

(** UnorderedMap::insert with string keys (map.rs 95-97): replaces. *)
Definition uinsert {A} (k : string) (v : A) (m : list (string * A)) : list (string * A) :=
  (k, v) :: filter (fun p => negb (String.eqb k (fst p))) m.
Definition has {A} (k : string) (m : list (string * A)) : bool := is_some (assoc k m).

(** OrderedMap<ImplKey, _> (map.rs; C16): replace in place, else append. *)
Definition impls_has (k : impl_key) (m : list (impl_key * option impl_)) : bool :=
  existsb (fun p => impl_key_eqb k (fst p)) m.
Fixpoint impls_replace (k : impl_key) (v : option impl_) (m : list (impl_key * option impl_)) :=
  match m with
  | [] => []
  | (x, w) :: m => if impl_key_eqb k x then (x, v) :: m else (x, w) :: impls_replace k v m
  end.
Definition impls_insert (k : impl_key) (v : option impl_) (m : list (impl_key * option impl_)) :=
  if impls_has k m then impls_replace k v m else m ++ [(k, v)].

(** Errors reported during collection. *)
Inductive cerr : Type :=
| EDupType (name : string)     (* types.rs 288: the name is defined multiple times *)
| EDupFn (name : string)
| ECycle (i : nat) (field : var). (* toposort.rs 44: unsupported cyclic data structure *)

(** State of the loop over apis (types.rs 32-62). *)
Record cstate : Type := CState
  { c_all : list ty; c_structs : list (string * struct_); c_enums : list (string * enum_);
    c_cxx : list string; c_rust : list string; c_aliases : list (string * type_alias);
    c_untrusted : list (string * extern_type); c_impls : list (impl_key * option impl_);
    c_res : list (string * (pair_name * list string));
    c_type_names : list string; c_fn_names : list (option receiver * string); c_errs : list cerr }.
Definition c_init : cstate := CState [] [] [] [] [] [] [] [] [] [] [] [].

Definition opt_receiver_eqb (a b : option receiver) : bool :=
  match a, b with Some x, Some y => receiver_eqb x y | None, None => true | _, _ => false end.

Definition visit_types (all : list ty) (ts : list ty) : list ty := fold_left visit_all ts all.

Definition opt_list {A} (o : option A) : list A := match o with Some x => [x] | None => [] end.

(** types.rs 63-171: one iteration of the loop. *)
Definition collect_api (s : cstate) (a : api) : cstate :=
  match a with
  | AInclude _ => s
  | AStruct st =>
      let ident := p_rust (st_name st) in
      let dup := smem ident (c_type_names s)
                 && (negb (smem ident (c_cxx s)) || has ident (c_structs s) || has ident (c_enums s)) in
      CState (visit_types (c_all s) (map v_ty (st_fields st)))
             (uinsert ident st (c_structs s)) (c_enums s) (c_cxx s) (c_rust s) (c_aliases s) (c_untrusted s) (c_impls s)
             (uinsert ident (st_name st, st_lts st) (c_res s))
             (ident :: c_type_names s) (c_fn_names s)
             (c_errs s ++ if dup then [EDupType ident] else [])
  | AEnum e =>
      let ident := p_rust (en_name e) in
      let dup := smem ident (c_type_names s)
                 && (negb (smem ident (c_cxx s)) || has ident (c_structs s) || has ident (c_enums s)) in
      CState (all_insert (c_all s) (TIdent (Named (atom_name (en_repr e)) [])))
             (c_structs s) (uinsert ident e (c_enums s))
             (if en_from_header e then ident :: c_cxx s else c_cxx s)
             (c_rust s) (c_aliases s) (c_untrusted s) (c_impls s)
             (uinsert ident (en_name e, en_lts e) (c_res s))
             (ident :: c_type_names s) (c_fn_names s)
             (c_errs s ++ if dup then [EDupType ident] else [])
  | ACxxType t =>
      let ident := p_rust (et_name t) in
      let dup := smem ident (c_type_names s)
                 && (smem ident (c_cxx s) || negb (has ident (c_structs s)) && negb (has ident (c_enums s))) in
      CState (c_all s) (c_structs s) (c_enums s) (ident :: c_cxx s) (c_rust s) (c_aliases s)
             (if et_trusted t then c_untrusted s else uinsert ident t (c_untrusted s)) (c_impls s)
             (uinsert ident (et_name t, et_lts t) (c_res s))
             (ident :: c_type_names s) (c_fn_names s)
             (c_errs s ++ if dup then [EDupType ident] else [])
  | ARustType t =>
      let ident := p_rust (et_name t) in
      let dup := smem ident (c_type_names s) in
      CState (c_all s) (c_structs s) (c_enums s) (c_cxx s) (ident :: c_rust s) (c_aliases s) (c_untrusted s) (c_impls s)
             (uinsert ident (et_name t, et_lts t) (c_res s))
             (ident :: c_type_names s) (c_fn_names s)
             (c_errs s ++ if dup then [EDupType ident] else [])
  | ACxxFunction f | ARustFunction f =>
      let key := (fn_receiver f, p_rust (fn_name f)) in
      let dup := existsb (fun k => opt_receiver_eqb (fst key) (fst k) && String.eqb (snd key) (snd k)) (c_fn_names s) in
      CState (visit_types (c_all s) (map snd (fn_args f) ++ opt_list (fn_ret f)))
             (c_structs s) (c_enums s) (c_cxx s) (c_rust s) (c_aliases s) (c_untrusted s) (c_impls s) (c_res s)
             (c_type_names s) (key :: c_fn_names s)
             (c_errs s ++ if dup then [EDupFn (p_rust (fn_name f))] else [])
  | ATypeAlias t =>
      let ident := p_rust (ta_name t) in
      let dup := smem ident (c_type_names s) in
      CState (c_all s) (c_structs s) (c_enums s) (ident :: c_cxx s) (c_rust s) (uinsert ident t (c_aliases s))
             (c_untrusted s) (c_impls s)
             (uinsert ident (ta_name t, ta_lts t) (c_res s))
             (ident :: c_type_names s) (c_fn_names s)
             (c_errs s ++ if dup then [EDupType ident] else [])
  | AImpl i =>
      CState (visit_all (c_all s) (im_ty i))
             (c_structs s) (c_enums s) (c_cxx s) (c_rust s) (c_aliases s) (c_untrusted s)
             (match key_of (im_ty i) with Some k => impls_insert k (Some i) (c_impls s) | None => c_impls s end)
             (c_res s) (c_type_names s) (c_fn_names s) (c_errs s)
  end.
Definition collect_apis (apis : list api) : cstate := fold_left collect_api apis c_init.

(** types.rs 173-190: implicit instantiations *)
Definition implicit_impl (aliases : list (string * type_alias)) (k : impl_key) : bool :=
  negb (is_some (atom_from_str (snd k))) && negb (has (snd k) aliases).
Definition add_implicit (aliases : list (string * type_alias)) (m : list (impl_key * option impl_)) (t : ty)
  : list (impl_key * option impl_) :=
  match key_of t with
  | None => m
  | Some k => if implicit_impl aliases k && negb (impls_has k m) then impls_insert k None m else m
  end.

(** trivial.rs 8-16: TrivialReason *)
Inductive reason : Type :=
| RField (s : string) | RArg (f : string) | RRet (f : string) | RBoxTarget | RVecElement
| RSlice (mutable : bool) | RUnpinnedMut (f : string).

(** The (name, reason) pairs passed to insist_extern_types_are_trivial, in order:
    trivial.rs 39-93 *)
Definition reasons_of_sig_ty (byvalue : string -> reason) (fname : string) (t : ty) : list (string * reason) :=
  match t with
  | TIdent n => [(n_rust n, byvalue fname)]
  | TRef pinned mutable _ (TIdent n) => if mutable && negb pinned then [(n_rust n, RUnpinnedMut fname)] else []
  | _ => []
  end.
Definition reasons_of_api (a : api) : list (string * reason) :=
  match a with
  | AStruct st =>
      flat_map (fun f => match v_ty f with TIdent n => [(n_rust n, RField (p_rust (st_name st)))] | _ => [] end)
               (st_fields st)
  | ACxxFunction f | ARustFunction f =>
      let fname := p_rust (fn_name f) in
      (match fn_receiver f with
       | Some r => if rc_mutable r && negb (rc_pinned r) then [(n_rust (rc_ty r), RUnpinnedMut fname)] else []
       | None => []
       end)
      ++ flat_map (fun a => reasons_of_sig_ty RArg fname (snd a)) (fn_args f)
      ++ (match fn_ret f with Some t => reasons_of_sig_ty RRet fname t | None => [] end)
  | _ => []
  end.
(** trivial.rs 95-119 *)
Definition reasons_of_ty (t : ty) : list (string * reason) :=
  match t with
  | TBox (TIdent n) => [(n_rust n, RBoxTarget)]
  | TVec (TIdent n) => [(n_rust n, RVecElement)]
  | TSlice mutable _ (TIdent n) => [(n_rust n, RSlice mutable)]
  | _ => []
  end.
(** trivial.rs 18-122.  entry(..).or_insert_with(Vec::new).push(reason) *)
Fixpoint push_reason (k : string) (r : reason) (m : list (string * list reason)) : list (string * list reason) :=
  match m with
  | [] => [(k, [r])]
  | (x, l) :: m => if String.eqb k x then (x, l ++ [r]) :: m else (x, l) :: push_reason k r m
  end.
Definition required_trivial_reasons (apis : list api) (all : list ty)
    (structs : list (string * struct_)) (enums : list (string * enum_)) (cxx : list string)
  : list (string * list reason) :=
  fold_left (fun m '(k, r) =>
               if smem k cxx && negb (has k structs) && negb (has k enums) then push_reason k r m else m)
            (flat_map reasons_of_api apis ++ flat_map reasons_of_ty all) [].

(** types.rs 15-28: struct Types *)
Record types : Type := Types_
  { t_all : list ty; t_structs : list (string * struct_); t_enums : list (string * enum_);
    t_cxx : list string; t_rust : list string; t_aliases : list (string * type_alias);
    t_untrusted : list (string * extern_type); t_required_trivial : list (string * list reason);
    t_impls : list (impl_key * option impl_); t_res : list (string * (pair_name * list string));
    t_improper : list string; t_toposorted : list struct_ }.

(** improper.rs 6-38 *)
Inductive improper_ctype : Type := Definite (b : bool) | Depends (name : string).
Fixpoint determine_improper (structs : list (string * struct_)) (rust : list string)
    (aliases : list (string * type_alias)) (t : ty) : improper_ctype :=
  match t with
  | TIdent n =>
      match atom_from_str (n_rust n) with
      | Some a => Definite (atom_eqb a ARustString)
      | None =>
          match assoc (n_rust n) structs with
          | Some s => Depends (p_rust (st_name s))
          | None => Definite (smem (n_rust n) rust || has (n_rust n) aliases)
          end
      end
  | TBox _ | TVec _ | TStr _ | TFn _ _ _ _ | TVoid | TSlice _ _ _ => Definite true
  | TUniquePtr _ | TSharedPtr _ | TWeakPtr _ | TCxxVector _ => Definite false
  | TRef _ _ _ t => determine_improper structs rust aliases t
  | TPtr _ t => determine_improper structs rust aliases t
  | TArray t _ => determine_improper structs rust aliases t
  end.

Section Improper.
  Context (structs : list (string * struct_)) (rust : list string) (aliases : list (string * type_alias)).

  (** types.rs 221-236: the closure passed to retain, on the fields of one struct.
      Result: [inl tt] = found improper (insert, return false), [inr retain]. *)
  Fixpoint scan_fields (improper : list string) (fs : list var) (retain : bool) : unit + bool :=
    match fs with
    | [] => inr retain
    | f :: fs =>
        match determine_improper structs rust aliases (v_ty f) with
        | Depends inner => if smem inner improper then inl tt else scan_fields improper fs true
        | Definite true => inl tt
        | Definite false => scan_fields improper fs retain
        end
    end.

  (** types.rs 220-237: one retain pass, visiting the elements in the order given.
      Result: kept elements, improper set, new_information. *)
  Fixpoint retain_pass (order : list string) (improper : list string) : list string * list string * bool :=
    match order with
    | [] => ([], improper, false)
    | x :: order =>
        match scan_fields improper (match assoc x structs with Some s => st_fields s | None => [] end) false with
        | inl _ => let '(k, i, _) := retain_pass order (x :: improper) in (k, i, true)
        | inr keep => let '(k, i, n) := retain_pass order improper in (if keep then x :: k else k, i, n)
        end
    end.

  (** types.rs 218-238: while new_information.  [ord n l] is the iteration order of
      the hash set with elements [l] in round [n]. [None] = out of fuel. *)
  Fixpoint improper_loop (fuel : nat) (ord : nat -> list string -> list string) (n : nat)
      (unresolved improper : list string) : option (list string) :=
    match fuel with
    | O => None
    | S fuel =>
        let '(kept, improper, new) := retain_pass (ord n unresolved) improper in
        if new then improper_loop fuel ord (S n) kept improper else Some improper
    end.
End Improper.

Definition struct_improper_ctypes (ord : nat -> list string -> list string) structs rust aliases : option (list string) :=
  improper_loop structs rust aliases (S (List.length structs)) ord 0 (map fst structs) [].

(** types.rs 31-241: Types::collect.  [None] = out of fuel (excluded by theorems). *)
Definition collect (ord : nat -> list string -> list string) (apis : list api) : option (types * list cerr) :=
  let s := collect_apis apis in
  match toposort (structs_of apis), struct_improper_ctypes ord (c_structs s) (c_rust s) (c_aliases s) with
  | Some (order, errs), Some improper =>
      Some (Types_ (c_all s) (c_structs s) (c_enums s) (c_cxx s) (c_rust s) (c_aliases s) (c_untrusted s)
                  (required_trivial_reasons apis (c_all s) (c_structs s) (c_enums s) (c_cxx s))
                  (fold_left (add_implicit (c_aliases s)) (c_all s) (c_impls s))
                  (c_res s) improper
                  (flat_map (fun i => match nth_error (structs_of apis) i with Some s => [s] | None => [] end) order),
            c_errs s ++ map (fun e => ECycle (fst e) (snd e)) errs)
  | _, _ => None
  end.

(** primitive.rs 4-22 *)
Inductive prim_kind : Set := PBoolean | PNumber | PPointer.
Definition prim_kind_of (t : ty) : option prim_kind :=
  match t with
  | TIdent n =>
      match atom_from_str (n_rust n) with
      | Some ABool => Some PBoolean
      | Some (ACxxString | ARustString) => None
      | Some _ => Some PNumber
      | None => None
      end
  | TPtr _ _ => Some PPointer
  | _ => None
  end.

Section Pod.
  Context (structs : list (string * struct_)) (enums : list (string * enum_)).

  (** Iterator::all with a possibly diverging predicate: stops at the first false. *)
  Fixpoint all_fields (p : ty -> option bool) (fs : list var) : option bool :=
    match fs with
    | [] => Some true
    | f :: fs =>
        if is_none (prim_kind_of (v_ty f)) then
          match p (v_ty f) with
          | Some true => all_fields p fs
          | o => o
          end
        else Some false
    end.

  (** pod.rs 5-33: is_guaranteed_pod.  The recursion goes through struct
      definitions; [None] = fuel exhausted (the Rust code would keep recursing). *)
  Fixpoint is_guaranteed_pod (fuel : nat) (t : ty) : option bool :=
    match fuel with
    | O => None
    | S fuel =>
        match t with
        | TIdent n =>
            match atom_from_str (n_rust n) with
            | Some (ACxxString | ARustString) => Some false
            | Some _ => Some true
            | None =>
                match assoc (n_rust n) structs with
                | Some s => all_fields (is_guaranteed_pod fuel) (st_fields s)
                | None => Some (has (n_rust n) enums)
                end
            end
        | TBox _ | TVec _ | TUniquePtr _ | TSharedPtr _ | TWeakPtr _ | TCxxVector _ | TVoid => Some false
        | TRef _ _ _ _ | TStr _ | TFn _ _ _ _ | TSlice _ _ _ | TPtr _ _ => Some true
        | TArray t _ => is_guaranteed_pod fuel t
        end
    end.
End Pod.

(** types.rs 264-269 *)
Definition is_considered_improper (T : types) (t : ty) : bool :=
  match determine_improper (t_structs T) (t_rust T) (t_aliases T) t with
  | Definite b => b
  | Depends x => smem x (t_improper T)
  end.

(** types.rs 243-255: needs_indirect_abi *)
Definition needs_indirect_abi (fuel : nat) (T : types) (t : ty) : option bool :=
  match t with
  | TBox _ | TUniquePtr _ | TRef _ _ _ _ | TPtr _ _ | TStr _ | TFn _ _ _ _ | TSlice _ _ _ => Some false
  | TArray _ _ => Some true
  | _ => match is_guaranteed_pod (t_structs T) (t_enums T) fuel t with
         | Some pod => Some (negb pod || is_considered_improper T t)
         | None => None
         end
  end.

(** types.rs 273-277 *)
Definition is_maybe_trivial (T : types) (x : string) : bool :=
  has x (t_structs T) || has x (t_enums T) || has x (t_aliases T).

(** resolve.rs 20-23: try_resolve *)
Definition try_resolve (T : types) (x : string) : option (pair_name * list string) := assoc x (t_res T).
