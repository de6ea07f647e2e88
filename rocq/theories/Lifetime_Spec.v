(** Specification for C90: lifetimes in Rust signatures, after the Rust reference
    (lifetime elision) and as rustc implements it: an elided lifetime in a result is that of
    the reference to self, if there is a self; otherwise there must be exactly one parameter
    whose type has lifetimes, and these must be the same.  Lifetimes inside function pointer
    types are the concern of that type alone. *)
From Verif Require Import Base Syntax_Model Types_Spec Check_Spec Lifetime_Model.

(** [None]: elided *)
Definition lifetime : Type := option string.
Definition lt (a : string) : lifetime := if String.eqb a "_" then None else Some a.
Definition olt (a : option string) : lifetime := match a with Some a => lt a | None => None end.

(** Where a lifetime in a result comes from: it is named, or it is the elided one of a
    parameter (for a reference to self: that of the reference) *)
Inductive origin : Type := FromName (a : string) | FromParam (i : nat).
Definition origin_of (l : lifetime) (i : nat) : origin := match l with Some a => FromName a | None => FromParam i end.

(** The only lifetime in the parameters *)
Inductive sole : list (list lifetime) -> origin -> Prop :=
| so_one pre l post : Forall (eq []) pre -> Forall (eq []) post -> sole (pre ++ [l] :: post) (origin_of l (List.length pre))
| so_same pre a n post : Forall (eq []) pre -> Forall (eq []) post -> sole (pre ++ repeat (Some a) (S n) :: post) (FromName a).
(** The elision rules for the results [outs], given the lifetime of the reference to self, if
    there is one, and the lifetimes in the parameters; [l] is where each comes from. *)
Definition elides (self : option lifetime) (params : list (list lifetime)) (outs : list lifetime) (l : list origin) : Prop :=
  Forall2 (fun s o => match s with
                      | Some a => o = FromName a
                      | None => match self with Some r => o = origin_of r 0 | None => sole params o end
                      end) outs l.

Definition in_scope (scope : list string) (a : string) : Prop := a = "_"%string \/ a = "static"%string \/ In a scope.
Definition good_scope (scope : list string) : Prop := NoDup scope /\ ~ In "_"%string scope /\ ~ In "static"%string scope.

(** * As written in the bridge *)
Section Written.
  (** How many lifetime parameters a type has *)
  Context (ar : string -> nat).
  Definition args_of (x : string) (lts : list string) : list lifetime := match lts with [] => repeat None (ar x) | _ => map lt lts end.
  Fixpoint written (t : ty) : list lifetime :=
    match t with
    | TIdent n => args_of (n_rust n) (n_lts n)
    | TBox u | TVec u | TUniquePtr u | TSharedPtr u | TWeakPtr u | TCxxVector u | TPtr _ u | TArray u _ => written u
    | TRef _ _ l u | TSlice _ l u => olt l :: written u
    | TStr l => [olt l]
    | TFn _ _ _ _ | TVoid => []
    end.
  Definition owritten (t : option ty) : list lifetime := match t with Some t => written t | None => [] end.
  Inductive proper_type (scope : list string) : ty -> Prop :=
  | pt_ident n : n_lts n = [] \/ List.length (n_lts n) = ar (n_rust n) -> Forall (in_scope scope) (n_lts n) -> proper_type scope (TIdent n)
  | pt_box u : proper_type scope u -> proper_type scope (TBox u)
  | pt_vec u : proper_type scope u -> proper_type scope (TVec u)
  | pt_unique u : proper_type scope u -> proper_type scope (TUniquePtr u)
  | pt_shared u : proper_type scope u -> proper_type scope (TSharedPtr u)
  | pt_weak u : proper_type scope u -> proper_type scope (TWeakPtr u)
  | pt_vector u : proper_type scope u -> proper_type scope (TCxxVector u)
  | pt_ptr m u : proper_type scope u -> proper_type scope (TPtr m u)
  | pt_array u n : proper_type scope u -> proper_type scope (TArray u n)
  | pt_ref p m l u : (forall a, l = Some a -> in_scope scope a) -> proper_type scope u -> proper_type scope (TRef p m l u)
  | pt_slice m l u : (forall a, l = Some a -> in_scope scope a) -> proper_type scope u -> proper_type scope (TSlice m l u)
  | pt_str l : (forall a, l = Some a -> in_scope scope a) -> proper_type scope (TStr l)
  | pt_void : proper_type scope TVoid
  | pt_fn un th args ret : Forall (fun a => proper_type scope (snd a)) args -> (forall r, ret = Some r -> proper_type scope r) ->
      (exists l, elides None (map (fun a => written (snd a)) args) (owritten ret) l) -> proper_type scope (TFn un th args ret).
  (** The lifetimes of the receiver and the parameters, and the meaning of a function of the
      bridge *)
  Definition inputs (f : extern_fn) : list (list lifetime) :=
    match fn_receiver f with Some r => [olt (rc_lt r) :: args_of (n_rust (rc_ty r)) (n_lts (rc_ty r))] | None => [] end ++ map (fun a => written (snd a)) (fn_args f).
  Definition declared_means (f : extern_fn) (l : list origin) : Prop :=
    elides (option_map (fun r => olt (rc_lt r)) (fn_receiver f)) (inputs f) (owritten (fn_ret f)) l.
  Record declared_ok (f : extern_fn) : Prop := Declared
    { dc_scope : good_scope (fn_generics f);
      dc_self : forall r, fn_receiver f = Some r -> proper_type (fn_generics f) (TIdent (rc_ty r)) /\ forall a, rc_lt r = Some a -> in_scope (fn_generics f) a;
      dc_args : Forall (fun a => proper_type (fn_generics f) (snd a)) (fn_args f);
      dc_ret : forall r, fn_ret f = Some r -> proper_type (fn_generics f) r;
      dc_means : exists l, declared_means f l }.

  (** * As generated *)
  Fixpoint brings (t : lty) : list lifetime :=
    match t with
    | LPath x lts args => args_of x lts ++ flat_map brings args
    | LRef l _ t => olt l :: brings t
    | LFnPtr _ _ => []
    end.
  Definition obrings (t : option lty) : list lifetime := match t with Some t => brings t | None => [] end.
  Inductive proper_lty (scope : list string) : lty -> Prop :=
  | pl_path x lts args : lts = [] \/ List.length lts = ar x -> Forall (in_scope scope) lts -> Forall (proper_lty scope) args -> proper_lty scope (LPath x lts args)
  | pl_ref l m t : (forall a, l = Some a -> in_scope scope a) -> proper_lty scope t -> proper_lty scope (LRef l m t)
  | pl_fn args ret : Forall (proper_lty scope) args -> (forall r, ret = Some r -> proper_lty scope r) ->
      (exists l, elides None (map brings args) (obrings ret) l) -> proper_lty scope (LFnPtr args ret).
  (** In the type of an impl block all lifetimes are written. *)
  Definition proper_impl (h : list string * lty) : Prop :=
    good_scope (fst h) /\ exists x lts, snd h = LPath x lts [] /\ List.length lts = ar x /\ Forall (in_scope (fst h)) lts.
  (** The lifetime of the reference to self: &self, self: Pin<&mut Self> *)
  Definition self_lifetime (t : lty) : option lifetime :=
    match t with LRef l _ _ | LPath _ _ [LRef l _ _] => Some (olt l) | _ => None end.
  Definition means (f : lfn) (l : list origin) : Prop :=
    elides (match l_self f with Some t => self_lifetime t | None => None end)
      (map brings (match l_self f with Some t => [t] | None => [] end ++ l_params f)) (obrings (l_ret f)) l.
  Definition scope_of (f : lfn) : list string := match l_impl f with Some h => fst h | None => [] end ++ l_generics f.
  Record compiles (f : lfn) : Prop := Compiles
    { cp_scope : good_scope (scope_of f);
      cp_impl : forall h, l_impl f = Some h -> proper_impl h;
      cp_self : forall t, l_self f = Some t -> proper_lty (scope_of f) t;
      cp_params : Forall (proper_lty (scope_of f)) (l_params f);
      cp_ret : forall t, l_ret f = Some t -> proper_lty (scope_of f) t;
      cp_means : exists l, means f l }.

  (** The lifetimes that remain when a type is passed through the C ABI: those of &str and of
      slices do not, and what is behind a pointer does not where it is passed as a void
      pointer ([hidden]). *)
  Fixpoint carried (hidden : ty -> bool) (t : ty) : list lifetime :=
    match t with
    | TStr _ | TSlice _ _ _ => []
    | TVec u => carried hidden u
    | TBox u | TUniquePtr u => if hidden u then [] else carried hidden u
    | TPtr _ u => if hidden u then [] else written t
    | TRef _ _ l u =>
        match u with
        | TVec v => olt l :: carried hidden v
        | TIdent n => if String.eqb (n_rust n) "String" then written t else if hidden u then [] else written t
        | _ => if hidden u then [] else written t
        end
    | _ => written t
    end.
  Definition carried_inputs (hidden : ty -> bool) (f : extern_fn) : list (list lifetime) :=
    match fn_receiver f with Some r => [olt (rc_lt r) :: args_of (n_rust (rc_ty r)) (n_lts (rc_ty r))] | None => [] end ++ map (fun a => carried hidden (snd a)) (fn_args f).
End Written.

(** The lifetime parameters of a type of the bridge: those of the struct, if it is one; an
    enum has none. *)
Definition arity (apis : list api) (x : string) : nat :=
  match find (fun a => match a with AStruct s => String.eqb (p_rust (st_name s)) x | AEnum e => String.eqb (p_rust (en_name e)) x | _ => false end) apis with
  | Some (AStruct s) => List.length (st_lts s)
  | Some _ => 0
  | None =>
      match find (fun a => match a with ACxxType t | ARustType t => String.eqb (p_rust (et_name t)) x | ATypeAlias t => String.eqb (p_rust (ta_name t)) x | _ => false end) apis with
      | Some (ACxxType t) | Some (ARustType t) => List.length (et_lts t)
      | Some (ATypeAlias t) => List.length (ta_lts t)
      | _ => 0
      end
  end.
(** All declarations of a type have the same number of lifetime parameters. *)
Definition arities_agree (apis : list api) : Prop := forall p lts, declares apis p lts -> List.length lts = arity apis (p_rust p).

(** Not declared in the bridge: what the macro itself writes for types that are not of the
    bridge (only Result is an identifier that the bridge could declare; String, CxxString,
    c_char and str it can only declare as aliases). *)
Definition own_names : list string :=
  ["String"; "CxxString"; "c_char"; "str"; "Result"; "()"; "[]"; "[;]"; "*mut"; "*const"; "impl ::cxx::core::fmt::Display";
   "::cxx::core::ffi::c_char"; "::cxx::CxxString"; "::cxx::alloc::string::String"; "::cxx::alloc::boxed::Box"; "::cxx::alloc::vec::Vec"; "::cxx::UniquePtr";
   "::cxx::SharedPtr"; "::cxx::WeakPtr"; "::cxx::CxxVector"; "::cxx::core::pin::Pin"; "::cxx::core::ffi::c_void"; "::cxx::core::result::Result"; "::cxx::Exception";
   "::cxx::private::RustString"; "::cxx::private::RustVec"; "::cxx::private::RustStr"; "::cxx::private::RustSlice"; "::cxx::private::Result"; "::cxx::private::FatFunction"]%string.
Definition own_undeclared (apis : list api) : Prop := forall p lts, declares apis p lts -> ~ In (p_rust p) own_names.
(** [subseq l l']: l' with some elements left out *)
Inductive subseq {A} : list A -> list A -> Prop :=
| ss_nil : subseq [] []
| ss_keep a l l' : subseq l l' -> subseq (a :: l) (a :: l')
| ss_drop a l l' : subseq l l' -> subseq l (a :: l').

(** The type argument of a smart pointer or collection *)
Inductive argument (n : named) : ty -> Prop :=
| ag_box : argument n (TBox (TIdent n)) | ag_vec : argument n (TVec (TIdent n)) | ag_unique : argument n (TUniquePtr (TIdent n))
| ag_shared : argument n (TSharedPtr (TIdent n)) | ag_weak : argument n (TWeakPtr (TIdent n)) | ag_vector : argument n (TCxxVector (TIdent n)).
