(** The bridges of a file, read off the source. *)
From Verif Require Import Base Syntax_Model Cfg_Model Cfg_Spec Mangle_Spec Attrs_Model Attrs_Spec Parse_Model File_Model Types_Model.
From Coq Require Import Sorting.Sorted.

(** * Positions *)
(** In a file, the item at a position: the index of an item, the index of an item inside of it, .. *)
Fixpoint inside (i : fitem) (p : list nat) : option fitem :=
  match p with
  | [] => Some i
  | n :: p =>
      match i with
      | FMod _ _ _ (Some (_, items)) => match nth_error items n with Some j => inside j p | None => None end
      | _ => None
      end
  end.
Definition item_at (file : list fitem) (p : list nat) : option fitem :=
  match p with
  | [] => None
  | n :: p => match nth_error file n with Some i => inside i p | None => None end
  end.
(** earlier in the source *)
Inductive before : list nat -> list nat -> Prop :=
| bf_outside n p : before [] (n :: p)
| bf_lt n m p q : (n < m)%nat -> before (n :: p) (m :: q)
| bf_eq n p q : before p q -> before (n :: p) (n :: q).

(** * Bridges *)
Definition attrs_of (i : fitem) : list sattr := match i with FMod a _ _ _ => a | FItem a _ => a end.
Definition names_bridge (a : sattr) : Prop := a_path a = ["cxx"; "bridge"].
Definition bridged (i : fitem) : Prop := exists a, In a (attrs_of i) /\ names_bridge a.
(** the item at [p] is a bridge and no module around it is *)
Definition bridge_at (file : list fitem) (p : list nat) : Prop :=
  (exists i, item_at file p = Some i /\ bridged i) /\
  forall q r i, p = q ++ r -> r <> [] -> item_at file q = Some i -> ~ bridged i.

Section Spec.
  Variable lex : string -> option (list tok).
  Variable keyword : string -> bool.

  (** a::b::c of words; of raw identifiers what follows the r# *)
  Definition unraw (x y : string) : Prop := x = ("r#" ++ y)%string \/ (~ raw x /\ y = x).
  Inductive raw_path : list tok -> list string -> Prop :=
  | rp_one t x y : word keyword t x -> unraw x y -> raw_path [t] [y]
  | rp_cons t x y l ns : word keyword t x -> unraw x y -> raw_path l ns -> raw_path (t :: KPunct "::" :: l) (y :: ns).
  Definition optional_comma (l : list tok) : Prop := l = [] \/ l = [KComma].
  (** what may be written in the parentheses of the attribute *)
  Inductive bridge_namespace : list tok -> list string -> Prop :=
  | bn_none : bridge_namespace [] []
  | bn_empty c : optional_comma c -> bridge_namespace (KIdent "namespace" :: KEq :: KStr "" :: c) []
  | bn_quoted s l ns c : optional_comma c -> s <> "" -> lex s = Some l ->
      path keyword l ns \/ (exists l', l = KPunct "::" :: l' /\ path keyword l' ns) ->
      bridge_namespace (KIdent "namespace" :: KEq :: KStr s :: c) ns
  | bn_path l ns c : optional_comma c -> raw_path l ns -> bridge_namespace (KIdent "namespace" :: KEq :: l ++ c) ns
  | bn_leading l ns c : optional_comma c -> raw_path l ns -> bridge_namespace (KIdent "namespace" :: KEq :: KPunct "::" :: l ++ c) ns.
  Inductive bridge_argument : meta -> list string -> Prop :=
  | ba_none : bridge_argument MPath []
  | ba_list l ns : bridge_namespace l ns -> bridge_argument (MList l) ns.

  (** The bridge [i] is read as [m]: it is a module with a body, its namespace that of its first
      bridge attribute *)
  Definition reads (i : fitem) (m : module_) : Prop :=
    exists attrs un x inner items pre a post ns,
      i = FMod attrs un x (Some (inner, items)) /\
      attrs = pre ++ a :: post /\ Forall (fun b => ~ names_bridge b) pre /\ names_bridge a /\ bridge_argument (a_meta a) ns /\
      m = Module_ (attrs ++ inner) ns un (map as_item items).
End Spec.

(** * Conditions *)
(** The conditions among the attributes of a module, whatever the other attributes are *)
Inductive conditions : list sattr -> list cfg_expr -> Prop :=
| co_nil : conditions [] []
| co_cfg a l e attrs es : is_named a "cfg" -> a_meta a = MList l -> cfg_attribute l e -> conditions attrs es -> conditions (a :: attrs) (e :: es)
| co_other a attrs es : ~ is_named a "cfg" -> conditions attrs es -> conditions (a :: attrs) es.
(** the attributes of a module, before it and at the beginning of its body *)
Definition all_attrs (i : fitem) : list sattr :=
  match i with FMod attrs _ _ (Some (inner, _)) => attrs ++ inner | FMod attrs _ _ None => attrs | FItem attrs _ => attrs end.
(** whether a module is part of the program *)
Definition switched (c : config) (i : fitem) (b : bool) : Prop :=
  exists es, conditions (all_attrs i) es /\ b = forallb (holds c) es.

(** * The macro *)
(** The macro is given what its attribute has in parentheses, and the module without that
    attribute (and maybe without others, that the compiler has already dealt with).  It succeeds
    and reads the declarations [outs]. *)
Definition macro_expands lex keyword experimental async_fn ord (i : fitem) (outs : list out) (T : types) : Prop :=
  exists attrs un x body pre a post args rest,
    i = FMod attrs un x body /\ attrs = pre ++ a :: post /\ Forall (fun b => ~ names_bridge b) pre /\ names_bridge a /\
    (a_meta a = MPath /\ args = [] \/ a_meta a = MList args) /\
    expand_bridge lex keyword experimental async_fn ord args rest un body = Ok (outs, T).
(** the bridges of a file that are switched on, in order *)
Definition enabled_bridges (c : config) (file : list fitem) (ps : list (list nat)) : Prop :=
  StronglySorted before ps /\
  forall p, In p ps <-> bridge_at file p /\ exists i, item_at file p = Some i /\ switched c i true.

(** * Includes *)
(** a path that begins with the component `.` or `..` *)
Definition relative (s : string) : Prop :=
  s = "." \/ s = ".." \/ exists r, s = ("./" ++ r)%string \/ s = ("../" ++ r)%string.

(** * Several bridges *)
(** no type name is declared in two bridges *)
Definition names_apart (bss : list (list api)) : Prop :=
  forall i j b b' a a' p q, nth_error bss i = Some b -> nth_error bss j = Some b' -> In a b -> In a' b' ->
    decl_name a = Some p -> decl_name a' = Some q -> p_rust p = p_rust q -> i = j.
