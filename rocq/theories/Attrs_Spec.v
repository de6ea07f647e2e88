(** What attributes mean, attribute by attribute. *)
From Verif Require Import Base Syntax_Model Cfg_Model Cfg_Spec Attrs_Model.

(** the attribute is `x`, a single name *)
Definition is_named (a : sattr) (x : string) : Prop := a_leading a = false /\ a_path a = [x].

Inductive effect : Type :=
| EDoc (s : string)               (* a line of documentation *)
| EHidden                         (* hidden in the documentation *)
| EDerive (l : list trait)
| ERepr (a : atom)
| ENamespace (ns : list string)
| ECxx (s : string)               (* the name in C++ *)
| ERust (s : string)              (* the name in Rust *)
| ECfg (e : cfg_expr)
| EHeader                         (* variants from a header *)
| ELint                           (* for the Rust compiler or a tool that reads the expansion *)
| EFormat.                        (* for a tool that reads the source *)

(** the traits that can be derived *)
Definition derivable : list (string * trait) :=
  [("Clone", DClone); ("Copy", DCopy); ("Debug", DDebug); ("Default", DDefault); ("Eq", DEq); ("ExternType", DExternType);
   ("Hash", DHash); ("Ord", DOrd); ("PartialEq", DPartialEq); ("PartialOrd", DPartialOrd); ("Serialize", DSerialize); ("Deserialize", DDeserialize)].
(** names separated by commas, the last of which may be followed by one *)
Inductive derive_list : list tok -> list trait -> Prop :=
| dl_nil : derive_list [] []
| dl_last x d : In (x, d) derivable -> derive_list [KIdent x] [d]
| dl_cons x d l ds : In (x, d) derivable -> derive_list l ds -> derive_list (KIdent x :: KComma :: l) (d :: ds).
Definition integer (a : atom) : Prop := In a [AU8; AU16; AU32; AU64; AUsize; AI8; AI16; AI32; AI64; AIsize].

Section Spec.
  Variable lex : string -> option (list tok).
  Variable keyword : string -> bool.
  Variable experimental : bool.

  (** an identifier or keyword, with its text *)
  Inductive word : tok -> string -> Prop :=
  | word_ident x : word (KIdent x) x
  | word_keyword x : keyword x = true -> word (KPunct x) x
  | word_true : word (KLitBool true) "true"
  | word_false : word (KLitBool false) "false".
  Definition raw (x : string) : Prop := exists y, x = ("r#" ++ y)%string.
  (** a::b::c, of words that are not raw identifiers *)
  Inductive path : list tok -> list string -> Prop :=
  | path_one t x : word t x -> ~ raw x -> path [t] [x]
  | path_cons t x l ns : word t x -> ~ raw x -> path l ns -> path (t :: KPunct "::" :: l) (x :: ns).

  Inductive means : sattr -> effect -> Prop :=
  | m_doc a s : is_named a "doc" -> a_meta a = MNameValue (VStr s) -> means a (EDoc s)
  | m_hidden a : is_named a "doc" -> a_meta a = MList [KIdent "hidden"] -> means a EHidden
  | m_derive a l ds : is_named a "derive" -> a_meta a = MList l -> derive_list l ds -> means a (EDerive ds)
  | m_repr a t : is_named a "repr" -> integer t -> a_meta a = MList [KIdent (atom_name t)] -> means a (ERepr t)
  | m_namespace_empty a : is_named a "namespace" -> a_meta a = MNameValue (VStr "") -> means a (ENamespace [])
  | m_namespace_quoted a s l ns : is_named a "namespace" -> a_meta a = MNameValue (VStr s) -> s <> "" ->
      lex s = Some l -> path l ns \/ (exists l', l = KPunct "::" :: l' /\ path l' ns) -> means a (ENamespace ns)
  | m_namespace a leading ns : is_named a "namespace" -> a_meta a = MNameValue (VPath false false leading ns) -> means a (ENamespace ns)
  | m_cxx_quoted a s t x : is_named a "cxx_name" -> a_meta a = MNameValue (VStr s) -> lex s = Some [t] -> word t x -> means a (ECxx x)
  | m_cxx a q y t x : is_named a "cxx_name" -> a_meta a = MNameValue (VPath q false false [y]) -> lex y = Some [t] -> word t x -> means a (ECxx x)
  | m_rust_quoted a s x : is_named a "rust_name" -> a_meta a = MNameValue (VStr s) -> lex s = Some [KIdent x] -> means a (ERust x)
  | m_rust a q x : is_named a "rust_name" -> a_meta a = MNameValue (VPath q false false [x]) -> means a (ERust x)
  | m_cfg a l e : is_named a "cfg" -> a_meta a = MList l -> cfg_attribute l e -> means a (ECfg e)
  | m_header a : is_named a "variants_from_header" -> experimental = true -> a_meta a = MPath -> means a EHeader
  | m_lint a x : is_named a x -> In x ["allow"; "warn"; "deny"; "forbid"; "deprecated"; "must_use"; "serde"] -> means a ELint
  | m_clippy a x l : a_path a = "clippy" :: x :: l -> means a ELint
  | m_rustfmt a x l : a_path a = "rustfmt" :: x :: l -> means a EFormat.
End Spec.

(** the places where an effect is possible: those of which the parser has a slot *)
Definition allowed (p : parser) (e : effect) : Prop :=
  match e with
  | EDoc _ | EHidden => ps_doc p <> None
  | EDerive _ => ps_derives p <> None
  | ERepr _ => ps_repr p <> None
  | ENamespace _ => ps_namespace p <> None
  | ECxx _ => ps_cxx_name p <> None
  | ERust _ => ps_rust_name p <> None
  | ECfg _ => ps_cfg p <> None
  | EHeader => ps_header p <> None
  | ELint | EFormat => True
  end.

(** * What several attributes mean together *)
Definition docs (l : list effect) : list string := flat_map (fun e => match e with EDoc s => [s] | _ => [] end) l.
Definition hidden (l : list effect) : bool := existsb (fun e => match e with EHidden => true | _ => false end) l.
Definition derives (l : list effect) : list trait := flat_map (fun e => match e with EDerive s => s | _ => [] end) l.
Definition reprs (l : list effect) : list (option atom) := flat_map (fun e => match e with ERepr s => [Some s] | _ => [] end) l.
Definition namespaces (l : list effect) : list (list string) := flat_map (fun e => match e with ENamespace s => [s] | _ => [] end) l.
Definition cxx_names (l : list effect) : list (option string) := flat_map (fun e => match e with ECxx s => [Some s] | _ => [] end) l.
Definition rust_names (l : list effect) : list (option string) := flat_map (fun e => match e with ERust s => [Some s] | _ => [] end) l.
Definition cfgs (l : list effect) : list cfg_expr := flat_map (fun e => match e with ECfg s => [s] | _ => [] end) l.
Definition header (l : list effect) : bool := existsb (fun e => match e with EHeader => true | _ => false end) l.
(** the attributes that go to the expansion: lints and cfgs *)
Definition kept (l : list (sattr * effect)) : list sattr :=
  flat_map (fun '(a, e) => match e with ELint | ECfg _ => [a] | _ => [] end) l.

(** From the values [p] at the beginning, the attributes lead to [p']: documentation and derives
    add up, of names, namespaces and representations the last one counts, all conditions have to
    hold. *)
Definition outcome (effs : list effect) (p p' : parser) : Prop :=
  ps_doc p' = option_map (fun '(texts, h) => (texts ++ docs effs, h || hidden effs)%bool) (ps_doc p) /\
  ps_derives p' = option_map (fun l => l ++ derives effs) (ps_derives p) /\
  ps_repr p' = option_map (last (reprs effs)) (ps_repr p) /\
  ps_namespace p' = option_map (last (namespaces effs)) (ps_namespace p) /\
  ps_cxx_name p' = option_map (last (cxx_names effs)) (ps_cxx_name p) /\
  ps_rust_name p' = option_map (last (rust_names effs)) (ps_rust_name p) /\
  ps_header p' = option_map (fun b => b || header effs)%bool (ps_header p) /\
  match ps_cfg p, ps_cfg p' with
  | None, None => True
  | Some e, Some e' => forall c, holds c e' = (holds c e && forallb (holds c) (cfgs effs))%bool
  | _, _ => False
  end.
