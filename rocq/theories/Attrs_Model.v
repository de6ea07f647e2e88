(** Attributes: syntax/attrs.rs, with the parsers it calls in syntax/namespace.rs,
    syntax/qualified.rs, syntax/names.rs and syntax/derive.rs.  Spans are not represented, error
    messages are shortened. *)
From Verif Require Import Base StrLib Syntax_Model Cfg_Model.

(** syn::Expr after the `=` of an attribute: a string literal; a path (with or without `<T>::`,
    with or without generic arguments, with or without leading `::`) of which the segments are
    given; anything else. *)
Inductive value : Type :=
| VStr (s : string)
| VPath (qself arguments leading : bool) (segments : list string)
| VOther.
(** syn::Meta; the tokens between the parentheses of a list *)
Inductive meta : Type := MPath | MList (l : list tok) | MNameValue (v : value).
(** syn::Attribute with the path (mod style, so without arguments) *)
Record sattr : Type := SAttr { a_leading : bool; a_path : list string; a_meta : meta }.
Definition is_ident (a : sattr) (x : string) : bool :=
  negb (a_leading a) && match a_path a with [y] => String.eqb y x | _ => false end.
(** syn::Path::get_ident *)
Definition get_ident (v : value) : option string :=
  match v with VPath _ false false [x] => Some x | _ => None end.

(** attrs.rs 30-45 Parser: [None] where the parser has no slot, otherwise the value in the slot.
    Of a doc the texts, and whether it is hidden. *)
Record parser : Type := Parser
  { ps_cfg : option cfg_expr; ps_doc : option (list string * bool); ps_derives : option (list trait);
    ps_repr : option (option atom); ps_namespace : option (list string); ps_cxx_name : option (option string);
    ps_rust_name : option (option string); ps_header : option bool; ps_ignore : bool }.

(** derive.rs 27-45 Derive::from *)
Definition derive_from (s : string) : option trait :=
  if String.eqb s "Clone" then Some DClone
  else if String.eqb s "Copy" then Some DCopy
  else if String.eqb s "Debug" then Some DDebug
  else if String.eqb s "Default" then Some DDefault
  else if String.eqb s "Eq" then Some DEq
  else if String.eqb s "ExternType" then Some DExternType
  else if String.eqb s "Hash" then Some DHash
  else if String.eqb s "Ord" then Some DOrd
  else if String.eqb s "PartialEq" then Some DPartialEq
  else if String.eqb s "PartialOrd" then Some DPartialOrd
  else if String.eqb s "Serialize" then Some DSerialize
  else if String.eqb s "Deserialize" then Some DDeserialize
  else None.

Section Attrs.
  (** proc_macro2's tokenizer, on the text of a string literal *)
  Variable lex : string -> option (list tok).
  (** the keywords of Rust (as tokens they are [KPunct], except for true and false) *)
  Variable keyword : string -> bool.
  (** cfg!(feature = "experimental-enum-variants-from-header") *)
  Variable experimental : bool.

  (** syn::Ident::parse_any on a token: also keywords *)
  Definition any_ident (t : tok) : option string :=
    match t with
    | KIdent s => Some s
    | KLitBool b => Some (if b then "true" else "false")
    | KPunct s => if keyword s then Some s else None
    | _ => None
    end.
  (** str::strip_prefix("r#") *)
  Definition strip_raw (s : string) : option string :=
    match s with String "r" (String "#" s) => Some s | _ => None end.

  (** the leading `::` *)
  Definition is_sep (t : tok) : bool := match t with KPunct s => String.eqb s "::" | _ => false end.
  (** qualified.rs 39-65 parse_unquoted, the loop: the segments, whether there was trailing
      punctuation, and the rest of the input *)
  Fixpoint qualified_loop (allow_raw : bool) (input : list tok) : res (list string * bool * list tok) :=
    match input with
    | [] => Ok ([], true, [])
    | t :: rest =>
        match any_ident t with
        | None => Ok ([], true, input)
        | Some ident =>
            bind (match strip_raw ident with
                  | Some unraw => if allow_raw then Ok unraw else Err "raw identifier is not allowed in a quoted namespace"
                  | None => Ok ident
                  end) (fun ident =>
              match rest with
              | c :: rest' =>
                  if is_sep c then bind (qualified_loop allow_raw rest') (fun '(segments, trailing, rest) => Ok (ident :: segments, trailing, rest))
                  else Ok ([ident], false, rest)
              | [] => Ok ([ident], false, [])
              end)
        end
    end.
  Definition parse_unquoted (allow_raw : bool) (input : list tok) : res (list string * list tok) :=
    let '(leading, input) := match input with t :: rest => if is_sep t then (true, rest) else (false, input) | [] => (false, input) end in
    bind (qualified_loop allow_raw input) (fun '(segments, trailing, rest) =>
      match segments with
      | [] => if leading then Err "expected path segment" else Err "expected path"
      | _ => if trailing then Err "expected path segment" else Ok (segments, rest)
      end).
  (** qualified.rs 10-20 parse_quoted; LitStr::parse_with wants all of the text consumed *)
  Definition parse_quoted (s : string) : res (list string) :=
    if String.eqb s "" then Ok []
    else match lex s with
         | None => Err "lex error"
         | Some toks => bind (parse_unquoted false toks) (fun '(segments, rest) =>
             match rest with [] => Ok segments | _ => Err "unexpected token" end)
         end.
  (** qualified.rs 22-36; namespace.rs 26-38 parse_bridge_attr_namespace, the argument of the
      bridge attribute itself *)
  Definition parse_bridge_namespace (input : list tok) : res (list string) :=
    match input with
    | [] => Ok []
    | KIdent k :: KEq :: rest =>
        if String.eqb k "namespace" then
          bind (match rest with
                | KStr s :: rest => bind (parse_quoted s) (fun segments => Ok (segments, rest))
                | _ => parse_unquoted true rest
                end) (fun '(segments, rest) =>
            match rest with [] | [KComma] => Ok segments | _ => Err "unexpected token" end)
        else Err "expected `namespace`"
    | _ => Err "expected `namespace`"
    end.
  (** namespace.rs 40-67 parse_meta *)
  Definition parse_meta (m : meta) : res (list string) :=
    match m with
    | MNameValue (VStr s) => parse_quoted s
    | MNameValue (VPath false false _ segments) => Ok segments
    | _ => Err "unsupported namespace attribute"
    end.

  (** names.rs 38-50 ForeignName::parse *)
  Definition foreign_name (text : string) : res string :=
    match lex text with
    | Some [t] => match any_ident t with Some s => Ok s | None => Err "expected ident" end
    | _ => Err "expected ident"
    end.
  (** attrs.rs 249-265 *)
  Definition parse_cxx_name (m : meta) : res string :=
    match m with
    | MNameValue (VStr s) => foreign_name s
    | MNameValue v => match get_ident v with Some x => foreign_name x | None => Err "unsupported cxx_name attribute" end
    | _ => Err "unsupported cxx_name attribute"
    end.
  (** attrs.rs 267-283; LitStr::parse::<Ident>, not a keyword *)
  Definition parse_rust_name (m : meta) : res string :=
    match m with
    | MNameValue (VStr s) => match lex s with Some [KIdent x] => Ok x | _ => Err "expected ident" end
    | MNameValue v => match get_ident v with Some x => Ok x | None => Err "unsupported rust_name attribute" end
    | _ => Err "unsupported rust_name attribute"
    end.
  (** attrs.rs 196-212 parse_doc_attribute: a text, or hidden *)
  Definition parse_doc (m : meta) : res (option string) :=
    match m with
    | MNameValue (VStr s) => Ok (Some s)
    | MList [KIdent x] => if String.eqb x "hidden" then Ok None else Err "expected `hidden`"
    | MList _ => Err "expected `hidden`"
    | _ => Err "unsupported doc attribute"
    end.
  (** attrs.rs 230-247 parse_repr_attribute *)
  Definition parse_repr (m : meta) : res atom :=
    match m with
    | MList [KIdent x] =>
        match atom_from_str x with
        | Some ((AU8 | AU16 | AU32 | AU64 | AUsize | AI8 | AI16 | AI32 | AI64 | AIsize) as a) => Ok a
        | _ => Err "unrecognized repr"
        end
    | _ => Err "unrecognized repr"
    end.

  (** syn::Path::parse_mod_style: a path of identifiers, self, super, crate, Self, try, with an
      optional leading `::`; [Some x] for a single identifier without leading `::` (get_ident),
      [None] for other paths *)
  Definition mod_ident (t : tok) : option string :=
    match t with
    | KIdent s => Some s
    | KPunct s => if existsb (String.eqb s) ["self"; "super"; "crate"; "Self"; "try"] then Some s else None
    | _ => None
    end.
  Fixpoint mod_segments (input : list tok) : res (list string * list tok) :=
    match input with
    | t :: rest =>
        match mod_ident t with
        | Some x =>
            match rest with
            | c :: rest' => if is_sep c then bind (mod_segments rest') (fun '(segments, rest) => Ok (x :: segments, rest)) else Ok ([x], rest)
            | [] => Ok ([x], [])
            end
        | None => Err "expected identifier"
        end
    | [] => Err "expected identifier"
    end.
  Definition mod_path (input : list tok) : res (option string * list tok) :=
    match input with
    | t :: rest =>
        if is_sep t then bind (mod_segments rest) (fun '(_, rest) => Ok (None, rest))
        else bind (mod_segments input) (fun '(segments, rest) => Ok (match segments with [x] => Some x | _ => None end, rest))
    | [] => Err "expected identifier"
    end.
  (** ParseBuffer::parse_terminated with `,`.  Every path consumes a token, so that the number of
      tokens is enough fuel; running out of it is [Panic] (excluded by Attrs_Proofs). *)
  Fixpoint mod_paths (fuel : nat) (input : list tok) : res (list (option string)) :=
    match input with
    | [] => Ok []
    | _ =>
        match fuel with
        | O => Panic "fuel"
        | S fuel =>
            bind (mod_path input) (fun '(path, rest) =>
              match rest with
              | [] => Ok [path]
              | KComma :: rest => bind (mod_paths fuel rest) (fun l => Ok (path :: l))
              | _ => Err "expected `,`"
              end)
        end
    end.
  (** attrs.rs 214-228 parse_derive_attribute: the derives, and the errors pushed *)
  Fixpoint derives_of (l : list (option string)) : list trait * list string :=
    match l with
    | [] => ([], [])
    | p :: l =>
        let '(ds, es) := derives_of l in
        match match p with Some x => derive_from x | None => None end with
        | Some d => (d :: ds, es)
        | None => (ds, "unsupported derive" :: es)
        end
    end.
  Definition parse_derive (m : meta) : res (list trait * list string) :=
    match m with
    | MList l => bind (mod_paths (List.length l) l) (fun paths => Ok (derives_of paths))
    | _ => Err "expected attribute arguments in parentheses"
    end.
  (** cfg.rs 31-37 *)
  Definition parse_cfg (m : meta) : res cfg_expr :=
    match m with MList l => parse_attribute l | _ => Err "expected attribute arguments in parentheses" end.

  (** What one attribute does to the loop: the parser afterwards and whether the attribute is
      passed through ([SContinue]); the end of the loop ([SBreak]); neither, so that the attribute
      is unsupported ([SUnrecognized]).  With the errors pushed. *)
  Inductive step : Type := SContinue (p : parser) (pass : bool) | SBreak | SUnrecognized.

  Definition set_cfg (p : parser) x := Parser x (ps_doc p) (ps_derives p) (ps_repr p) (ps_namespace p) (ps_cxx_name p) (ps_rust_name p) (ps_header p) (ps_ignore p).
  Definition set_doc (p : parser) x := Parser (ps_cfg p) x (ps_derives p) (ps_repr p) (ps_namespace p) (ps_cxx_name p) (ps_rust_name p) (ps_header p) (ps_ignore p).
  Definition set_derives (p : parser) x := Parser (ps_cfg p) (ps_doc p) x (ps_repr p) (ps_namespace p) (ps_cxx_name p) (ps_rust_name p) (ps_header p) (ps_ignore p).
  Definition set_repr (p : parser) x := Parser (ps_cfg p) (ps_doc p) (ps_derives p) x (ps_namespace p) (ps_cxx_name p) (ps_rust_name p) (ps_header p) (ps_ignore p).
  Definition set_namespace (p : parser) x := Parser (ps_cfg p) (ps_doc p) (ps_derives p) (ps_repr p) x (ps_cxx_name p) (ps_rust_name p) (ps_header p) (ps_ignore p).
  Definition set_cxx_name (p : parser) x := Parser (ps_cfg p) (ps_doc p) (ps_derives p) (ps_repr p) (ps_namespace p) x (ps_rust_name p) (ps_header p) (ps_ignore p).
  Definition set_rust_name (p : parser) x := Parser (ps_cfg p) (ps_doc p) (ps_derives p) (ps_repr p) (ps_namespace p) (ps_cxx_name p) x (ps_header p) (ps_ignore p).
  Definition set_header (p : parser) x := Parser (ps_cfg p) (ps_doc p) (ps_derives p) (ps_repr p) (ps_namespace p) (ps_cxx_name p) (ps_rust_name p) x (ps_ignore p).

  (** the common shape: an error is pushed and ends the loop; without a slot, unsupported *)
  Definition slot {A B} (r : res A) (s : option B) (f : A -> B -> step) : step * list string :=
    match r with
    | Ok a => (match s with Some b => f a b | None => SUnrecognized end, [])
    | Err e | Panic e => (SBreak, [e])
    end.

  (** attrs.rs 49-178: the body of the loop *)
  Definition attr_step (p : parser) (a : sattr) : step * list string :=
    if is_ident a "doc" then
      slot (parse_doc (a_meta a)) (ps_doc p) (fun d '(texts, hidden) =>
        SContinue (set_doc p (Some (match d with Some s => (texts ++ [s], hidden) | None => (texts, true) end))) false)
    else if is_ident a "derive" then
      match parse_derive (a_meta a) with
      | Ok (ds, es) => (match ps_derives p with Some old => SContinue (set_derives p (Some (old ++ ds))) false | None => SUnrecognized end, es)
      | Err e | Panic e => (SBreak, [e])
      end
    else if is_ident a "repr" then
      slot (parse_repr (a_meta a)) (ps_repr p) (fun r _ => SContinue (set_repr p (Some (Some r))) false)
    else if is_ident a "namespace" then
      slot (parse_meta (a_meta a)) (ps_namespace p) (fun ns _ => SContinue (set_namespace p (Some ns)) false)
    else if is_ident a "cxx_name" then
      slot (parse_cxx_name (a_meta a)) (ps_cxx_name p) (fun x _ => SContinue (set_cxx_name p (Some (Some x))) false)
    else if is_ident a "rust_name" then
      slot (parse_rust_name (a_meta a)) (ps_rust_name p) (fun x _ => SContinue (set_rust_name p (Some (Some x))) false)
    else if is_ident a "cfg" then
      slot (parse_cfg (a_meta a)) (ps_cfg p) (fun e cfg => SContinue (set_cfg p (Some (merge cfg e))) true)
    else if is_ident a "variants_from_header" && experimental then
      (match ps_header p with Some _ => SContinue (set_header p (Some true)) false | None => SUnrecognized end,
       match a_meta a with MPath => [] | _ => ["unexpected token in attribute"] end)
    else if is_ident a "allow" || is_ident a "warn" || is_ident a "deny" || is_ident a "forbid"
            || is_ident a "deprecated" || is_ident a "must_use" then (SContinue p true, [])
    else if is_ident a "serde" then (SContinue p true, [])
    else match a_path a with
         | tool :: _ :: _ =>
             if String.eqb tool "rustfmt" then (SContinue p false, [])
             else if String.eqb tool "clippy" then (SContinue p true, [])
             else (SUnrecognized, [])
         | _ => (SUnrecognized, [])
         end.

  (** attrs.rs 47-185 parse: the parser's slots at the end, the attributes passed through, the
      errors pushed *)
  Fixpoint attrs_parse (p : parser) (attrs : list sattr) : parser * list sattr * list string :=
    match attrs with
    | [] => (p, [], [])
    | a :: attrs =>
        let '(s, es) := attr_step p a in
        match s with
        | SContinue p pass =>
            let '(p, others, es') := attrs_parse p attrs in
            (p, if pass then a :: others else others, es ++ es')
        | SBreak => (p, [], es)
        | SUnrecognized =>
            if ps_ignore p then
              let '(p, others, es') := attrs_parse p attrs in (p, others, es ++ es')
            else (p, [], es ++ ["unsupported attribute"])
        end
    end.
End Attrs.
