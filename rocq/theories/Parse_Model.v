(** From the syntax tree of a bridge module to its items: syntax/parse.rs.  The source types
    below are syn's, as far as parse.rs looks at them.  Visibility is not represented (parse.rs
    1468-1474 makes everything public), nor are spans.  Error messages are shortened. *)
From Verif Require Import Base Syntax_Model Cfg_Model Discriminant_Model Names_Model Check_Model ParseTy_Model Attrs_Model.

(** * The source *)
(** syn::GenericParam: a lifetime with or without bounds, a type, a constant *)
Inductive gparam : Type := GLt (x : string) (bounds : bool) | GTy | GConst.
Record sgenerics : Type := SGenerics { g_params : list gparam; g_where : bool }.

Record sfield : Type := SField { sf_attrs : list sattr; sf_ident : string; sf_ty : rty }.
(** syn::Fields *)
Inductive sfields : Type := FNamed (l : list sfield) | FUnit | FTuple.
Record sstruct : Type := SStruct { ss_attrs : list sattr; ss_ident : string; ss_generics : sgenerics; ss_fields : sfields }.
Record svariant : Type := SVariant { sv_attrs : list sattr; sv_ident : string; sv_unit : bool; sv_disc : option dexpr }.
Record senum : Type := SEnum { se_attrs : list sattr; se_ident : string; se_generics : sgenerics; se_variants : list svariant }.

(** syn::Receiver: `&self` and `&mut self`; `self: T`; `self` *)
Inductive sreceiver : Type := RcShort (lt : option string) (mutable : bool) | RcTyped (t : rty) | RcValue.
(** syn::Pat: an identifier, `_`, anything else *)
Inductive spat : Type := PIdent (x : string) | PWild | POther.
Record sarg : Type := SArg { sa_attrs : list sattr; sa_pat : spat; sa_ty : rty }.
(** syn::ForeignItemFn; a receiver is always the first argument *)
Record sfn : Type := SFn
  { sn_attrs : list sattr; sn_ident : string; sn_generics : sgenerics;
    sn_async : bool; sn_unsafe : bool; sn_const : bool; sn_abi : bool; sn_variadic : bool;
    sn_receiver : option (list sattr * sreceiver); sn_args : list sarg; sn_ret : rret }.
(** syn::ForeignItemType: `type T;` *)
Record stype : Type := SType { sy_attrs : list sattr; sy_ident : string; sy_generics : sgenerics }.

(** the tokens inside of include!(..): an identifier, a string, another literal, a punctuation
    character, a group *)
Inductive itok : Type := ITIdent (s : string) | ITStr (s : string) | ITLit (s : string) | ITPunct (c : ascii) | ITGroup.

(** what follows the name in a type that syn leaves unparsed: `= T;`, `: A + B;` (each bound a
    plain identifier, or something else), anything else *)
Inductive stail : Type := TailAlias | TailBounds (l : list (option string)) | TailOther.
(** syn::ForeignItem.  [FVerbatimFn] is a function with a body, [FVerbatimOther] any other tokens
    that syn leaves unparsed; [FOther] stands for statics and macros other than include. *)
Inductive sforeign : Type :=
| FType (t : stype)
| FFn (f : sfn)
| FInclude (attrs : list sattr) (l : list itok)
| FVerbatimType (attrs : list sattr) (ident : string) (params : list gparam) (tail : stail)
| FVerbatimFn
| FVerbatimOther
| FOther.
(** file.rs 36-43 ItemForeignMod; the name of the ABI, if any *)
Record sblock : Type := SBlock { sb_attrs : list sattr; sb_unsafe : bool; sb_abi : option string; sb_items : list sforeign }.
(** syn::ItemImpl; [si_negative]: the type is preceded by `!` *)
Record simpl : Type := SImpl
  { si_attrs : list sattr; si_unsafe : bool; si_default : bool; si_generics : sgenerics; si_trait : bool;
    si_negative : bool; si_ty : rty; si_empty : bool }.
(** file.rs 27-34 Item *)
Inductive sitem : Type :=
| ItStruct (s : sstruct) | ItEnum (e : senum) | ItForeign (b : sblock) | ItImpl (i : simpl) | ItUse | ItOther.

(** * The result *)
(** Documentation (texts and whether hidden) and attributes passed through, of an item and of
    its fields or variants *)
Record extra : Type := Extra { ex_doc : list string * bool; ex_pass : list sattr }.
Record out : Type := Out { o_api : api; o_extra : extra; o_subs : list extra }.
Definition no_extra : extra := Extra ([], false) [].

(** A computation that may panic ([Panic], never [Err]) and otherwise has a value and errors *)
Notation R A := (res (A * list string)) (only parsing).
Definition bindR {A B} (r : R A) (f : A -> R B) : R B :=
  match r with
  | Ok (a, es) => match f a with Ok (b, es') => Ok (b, es ++ es') | Err m => Err m | Panic m => Panic m end
  | Err m => Err m
  | Panic m => Panic m
  end.
Definition ret {A} (a : A) : R A := Ok (a, []).
Definition report (e : string) : R unit := Ok (tt, [e]).
Definition report_if (b : bool) (e : string) : R unit := if b then report e else ret tt.
(** an error that makes the item disappear *)
Definition fail {A} (e : string) : R (option A) := Ok (None, [e]).
Fixpoint mapR {A B} (f : A -> R B) (l : list A) : R (list B) :=
  match l with
  | [] => ret []
  | a :: l => bindR (f a) (fun b => bindR (mapR f l) (fun bs => ret (b :: bs)))
  end.
Fixpoint somes {A} (l : list (option A)) : list A :=
  match l with [] => [] | Some a :: l => a :: somes l | None :: l => somes l end.
(** Result::ok with `?` *)
Definition try {A B} (r : res A) (f : A -> R (option B)) : R (option B) :=
  match r with Ok a => f a | Err e => fail e | Panic m => Panic m end.

Section Parse.
  Variable lex : string -> option (list tok).
  Variable keyword : string -> bool.
  (** the features experimental-enum-variants-from-header and experimental-async-fn *)
  Variables experimental async_fn : bool.

  Definition empty_parser : parser := Parser None None None None None None None None false.
  Definition attributes (p : parser) (l : list sattr) : R (parser * list sattr) :=
    let '(p, pass, es) := attrs_parse lex keyword experimental p l in Ok ((p, pass), es).
  (** the values of the slots; where a parser has none, the value before *)
  Definition cfg_of (p : parser) : cfg_expr := match ps_cfg p with Some e => e | None => CUnconditional end.
  Definition extra_of (p : parser) (pass : list sattr) : extra := Extra (match ps_doc p with Some d => d | None => ([], false) end) pass.
  Definition derived (p : parser) : list trait := match ps_derives p with Some l => l | None => [] end.
  Definition namespace_of (p : parser) : list string := match ps_namespace p with Some l => l | None => [] end.

  (** 1476-1489 pair; the unwrap panics if the identifier is not one *)
  Definition pair (ns : list string) (default : string) (p : parser) : R pair_name :=
    let rust := match ps_rust_name p with Some (Some x) => x | _ => default end in
    match ps_cxx_name p with
    | Some (Some x) => ret (Pair ns x rust)
    | _ => match foreign_name lex keyword default with Ok x => ret (Pair ns x rust) | Err m | Panic m => Panic m end
    end.

  (** 87-118 and 789-827: the generics of a struct or an extern type; one error at most *)
  Fixpoint lifetimes (unsupported : bool) (l : list gparam) : list string * list string :=
    match l with
    | [] => ([], [])
    | GLt x bounds :: l =>
        let '(lts, es) := lifetimes (unsupported || bounds) l in
        (x :: lts, if bounds && negb unsupported then "lifetime parameter with bounds is not supported yet" :: es else es)
    | (GTy | GConst) :: l =>
        let '(lts, es) := lifetimes true l in
        (lts, if unsupported then es else "generic parameter is not supported yet" :: es)
    end.

  (** 127-164: a field; [None] if its type is not supported *)
  Definition field_parser : parser := Parser (Some CUnconditional) (Some ([], false)) None None None (Some None) (Some None) None false.
  Definition parse_field (f : sfield) : R (option (var * extra)) :=
    bindR (attributes field_parser (sf_attrs f)) (fun '(p, pass) =>
      try (parse_type (sf_ty f)) (fun ty =>
        bindR (pair [] (sf_ident f) p) (fun name =>
          ret (Some (Var (cfg_of p) name ty, extra_of p pass))))).

  (** 58-188 parse_struct *)
  Definition struct_parser (ns : list string) : parser :=
    Parser (Some CUnconditional) (Some ([], false)) (Some []) None (Some ns) (Some None) (Some None) None false.
  Definition parse_struct (ns : list string) (s : sstruct) : R (option out) :=
    bindR (attributes (struct_parser ns) (ss_attrs s)) (fun '(p, pass) =>
      match ss_fields s with
      | FUnit => fail "unit structs are not supported"
      | FTuple => fail "tuple structs are not supported"
      | FNamed fields =>
          bindR (Ok (lifetimes false (g_params (ss_generics s)))) (fun lts =>
          bindR (report_if (g_where (ss_generics s)) "struct with where-clause is not supported yet") (fun _ =>
          bindR (mapR parse_field fields) (fun vars =>
          bindR (pair (namespace_of p) (ss_ident s) p) (fun name =>
            let vars := somes vars in
            ret (Some (Out (AStruct (Struct_ (cfg_of p) (derived p) name lts (map fst vars)))
                           (extra_of p pass) (map snd vars)))))))
      end).

  (** 283-333 parse_variant *)
  Definition parse_variant (s : dset) (v : svariant) : R (dset * option (variant * extra)) :=
    bindR (attributes field_parser (sv_attrs v)) (fun '(p, pass) =>
      let '(s, d) := variant_disc s (RVariant (sv_unit v) (sv_disc v)) in
      match d with
      | Panic m => Panic m
      | Err e => Ok ((s, None), [e])
      | Ok d =>
          bindR (pair [] (sv_ident v) p) (fun name =>
            ret (s, Some (Variant (cfg_of p) name (disc_Z d), extra_of p pass)))
      end).
  Fixpoint parse_variants (s : dset) (l : list svariant) : R (dset * list (variant * extra)) :=
    match l with
    | [] => ret (s, [])
    | v :: l =>
        bindR (parse_variant s v) (fun '(s, o) =>
        bindR (parse_variants s l) (fun '(s, vs) =>
          ret (s, match o with Some x => x :: vs | None => vs end)))
    end.

  (** 190-281 parse_enum *)
  Definition enum_parser (ns : list string) : parser :=
    Parser (Some CUnconditional) (Some ([], false)) (Some []) (Some None) (Some ns) (Some None) (Some None) (Some false) false.
  Definition parse_enum (ns : list string) (e : senum) : R out :=
    bindR (attributes (enum_parser ns) (se_attrs e)) (fun '(p, pass) =>
      let repr := match ps_repr p with Some r => r | None => None end in
      bindR (match g_params (se_generics e) with
             | _ :: _ => report "enum with generic parameters is not supported"
             | [] => report_if (g_where (se_generics e)) "enum with where-clause is not supported"
             end) (fun _ =>
      bindR (parse_variants (dset_new repr) (se_variants e)) (fun '(s, variants) =>
      bindR (match inferred_repr s with
             | Ok r => ret (r, variants)
             | Err m => Ok ((AU8, []), [m])
             | Panic m => Panic m
             end) (fun '(r, variants) =>
      bindR (pair (namespace_of p) (se_ident e) p) (fun name =>
        ret (Out (AEnum (Enum_ (cfg_of p) (derived p) name [] (map fst variants)
                               (match ps_header p with Some b => b | None => false end) r
                               (match repr with Some _ => true | None => false end)))
                 (extra_of p pass) (map snd variants))))))).

  (** an item of an extern block has the cfg and the namespace of the block to begin with *)
  Definition item_parser (cfg : cfg_expr) (ns : list string) (derives : bool) : parser :=
    Parser (Some cfg) (Some ([], false)) (if derives then Some [] else None) None (Some ns) (Some None) (Some None) None false.

  Definition type_api (l : lang) (t : extern_type) : api := match l with LCxx => ACxxType t | LRust => ARustType t end.
  (** 456-512 parse_extern_type; 941-984, the end of parse_extern_type_bounded *)
  Definition parse_extern_type (l : lang) (trusted : bool) (cfg : cfg_expr) (ns : list string) (block : list sattr)
      (attrs : list sattr) (ident : string) (lts : list string) (bounds : list trait) : R out :=
    bindR (attributes (item_parser cfg ns true) attrs) (fun '(p, pass) =>
    bindR (pair (namespace_of p) ident p) (fun name =>
      ret (Out (type_api l (ExternType (cfg_of p) l (derived p) name lts bounds trusted)) (extra_of p (block ++ pass)) []))).

  (** 835-895 parse_type_alias; the text of the alias is not kept *)
  Definition parse_type_alias (l : lang) (cfg : cfg_expr) (ns : list string) (block : list sattr)
      (attrs : list sattr) (ident : string) (lts : list string) : R (option out) :=
    bindR (attributes (item_parser cfg ns true) attrs) (fun '(p, pass) =>
      match l with
      | LRust => fail "type alias in extern ""Rust"" block is not supported"
      | LCxx =>
          bindR (pair (namespace_of p) ident p) (fun name =>
            ret (Some (Out (ATypeAlias (TypeAlias (cfg_of p) (derived p) name lts)) (extra_of p (block ++ pass)) [])))
      end).

  (** 911-939: the bounds *)
  Fixpoint parse_bounds (l : list (option string)) : list trait * list string :=
    match l with
    | [] => ([], [])
    | b :: l =>
        let '(ts, es) := parse_bounds l in
        match match b with Some x => derive_from x | None => None end with
        | Some t => (t :: ts, es)
        | None => (ts, "unsupported trait" :: es)
        end
    end.

  (** 590-630: the receiver *)
  Definition parse_receiver (r : sreceiver) : res receiver :=
    match r with
    | RcShort lt mutable => Ok (Receiver false lt mutable (Named "Self" []) true)
    | RcTyped t =>
        bind (parse_type t) (fun ty =>
          match ty with
          | TRef pinned mutable lt (TIdent n) => Ok (Receiver pinned lt mutable n false)
          | _ => Err "unsupported method receiver"
          end)
    | RcValue => Err "unsupported method receiver"
    end.
  (** 631-660: the other arguments; [i] of them so far.  The attributes of an argument are not
      looked at; an argument whose name is not an identifier panics (642 pair). *)
  Fixpoint parse_args (i : nat) (l : list sarg) : res (list (string * ty)) :=
    match l with
    | [] => Ok []
    | a :: l =>
        bind (match sa_pat a with
              | PIdent x => Ok x
              | PWild => Ok (arg_name i)
              | POther => Err "unsupported signature"
              end) (fun x =>
        bind (parse_type (sa_ty a)) (fun t =>
        bind (match foreign_name lex keyword x with Ok x => Ok x | Err m | Panic m => Panic m end) (fun x =>
        bind (parse_args (S i) l) (fun args => Ok ((x, t) :: args)))))
    end.

  (** 542-584: what a function must not have *)
  Definition unsupported_fn (f : sfn) : option string :=
    if g_where (sn_generics f) || existsb (fun g => match g with GLt _ bounds => bounds | GTy | GConst => true end) (g_params (sn_generics f))
    then Some "extern function with generic parameters is not supported yet"
    else if sn_variadic f then Some "variadic function is not supported yet"
    else if sn_async f && negb async_fn then Some "async function is not directly supported yet"
    else if sn_const f then Some "const extern function is not supported"
    else if sn_abi f then Some "explicit ABI on extern function is not supported"
    else None.
  Definition fn_lts (l : list gparam) : list string := flat_map (fun g => match g with GLt x _ => [x] | GTy | GConst => [] end) l.
  Definition fn_api (l : lang) (f : extern_fn) : api := match l with LCxx => ACxxFunction f | LRust => ARustFunction f end.
  (** 514-698 parse_extern_fn *)
  Definition parse_extern_fn (l : lang) (trusted : bool) (cfg : cfg_expr) (ns : list string) (block : list sattr) (f : sfn) : R (option out) :=
    bindR (attributes (item_parser cfg ns false) (sn_attrs f)) (fun '(p, pass) =>
      match unsupported_fn f with
      | Some e => fail e
      | None =>
          try (match sn_receiver f with Some (_, r) => bind (parse_receiver r) (fun r => Ok (Some r)) | None => Ok None end) (fun receiver =>
          try (parse_args 0 (sn_args f)) (fun args =>
          try (parse_ret (sn_ret f)) (fun '(throws, rt) =>
          bindR (pair (namespace_of p) (sn_ident f) p) (fun name =>
            ret (Some (Out (fn_api l (ExternFn (cfg_of p) l name (sn_async f) (sn_unsafe f) (fn_lts (g_params (sn_generics f)))
                                        receiver args rt throws trusted))
                           (extra_of p (block ++ pass)) []))))))
      end).

  (** 1095-1139 parse_include; the tokens between the angle brackets *)
  Fixpoint include_path (l : list itok) : res (string * list itok) :=
    match l with
    | [] => Err "expected `>`"
    | ITPunct c :: l =>
        if Ascii.eqb c ">" then Ok ("", l)
        else bind (include_path l) (fun '(s, rest) => Ok (String c s, rest))
    | ITIdent x :: l => bind (include_path l) (fun '(s, rest) => Ok ((x ++ s)%string, rest))
    | ITLit x :: l =>
        match x with
        | String d _ =>
            if (48 <=? Ascii.nat_of_ascii d)%nat && (Ascii.nat_of_ascii d <=? 57)%nat
            then bind (include_path l) (fun '(s, rest) => Ok ((x ++ s)%string, rest))
            else Err "unexpected token in include path"
        | EmptyString => Err "unexpected token in include path"
        end
    | (ITStr _ | ITGroup) :: l => Err "unexpected token in include path"
    end.
  Definition parse_include (cfg : cfg_expr) (l : list itok) : res include_ :=
    bind (match l with
          | ITStr s :: rest => Ok (s, false, rest)
          | ITPunct "<" :: rest => bind (include_path rest) (fun '(s, rest) => Ok (s, true, rest))
          | _ => Err "expected ""quoted/path/to"" or <bracketed/path/to>"
          end) (fun '(s, bracketed, rest) =>
      match rest with [] => Ok (Include_ cfg s bracketed) | _ => Err "unexpected token" end).

  (** 372-403 and 700-787: one item of an extern block; attributes of include! are not looked at,
      nor is the where-clause of a type *)
  Definition parse_foreign_item (l : lang) (trusted : bool) (cfg : cfg_expr) (ns : list string) (block : list sattr) (i : sforeign) : R (option out) :=
    match i with
    | FType t =>
        bindR (Ok (lifetimes false (g_params (sy_generics t)))) (fun lts =>
        bindR (parse_extern_type l trusted cfg ns block (sy_attrs t) (sy_ident t) lts []) (fun o => ret (Some o)))
    | FFn f => parse_extern_fn l trusted cfg ns block f
    | FInclude _ body => try (parse_include cfg body) (fun i => ret (Some (Out (AInclude i) no_extra [])))
    | FVerbatimType attrs ident params tail =>
        bindR (Ok (lifetimes false params)) (fun lts =>
          match tail with
          | TailAlias => parse_type_alias l cfg ns block attrs ident lts
          | TailBounds bounds =>
              bindR (Ok (parse_bounds bounds)) (fun bounds =>
              bindR (parse_extern_type l trusted cfg ns block attrs ident lts bounds) (fun o => ret (Some o)))
          | TailOther => fail "expected `=` or `:`"
          end)
    | FVerbatimFn => fail "expected `;`"
    | FVerbatimOther => fail "unsupported foreign item, expected `type` or `fn`"
    | FOther => fail "unsupported foreign item"
    end.

  (** 438-453 parse_lang *)
  Definition parse_lang (abi : option string) : res lang :=
    match abi with
    | None => Err "ABI name is required"
    | Some s => if String.eqb s "C++" then Ok LCxx else if String.eqb s "Rust" then Ok LRust else Err "unrecognized ABI"
    end.

  Definition block_parser (ns : list string) : parser := Parser (Some CUnconditional) None None None (Some ns) None None None false.
  Definition with_api (o : out) (a : api) : out := Out a (o_extra o) (o_subs o).
  (** 335-436 parse_foreign_mod; the part after the items, and the error about unsafe
      extern "Rust", are Check_Model.parse_foreign_mod *)
  Definition parse_block (trusted : bool) (ns : list string) (b : sblock) : R (list out) :=
    match parse_lang (sb_abi b) with
    | Ok l =>
        bindR (attributes (block_parser ns) (sb_attrs b)) (fun '(p, pass) =>
        bindR (mapR (parse_foreign_item l (trusted || sb_unsafe b) (cfg_of p) (namespace_of p) pass) (sb_items b)) (fun items =>
          let items := somes items in
          bindR (Ok (parse_foreign_mod l (sb_unsafe b) trusted (map o_api items))) (fun apis =>
            ret (map (fun '(o, a) => with_api o a) (combine items apis)))))
    | Err e => Ok ([], [e])
    | Panic m => Panic m
    end.

  (** 986-1093 parse_impl; what the attributes pass through is dropped, `unsafe` and `default`
      are not looked at *)
  Definition impl_parser : parser := Parser (Some CUnconditional) None None None None None None None false.
  Fixpoint impl_lts (l : list gparam) : res (list string) :=
    match l with
    | [] => Ok []
    | GLt x false :: l => bind (impl_lts l) (fun lts => Ok (x :: lts))
    | _ => Err "generic parameter on an impl is not supported yet"
    end.
  Definition parse_impl (i : simpl) : R (option out) :=
    bindR (attributes impl_parser (si_attrs i)) (fun '(p, _) =>
      if negb (si_empty i) then fail "expected an empty impl block"
      else if si_trait i then fail "unexpected impl, expected something like `impl UniquePtr<T> {}`"
      else if g_where (si_generics i) then fail "where-clause on an impl is not supported yet"
      else try (impl_lts (g_params (si_generics i))) (fun lts =>
           try (parse_type (si_ty i)) (fun ty =>
             ret (Some (Out (AImpl (Impl_ (cfg_of p) lts (si_negative i) ty)) no_extra []))))).

  (** 30-55 parse_items *)
  Definition parse_item (trusted : bool) (ns : list string) (i : sitem) : R (list out) :=
    let one r := bindR r (fun o => ret (match o with Some o => [o] | None => [] end)) in
    match i with
    | ItStruct s => one (parse_struct ns s)
    | ItEnum e => bindR (parse_enum ns e) (fun o => ret [o])
    | ItForeign b => parse_block trusted ns b
    | ItImpl i => one (parse_impl i)
    | ItUse => Ok ([], ["`use` items are not allowed within cxx bridge"])
    | ItOther => Ok ([], ["unsupported item"])
    end.
  Definition parse_items (trusted : bool) (ns : list string) (items : list sitem) : R (list out) :=
    bindR (mapR (parse_item trusted ns) items) (fun outs => ret (List.concat outs)).
End Parse.
