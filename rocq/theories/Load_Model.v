(** macro/src/load.rs with macro/src/clang.rs: the variants of enums that are taken from
    the syntax tree of a C++ header (#![variants_from_header], experimental). *)
From Coq Require Import DecimalString DecimalN.
From Verif Require Import Base Syntax_Model Discriminant_Model Names_Model.

(** * The syntax tree *)
(** clang.rs 45-51: struct Type *)
Record qual := Qual { q_type : string; q_desugared : option string }.
(** What clang.rs 12 calls Unknown: all other nodes.  The code does not tell these
    apart; they are told apart here because they mean different things in C++. *)
Inductive other := Record_ | Function_ | Linkage | Other.
(** clang.rs 5-13: enum Clang, with the fields of 15-43 *)
Inductive kind :=
| NamespaceDecl (name : option string)
| EnumDecl (name : option string) (fixed_underlying_type : option qual)
| EnumConstantDecl (name : string)
| ImplicitCastExpr
| ConstantExpr (value : string)
| Unknown (what : other).
(** clang_ast::Node *)
Inductive node := Node (k : kind) (inner : list node).
Definition node_kind (n : node) : kind := match n with Node k _ => k end.
Definition node_inner (n : node) : list node := match n with Node _ l => l end.

(** * Enums of the bridge *)
(** The fields of syntax/mod.rs 117-136 that matter here; a variant is its C++ name, its Rust
    name and its discriminant; [l_repr] is the name in core::ffi once it is known *)
Record lvariant := LVariant { lv_cxx : string; lv_rust : string; lv_disc : disc }.
Record lenum := LEnum { l_name : pair_name; l_variants : list lvariant; l_repr : option string }.
(** The errors, without their wording; each but the last two is about one enum *)
Inductive lerror :=
| ExplicitVariants (n : pair_name) | NotFound (n : pair_name) | MultipleDefinitions (n : pair_name) | ImplicitRepr (n : pair_name)
| UnsupportedRepr (n : pair_name) (t : string) | UnsupportedName (n : pair_name) (v : string) | Overflow (n : pair_name) (v : string)
| NoValue (n : pair_name) (v : string) | NoPath | Unreadable.

Section Load.
  (** [Ident::parse_any] and [syn::parse_str::<Ident>] accept the text: it is an identifier or a keyword; an identifier *)
  Context (any_ident ident : string -> bool).

  (** load.rs 225-262: translate_qual_type; the name in ::cxx::core::ffi, and whether it is supported *)
  Definition translate_qual_type (t : string) : option string :=
    if String.eqb t "char" then Some "c_char" else if String.eqb t "int" then Some "c_int"
    else if String.eqb t "long" then Some "c_long" else if String.eqb t "long long" then Some "c_longlong"
    else if String.eqb t "signed char" then Some "c_schar" else if String.eqb t "short" then Some "c_short"
    else if String.eqb t "unsigned char" then Some "c_uchar" else if String.eqb t "unsigned int" then Some "c_uint"
    else if String.eqb t "unsigned long" then Some "c_ulong" else if String.eqb t "unsigned long long" then Some "c_ulonglong"
    else if String.eqb t "unsigned short" then Some "c_ushort" else None.

  (** str::parse::<u64> *)
  Definition parse_u64 (s : string) : option N :=
    let s := match s with String "+" s => s | _ => s end in
    match NilZero.uint_of_string s with
    | Some u => if N.leb (N.of_uint u) u64_max then Some (N.of_uint u) else None
    | None => None
    end.
  (** discriminant.rs 227-241: FromStr for Discriminant *)
  Definition disc_from_str (s : string) : option disc :=
    match s with
    | String "-" s => option_map (Disc Negative) (parse_u64 s)
    | _ => option_map (Disc Positive) (parse_u64 s)
    end.
  (** discriminant.rs 182-204: checked_succ; a subtraction below zero panics *)
  Definition checked_succ (d : disc) : res (option disc) :=
    match d_sign d with
    | Negative => if N.eqb (d_mag d) 1 then Ok (Some disc_zero)
                  else if N.eqb (d_mag d) 0 then Panic "attempt to subtract with overflow"
                  else Ok (Some (Disc Negative (d_mag d - 1)))
    | Positive => Ok (if N.ltb (d_mag d) u64_max then Some (Disc Positive (d_mag d + 1)) else None)
    end.

  (** load.rs 264-268: ParsedDiscriminant *)
  Inductive parsed := Constant (d : disc) | Successor | Fail.
  (** load.rs 277-293: the loop of discriminant_value *)
  Fixpoint constant_of (n : node) : parsed :=
    match n with
    | Node ImplicitCastExpr [n] => constant_of n
    | Node (ConstantExpr v) _ => match disc_from_str v with Some d => Constant d | None => Fail end
    | _ => Fail
    end.
  (** load.rs 270-294: discriminant_value *)
  Definition discriminant_value (l : list node) : parsed :=
    match l with [] => Successor | [n] => constant_of n | _ => Fail end.

  (** [ns]: the namespaces that the traversal is in; [es]: variants_from_header *)
  Record st := St { ns : list string; errs : list lerror; es : list lenum }.
  Definition error (e : lerror) (s : st) : st := St (ns s) (errs s ++ [e]) (es s).
  Definition set_enum (i : nat) (e : lenum) (s : st) : st := St (ns s) (errs s) (firstn i (es s) ++ e :: skipn (S i) (es s)).

  (** load.rs 119-120: the first enum of that name in the namespace *)
  Definition same (name : string) (path : list string) (e : lenum) : bool :=
    String.eqb (p_cxx (l_name e)) name && if list_eq_dec string_dec (p_ns (l_name e)) path then true else false.
  Fixpoint first_same (name : string) (path : list string) (l : list lenum) : option nat :=
    match l with
    | [] => None
    | e :: l => if same name path e then Some 0 else option_map S (first_same name path l)
    end.

  (** What comes before the children, load.rs 105-217: return, or go on with [idx] *)
  Inductive enter := Return (s : st) | Continue (idx : option nat) (s : st).

  (** load.rs 114-155 *)
  Definition enter_enum (name : option string) (fixed : option qual) (s : st) : enter :=
    match name with
    | None => Return s
    | Some name =>
        match first_same name (ns s) (es s) with
        | None => Return s
        | Some i =>
            match nth_error (es s) i with
            | None => Return s
            | Some e =>
                match l_variants e, fixed with
                | _ :: _, _ => Return (error (MultipleDefinitions (l_name e)) s)
                | [], None => Return (error (ImplicitRepr (l_name e)) s)
                | [], Some q =>
                    let t := match q_desugared q with Some t => t | None => q_type q end in
                    match translate_qual_type t with
                    | Some r => Continue (Some i) (set_enum i (LEnum (l_name e) (l_variants e) (Some r)) s)
                    | None => Continue (Some i) (set_enum i (LEnum (l_name e) (l_variants e) (Some "c_int")) (error (UnsupportedRepr (l_name e) t) s))
                    end
                end
            end
        end
    end.

  (** load.rs 156-215; the index is always in bounds (a panic otherwise) *)
  Definition enter_constant (name : string) (inner : list node) (idx : option nat) (s : st) : res enter :=
    match idx with
    | None => Ok (Continue idx s)
    | Some i =>
        match nth_error (es s) i with
        | None => Panic "index out of bounds"
        | Some e =>
            if any_ident name then
              let rust := if ident name then name else ("__Variant" ++ decimal (List.length (l_variants e)))%string in
              let push d s := Ok (Continue idx (set_enum i (LEnum (l_name e) (l_variants e ++ [LVariant name rust d]) (l_repr e)) s)) in
              match discriminant_value inner with
              | Constant d => push d s
              | Successor =>
                  match rev (l_variants e) with
                  | [] => push disc_zero s
                  | last :: _ =>
                      bind (checked_succ (lv_disc last)) (fun r =>
                        match r with
                        | Some d => push d s
                        | None => Ok (Return (error (Overflow (l_name e) name) s))
                        end)
                  end
              | Fail => push disc_zero (error (NoValue (l_name e) name) s)
              end
            else Ok (Return (error (UnsupportedName (l_name e) name) s))
        end
    end.

  Definition enter_node (k : kind) (inner : list node) (idx : option nat) (s : st) : res enter :=
    match k with
    | NamespaceDecl None => Ok (Return s)
    | NamespaceDecl (Some name) => Ok (Continue None (St (ns s ++ [name]) (errs s) (es s)))
    | EnumDecl name fixed => Ok (enter_enum name fixed s)
    | EnumConstantDecl name => enter_constant name inner idx s
    | ImplicitCastExpr | ConstantExpr _ | Unknown _ => Ok (Continue idx s)
    end.

  (** load.rs 98-223: traverse *)
  Fixpoint traverse (n : node) (idx : option nat) (s : st) {struct n} : res st :=
    let go := fix go (idx : option nat) (l : list node) (s : st) {struct l} : res st :=
      match l with [] => Ok s | n :: l => bind (traverse n idx s) (go idx l) end in
    match n with
    | Node k inner =>
        bind (enter_node k inner idx s) (fun r =>
          match r with
          | Return s => Ok s
          | Continue idx s =>
              bind (go idx inner s) (fun s =>
                match k with
                | NamespaceDecl _ => match ns s with [] => Panic "unwrap on None" | _ => Ok (St (removelast (ns s)) (errs s) (es s)) end
                | _ => Ok s
                end)
          end)
    end.

  (** An enum of the bridge before loading: its name, #![variants_from_header], whether it has variants of its own *)
  Record henum := HEnum { h_name : pair_name; h_from_header : bool; h_explicit : bool }.
  (** What $CXX_CLANG_AST leads to (45-83): the variable is not set; the file cannot be read, uncompressed or parsed; a tree *)
  Inductive dump := Unset | Broken | Tree (root : node).
  (** load.rs 21-96: load; the errors and the enums with their variants *)
  Definition load (d : dump) (l : list henum) : res (list lerror * list lenum) :=
    let early := flat_map (fun h => if h_from_header h && h_explicit h then [ExplicitVariants (h_name h)] else []) l in
    let chosen := flat_map (fun h => if h_from_header h && negb (h_explicit h) then [LEnum (h_name h) [] None] else []) l in
    match chosen, d with
    | [], _ => Ok (early, [])
    | _, Unset => Ok (early ++ [NoPath], chosen)
    | _, Broken => Ok (early ++ [Unreadable], chosen)
    | _, Tree root =>
        bind (traverse root None (St [] early chosen)) (fun s =>
          Ok (errs s ++ flat_map (fun e => match l_variants e with [] => [NotFound (l_name e)] | _ => [] end) (es s), es s))
    end.
End Load.
