(** How the C++ generator reports errors: syntax/report.rs, gen/src/mod.rs 143-183 and
    macro/src/expand.rs 20-48 (the order of the stages), gen/src/error.rs 158-175 (what is shown
    for an error), syntax/error.rs. *)
From Verif Require Import Base Syntax_Model Cfg_Model Types_Model Check_Model Attrs_Model Parse_Model File_Model.

(** An error: its message, or the one that collecting the types reports (whose wording is not
    modelled).  The place is not kept; see Span_Model for it.  The wording of some messages is
    abridged where they are produced (Parse_Model, Check_Model). *)
Inductive error_ : Type := Says (message : string) | Collected (e : cerr).

(** syn::Error holds one or more errors; syn::Error::combine appends. *)
Definition syn_error : Type := error_ * list error_.
Definition combine (a b : syn_error) : syn_error := (fst a, snd a ++ fst b :: snd b).
(** syn's IntoIterator for Error, as gen/src/error.rs 105-106 uses it *)
Definition all_of (e : syn_error) : list error_ := fst e :: snd e.

(** syntax/report.rs 22-31 Errors::propagate; errors are pushed at the end (14-20) *)
Definition propagate (errors : list error_) : option syn_error :=
  match errors with
  | [] => None
  | e :: r => Some (fold_left (fun all x => combine all (x, [])) r (e, []))
  end.

(** gen/src/mod.rs 143-200 and gen/src/error.rs 18-24: what comes of a file *)
Inductive outcome : Type :=
| Written (apis : list api) (T : types)   (* mod.rs 185-199: code is written for these *)
| Rejected (e : syn_error)
| Unreadable (message : string)           (* mod.rs 139: syn::parse_str fails *)
| NoBridge                                (* mod.rs 144-146 *)
| Stops (message : string).               (* a panic *)

(** What was pushed since [st] *)
Definition fresh (st st' : cfg_state) : list error_ :=
  map Says (skipn (List.length (cs_pushed st)) (cs_pushed st')).

Section Report.
  Variable lex : string -> option (list tok).
  Variable keyword : string -> bool.
  Variables experimental async_fn : bool.

  (** gen/src/mod.rs 148-171: the errors are pushed as they are found.  Of [st] the second part
      duplicates what was pushed about conditions.  The errors of one bridge are in the order of
      Parse_Model, where the one about unsafe extern "Rust" comes after those of the items of the
      block; they are sorted by position before they are shown (C79). *)
  Fixpoint read_modules (cev : evaluator) (errors : list error_) (st : cfg_state) (l : list module_)
    : res (list error_ * cfg_state * list api) :=
    match l with
    | [] => Ok (errors, st, [])
    | m :: l =>
        let '(p, _, es) := attrs_parse lex keyword experimental (bridge_parser true) (mo_attrs m) in
        let '(st1, keep) := cfg_eval cev st (cfg_of p) in
        match (if keep then parse_items lex keyword experimental async_fn (mo_unsafe m) (mo_namespace m) (mo_content m) else ret []) with
        | Ok (outs, es') =>
            match read_modules cev (errors ++ map Says es ++ fresh st st1 ++ map Says es') st1 l with
            | Ok (errors, st, apis) => Ok (errors, st, map o_api outs ++ apis)
            | Err e => Err e
            | Panic e => Panic e
            end
        | Err e => Err e
        | Panic e => Panic e
        end
    end.

  (** gen/src/mod.rs 139, 143-183.  Errors are drained where they are propagated, so that each
      stage starts without any. *)
  Definition report_file (allow_dot_includes : bool) (cev : evaluator) (ord : nat -> list string -> list string) (file : list fitem) : outcome :=
    match parse_fitems lex keyword file with
    | Err e => Unreadable e
    | Panic e => Stops e
    | Ok [] => NoBridge
    | Ok modules =>
        match read_modules cev [] (CfgState [] []) modules with
        | Err e => Stops e
        | Panic e => Stops e
        | Ok (errors, st, apis) =>
            let '(st', apis) := strip cev st apis in
            match propagate (errors ++ fresh st st') with
            | Some e => Rejected e
            | None =>
                match collect ord apis with
                | None => Stops "fuel"
                | Some (T, errs) =>
                    match propagate (map Collected errs ++ map Says (precheck allow_dot_includes apis)) with
                    | Some e => Rejected e
                    | None =>
                        match propagate (map Says (typecheck GBuild T apis)) with
                        | Some e => Rejected e
                        | None => Written apis T
                        end
                    end
                end
            end
        end
    end.

  (** macro/src/lib.rs 61-75, macro/src/expand.rs 20-48: what comes of the expansion of a bridge.
      Errors become calls of compile_error!, one for each (syn's to_compile_error).  load::load,
      of an experimental feature, is not modelled; [Written] has what expand is given. *)
  Definition report_bridge (ord : nat -> list string -> list string) (args : list tok)
      (attrs : list sattr) (unsafety : bool) (body : option (list sattr * list fitem)) : outcome :=
    match parse_bridge_namespace lex keyword args with
    | Err e => Unreadable e
    | Panic e => Stops e
    | Ok ns =>
        match parse_module attrs unsafety body with
        | Err e => Unreadable e
        | Panic e => Stops e
        | Ok m =>
            let '(_, _, es) := attrs_parse lex keyword experimental (Parser (Some CUnconditional) (Some ([], false)) None None None None None None false) (mo_attrs m) in
            match parse_items lex keyword experimental async_fn (mo_unsafe m) ns (mo_content m) with
            | Err e => Stops e
            | Panic e => Stops e
            | Ok (outs, es') =>
                let apis := map o_api outs in
                match collect ord apis with
                | None => Stops "fuel"
                | Some (T, errs) =>
                    match propagate (map Says es ++ map Says es' ++ map Collected errs) with
                    | Some e => Rejected e
                    | None =>
                        match propagate (map Says (typecheck GMacro T apis)) with
                        | Some e => Rejected e
                        | None => Written apis T
                        end
                    end
                end
            end
        end
    end.
End Report.

(** syntax/error.rs 3-9 Error *)
Record info : Type := Info { i_msg : string; i_label : option string; i_note : option string }.

(** syntax/error.rs 17-101 ERRORS, in order *)
Definition errors_table : list info :=
  [ Info "Box of a C++ type is not supported yet" None (Some "hint: use UniquePtr<> or SharedPtr<>");
    Info "identifiers starting with cxxbridge are reserved" (Some "reserved identifier") (Some "identifiers starting with cxxbridge are reserved");
    Info "C++ string by value is not supported" None (Some "hint: wrap it in a UniquePtr<>");
    Info "C++ type by value is not supported" None (Some "hint: wrap it in a UniquePtr<> or SharedPtr<>");
    Info "discriminant overflow on value after " (Some "discriminant overflow") (Some "note: explicitly set `= 0` if that is desired outcome");
    Info "#include relative to `.` or `..` is not supported in Cargo builds" (Some "#include relative to `.` or `..` is not supported in Cargo builds")
      (Some "note: use a path starting with the crate name");
    Info "identifiers containing double underscore are reserved in C++" (Some "reserved identifier") (Some "identifiers containing double underscore are reserved in C++");
    Info "invalid lifetime parameter name: `'static`" (Some "'static is a reserved lifetime name") None;
    Info "opaque Rust type by value is not supported" None (Some "hint: wrap it in a Box<>");
    Info "unsupported type: " (Some "unsupported type") None;
    Info "`use` items are not allowed within cxx bridge" (Some "not allowed")
      (Some "`use` items are not allowed within cxx bridge; only types defined
within your bridge, primitive types, or types exported by the cxx
crate may be used") ].

(** gen/src/error.rs 158-175 diagnose: the message, the label at the place and the notes; the
    range and the code "cxxbridge" are left out *)
Record diagnostic : Type := Diagnostic { d_message : string; d_label : string; d_notes : list string }.
Definition diagnose (message : string) : diagnostic :=
  match find (fun e => contains_str (i_msg e) message) errors_table with
  | Some e =>
      Diagnostic message (match i_label e with Some l => l | None => message end)
        (match i_note e with Some n => [n] | None => [] end)
  | None => Diagnostic message message []
  end.
