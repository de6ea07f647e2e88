(** The command line tool: gen/cmd/src/main.rs 44-119, app.rs 63-119, output.rs, gen/src/mod.rs
    97-142, 183-197, gen/src/error.rs 60-82. *)
From Verif Require Import Base Syntax_Model Cfg_Model Types_Model Check_Model File_Model.

(** The arguments, after clap: [m_input] and [m_annotations] at most once; the texts of --cfg as
    tokens (see Cfg_Model); strings are bytes. *)
Record matches_ : Type := Matches { m_help : bool; m_input : option string; m_annotations : option string; m_header : bool;
  m_includes : list string; m_outputs : list string; m_cfg : list (list tok) }.
(** gen/src/include.rs: struct Include; output.rs 3-7 *)
Inductive include_kind : Type := Quoted_ | Bracketed_.
Inductive output : Type := Stdout | File (path : string).
(** main.rs 44-52 *)
Record opt_ : Type := Opt_ { o_input : option string; o_header : bool; o_annotations : option string; o_includes : list (string * include_kind);
  o_outputs : list output; o_cfg : list (string * list cfg_value) }.

(** str::ends_with, by comparing the last bytes *)
Fixpoint drop_bytes (n : nat) (s : string) : string := match n, s with S n, String _ s => drop_bytes n s | _, _ => s end.
Definition ends_with_str (s suffix : string) : bool := Nat.leb (String.length suffix) (String.length s) && String.eqb (drop_bytes (String.length s - String.length suffix) s) suffix.
(** app.rs 79-93: [include[1..include.len() - 1]] *)
Definition parse_include (s : string) : string * include_kind :=
  if starts_with "<" s && ends_with_str s ">" then (String.substring 1 (String.length s - 2) s, Bracketed_) else (s, Quoted_).
(** app.rs 96-106 *)
Definition parse_outputs (paths : list string) : list output :=
  match map (fun p => if String.eqb p "-" then Stdout else File p) paths with
  | [] => [Stdout]
  | l => l
  end.
Inductive parsed : Type := Rejected | Help | Run (o : opt_).
(** app.rs 63-119, with what clap checks: that the input is there unless --header or --help is
    (122-127), that each --cfg is well-formed and consistent (129-154; Cfg_Model.parse_flags) *)
Definition from_args (m : matches_) : parsed :=
  match parse_flags (m_cfg m) [] with
  | None => Rejected
  | Some flags =>
      if is_none (m_input m) && negb (m_header m) && negb (m_help m) then Rejected
      else if m_help m then Help
      else Run (Opt_ (m_input m) (m_header m) (m_annotations m) (map parse_include (m_includes m)) (parse_outputs (m_outputs m)) (flag_map flags))
  end.

(** output.rs 9-16 *)
Definition output_ends_with (o : output) (suffix : string) : bool := match o with Stdout => false | File p => ends_with_str p suffix end.
(** main.rs 61-65 *)
Inductive kind : Type := GeneratedHeader | GeneratedImplementation | Header.
(** main.rs 73-86 *)
Definition output_kind (o : opt_) (out : output) : kind :=
  if is_none (o_input o) then Header
  else if o_header o || output_ends_with out ".h" || output_ends_with out ".hh" || output_ends_with out ".hpp" then GeneratedHeader
  else GeneratedImplementation.

(** What the tool meets: the bytes of its input, if it can be read; what happens to the nth write
    (a file: None, success, or Some, failure with what is then in the file; standard output: how
    much of it gets through); which file a path is. *)
Record world : Type := World { w_read : string -> option string; w_write : nat -> string -> option (option string); w_stdout : nat -> nat; w_file : string -> nat }.
(** What it leaves: files, and what has been written to standard output *)
Record state : Type := State { s_files : nat -> option string; s_stdout : string }.
Inductive exit : Type := Exit (code : nat) | Panicked.

Section Cmd.
  (** From bytes to the items of a file: UTF-8, the shebang line, syn's parser *)
  Variable front : string -> option (list fitem).
  Variable lex : string -> option (list tok).
  Variable keyword : string -> bool.
  Variables experimental async_fn : bool.
  Variable ord : nat -> list string -> list string.
  (** write::gen: the items, their types, the further options, whether it is the header *)
  Variable write_gen : list api -> types -> list (string * include_kind) -> option string -> bool -> string.
  (** include::HEADER *)
  Variable cxx_h : string.

  Record generated_code : Type := GeneratedCode { g_header : string; g_implementation : string }.
  (** mod.rs 183-197 *)
  Definition write_both (apis : list api) (T : types) (o : opt_) (gen_header gen_implementation : bool) : generated_code :=
    GeneratedCode (if gen_header then write_gen apis T (o_includes o) (o_annotations o) true else "")
                  (if gen_implementation then write_gen apis T (o_includes o) (o_annotations o) false else "").
  (** mod.rs 109-142: None if it has printed an error and exits *)
  Definition generate_from_path (w : world) (path : string) (o : opt_) (gen_header gen_implementation : bool) : res (option generated_code) :=
    match w_read w path with
    | None => Ok None
    | Some bytes =>
        match front bytes with
        | None => Ok None
        | Some file =>
            match generate lex keyword experimental async_fn true (flags_eval (o_cfg o)) ord file with
            | Ok (apis, T) => Ok (Some (write_both apis T o gen_header gen_implementation))
            | Err _ => Ok None
            | Panic m => Panic m
            end
        end
    end.
  (** main.rs 70-88: the flags are set while the outputs are looked at *)
  Definition is_gen_header (k : kind) : bool := match k with GeneratedHeader => true | _ => false end.
  Definition is_gen_implementation (k : kind) : bool := match k with GeneratedImplementation => true | _ => false end.
  Fixpoint kinds (o : opt_) (outs : list output) (gen_header gen_implementation : bool) (acc : list (output * kind)) : list (output * kind) * bool * bool :=
    match outs with
    | [] => (acc, gen_header, gen_implementation)
    | out :: outs => let k := output_kind o out in kinds o outs (gen_header || is_gen_header k) (gen_implementation || is_gen_implementation k) (acc ++ [(out, k)])
    end.
  (** main.rs 105-109 *)
  Definition content (g : generated_code) (k : kind) : string :=
    match k with GeneratedHeader => g_header g | GeneratedImplementation => g_implementation g | Header => cxx_h end.
  Definition set_file (files : nat -> option string) (f : nat) (c : option string) : nat -> option string := fun x => if Nat.eqb x f then c else files x.
  (** main.rs 104-116: the error of standard output is dropped, that of a file ends the loop *)
  Fixpoint write_outputs (w : world) (g : generated_code) (n : nat) (outs : list (output * kind)) (s : state) : state * exit :=
    match outs with
    | [] => (s, Exit 0)
    | (Stdout, k) :: outs => write_outputs w g (S n) outs (State (s_files s) (s_stdout s ++ String.substring 0 (w_stdout w n) (content g k)))
    | (File p, k) :: outs =>
        match w_write w n p with
        | None => write_outputs w g (S n) outs (State (set_file (s_files s) (w_file w p) (Some (content g k))) (s_stdout s))
        | Some left_ => (State (set_file (s_files s) (w_file w p) left_) (s_stdout s), Exit 1)
        end
    end.
  (** main.rs 54-59, 67-119; error.rs 60-82 (exit 1); clap exits with 2.  What --help prints is not modelled. *)
  Definition main (m : matches_) (w : world) (s : state) : state * exit :=
    match from_args m with
    | Rejected => (s, Exit 2)
    | Help => (s, Exit 0)
    | Run o =>
        let '(outs, gen_header, gen_implementation) := kinds o (o_outputs o) false false [] in
        match o_input o with
        | Some input =>
            match generate_from_path w input o gen_header gen_implementation with
            | Ok (Some g) => write_outputs w g 0 outs s
            | Ok None => (s, Exit 1)
            | _ => (s, Panicked)
            end
        | None => write_outputs w (GeneratedCode "" "") 0 outs s
        end
    end.
End Cmd.
