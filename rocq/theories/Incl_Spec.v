(** What is said about the #include directives of a generated file, in terms of how C++ reads them. *)
From Verif Require Import Base Syntax_Model Parse_Model Builtin_Model Incl_Model.
Open Scope N_scope.

(** * Reading a C++ file *)
(** The lines of a text; each ends with a newline. *)
Fixpoint lines_of (t : text) : list text :=
  match t with
  | [] => []
  | c :: r => if c =? 10 then [] :: lines_of r else match lines_of r with [] => [[c]] | l :: ls => (c :: l) :: ls end
  end.
Fixpoint skip_blanks (t : text) : text :=
  match t with c :: r => if (c =? 32) || (c =? 9) then skip_blanks r else t | [] => [] end.
Fixpoint after_word (w t : text) : option text :=
  match w, t with
  | [], _ => Some t
  | a :: w, b :: t => if a =? b then after_word w t else None
  | _ :: _, [] => None
  end.
Fixpoint until (d : N) (t : text) : option (text * text) :=
  match t with
  | [] => None
  | c :: r => if c =? d then Some ([], r) else match until d r with Some (p, rest) => Some (c :: p, rest) | None => None end
  end.
(** C++ [lex.header]: a header name is all characters between the delimiters, of which there is at least one;
    there are no escapes in it.  [true]: in angle brackets.  [cpp.include]: nothing else is on the line. *)
Definition header_name (t : text) : option (text * bool) :=
  let closed d b r := match until d r with
                      | Some (c :: p, rest) => match skip_blanks rest with [] => Some (c :: p, b) | _ => None end
                      | _ => None end in
  match t with
  | c :: r => if c =? 34 then closed 34 false r else if c =? 60 then closed 62 true r else None
  | [] => None
  end.
Definition include_of (line : text) : option (text * bool) :=
  match after_word [35] (skip_blanks line) with
  | Some r => match after_word (chars "include") (skip_blanks r) with Some r => header_name (skip_blanks r) | None => None end
  | None => None
  end.
(** The headers that the file includes, in order, whatever #if they are under. *)
Definition includes_of (t : text) : list (text * bool) :=
  flat_map (fun l => match include_of l with Some h => [h] | None => [] end) (lines_of t).

(** * Paths that can be written *)
(** Within quotes: ASCII, printable, none of the quotes, no backslash *)
Definition plain_char (c : N) : Prop := 32 <= c <= 126 /\ c <> 34 /\ c <> 39 /\ c <> 92.
Definition plain (i : directive) : Prop :=
  d_path i <> [] /\
  if d_bracketed i then ~ In 10 (d_path i) /\ ~ In 62 (d_path i) else Forall plain_char (d_path i).

(** The include! items of a bridge, in order *)
Inductive asks : list api -> list include_ -> Prop :=
| asks_nil : asks [] []
| asks_include i apis l : asks apis l -> asks (AInclude i :: apis) (i :: l)
| asks_other a apis l : (forall i, a <> AInclude i) -> asks apis l -> asks (a :: apis) l.

(** Identifiers, numbers and punctuation are never broken over lines, and `>` is not in a word. *)
Definition lexed (t : itok) : Prop :=
  match t with
  | ITIdent x | ITLit x => ~ In "010"%char (list_ascii_of_string x) /\ ~ In ">"%char (list_ascii_of_string x)
  | ITPunct c => c <> "010"%char
  | ITStr _ | ITGroup => True
  end.

(** * The standard headers *)
Definition std_header (i : inc) : string :=
  match i with
  | IAlgorithm => "algorithm" | IArray => "array" | ICassert => "cassert" | ICstddef => "cstddef" | ICstdint => "cstdint"
  | ICstring => "cstring" | IException => "exception" | IFunctional => "functional" | IInitializerList => "initializer_list"
  | IIterator => "iterator" | IMemory => "memory" | INew => "new" | IRanges => "ranges" | IStdexcept => "stdexcept"
  | IString => "string" | IStringView => "string_view" | ITypeTraits => "type_traits" | IUtility => "utility"
  | IVector => "vector" | IBasetsd => "basetsd.h" | ISysTypes => "sys/types.h"
  end.
(** The header of the library, under a Unix or a Windows path *)
Definition rust_cxx_h (p : text) : Prop := p = chars "rust/cxx.h" \/ p = chars "rust\cxx.h".
