(** Specification for C31: which names a piece of C++ text mentions, declares and
    defines. *)
From Verif Require Import Base StrLib Header_Text Ifndef_Model Builtin_Model.

Definition text_of (p : part) : list string := match part_lines p with Some l => tokens_of l | None => [] end.

(** The names of the supporting code. *)
Definition helpers : list string :=
  ["panic"; "unsafe_bitcopy_t"; "impl"; "String"; "Opaque"; "size_of"; "align_of"; "Str"; "Slice"; "copy_assignable_if"; "sliceInit"; "slicePtr"; "sliceLen";
   "Box"; "unsafe_bitcopy"; "Vec"; "Fn"; "Error"; "isize"; "is_complete"; "layout"; "make_void"; "void_t"; "detect"; "is_detected"; "detect_IsRelocatable";
   "get_IsRelocatable"; "IsRelocatable"; "Fat"; "PtrLen"; "operator_new"; "Fail"; "ManuallyDrop"; "MaybeUninit"; "destroy"; "deleter_if"; "IsRelocatableOrArray";
   "missing"; "trycatch"].

(** [n] directly after a keyword that introduces a type, or after the type of a function
    or variable, and not followed by `<` or `::` (a specialisation or a member). *)
Definition introducers : list string := ["class"; "struct"; "union"; "using"; "void"; "*"; "size_t"; "unsafe_bitcopy_t"; "missing"].
Fixpoint introduced (next : string -> bool) (l : list string) (n : string) : bool :=
  match l with
  | a :: ((b :: c :: _) as l') => (smem a introducers && String.eqb b n && next c) || introduced next l' n
  | _ => false
  end.
Definition declares : list string -> string -> bool := introduced (fun c => negb (smem c ["<"; "::"])).
(** … followed by the body or the value. *)
Definition defines : list string -> string -> bool := introduced (fun c => smem c ["{"; "final"; ":"; "="; "("]).

(** Names that may be mentioned where only a declaration has been seen: the class
    template that has only specialisations; a parameter type in the declaration of a
    member function; the base class asked about by is_base_of; a function with an
    attribute after its name; the template of which only a specialisation is defined; and
    the forward declarations themselves. *)
Definition declaration_suffices (p : part) (n : string) : bool :=
  String.eqb n "impl" ||
  match p with
  | BFwdBitcopy | BString => String.eqb n "unsafe_bitcopy_t"
  | BFwdString | BStr => String.eqb n "String"
  | BFwdOpaque | BLayout => String.eqb n "Opaque"
  | BPanic | BSlice | BVec => String.eqb n "panic"
  | BFn => String.eqb n "Fn"
  | _ => false
  end.

(** [n] is known when the part [p] is read after the parts [before]. *)
Definition known (cxx_header : bool) (before : list part) (p : part) (n : string) : Prop :=
  (cxx_header = true /\ defines (tokens_of (lines HEADER)) n = true) \/
  (exists q, In q (before ++ [p]) /\ defines (text_of q) n = true) \/
  (declaration_suffices p n = true /\ ((cxx_header = true /\ declares (tokens_of (lines HEADER)) n = true) \/
                                        exists q, In q (before ++ [p]) /\ declares (text_of q) n = true)).

(** Conditional sections opened by #if, #ifdef and #ifndef and closed by #endif. *)
Fixpoint conditionals (depth : nat) (l : list string) : option nat :=
  match l with
  | [] => Some depth
  | "#" :: k :: l =>
      if smem k ["if"; "ifdef"; "ifndef"] then conditionals (S depth) l
      else if String.eqb k "endif" then match depth with O => None | S d => conditionals d l end
      else if String.eqb k "else" then match depth with O => None | S _ => conditionals depth l end
      else conditionals depth l
  | _ :: l => conditionals depth l
  end.

(** Text that may be read any number of times: a guarded section (whose body is skipped
    the second time), or declarations without a body. *)
Definition repeatable (p : part) : bool :=
  match text_of p with
  | "#" :: "ifndef" :: g :: "#" :: "define" :: g' :: _ => String.eqb g g'
  | l => negb (smem "{" l) && negb (smem "=" l)
  end.

(** * Standard headers *)
(** The names of the standard library that a text mentions: `std::n`, the assert macro,
    and placement new. *)
Fixpoint std_names (l : list string) : list string :=
  match l with
  | "std" :: (("::" :: n :: _) as l) => n :: std_names l
  | "operator" :: "new" :: l => std_names l
  | "new" :: (("(" :: _) as l) => "new" :: std_names l
  | "assert" :: l => "assert" :: std_names l
  | _ :: l => std_names l
  | [] => []
  end.
(** The header that the C++ standard names for each of them. *)
Definition headers_of : list (string * list string) :=
  [("cstddef", ["size_t"; "ptrdiff_t"]);
   ("cstdint", ["uint8_t"; "uint16_t"; "uint32_t"; "uint64_t"; "int8_t"; "int16_t"; "int32_t"; "int64_t"; "uintptr_t"]);
   ("string", ["string"]); ("string_view", ["string_view"]); ("array", ["array"]); ("vector", ["vector"]);
   ("memory", ["unique_ptr"; "shared_ptr"; "weak_ptr"]); ("functional", ["hash"]);
   ("utility", ["move"; "forward"; "swap"; "declval"]); ("exception", ["exception"]); ("stdexcept", ["out_of_range"]);
   ("initializer_list", ["initializer_list"]); ("algorithm", ["copy"]); ("ranges", ["ranges"]); ("cassert", ["assert"]); ("new", ["new"]);
   ("iterator", ["contiguous_iterator_tag"; "random_access_iterator_tag"; "contiguous_iterator"; "distance"; "back_inserter"]);
   ("type_traits", ["is_const"; "remove_reference_t"; "add_pointer"; "add_lvalue_reference"; "remove_const"; "add_const"; "false_type"; "true_type";
                    "is_base_of"; "enable_if"; "is_same"; "conditional"; "integral_constant"; "is_trivially_move_constructible";
                    "is_trivially_destructible"; "is_enum"])].
Definition declared_by (n h : string) : Prop := exists names, In (h, names) headers_of /\ In n names.
(** The header is included, by the generated code or by rust/cxx.h. *)
Definition includes (l : list string) (h : string) : Prop := In (("#include <" ++ h ++ ">")%string) l.
Definition included (s : settings) (cxx_header : bool) (h : string) : Prop :=
  includes (include_lines s cxx_header) h \/ (cxx_header = true /\ includes (lines HEADER) h).
