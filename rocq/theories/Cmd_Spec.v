(** Specification for C92: what a run of the command line tool is to do. *)
From Verif Require Import Base Syntax_Model Cfg_Model Types_Model File_Model Cmd_Model.

Definition has_suffix (s x : string) : Prop := exists stem, s = (stem ++ x)%string.
Definition header_name (p : string) : Prop := has_suffix p ".h" \/ has_suffix p ".hh" \/ has_suffix p ".hpp".
(** Where output goes: None is standard output *)
Definition place (p : string) (d : option string) : Prop := (p = "-" /\ d = None)%string \/ (p <> "-" /\ d = Some p)%string.
Definition requested (m : matches_) (l : list (option string)) : Prop :=
  (m_outputs m <> [] /\ Forall2 place (m_outputs m) l) \/ (m_outputs m = [] /\ l = [None]).
(** What is to be written to it *)
Inductive which : Type := TheRuntimeHeader | TheHeader | TheImplementation.
Inductive wants (m : matches_) (d : option string) : which -> Prop :=
| wants_runtime : m_input m = None -> wants m d TheRuntimeHeader
| wants_header i : m_input m = Some i -> m_header m = true \/ (exists p, d = Some p /\ header_name p) -> wants m d TheHeader
| wants_implementation i : m_input m = Some i -> m_header m = false -> (forall p, d = Some p -> ~ header_name p) -> wants m d TheImplementation.
Inductive include_means : string -> string * include_kind -> Prop :=
| im_bracketed p : include_means ("<" ++ p ++ ">") (p, Bracketed_)
| im_quoted s : (forall p, s <> ("<" ++ p ++ ">")%string) -> include_means s (s, Quoted_).

Section Spec.
  Context (front : string -> option (list fitem)) (lex : string -> option (list tok)) (keyword : string -> bool) (experimental async_fn : bool)
    (ord : nat -> list string -> list string) (write_gen : list api -> types -> list (string * include_kind) -> option string -> bool -> string) (cxx_h : string).
  (** The texts that the input gives *)
  Definition source (m : matches_) (w : world) (cev : evaluator) (apis : list api) (T : types) : Prop :=
    exists i bytes file, m_input m = Some i /\ w_read w i = Some bytes /\ front bytes = Some file /\ generate lex keyword experimental async_fn true cev ord file = Ok (apis, T).
  Inductive text (m : matches_) (w : world) (cev : evaluator) : which -> string -> Prop :=
  | t_runtime : text m w cev TheRuntimeHeader cxx_h
  | t_header apis T incs : source m w cev apis T -> Forall2 include_means (m_includes m) incs -> text m w cev TheHeader (write_gen apis T incs (m_annotations m) true)
  | t_implementation apis T incs : source m w cev apis T -> Forall2 include_means (m_includes m) incs -> text m w cev TheImplementation (write_gen apis T incs (m_annotations m) false).
  Definition proper (m : matches_) (w : world) (cev : evaluator) (d : option string) (c : string) : Prop := exists k, wants m d k /\ text m w cev k c.
  (** There is a text for each. *)
  Definition readable (m : matches_) (w : world) (cev : evaluator) : Prop := m_input m = None \/ exists apis T, source m w cev apis T.
End Spec.

(** Texts [cs] written to the places [l] in this order, beginning with the nth write: [s] becomes
    [s'].  Only a prefix of what goes to standard output may arrive. *)
Inductive writes (w : world) : nat -> list (option string) -> list string -> state -> state -> Prop :=
| w_none n s : writes w n [] [] s s
| w_out n l c cs s s' b r : c = (b ++ r)%string -> (String.length c <= w_stdout w n -> r = EmptyString) ->
    writes w (S n) l cs (State (s_files s) (s_stdout s ++ b)) s' -> writes w n (None :: l) (c :: cs) s s'
| w_in n p l c cs s s1 s' : w_write w n p = None -> s_files s1 (w_file w p) = Some c -> (forall f, f <> w_file w p -> s_files s1 f = s_files s f) -> s_stdout s1 = s_stdout s ->
    writes w (S n) l cs s1 s' -> writes w n (Some p :: l) (c :: cs) s s'.

(** No write goes wrong. *)
Definition good (w : world) : Prop := (forall n p, w_write w n p = None) /\ forall n k, k <= w_stdout w n.
