(** Specification for C29: reading generated code as nested blocks. *)
From Verif Require Import Base Syntax_Model Toposort_Model Types_Model Mangle_Model Out_Model.

(** [encloses st l r]: reading [l] inside the open blocks [st] (innermost first), every
    block is closed by its own end, all of them are closed in the end, and [r] are the
    texts with the blocks each one is in. *)
Inductive encloses : list block -> list tok -> list (list block * string) -> Prop :=
| en_done : encloses [] [] []
| en_newline st l r : encloses st l r -> encloses st (KNewline :: l) r
| en_text st s l r : encloses st l r -> encloses st (KText s :: l) ((st, s) :: r)
| en_begin st b l r : encloses (b :: st) l r -> encloses st (KBegin b :: l) r
| en_end st b l r : encloses st l r -> encloses (b :: st) (KEnd b :: l) r.

(** [requests ns st l r]: the calls [l], made in the namespace [ns] with the blocks [st]
    open, are well nested and ask for the texts [r]: an end follows its own beginning,
    and the namespace is changed only between blocks. *)
Inductive requests : list string -> list block -> list op -> list (list block * string) -> Prop :=
| rq_done ns : requests ns [] [] []
| rq_section ns st l r : requests ns st l r -> requests ns st (OSection :: l) r
| rq_namespace ns ns' l r : requests ns' [] l r -> requests ns [] (ONamespace ns' :: l) r
| rq_begin ns st b l r : requests ns (b :: st) l r -> requests ns st (OBegin b :: l) r
| rq_end ns st b l r : requests ns st l r -> requests ns (b :: st) (OEnd b :: l) r
| rq_text ns st s l r : s <> "" -> requests ns st l r -> requests ns st (OText s :: l) ((st ++ rev (map BUser ns), s) :: r)
| rq_nothing ns st l r : requests ns st l r -> requests ns st (OText "" :: l) r.

(** No block without contents, and no block that is closed only to be opened again. *)
Definition no_empty_blocks (l : list tok) : Prop :=
  let l := filter (fun k => match k with KNewline => false | _ => true end) l in
  forall pre b post, l <> pre ++ KBegin b :: KEnd b :: post /\ l <> pre ++ KEnd b :: KBegin b :: post.

(** Where each part of the output belongs. *)
Definition place (p : piece) : list block :=
  let user (x : pair_name) := rev (map BUser (p_ns x)) in
  match p with
  | PMacros | PForward | PTrivial _ => []
  | PStruct s | POperators s => user (st_name s)
  | PEnum e | PCheckEnum e => user (en_name e)
  | POpaque t | PLayout t => user (et_name t)
  | PRustShim f => user (fn_name f)
  | POperatorDecls s => BExternC :: user (st_name s)
  | PLayoutDecls t => BExternC :: user (et_name t)
  | PCxxShim f | PRustDecl f => BExternC :: user (fn_name f)
  | PHash _ => [BNamespace "std"]
  | PImplExtern _ => [BExternC]
  | PImplMember _ => [BInline "cxxbridge1"; BNamespace "rust"]
  end.
Definition texts (l : list body_op) : list string :=
  flat_map (fun x => match x with TText s => if String.eqb s "" then [] else [s] | TSection => [] end) l.
Definition placed (text : piece -> list body_op) (p : piece) : list (list block * string) := map (pair (place p)) (texts (text p)).

(** The parts of the output, in order. *)
Definition definition_piece (d : emitted) : piece :=
  match d with EmStruct s => PStruct s | EmEnum e => PEnum e | EmCheckEnum e => PCheckEnum e | EmOpaque t => POpaque t end.
Definition pieces (header : bool) (T : types) (apis : list api) : list piece :=
  [PMacros; PForward]
  ++ map definition_piece (write_loop (fun x => smem x (t_cxx T)) apis [] (t_toposorted T))
  ++ when (negb header)
       (flat_map (fun a => match a with ATypeAlias a => when (has (p_rust (ta_name a)) (t_required_trivial T)) [PTrivial a] | _ => [] end) apis
        ++ flat_map (fun a => match a with
                              | AStruct s => [POperatorDecls s] | ARustType t => [PLayoutDecls t]
                              | ACxxFunction f => [PCxxShim f] | ARustFunction f => [PRustDecl f] | _ => [] end) apis
        ++ flat_map (fun a => match a with AStruct s => when (derives DHash (st_derives s)) [PHash s] | _ => [] end) apis)
  ++ flat_map (fun a => match a with
                        | AStruct s => when (negb header) [POperators s] | ARustType t => when (negb header) [PLayout t]
                        | ARustFunction f => [PRustShim f] | _ => [] end) apis
  ++ when (negb header)
       (map (fun k => PImplExtern (fst k)) (t_impls T)
        ++ flat_map (fun k => match fst (fst k) with KBox | KVec => [PImplMember (fst k)] | _ => [] end) (t_impls T)).

(** Where the parts of the built-in code belong. *)
Definition builtin_place (p : builtin_part) : list block :=
  let inside := [BInline "cxxbridge1"; BNamespace "rust"] in
  match p with
  | UHeader1 | UHeader2 | UUnions => inside
  | UFriendImpl | UAnonymous => BAnonymous :: inside
  | URepr => BNamespace "repr" :: inside
  | UDetail => BNamespace "detail" :: inside
  | UTrycatch => [BNamespace "behavior"; BNamespace "rust"]
  end.
