(** gen/src/out.rs and gen/src/block.rs: the output buffer with its namespace and
    extern "C" blocks, and the sequence of calls that gen/src/write.rs and
    gen/src/builtin.rs make on it. *)
From Verif Require Import Base Syntax_Model Toposort_Model Types_Model Mangle_Model.

(** block.rs 3-10: Block *)
Inductive block : Type :=
| BAnonymous
| BNamespace (x : string)
| BUser (x : string)
| BInline (x : string)
| BExternC.
(** derive(PartialEq) *)
Definition block_eqb (a b : block) : bool :=
  match a, b with
  | BAnonymous, BAnonymous | BExternC, BExternC => true
  | BNamespace x, BNamespace y | BUser x, BUser y | BInline x, BInline y => String.eqb x y
  | _, _ => false
  end.

(** out.rs 26-30, 203-210: BlockBoundary *)
Inductive boundary : Type := Begin (b : block) | End (b : block).
Definition boundary_rev (x : boundary) : boundary := match x with Begin b => End b | End b => Begin b end.
Definition boundary_eqb (x y : boundary) : bool :=
  match x, y with Begin a, Begin b | End a, End b => block_eqb a b | _, _ => false end.

(** What is in the buffer.  Block::write_begin and write_end (block.rs 13-45) are kept
    as tokens. *)
Inductive tok : Type := KNewline | KText (s : string) | KBegin (b : block) | KEnd (b : block).

(** out.rs 17-24: Content.  `blocks` is kept in two parts: the blocks written so far,
    innermost first ([c_open], only beginnings), and the last `blocks_pending` boundaries,
    most recent first ([c_pending]). *)
Record buffer : Type := Buffer
  { c_bytes : list tok; c_namespace : list string; c_open : list block; c_pending : list boundary; c_section : bool }.
Definition empty_buffer : buffer := Buffer [] [] [] [] false.

(** out.rs 115-117: next_section *)
Definition next_section (c : buffer) : buffer :=
  Buffer (c_bytes c) (c_namespace c) (c_open c) (c_pending c) true.
(** out.rs 155-163: push_block_boundary *)
Definition push_boundary (x : boundary) (c : buffer) : buffer :=
  Buffer (c_bytes c) (c_namespace c) (c_open c)
    (match c_pending c with
     | y :: rest => if boundary_eqb x (boundary_rev y) then rest else x :: y :: rest
     | [] => [x]
     end) (c_section c).
(** out.rs 119-125 *)
Definition begin_block (b : block) : buffer -> buffer := push_boundary (Begin b).
Definition end_block (b : block) : buffer -> buffer := push_boundary (End b).
(** out.rs 127-135: set_namespace *)
Definition set_namespace (ns : list string) (c : buffer) : buffer :=
  let c := fold_left (fun c x => end_block (BUser x) c) (rev (c_namespace c)) c in
  let c := fold_left (fun c x => begin_block (BUser x) c) ns c in
  Buffer (c_bytes c) ns (c_open c) (c_pending c) (c_section c).

(** out.rs 177-199: the loop of flush_blocks, on the pending boundaries in order.
    `blocks[..write]` is [open]; [None]: the checked_sub or the assertion panics. *)
Fixpoint flush_loop (l : list boundary) (bytes : list tok) (open : list block) (section : bool)
  : option (list tok * list block * bool) :=
  match l with
  | [] => Some (bytes, open, section)
  | Begin b :: l => flush_loop l (bytes ++ (if section then [KNewline] else []) ++ [KBegin b]) (b :: open) false
  | End b :: l =>
      match open with
      | b' :: open => if block_eqb b' b then flush_loop l (bytes ++ [KEnd b]) open true else None
      | [] => None
      end
  end.
Definition is_nil {A} (l : list A) : bool := match l with [] => true | _ => false end.
(** out.rs 172-200: flush_blocks *)
Definition flush_blocks (c : buffer) : option buffer :=
  match flush_loop (rev (c_pending c)) (c_bytes c) (c_open c) (negb (is_nil (c_bytes c))) with
  | Some (bytes, open, section) => Some (Buffer bytes (c_namespace c) open [] section)
  | None => None
  end.
(** out.rs 141-153: write *)
Definition write (s : string) (c : buffer) : option buffer :=
  if String.eqb s "" then Some c
  else match (if is_nil (c_pending c) then Some c else flush_blocks c) with
       | None => None
       | Some c => Some (Buffer (c_bytes c ++ (if c_section c && negb (is_nil (c_bytes c)) then [KNewline] else []) ++ [KText s])
                           (c_namespace c) (c_open c) (c_pending c) false)
       end.
(** out.rs 165-170: flush *)
Definition flush (c : buffer) : option buffer :=
  let c := set_namespace [] c in if is_nil (c_pending c) then Some c else flush_blocks c.

(** A sequence of calls. *)
Inductive op : Type := OSection | ONamespace (ns : list string) | OBegin (b : block) | OEnd (b : block) | OText (s : string).
Definition step (o : op) (c : buffer) : option buffer :=
  match o with
  | OSection => Some (next_section c)
  | ONamespace ns => Some (set_namespace ns c)
  | OBegin b => Some (begin_block b c)
  | OEnd b => Some (end_block b c)
  | OText s => write s c
  end.
Fixpoint run_ops (l : list op) (c : buffer) : option buffer :=
  match l with [] => Some c | o :: l => match step o c with Some c => run_ops l c | None => None end end.
(** out.rs 68-88: what content() makes of one buffer *)
Definition render_buffer (l : list op) : option (list tok) :=
  match run_ops l empty_buffer with
  | Some c => option_map c_bytes (flush c)
  | None => None
  end.

(** * The calls made by the generator *)
(** A function that writes text without touching the blocks: its calls of write!() and
    next_section(). *)
Inductive body_op : Type := TSection | TText (s : string).
Definition body (l : list body_op) : list op := map (fun x => match x with TSection => OSection | TText s => OText s end) l.

(** The parts of the output, each written by one function. *)
Inductive piece : Type :=
| PMacros                               (* write.rs 37-57 *)
| PForward                              (* 59-92, which writes its namespaces as text: Nested_Model *)
| PStruct (s : struct_)                 (* 273-337 *)
| PEnum (e : enum_)                     (* 425-445 *)
| PCheckEnum (e : enum_)                (* 447-472 *)
| POpaque (t : extern_type)             (* 380-423 *)
| PTrivial (a : type_alias)             (* 474-536 *)
| POperatorDecls (s : struct_)          (* 538-603 *)
| PLayoutDecls (t : extern_type)        (* 689-700 *)
| PCxxShim (f : extern_fn)              (* 736-916, with its trampolines *)
| PRustDecl (f : extern_fn)             (* 918-985 *)
| PHash (s : struct_)                   (* 196-218 *)
| POperators (s : struct_)              (* 605-687 *)
| PLayout (t : extern_type)             (* 702-727 *)
| PRustShim (f : extern_fn)             (* 987-1173 *)
| PImplExtern (k : impl_key)            (* 1442-1451 *)
| PImplMember (k : impl_key).           (* 1456-1462 *)

Section Generator.
  (** The text of every piece. *)
  Context (text : piece -> list body_op) (header : bool) (T : types).
  Let show (p : piece) : list op := body (text p).
  Let in_ns (p : pair_name) (l : list op) : list op := ONamespace (p_ns p) :: l.
  Let extern_c (l : list op) : list op := OBegin BExternC :: l ++ [OEnd BExternC].

  (** write.rs 94-160; the order of the definitions is that of Toposort_Model *)
  Definition op_definition (d : emitted) : list op :=
    OSection ::
    match d with
    | EmStruct s => in_ns (st_name s) (show (PStruct s))
    | EmEnum e => in_ns (en_name e) (show (PEnum e))
    | EmCheckEnum e => in_ns (en_name e) (show (PCheckEnum e))
    | EmOpaque t => in_ns (et_name t) (show (POpaque t))
    end.
  Definition op_trivial (a : api) : list op :=
    match a with ATypeAlias a => if has (p_rust (ta_name a)) (t_required_trivial T) then show (PTrivial a) else [] | _ => [] end.
  Definition op_data_structures (apis : list api) : list op :=
    flat_map op_definition (write_loop (fun x => smem x (t_cxx T)) apis [] (t_toposorted T)) ++
    when (negb header) ([ONamespace []; OSection] ++ flat_map op_trivial apis).

  (** write.rs 166-172 *)
  Definition op_declarations (a : api) : list op :=
    match a with
    | AStruct s => in_ns (st_name s) (extern_c (show (POperatorDecls s)))
    | ARustType t => in_ns (et_name t) (extern_c (show (PLayoutDecls t)))
    | ACxxFunction f => OSection :: in_ns (fn_name f) (extern_c (show (PCxxShim f)))
    | ARustFunction f => in_ns (fn_name f) (extern_c (show (PRustDecl f)))
    | _ => []
    end.
  (** write.rs 191-221: write_std_specializations *)
  Definition op_hash (a : api) : list op :=
    match a with AStruct s => if derives DHash (st_derives s) then OSection :: show (PHash s) else [] | _ => [] end.
  Definition op_std (apis : list api) : list op :=
    ONamespace [] :: OBegin (BNamespace "std") :: flat_map op_hash apis ++ [OEnd (BNamespace "std")].
  (** write.rs 178-188 *)
  Definition op_definitions (a : api) : list op :=
    match a with
    | AStruct s => when (negb header) (in_ns (st_name s) (show (POperators s)))
    | ARustType t => when (negb header) (in_ns (et_name t) (show (PLayout t)))
    | ARustFunction f => OSection :: in_ns (fn_name f) (show (PRustShim f))
    | _ => []
    end.
  (** write.rs 163-189: write_functions *)
  Definition op_functions (apis : list api) : list op :=
    when (negb header) (flat_map op_declarations apis ++ op_std apis) ++ flat_map op_definitions apis.
  (** write.rs 1433-1465: write_generic_instantiations *)
  Definition op_instantiations : list op :=
    when (negb header)
      ([OSection; ONamespace []; OBegin BExternC]
       ++ flat_map (fun k => OSection :: show (PImplExtern (fst k))) (t_impls T)
       ++ [OEnd BExternC; OBegin (BNamespace "rust"); OBegin (BInline "cxxbridge1")]
       ++ flat_map (fun k => match fst (fst k) with KBox | KVec => show (PImplMember (fst k)) | _ => [] end) (t_impls T)
       ++ [OEnd (BInline "cxxbridge1"); OEnd (BNamespace "rust")]).
  (** write.rs 18-35: gen; the includes and the built-in code have buffers of their own *)
  Definition op_gen (apis : list api) : list op :=
    OSection :: show PMacros ++ OSection :: show PForward
    ++ op_data_structures apis ++ op_functions apis ++ op_instantiations.
End Generator.

(** * The calls made for the built-in code *)
(** builtin.rs 146-424: the blocks around the parts of write(), each of which may or may
    not write anything. *)
Inductive builtin_part : Type :=
| UHeader1      (* 149-158: from cxx.h up to the declaration of impl *)
| UFriendImpl   (* 160-165 *)
| UHeader2      (* 167-211: the rest of cxx.h; Str::uninit and Slice::uninit *)
| URepr         (* 215-229 *)
| UDetail       (* 235-272 *)
| UUnions       (* 276-303 *)
| UAnonymous    (* 307-395 *)
| UTrycatch.    (* 402-419 *)
Definition op_builtin (text : builtin_part -> list body_op) (friend_impl trycatch : bool) : list op :=
  let show p := body (text p) in
  [OBegin (BNamespace "rust"); OBegin (BInline "cxxbridge1")]
  ++ show UHeader1
  ++ when friend_impl (OBegin BAnonymous :: show UFriendImpl ++ [OEnd BAnonymous])
  ++ show UHeader2
  ++ [OBegin (BNamespace "repr")] ++ show URepr ++ [OEnd (BNamespace "repr")]
  ++ [OBegin (BNamespace "detail")] ++ show UDetail ++ [OEnd (BNamespace "detail")]
  ++ show UUnions
  ++ [OBegin BAnonymous] ++ show UAnonymous ++ [OEnd BAnonymous; OEnd (BInline "cxxbridge1")]
  ++ when trycatch (OBegin (BNamespace "behavior") :: show UTrycatch ++ [OEnd (BNamespace "behavior")])
  ++ [OEnd (BNamespace "rust")].
