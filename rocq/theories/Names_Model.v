(** Names of parameters and local variables: syntax/parse.rs (how parameters get their
    names) and the functions written by gen/src/write.rs and macro/src/expand.rs. *)
From Verif Require Import Base Syntax_Model Types_Model Mangle_Model Abi_Model.
From Coq Require Import DecimalString.

(** `format!("arg{}", n)` *)
Definition decimal (n : nat) : string := NilEmpty.string_of_uint (Nat.to_uint n).
Definition arg_name (n : nat) : string := "arg" ++ decimal n.

(** * Parsing *)
(** A typed parameter of an extern function as far as parse.rs 629-637 looks at it. *)
Inductive fn_arg : Type := AIdent (x : string) | AWild | AOtherPat.

(** parse.rs 578-655, the names in [args]; [taken]: args.len().  [None]: a syntax error. *)
Fixpoint parse_fn_args (taken : nat) (l : list fn_arg) : option (list string) :=
  match l with
  | [] => Some []
  | AIdent x :: l => option_map (cons x) (parse_fn_args (S taken) l)
  | AWild :: l => option_map (cons (arg_name taken)) (parse_fn_args (S taken) l)
  | AOtherPat :: l => None
  end.

(** parse.rs 1379-1393: the parameters of a function pointer.  [None]: a parameter
    without name; `_:` is an identifier to syn. *)
Fixpoint parse_bare_args (i : nat) (l : list (option string)) : list string :=
  match l with
  | [] => []
  | Some x :: l => x :: parse_bare_args (S i) l
  | None :: l => arg_name i :: parse_bare_args (S i) l
  end.

(** * Generated functions *)
(** For each generated function, the names declared in the scope of its parameters and
    the outermost block of its body. *)
Section Names.
  Context (fuel : nat) (T : types).

  Definition arg_names (s : signature) : list string := map fst (sg_args s).
  Definition out_name (x : string) (s : signature) : option (list string) :=
    obind (indirect_return fuel T s) (fun b => Some (when b [x])).

  (** write.rs 735-900: write_cxx_function_shim *)
  Definition cxx_function_names (f : extern_fn) : option (list string) :=
    obind (out_name "return$" (fn_sig f)) (fun out =>
      Some (when (is_some (fn_receiver f)) ["self"] ++ arg_names (fn_sig f) ++ out
              ++ [(p_rust (fn_name f) ++ "$")%string] ++ when (fn_throws f) ["throw$"])).

  (** write.rs 927-986: write_rust_function_decl_impl; the context pointer has no name *)
  Definition rust_decl_names (s : signature) : option (list string) :=
    obind (out_name "return$" s) (fun out =>
      Some (when (is_some (sg_receiver s)) ["self"] ++ arg_names s ++ out)).

  (** write.rs 1059-1066: the ManuallyDrop locals *)
  Fixpoint dropped_names (args : list (string * ty)) : option (list string) :=
    match args with
    | [] => Some []
    | (x, t) :: args =>
        obind (if is_rust_string t then Some false else needs_indirect_abi fuel T t) (fun b =>
          option_map (app (when b [(x ++ "$")%string])) (dropped_names args))
    end.
  (** write.rs 1004-1173: write_rust_function_shim_impl *)
  Definition rust_function_names (s : signature) (indirect_call : bool) : option (list string) :=
    obind (dropped_names (sg_args s)) (fun dropped =>
    obind (out_name "return$" s) (fun out =>
      Some (arg_names s ++ when indirect_call ["extern$"] ++ dropped ++ out ++ when (sg_throws s) ["error$"]))).

  (** expand.rs 501-785: expand_cxx_function_shim.  `let mut x = MaybeUninit::new(x)` and
      the trampolines shadow the parameter of the same name and are not listed. *)
  Definition cxx_wrapper_names (f : extern_fn) : option (list string) :=
    obind (out_name "__return" (fn_sig f)) (fun out =>
      Some (when (is_some (fn_receiver f)) ["self"] ++ arg_names (fn_sig f) ++ [("__" ++ p_rust (fn_name f))%string] ++ out)).

  (** expand.rs 966-1179: expand_rust_function_shim_impl; [local]: local_name *)
  Definition rust_shim_names (s : signature) (local : string) (pointer : bool) : option (list string) :=
    obind (out_name "__return" s) (fun out =>
      Some (when (is_some (sg_receiver s)) ["__self"] ++ arg_names s ++ out ++ when pointer ["__extern"] ++ ["__fn"]
              ++ when (negb pointer) [local])).
  (** expand.rs 941-964: local_name *)
  Definition rust_local_name (f : extern_fn) : string :=
    match fn_receiver f with
    | None => "__" ++ p_rust (fn_name f)
    | Some r => "__" ++ n_rust (rc_ty r) ++ "__" ++ p_rust (fn_name f)
    end.
End Names.
