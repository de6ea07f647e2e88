(** Types as written in a bridge, how they are read (syntax/parse.rs 1152-1456) and how they are
    written into the Rust expansion (syntax/tokens.rs). *)
From Verif Require Import Base Syntax_Model Names_Model.

(** the length of an array: an integer literal, another literal, any other expression *)
Inductive rlen : Type := LInt (n : N) | LLit | LExpr.
(** syn::Type, as far as parse.rs distinguishes its cases.  Generic arguments on any but the
    last segment of a path make a type that parse.rs rejects; they are not represented. *)
Inductive rty : Type :=
| RRef (lt : option string) (mutable : bool) (elem : rty)
| RPtr (mutable : bool) (elem : rty)
| RPath (qself leading_colon : bool) (before : list string) (last : string) (args : rargs)
| RArray (elem : rty) (len : rlen)
| RSlice (elem : rty)
| RFn (for_lifetimes unsafety : bool) (abi : option (option string)) (inputs : rinputs) (variadic : bool) (output : rret)
| RUnit
| ROther
(** syn::PathArguments; angle brackets with the list of arguments *)
with rargs : Type := ANone | AAngle (l : rargl) | AParens
with rargl : Type := ANil | ATy (t : rty) (l : rargl) | ALt (s : string) (l : rargl) | AConst (l : rargl)
with rinputs : Type := INil | ICons (name : option string) (t : rty) (l : rinputs)
with rret : Type := RetDefault | RetTy (t : rty).

Scheme rty_ind2 := Induction for rty Sort Prop
with rargs_ind2 := Induction for rargs Sort Prop
with rargl_ind2 := Induction for rargl Sort Prop
with rinputs_ind2 := Induction for rinputs Sort Prop
with rret_ind2 := Induction for rret Sort Prop.
Combined Scheme rty_mutind from rty_ind2, rargs_ind2, rargl_ind2, rinputs_ind2, rret_ind2.

(** parse.rs 1291-1309: only lifetimes *)
Fixpoint only_lifetimes (l : rargl) : option (list string) :=
  match l with
  | ANil => Some []
  | ALt s l => option_map (cons s) (only_lifetimes l)
  | ATy _ _ | AConst _ => None
  end.

(** usize of the host, 64 bits *)
Definition usize_max : N := 18446744073709551615.

Definition unsupported {A} : res A := Err "unsupported type".
(** parse.rs 1325-1332: what remains of parse_type_path *)
Definition path_error {A} (qself : bool) (before : list string) : res A :=
  match before with
  | [first] => if negb qself && String.eqb first "cxx" then Err "unexpected `cxx::` qualifier found in a `#[cxx::bridge]`"
               else unsupported
  | _ => unsupported
  end.

(** parse.rs 1152-1162 parse_type, with 1164-1205 (references; [TStr] drops lifetime arguments
    on `str`, which Rust does not have), 1207-1221 (pointers), 1223-1332 (paths),
    1334-1364 (arrays), 1366-1428 (function pointers). *)
Fixpoint parse_type (r : rty) : res ty :=
  match r with
  | RRef lt mutable elem =>
      match elem with
      | RSlice elem => bind (parse_type elem) (fun inner => Ok (TSlice mutable lt inner))
      | _ =>
          bind (parse_type elem) (fun inner =>
            match inner with
            | TIdent n => if String.eqb (n_rust n) "str" then (if mutable then unsupported else Ok (TStr lt))
                          else Ok (TRef false mutable lt inner)
            | _ => Ok (TRef false mutable lt inner)
            end)
      end
  | RPtr mutable elem => bind (parse_type elem) (fun inner => Ok (TPtr mutable inner))
  | RPath qself leading before ident args =>
      let error := path_error qself before in
      if negb qself && negb leading && match before with [] => true | _ => false end then
        match args with
        | ANone => Ok (TIdent (Named ident []))
        | AParens => error
        | AAngle (ATy arg ANil) =>
            if String.eqb ident "UniquePtr" then bind (parse_type arg) (fun inner => Ok (TUniquePtr inner))
            else if String.eqb ident "SharedPtr" then bind (parse_type arg) (fun inner => Ok (TSharedPtr inner))
            else if String.eqb ident "WeakPtr" then bind (parse_type arg) (fun inner => Ok (TWeakPtr inner))
            else if String.eqb ident "CxxVector" then bind (parse_type arg) (fun inner => Ok (TCxxVector inner))
            else if String.eqb ident "Box" then bind (parse_type arg) (fun inner => Ok (TBox inner))
            else if String.eqb ident "Vec" then bind (parse_type arg) (fun inner => Ok (TVec inner))
            else if String.eqb ident "Pin" then
              bind (parse_type arg) (fun inner =>
                match inner with TRef _ mutable lt inner => Ok (TRef true mutable lt inner) | _ => error end)
            else error
        | AAngle l =>
            (* one argument that is not a type, of a name that takes a type, is an error *)
            let one := match l with ALt _ ANil | AConst ANil => true | _ => false end in
            if one && existsb (String.eqb ident) ["UniquePtr"; "SharedPtr"; "WeakPtr"; "CxxVector"; "Box"; "Vec"; "Pin"] then error
            else match only_lifetimes l with Some lts => Ok (TIdent (Named ident lts)) | None => error end
        end
      else error
  | RArray elem len =>
      bind (parse_type elem) (fun inner =>
        match len with
        | LInt n => if N.ltb usize_max n then Err "number too large to fit in target type"
                    else if N.eqb n 0 then Err "array with zero size is not supported"
                    else Ok (TArray inner n)
        | LLit => Err "array length must be an integer literal"
        | LExpr => Err "unsupported expression, array length must be an integer literal"
        end)
  | RFn lifetimes unsafety abi inputs variadic output =>
      if lifetimes then Err "function pointer with lifetime parameters is not supported yet"
      else if variadic then Err "variadic function pointer is not supported yet"
      else
        bind (parse_inputs 0 inputs) (fun args =>
        bind (parse_ret output) (fun '(throws, ret) =>
          Ok (TFn unsafety throws args ret)))
  | RUnit => Ok TVoid
  | RSlice _ | ROther => unsupported
  end
(** 1381-1409 *)
with parse_inputs (i : nat) (l : rinputs) : res (list (string * ty)) :=
  match l with
  | INil => Ok []
  | ICons name t l =>
      bind (parse_type t) (fun t =>
      bind (parse_inputs (S i) l) (fun args =>
        Ok ((match name with Some x => x | None => arg_name i end, t) :: args)))
  end
(** 1430-1460 parse_return_type: whether it throws, and the type *)
with parse_ret (r : rret) : res (bool * option ty) :=
  match r with
  | RetDefault => Ok (false, None)
  | RetTy t =>
      let ok throws ty := Ok (throws, match ty with TVoid => None | t => Some t end) in
      match t with
      | RPath false false [] ident (AAngle (ATy arg ANil)) =>
          if String.eqb ident "Result" then bind (parse_type arg) (ok true) else bind (parse_type t) (ok false)
      | _ => bind (parse_type t) (ok false)
      end
  end.

(** * tokens.rs *)
Fixpoint lt_args (l : list string) : rargl := match l with [] => ANil | s :: l => ALt s (lt_args l) end.
(** 287-306 Lifetimes, NamedType *)
Definition print_lts (l : list string) : rargs := match l with [] => ANone | _ => AAngle (lt_args l) end.
(** an absolute path with one type argument *)
Definition absolute (before : list string) (name : string) (arg : rty) : rty := RPath false true before name (AAngle (ATy arg ANil)).

(** 10-40 Type, 60-86 Ty1, 88-112 Ref, 114-129 Ptr, 131-146 SliceRef, 148-165 Array,
    255-294 Signature *)
Fixpoint print_ty (t : ty) : rty :=
  match t with
  | TIdent n =>
      let args := print_lts (n_lts n) in
      match atom_from_str (n_rust n) with
      | Some AChar => RPath false true ["cxx"; "core"; "ffi"] (n_rust n) args
      | Some ACxxString => RPath false true ["cxx"] (n_rust n) args
      | Some ARustString => RPath false true ["cxx"; "alloc"; "string"] (n_rust n) args
      | _ => RPath false false [] (n_rust n) args
      end
  | TUniquePtr t => absolute ["cxx"] "UniquePtr" (print_ty t)
  | TSharedPtr t => absolute ["cxx"] "SharedPtr" (print_ty t)
  | TWeakPtr t => absolute ["cxx"] "WeakPtr" (print_ty t)
  | TCxxVector t => absolute ["cxx"] "CxxVector" (print_ty t)
  | TBox t => absolute ["cxx"; "alloc"; "boxed"] "Box" (print_ty t)
  | TVec t => absolute ["cxx"; "alloc"; "vec"] "Vec" (print_ty t)
  | TRef pinned mutable lt t =>
      let r := RRef lt mutable (print_ty t) in
      if pinned then absolute ["cxx"; "core"; "pin"] "Pin" r else r
  | TStr lt => RRef lt false (RPath false false [] "str" ANone)
  | TPtr mutable t => RPtr mutable (print_ty t)
  | TSlice mutable lt t => RRef lt mutable (RSlice (print_ty t))
  | TArray t n => RArray (print_ty t) (LInt n)
  | TVoid => RUnit
  | TFn _ throws args ret =>
      RFn false false None
        ((fix inputs l := match l with [] => INil | (x, t) :: l => ICons (Some x) (print_ty t) (inputs l) end) args)
        false
        (match ret with
         | Some t => RetTy (if throws then RPath false false [] "Result" (AAngle (ATy (print_ty t) ANil)) else print_ty t)
         | None => if throws then RetTy (RPath false false [] "Result" (AAngle (ATy RUnit ANil))) else RetDefault
         end)
  end.
