(** How C++ reads a type ([lex.pptoken], [dcl.name], [temp.names]), and the documented C++ type of each
    Rust type. *)
From Verif Require Import Base Syntax_Model.

(** ** Tokens *)
Inductive tok : Set := KIdent (x : string) | KNum (n : N) | KConst | KColons | KLt | KGt | KComma | KOpen | KClose | KStar | KAmp.
Definition is_digit (c : ascii) : bool := let n := N_of_ascii c in ((48 <=? n) && (n <=? 57))%N.
Definition word_char (c : ascii) : bool :=
  let n := N_of_ascii c in (((65 <=? n) && (n <=? 90)) || ((97 <=? n) && (n <=? 122)) || (n =? 95))%N || is_digit c.
Definition word (w : list ascii) : tok :=
  match w with
  | c :: _ => if is_digit c then KNum (fold_left (fun n c => n * 10 + (N_of_ascii c - 48))%N w 0%N)
              else if String.eqb (string_of_list_ascii w) "const" then KConst else KIdent (string_of_list_ascii w)
  | [] => KIdent ""
  end.
Definition flush (w : list ascii) (r : option (list tok)) : option (list tok) :=
  match w with [] => r | _ => option_map (cons (word w)) r end.
(** Words are as long as possible; so are punctuators: [&&] is not two ampersands, and [<:] stands for a
    bracket unless what follows is [::] and neither a third colon nor [>].  Closing angle brackets of
    template arguments are taken one by one.  Only the punctuators that occur in types. *)
Fixpoint lex (w : list ascii) (s : list ascii) : option (list tok) :=
  match s with
  | [] => flush w (Some [])
  | c :: r =>
      if word_char c then lex (w ++ [c]) r
      else flush w
        (if Ascii.eqb c " " then lex [] r
         else if Ascii.eqb c ":" then
           match r with d :: r' => if Ascii.eqb d ":" then option_map (cons KColons) (lex [] r') else None | [] => None end
         else if Ascii.eqb c "<" then
           match r with
           | d :: e :: f :: _ =>
               if Ascii.eqb d ":" then
                 if (Ascii.eqb e ":" && negb (Ascii.eqb f ":") && negb (Ascii.eqb f ">"))%bool then option_map (cons KLt) (lex [] r) else None
               else option_map (cons KLt) (lex [] r)
           | d :: _ => if Ascii.eqb d ":" then None else option_map (cons KLt) (lex [] r)
           | [] => option_map (cons KLt) (lex [] r)
           end
         else if Ascii.eqb c "&" then
           match r with d :: _ => if Ascii.eqb d "&" then None else option_map (cons KAmp) (lex [] r) | [] => option_map (cons KAmp) (lex [] r) end
         else if Ascii.eqb c ">" then option_map (cons KGt) (lex [] r)
         else if Ascii.eqb c "," then option_map (cons KComma) (lex [] r)
         else if Ascii.eqb c "(" then option_map (cons KOpen) (lex [] r)
         else if Ascii.eqb c ")" then option_map (cons KClose) (lex [] r)
         else if Ascii.eqb c "*" then option_map (cons KStar) (lex [] r)
         else None)
  end.

(** ** Types *)
Inductive ct : Type :=
| Named (global : bool) (path : list string) (args : list ct)    (* ::a::b<args> *)
| Num (n : N)                                                    (* a template argument *)
| Const (t : ct) | PtrTo (t : ct) | RefTo (t : ct)
| FunOf (ret : ct) (args : list ct).

Fixpoint qualified (ts : list tok) : option (list string * list tok) :=
  match ts with
  | KIdent x :: r =>
      match r with
      | KColons :: r' => option_map (fun p => (x :: fst p, snd p)) (qualified r')
      | _ => Some ([x], r)
      end
  | _ => None
  end.
Definition type_name (ts : list tok) : option (bool * list string * list tok) :=
  match ts with
  | KColons :: r => option_map (fun p => (true, fst p, snd p)) (qualified r)
  | _ => option_map (fun p => (false, fst p, snd p)) (qualified ts)
  end.
(** const applies to what is on its left; no pointer or reference to a reference, no const reference *)
Fixpoint suffixes (c : ct) (ts : list tok) : ct * list tok :=
  match ts with
  | KConst :: r => match c with Named _ _ _ | PtrTo _ => suffixes (Const c) r | _ => (c, ts) end
  | KStar :: r => match c with RefTo _ => (c, ts) | _ => suffixes (PtrTo c) r end
  | KAmp :: r => match c with RefTo _ => (c, ts) | _ => suffixes (RefTo c) r end
  | _ => (c, ts)
  end.
(** type-id, the rest of a list of template arguments, the rest of a list of parameters *)
Fixpoint type_id (n : nat) (ts : list tok) : option (ct * list tok) :=
  match n with
  | O => None
  | S n =>
      match (match type_name ts with
             | None => None
             | Some (g, path, r) =>
                 match r with
                 | KLt :: r' => option_map (fun p => (Named g path (fst p), snd p)) (template_args n r')
                 | _ => Some (Named g path [], r)
                 end
             end) with
      | None => None
      | Some (b, r) =>
          match suffixes b r with
          | (c, KOpen :: KClose :: r') => Some (FunOf c [], r')
          | (c, KOpen :: r') => option_map (fun p => (FunOf c (fst p), snd p)) (parameters n r')
          | p => Some p
          end
      end
  end
with template_args (n : nat) (ts : list tok) : option (list ct * list tok) :=
  match n with
  | O => None
  | S n =>
      match (match ts with KNum k :: r => Some (Num k, r) | _ => type_id n ts end) with
      | Some (c, KGt :: r) => Some ([c], r)
      | Some (c, KComma :: r) => option_map (fun p => (c :: fst p, snd p)) (template_args n r)
      | _ => None
      end
  end
with parameters (n : nat) (ts : list tok) : option (list ct * list tok) :=
  match n with
  | O => None
  | S n =>
      match type_id n ts with
      | Some (c, KClose :: r) => Some ([c], r)
      | Some (c, KComma :: r) => option_map (fun p => (c :: fst p, snd p)) (parameters n r)
      | _ => None
      end
  end.
(** [s] is a type, namely [c] *)
Definition reads (s : list ascii) (c : ct) : Prop := exists ts n, lex [] s = Some ts /\ type_id n ts = Some (c, []).

(** no arrays, slices or other templates over references *)
Fixpoint objects_only (c : ct) : bool :=
  match c with
  | Named _ _ args => forallb (fun a => match a with RefTo _ => false | _ => objects_only a end) args
  | Num _ => true
  | Const t | PtrTo t | RefTo t => objects_only t
  | FunOf r args => objects_only r && forallb objects_only args
  end.

(** ** The documented correspondence (README, "Builtin types") *)
Definition rust_ (x : string) (args : list ct) : ct := Named true ["rust"; x] args.
Definition std_ (x : string) (args : list ct) : ct := Named true ["std"; x] args.
Definition primitive (x : string) : option ct :=
  match find (fun p => String.eqb (fst p) x)
    [("bool", Named false ["bool"] []); ("c_char", Named false ["char"] []);
     ("u8", std_ "uint8_t" []); ("u16", std_ "uint16_t" []); ("u32", std_ "uint32_t" []); ("u64", std_ "uint64_t" []); ("usize", std_ "size_t" []);
     ("i8", std_ "int8_t" []); ("i16", std_ "int16_t" []); ("i32", std_ "int32_t" []); ("i64", std_ "int64_t" []); ("isize", rust_ "isize" []);
     ("f32", Named false ["float"] []); ("f64", Named false ["double"] []);
     ("CxxString", std_ "string" []); ("String", rust_ "String" [])]
  with Some p => Some (snd p) | None => None end.
Definition const_unless (mutable : bool) (c : ct) : ct := if mutable then c else Const c.
(** [name x]: the namespace and C++ name of the type that the bridge declares as [x] *)
Inductive documented (name : string -> list string -> Prop) : ty -> ct -> Prop :=
| d_primitive n c : primitive (n_rust n) = Some c -> documented name (TIdent n) c
| d_named n p : primitive (n_rust n) = None -> name (n_rust n) p -> documented name (TIdent n) (Named true p [])
| d_box t c : documented name t c -> documented name (TBox t) (rust_ "Box" [c])
| d_vec t c : documented name t c -> documented name (TVec t) (rust_ "Vec" [c])
| d_unique t c : documented name t c -> documented name (TUniquePtr t) (std_ "unique_ptr" [c])
| d_shared t c : documented name t c -> documented name (TSharedPtr t) (std_ "shared_ptr" [c])
| d_weak t c : documented name t c -> documented name (TWeakPtr t) (std_ "weak_ptr" [c])
| d_vector t c : documented name t c -> documented name (TCxxVector t) (std_ "vector" [c])
| d_ref p m l t c : documented name t c -> documented name (TRef p m l t) (RefTo (const_unless m c))
| d_ptr m t c : documented name t c -> documented name (TPtr m t) (PtrTo (const_unless m c))
| d_str l : documented name (TStr l) (rust_ "Str" [])
| d_slice m l t c : documented name t c -> documented name (TSlice m l t) (rust_ "Slice" [const_unless m c])
| d_fn u th args cs : Forall2 (fun a c => documented name (snd a) c) args cs -> documented name (TFn u th args None) (rust_ "Fn" [FunOf (Named false ["void"] []) cs])
| d_fn_ret u th args r cs c : Forall2 (fun a c => documented name (snd a) c) args cs -> documented name r c ->
    documented name (TFn u th args (Some r)) (rust_ "Fn" [FunOf c cs])
| d_array t len c : documented name t c -> documented name (TArray t len) (std_ "array" [c; Num len]).

(** an identifier of C++ other than const *)
Definition identifier (x : string) : Prop :=
  match list_ascii_of_string x with
  | c :: r => is_digit c = false /\ forallb word_char (c :: r) = true
  | [] => False
  end /\ x <> "const".
