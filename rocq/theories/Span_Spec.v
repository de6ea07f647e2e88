(** Positions in a text, and what Rust takes for a shebang line. *)
From Verif Require Import Base Span_Model.
From Verif Require Lossy_Spec.
From Coq Require Import NArith.

(** The position after some text, as proc_macro2 reports it: the line is one more than the number of
    newlines, the column is the number of characters since the last one. *)
Inductive position : list char -> nat * nat -> Prop :=
| p_first l : ~ In newline l -> position l (1, List.length l)%nat
| p_later a k l : position a k -> ~ In newline l -> position (a ++ newline :: l) (S (fst k), List.length l).

(** The number of bytes that some text takes in a file. *)
Definition size (text : list char) : N := N.of_nat (List.length (Lossy_Spec.utf8_text text)).

(** The Rust reference: a first line that starts with [#!] is a shebang, unless [[] is the next thing
    after blanks and comments; then [#!] begins an attribute. *)
Inductive skippable : list char -> Prop :=
| sk_nil : skippable []
| sk_space c w : In c [32; 9; 10; 11; 12; 13; 133; 8206; 8207; 8232; 8233]%N -> skippable w -> skippable (c :: w)
| sk_line l w : ~ In newline l -> skippable w -> skippable (47%N :: 47%N :: l ++ newline :: w)
| sk_block l w : (forall a b, l <> a ++ 42%N :: 47%N :: b) -> skippable w -> skippable (47%N :: 42%N :: l ++ 42%N :: 47%N :: w).
Definition attribute_first (source : list char) (w : list char) : Prop :=
  skippable w /\ exists r, source = [35; 33]%N ++ w ++ 91%N :: r.
(** the text rustc compiles, a shebang line being blanked *)
Definition rust_reads (source parsed : list char) : Prop :=
  (exists l r, source = [35; 33]%N ++ l ++ r /\ ~ In newline l /\ (r = [] \/ exists r', r = newline :: r') /\
     (forall w, ~ attribute_first source w) /\ parsed = r) \/
  (((forall r, source <> [35; 33]%N ++ r) \/ exists w, attribute_first source w) /\ parsed = source).
