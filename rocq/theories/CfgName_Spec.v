(** What a name in a cfg attribute means to rustc, where it may be written as a raw identifier: r#unix is the name unix. *)
From Verif Require Import Base Syntax_Model Cfg_Spec.

(** An identifier with the prefix r#; the name that it stands for. *)
Definition raw (n : string) : Prop := exists m, n = ("r#" ++ m)%string.
Inductive named : string -> string -> Prop :=
| named_raw m : named ("r#" ++ m) m
| named_plain n : ~ raw n -> named n n.

(** The meaning of a predicate (The Rust Reference, conditional compilation and raw identifiers): [rust_means c e b] if
    the predicate [e] has the value [b] in the configuration [c]. *)
Inductive rust_means (c : config) : cfg_expr -> bool -> Prop :=
| rm_always : rust_means c CUnconditional true
| rm_name k n v : named k n -> rust_means c (CEq k v) (c n v)
| rm_all l bs : Forall2 (rust_means c) l bs -> rust_means c (CAll l) (forallb (fun b => b) bs)
| rm_any l bs : Forall2 (rust_means c) l bs -> rust_means c (CAny l) (existsb (fun b => b) bs)
| rm_not e b : rust_means c e b -> rust_means c (CNot e) (negb b).
