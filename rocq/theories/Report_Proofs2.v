(** Reading items ends with declarations and errors, or in a panic: the results of Parse_Model's
    functions on items are never [Err]. *)
From Verif Require Import Base Syntax_Model Cfg_Model Types_Model Check_Model Attrs_Model Parse_Model.

Definition ne {A} (r : res A) : Prop := forall m, r <> Err m.
Lemma ne_ok {A} (a : A) : ne (Ok a). Proof. discriminate. Qed.
Lemma ne_panic {A} m : ne (@Panic A m). Proof. discriminate. Qed.
Lemma ne_bindR {A B} (r : res (A * list string)) (f : A -> res (B * list string)) : ne r -> (forall a, ne (f a)) -> ne (bindR r f).
Proof.
  intros H F m. destruct r as [[a es]|e|e]; cbn; [|elim (H e eq_refl)|discriminate].
  specialize (F a). destruct (f a) as [[b es']|e|e]; try discriminate. elim (F e eq_refl).
Qed.
Lemma ne_try {A B} (r : res A) (f : A -> res (option B * list string)) : (forall a, ne (f a)) -> ne (try r f).
Proof. intros F. destruct r; cbn; [apply F|discriminate|discriminate]. Qed.
Lemma ne_mapR {A B} (f : A -> res (B * list string)) l : (forall a, ne (f a)) -> ne (mapR f l).
Proof. intros F. induction l as [|a l IH]; cbn; [discriminate|]. apply ne_bindR; [apply F|]. intros b. apply ne_bindR; [exact IH|discriminate]. Qed.

Ltac ne1 :=
  match goal with
  | |- ne (Ok _) => apply ne_ok
  | |- ne (Panic _) => apply ne_panic
  | |- ne (ret _) => apply ne_ok
  | |- ne (fail _) => apply ne_ok
  | |- ne (report _) => apply ne_ok
  | |- ne (report_if ?b _) => destruct b; apply ne_ok
  | |- ne (bindR _ _) => apply ne_bindR
  | |- ne (try _ _) => apply ne_try
  | |- ne (mapR _ _) => apply ne_mapR
  | |- forall _, _ => intros ?
  | |- ne (match ?x with _ => _ end) => destruct x
  end.
Section NoErr.
  Variable lex : string -> option (list tok).
  Variable keyword : string -> bool.
  Variables experimental async_fn : bool.
  Lemma attributes_ne p l : ne (attributes lex keyword experimental p l).
  Proof. unfold attributes. repeat ne1. Qed.
  Lemma pair_ne ns i p : ne (pair lex keyword ns i p).
  Proof. unfold pair. repeat ne1. Qed.
  Ltac go := repeat (ne1 || apply attributes_ne || apply pair_ne).
  Lemma field_ne f : ne (parse_field lex keyword experimental f).
  Proof. unfold parse_field. go. Qed.
  Lemma struct_ne ns s : ne (parse_struct lex keyword experimental ns s).
  Proof. unfold parse_struct. go. apply field_ne. Qed.
  Lemma variants_ne l : forall s, ne (parse_variants lex keyword experimental s l).
  Proof. induction l as [|v l IH]; intros s; cbn [parse_variants]; [go|]. unfold parse_variant. go. apply IH. Qed.
  Lemma enum_ne ns e : ne (parse_enum lex keyword experimental ns e).
  Proof. unfold parse_enum. cbv zeta. go; apply variants_ne. Qed.
  Lemma type_ne l trusted cfg ns block attrs i lts bounds : ne (parse_extern_type lex keyword experimental l trusted cfg ns block attrs i lts bounds).
  Proof. unfold parse_extern_type. go. Qed.
  Lemma foreign_ne l trusted cfg ns block i : ne (parse_foreign_item lex keyword experimental async_fn l trusted cfg ns block i).
  Proof. destruct i; cbn [parse_foreign_item]; unfold parse_extern_fn, parse_type_alias; go; apply type_ne. Qed.
  Lemma impl_ne i : ne (parse_impl lex keyword experimental i).
  Proof. unfold parse_impl. go. Qed.
  Lemma items_ne trusted ns items : ne (parse_items lex keyword experimental async_fn trusted ns items).
  Proof.
    unfold parse_items. go. match goal with |- ne (parse_item _ _ _ _ _ _ ?it) => destruct it end; cbn [parse_item]; unfold parse_block; cbv zeta; go;
      first [apply struct_ne|apply enum_ne|apply impl_ne|apply foreign_ne].
  Qed.
End NoErr.
