(** C71: an attribute has the effect that is documented for it, or is rejected. *)
From Verif Require Import Base Syntax_Model Cfg_Model Cfg_Spec Attrs_Model Attrs_Spec Attrs_Proofs.

(** Whatever the list of attributes, and whatever of documentation, derives, representation,
    namespace, names, conditions and header is possible in their place: there is no error exactly
    if each attribute is one of those described, and possible there.  Then their effects are as
    described, and what goes to the Rust compiler are the lints and conditions, in order. *)
Theorem C71_attributes_partial : forall lex keyword experimental p attrs p' pass errs,
  keyword "::" = false -> ps_ignore p = false ->
  attrs_parse lex keyword experimental p attrs = (p', pass, errs) ->
  (errs = [] <-> exists effs, Forall2 (means lex keyword experimental) attrs effs /\ Forall (allowed p) effs) /\
  (forall effs, Forall2 (means lex keyword experimental) attrs effs -> Forall (allowed p) effs ->
     outcome effs p p' /\ pass = kept (combine attrs effs)).
Proof.
  intros lex keyword experimental p attrs p' pass errs K G E. split.
  - split.
    + intros ->. eapply parse_sound; eauto.
    + intros (effs & F & A). rewrite (parse_complete _ _ _ K _ _ F _ A) in E. injection E as _ _ <-. reflexivity.
  - intros effs F A. rewrite (parse_complete _ _ _ K _ _ F _ A) in E. injection E as <- <- _. split; [apply final_outcome|reflexivity].
Qed.
Print Assumptions C71_attributes_partial.

(** An attribute has one meaning at most *)
Theorem C71_one_meaning : forall lex keyword experimental a e e',
  keyword "::" = false ->
  means lex keyword experimental a e -> means lex keyword experimental a e' -> e = e'.
Proof. intros lex keyword experimental a e e' K M M'. eapply means_det; eauto. Qed.
Print Assumptions C71_one_meaning.

Definition ex_lex (s : string) : option (list tok) :=
  if String.eqb s "a::b" then Some [KIdent "a"; KPunct "::"; KIdent "b"] else Some [KIdent s].
Definition ex_keyword (_ : string) : bool := false.
Definition attr x m := SAttr false [x] m.
(** #[doc = "text"] #[derive(Clone, Copy)] #[namespace = "a::b"] #[cxx_name = "N"] #[must_use] #[cfg(unix)] *)
Definition ex_attrs :=
  [attr "doc" (MNameValue (VStr "text")); attr "derive" (MList [KIdent "Clone"; KComma; KIdent "Copy"]);
   attr "namespace" (MNameValue (VStr "a::b")); attr "cxx_name" (MNameValue (VStr "N")); attr "must_use" MPath;
   attr "cfg" (MList [KIdent "unix"])].
Definition ex_effs := [EDoc "text"; EDerive [DClone; DCopy]; ENamespace ["a"; "b"]; ECxx "N"; ELint; ECfg (CEq "unix" None)].
Definition struct_place := Parser (Some CUnconditional) (Some ([], false)) (Some []) None (Some []) (Some None) (Some None) None false.
Example C71_nonvacuous :
  ex_keyword "::" = false /\ ps_ignore struct_place = false /\
  Forall2 (means ex_lex ex_keyword false) ex_attrs ex_effs /\ Forall (allowed struct_place) ex_effs /\
  attrs_parse ex_lex ex_keyword false struct_place ex_attrs =
    (Parser (Some (CEq "unix" None)) (Some (["text"], false)) (Some [DClone; DCopy]) None (Some ["a"; "b"]) (Some (Some "N")) (Some None) None false,
     [attr "must_use" MPath; attr "cfg" (MList [KIdent "unix"])], []) /\
  snd (attrs_parse ex_lex ex_keyword false struct_place [attr "repr" (MList [KIdent "u8"])]) <> [] /\
  snd (attrs_parse ex_lex ex_keyword false struct_place [attr "inline" MPath]) <> [].
Proof.
  repeat match goal with |- _ /\ _ => split end; try reflexivity; try (cbn; discriminate).
  - unfold ex_attrs, ex_effs, attr. repeat apply Forall2_cons; [..|apply Forall2_nil].
    + apply m_doc; [split; reflexivity|reflexivity].
    + eapply m_derive; [split; reflexivity|reflexivity|].
      constructor; [cbn; tauto|]. apply dl_last. cbn. tauto.
    + apply m_namespace_quoted with (s := "a::b") (l := [KIdent "a"; KPunct "::"; KIdent "b"]); try (split; reflexivity); try reflexivity; try discriminate.
      left. apply path_cons; [constructor|intros [y H]; discriminate|]. apply path_one; [constructor|intros [y H]; discriminate].
    + eapply m_cxx_quoted; [split; reflexivity|reflexivity|reflexivity|constructor].
    + eapply m_lint; [split; reflexivity|cbn; tauto].
    + eapply m_cfg; [split; reflexivity|reflexivity|]. left. constructor.
  - unfold ex_effs. repeat constructor; cbn; discriminate.
Qed.
(** What is missing: an attribute that is accepted need not have an effect, as of two names (or
    namespaces, or representations) for the same item the first is dropped without an error *)
Theorem C71_no_effect_refuted :
  let twice x a b := attrs_parse ex_lex ex_keyword false struct_place [attr x (MNameValue (VStr a)); attr x (MNameValue (VStr b))] in
  let once x a := attrs_parse ex_lex ex_keyword false struct_place [attr x (MNameValue (VStr a))] in
  (twice "cxx_name" "A" "B" = once "cxx_name" "B" /\ snd (twice "cxx_name" "A" "B") = []) /\
  (twice "rust_name" "A" "B" = once "rust_name" "B" /\ snd (twice "rust_name" "A" "B") = []) /\
  (twice "namespace" "A" "B" = once "namespace" "B" /\ snd (twice "namespace" "A" "B") = []).
Proof. repeat split. Qed.
Print Assumptions C71_no_effect_refuted.
