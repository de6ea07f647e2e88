(** C78: documentation copied into the generated C++ stays a comment. *)
From Verif Require Import Base StrLib Doc_Model Doc_Spec Doc_Proofs.

Definition struct_text : string := "struct S final {" ++ String lf ("  int x;" ++ String lf ("};" ++ String lf "")).

(** Documentation never changes what the C++ compiler sees: false, a line that ends in a backslash
    swallows the line after it, here the first line of a struct. *)
Theorem C78_comment_refuted : exists fragments rest, forall lenient doxygen,
  code lenient rest = rest /\
  forall b, blank b = true -> code lenient (write_doc doxygen "" fragments ++ rest)%string <> (b ++ code lenient rest)%string.
Proof.
  exists [" Where to look:"; " see C:\"], struct_text.
  intros lenient doxygen. split; [destruct lenient; reflexivity|]. intros b B E.
  apply (f_equal (has_char "{")) in E. rewrite has_char_app in E.
  replace (has_char "{" (code lenient struct_text)) with true in E by (destruct lenient; reflexivity).
  rewrite orb_true_r in E. destruct lenient, doxygen; vm_compute in E; discriminate.
Qed.
Print Assumptions C78_comment_refuted.

(** Documentation in which no line ends in a backslash leaves only blanks, for every text that follows:
    in particular comment markers, quotes and line breaks inside it do not matter. *)
Theorem C78_comment_partial : forall lenient doxygen indent fragments rest,
  spaces indent = true -> (forall f, In f fragments -> ~ ends_in_backslash f) ->
  exists b, blank b = true /\
    code lenient (write_doc doxygen indent fragments ++ rest)%string = (b ++ code lenient rest)%string.
Proof. intros. apply write_doc_code; assumption. Qed.
Print Assumptions C78_comment_partial.

(** Documentation written with [///] is copied line by line, in order and unchanged. *)
Theorem C78_copied : forall doxygen indent fragments,
  (forall f, In f fragments -> has_char lf f = false /\ forall g, f <> (g ++ String cr "")%string) ->
  write_doc doxygen indent fragments =
  text (map (fun f => indent ++ (if doxygen then "///" else "//") ++ f ++ String lf "")%string
         (fragments ++ if doxygen then match fragments with [_] => [""] | _ => [] end else [])).
Proof.
  intros doxygen indent fs H.
  assert (L : lines (doc_to_string fs) = fs).
  { unfold doc_to_string. induction fs as [|f fs IH]; [reflexivity|]. cbn [map]. rewrite text_cons, append_assoc_s.
    change (String lf "" ++ ?x)%string with (String lf x). unfold lines in *.
    destruct (H f (or_introl eq_refl)) as [N C].
    assert (S : split_inclusive (f ++ String lf (text (map (fun f => (f ++ String lf "")%string) fs))) = (f, true) :: split_inclusive (text (map (fun f => (f ++ String lf "")%string) fs))).
    { clear - N. induction f as [|c f IHf]; [reflexivity|]. cbn [has_char] in N. apply orb_false_elim in N as [N1 N2]. cbn [append split_inclusive].
      rewrite N1, (IHf N2). reflexivity. }
    rewrite S. cbn [map]. rewrite IH by (intros g I; apply H; right; exact I). f_equal.
    destruct (strip_cr_cases f) as [E|E]; [exact E|]. exfalso. exact (C _ E). }
  unfold write_doc. rewrite L. rewrite map_app, text_app. f_equal. destruct doxygen; [|reflexivity].
  destruct fs as [|f [|g fs]]; try reflexivity. cbn [List.length Nat.eqb andb map]. rewrite text_cons. cbn [text fold_right].
  rewrite append_nil_s. reflexivity.
Qed.
Print Assumptions C78_copied.

Example C78_nonvacuous :
  (forall f, In f [" quotes ' and /* and ""; and "; " C:\Windows\ x"] -> ~ ends_in_backslash f) /\
  code true (write_doc true "  " [" quotes ' and /* and ""; and "; " C:\Windows\ x"] ++ struct_text)%string =
    (String " " (String " " (String " " (String lf (String " " (String " " (String " " (String lf struct_text))))))))%string.
Proof.
  split; [|vm_compute; reflexivity].
  assert (X : forall f : string, (forall a w, f = (a ++ String backslash w)%string -> spaces w = false) -> has_char lf f = false -> ~ ends_in_backslash f).
  { intros f H N (a & w & W & [E|(b & E)]).
    - rewrite (H a w E) in W. discriminate.
    - rewrite E, has_char_app in N. cbn [has_char] in N. rewrite has_char_app in N. cbn [has_char] in N.
      rewrite (proj2 (Ascii.eqb_eq lf lf) eq_refl) in N. rewrite !orb_true_r in N. discriminate. }
  intros f [<-|[<-|[]]]; apply X; try reflexivity; intros a w E;
    repeat (destruct a as [|? a]; cbn [append] in E; [try discriminate E; injection E as <-; reflexivity|injection E as _ E]);
    destruct a; discriminate.
Qed.
