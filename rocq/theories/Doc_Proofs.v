From Verif Require Import Base StrLib Doc_Model Doc_Spec.

Lemma append_assoc_s a b c : ((a ++ b) ++ c)%string = (a ++ b ++ c)%string.
Proof. induction a; cbn; congruence. Qed.
Lemma append_nil_s a : (a ++ "")%string = a.
Proof. induction a; cbn; congruence. Qed.

(** ** what lines are *)
Definition trailing (l : string) : Prop := exists a w, spaces w = true /\ l = (a ++ String backslash w)%string.
Lemma split_incl_nil s : split_inclusive s = [] -> s = "".
Proof.
  destruct s as [|c r]; [reflexivity|]. cbn [split_inclusive]. destruct (Ascii.eqb c lf); [discriminate|].
  destruct (split_inclusive r) as [|[]]; discriminate.
Qed.
Lemma split_incl_no_lf s : forall l b, In (l, b) (split_inclusive s) -> has_char lf l = false.
Proof.
  induction s as [|c r IH]; intros l b I; [destruct I|]. cbn [split_inclusive] in I.
  destruct (Ascii.eqb_spec c lf) as [->|N].
  - destruct I as [E|I]; [injection E as <- _; reflexivity|eauto].
  - destruct (split_inclusive r) as [|[l0 b0] t].
    + destruct I as [E|[]]. injection E as <- _. cbn [has_char]. destruct (Ascii.eqb_spec c lf); [congruence|reflexivity].
    + destruct I as [E|I]; [|exact (IH l b (or_intror I))]. injection E as <- _. cbn [has_char]. destruct (Ascii.eqb_spec c lf); [congruence|].
      exact (IH l0 b0 (or_introl eq_refl)).
Qed.
Lemma strip_cr_cases s : strip_cr s = s \/ s = (strip_cr s ++ String cr "")%string.
Proof.
  induction s as [|c r IH]; [left; reflexivity|]. destruct r as [|d r].
  - cbn [strip_cr append]. destruct (Ascii.eqb_spec c cr) as [->|N]; [right; reflexivity|left; reflexivity].
  - change (strip_cr (String c (String d r))) with (String c (strip_cr (String d r))). destruct IH as [->|E]; [left; reflexivity|].
    right. cbn [append]. rewrite <- E. reflexivity.
Qed.
Lemma has_char_app c a b : has_char c (a ++ b)%string = (has_char c a || has_char c b)%bool.
Proof. induction a as [|d a IH]; cbn; [reflexivity|]. rewrite IH, orb_assoc. reflexivity. Qed.
Lemma line_no_lf s l : In l (lines s) -> has_char lf l = false.
Proof.
  unfold lines. intros I. apply in_map_iff in I as ([l0 b] & <- & I). apply split_incl_no_lf in I.
  destruct b; [|exact I]. destruct (strip_cr_cases l0) as [->|E]; [exact I|]. rewrite E, has_char_app in I. apply orb_false_elim in I. tauto.
Qed.
(** a line is found in the text, before a line feed or at the end *)
Lemma split_incl_in s : forall l b, In (l, b) (split_inclusive s) ->
  exists p, s = (p ++ l)%string /\ b = false \/ exists q, s = (p ++ l ++ String lf q)%string.
Proof.
  induction s as [|c r IH]; intros l b I; [destruct I|]. cbn [split_inclusive] in I.
  destruct (Ascii.eqb_spec c lf) as [->|N].
  - destruct I as [E|I].
    + injection E as <- <-. exists "". right. exists r. reflexivity.
    + destruct (IH _ _ I) as (p & [[-> E]|(q & ->)]); exists (String lf p); [left|right; exists q]; auto.
  - destruct (split_inclusive r) as [|[l0 b0] t] eqn:S.
    + destruct I as [E|[]]. injection E as <- <-. apply split_incl_nil in S as ->.
      exists "". left. auto.
    + destruct I as [E|I].
      * injection E as <- <-. clear IH. assert (H : exists q, r = (l0 ++ q)%string /\ (q = "" /\ b0 = false \/ exists q', q = String lf q')).
        { clear - S. revert l0 b0 t S. induction r as [|d r IHr]; intros l0 b0 t S; [discriminate|]. cbn [split_inclusive] in S.
          destruct (Ascii.eqb_spec d lf) as [->|N].
          - injection S as <- <- _. exists (String lf r). split; [reflexivity|eauto].
          - destruct (split_inclusive r) as [|[l1 b1] t1] eqn:S1.
            + injection S as <- <- _. apply split_incl_nil in S1 as ->.
              exists "". auto.
            + injection S as <- <- _. destruct (IHr _ _ _ eq_refl) as (q & -> & H). exists q. auto. }
        destruct H as (q & -> & [[-> ->]|(q' & ->)]); exists ""; [left; rewrite append_nil_s; auto|right; exists q'; reflexivity].
      * destruct (IH l b) as (p & [[-> E]|(q & ->)]); [right; exact I| |]; exists (String c p); [left|right; exists q]; auto.
Qed.

Lemma text_cons a l : text (a :: l) = (a ++ text l)%string.
Proof. reflexivity. Qed.
Lemma text_app a b : text (a ++ b) = (text a ++ text b)%string.
Proof. unfold text. induction a as [|x a IH]; cbn; [reflexivity|]. rewrite IH, append_assoc_s. reflexivity. Qed.
Lemma app_split (a b c d : string) : (a ++ b)%string = (c ++ d)%string -> (exists m, c = (a ++ m)%string /\ b = (m ++ d)%string) \/ (exists m, a = (c ++ m)%string /\ d = (m ++ b)%string).
Proof.
  revert c. induction a as [|x a IH]; intros c E; cbn in E.
  - left. exists c. auto.
  - destruct c as [|y c]; cbn in E.
    + right. exists (String x a). cbn. rewrite E. auto.
    + injection E as -> E. destruct (IH _ E) as [(m & -> & ->)|(m & -> & ->)]; [left|right]; exists m; auto.
Qed.
Lemma spaces_app a b : spaces (a ++ b) = (spaces a && spaces b)%bool.
Proof. induction a as [|c a IH]; cbn; [reflexivity|]. rewrite IH, andb_assoc. reflexivity. Qed.
Lemma spaces_no_lf w : spaces w = true -> has_char lf w = false.
Proof.
  induction w as [|c w IH]; intros H; [reflexivity|]. cbn [spaces has_char] in *. apply andb_prop in H as [A B]. rewrite (IH B).
  destruct (Ascii.eqb_spec c lf) as [->|]; [discriminate|]. reflexivity.
Qed.
(** a backslash at the end of a line of the whole text is at the end of a line of a fragment *)
Lemma bad_fragment fs : forall p w q, spaces w = true -> doc_to_string fs = (p ++ String backslash (w ++ String lf q))%string ->
  exists f, In f fs /\ ends_in_backslash f.
Proof.
  unfold doc_to_string. induction fs as [|f fs IH]; intros p w q W E; cbn in E; [destruct p; discriminate|].
  rewrite append_assoc_s in E. apply app_split in E as [(m & -> & E)|(m & -> & E)].
  - (* after the fragment *)
    destruct m as [|c m]; cbn in E; [discriminate|]. injection E as <- E.
    destruct (IH m w q W E) as (g & I & B). exists g. split; [right; exact I|exact B].
  - (* begins in the fragment *)
    exists (p ++ m)%string. split; [left; reflexivity|]. destruct m as [|c m]; cbn in E; [discriminate|]. injection E as <- E.
    apply app_split in E as [(m' & -> & E)|(m' & -> & E)].
    + exists p, w. split; [exact W|]. destruct m' as [|d m']; cbn in E.
      * left. rewrite append_nil_s. reflexivity.
      * injection E as <- _. right. exists m'. reflexivity.
    + exists p, m. destruct m' as [|d m']; cbn in E.
      * split; [rewrite append_nil_s in W; exact W|]. left. reflexivity.
      * injection E as <- _. rewrite spaces_app in W. apply andb_prop in W as [_ W]. cbn in W. discriminate.
Qed.
Lemma doc_ends_lf fs : doc_to_string fs = "" \/ exists t, doc_to_string fs = (t ++ String lf "")%string.
Proof.
  unfold doc_to_string. induction fs as [|f fs IH] using rev_ind; [left; reflexivity|]. right. rewrite map_app, text_app. cbn.
  rewrite append_nil_s. exists (text (map (fun f => f ++ String lf "") fs) ++ f)%string. rewrite append_assoc_s. reflexivity.
Qed.
Lemma line_ok fs l : (forall f, In f fs -> ~ ends_in_backslash f) -> In l (lines (doc_to_string fs)) -> ~ trailing l.
Proof.
  intros H I (a & w & W & ->). unfold lines in I. apply in_map_iff in I as ([l0 b] & E & I). apply split_incl_in in I as I'.
  destruct I' as (p & I').
  assert (L0 : exists w', spaces w' = true /\ l0 = (a ++ String backslash w')%string).
  { destruct b; [|exists w; auto]. destruct (strip_cr_cases l0) as [S|S]; rewrite E in S; [exists w; auto|].
    exists (w ++ String cr "")%string. split; [rewrite spaces_app, W; reflexivity|]. rewrite S, append_assoc_s. reflexivity. }
  clear E. destruct L0 as (w' & W' & ->).
  assert (X : exists q, doc_to_string fs = ((p ++ a) ++ String backslash (w' ++ String lf q))%string).
  { destruct I' as [[E _]|(q & E)].
    - exfalso. destruct (doc_ends_lf fs) as [Z|(t & Z)]; rewrite Z in E.
      + destruct p; [|discriminate]. destruct a; discriminate.
      + assert (N : has_char lf (String backslash w') = false) by (cbn; apply spaces_no_lf; exact W').
        rewrite <- append_assoc_s in E. symmetry in E. apply app_split in E as [(m & -> & E)|(m & E1 & E)].
        * assert (N' : has_char lf (m ++ String lf "") = false) by (rewrite <- E; exact N). rewrite has_char_app in N'. cbn in N'. rewrite orb_true_r in N'. discriminate.
        * destruct m as [|c m].
          -- discriminate E.
          -- cbn in E. injection E as _ E. destruct m; discriminate.
    - exists q. rewrite E, !append_assoc_s. reflexivity. }
  destruct X as (q & X). destruct (bad_fragment _ _ _ _ W' X) as (f & If & B). exact (H f If B).
Qed.

(** ** the comment *)
Lemma trailing_cons c l : ~ trailing (String c l) -> ~ trailing l.
Proof. intros H (a & w & W & ->). apply H. exists (String c a), w. auto. Qed.
Lemma splice_line len l : has_char lf l = false -> ~ trailing l -> forall rest,
  splice len None (l ++ String lf rest)%string = (l ++ String lf (splice len None rest))%string /\
  forall w, spaces w = true -> ~ trailing (String backslash (w ++ l)%string) ->
    splice len (Some w) (l ++ String lf rest)%string = String backslash (w ++ l ++ String lf (splice len None rest))%string.
Proof.
  induction l as [|c l IH]; intros N T rest.
  - split; [reflexivity|]. intros w W Tw. exfalso. apply Tw. exists "", w. rewrite append_nil_s. auto.
  - cbn [has_char] in N. destruct (Ascii.eqb_spec c lf) as [|Nc]; [discriminate|]. assert (Tl := trailing_cons _ _ T). destruct (IH N Tl rest) as (H1 & H2).
    cbn [append splice]. split.
    + destruct (Ascii.eqb_spec c backslash) as [->|Nb]; [|rewrite H1; reflexivity]. rewrite H2; auto.
    + intros w W Tw. destruct (Ascii.eqb_spec c lf); [congruence|]. destruct (len && space c)%bool eqn:S.
      * apply andb_prop in S as [-> S]. rewrite H2; [rewrite append_assoc_s; reflexivity| |].
        -- rewrite spaces_app, W. cbn [spaces andb]. rewrite S. reflexivity.
        -- rewrite append_assoc_s. exact Tw.
      * cbn [append]. f_equal. f_equal. destruct (Ascii.eqb_spec c backslash) as [->|Nb]; [|rewrite H1; reflexivity]. rewrite H2; auto.
Qed.
Lemma strip_line l rest : has_char lf l = false -> strip_comments SLine (l ++ String lf rest)%string = String lf (strip_comments SCode rest).
Proof.
  induction l as [|c l IH]; intros N; [reflexivity|]. cbn [has_char] in N. destruct (Ascii.eqb_spec c lf) as [|Nc]; [discriminate|].
  cbn [append strip_comments]. destruct (Ascii.eqb_spec c lf); [congruence|]. auto.
Qed.
Lemma strip_spaces w rest : spaces w = true -> strip_comments SCode (w ++ rest)%string = (w ++ strip_comments SCode rest)%string.
Proof.
  induction w as [|c w IH]; intros S; [reflexivity|]. cbn in S. apply andb_prop in S as [S W]. cbn [append strip_comments].
  destruct (Ascii.eqb_spec c slash) as [->|]; [discriminate|]. destruct (Ascii.eqb_spec c quote) as [->|]; [discriminate|].
  destruct (Ascii.eqb_spec c tick) as [->|]; [discriminate|]. rewrite IH by exact W. reflexivity.
Qed.
Lemma spaces_blank w : spaces w = true -> blank w = true.
Proof. induction w as [|c w IH]; [reflexivity|]. cbn. intros S. apply andb_prop in S as [-> S]. cbn. auto. Qed.
Lemma blank_app a b : blank (a ++ b) = (blank a && blank b)%bool.
Proof. induction a as [|c a IH]; cbn; [reflexivity|]. rewrite IH, andb_assoc. reflexivity. Qed.

Lemma trailing_app a l : ~ trailing l -> spaces a = true \/ (exists b, a = (b ++ String slash "")%string) -> has_char backslash a = false -> ~ trailing (a ++ l)%string.
Proof.
  intros T _ N (b & w & W & E). apply app_split in E as [(m & -> & E)|(m & -> & E)].
  - apply T. exists m, w. auto.
  - destruct m as [|c m].
    + cbn in E. apply T. exists "", w. auto.
    + cbn in E. injection E as <- E. rewrite has_char_app in N. cbn in N. rewrite orb_true_r in N. discriminate.
Qed.
Lemma comment_line len indent slashes l rest : spaces indent = true -> slashes = "//" \/ slashes = "///" -> has_char lf l = false -> ~ trailing l ->
  exists b, blank b = true /\ code len (indent ++ slashes ++ l ++ String lf rest)%string = (b ++ code len rest)%string.
Proof.
  intros S Sl N T. unfold code.
  assert (E : (indent ++ slashes ++ l ++ String lf rest)%string = ((indent ++ slashes ++ l) ++ String lf rest)%string) by (rewrite !append_assoc_s; reflexivity).
  rewrite E. clear E.
  assert (N1 : has_char lf (indent ++ slashes ++ l) = false).
  { rewrite !has_char_app, (spaces_no_lf _ S), N. destruct Sl as [->| ->]; reflexivity. }
  assert (Nb : has_char backslash (indent ++ slashes) = false).
  { rewrite has_char_app. replace (has_char backslash indent) with false; [destruct Sl as [->| ->]; reflexivity|].
    clear - S. induction indent as [|c w IH]; [reflexivity|]. cbn [spaces has_char] in *. apply andb_prop in S as [A B]. rewrite (IH B).
    destruct (Ascii.eqb_spec c backslash) as [->|]; [discriminate|]. reflexivity. }
  assert (T1 : ~ trailing (indent ++ slashes ++ l)%string).
  { rewrite <- append_assoc_s. apply trailing_app; [exact T| |exact Nb]. right.
    destruct Sl as [->| ->]; [exists (indent ++ "/")%string|exists (indent ++ "//")%string]; rewrite append_assoc_s; reflexivity. }
  rewrite (proj1 (splice_line len _ N1 T1 rest)).
  rewrite append_assoc_s, strip_spaces, append_assoc_s by exact S.
  exists (indent ++ " " ++ String lf "")%string. split; [rewrite blank_app, (spaces_blank _ S); reflexivity|].
  destruct Sl as [->| ->]; cbn [append].
  - cbn [strip_comments]. change (Ascii.eqb "/" slash) with true. cbn iota. rewrite strip_line by exact N. rewrite append_assoc_s. reflexivity.
  - cbn [strip_comments]. change (Ascii.eqb "/" slash) with true. cbn iota. change (Ascii.eqb "/" lf) with false. cbn iota.
    rewrite strip_line by exact N. rewrite append_assoc_s. reflexivity.
Qed.
Lemma comment_lines len indent slashes ls : forall rest, spaces indent = true -> slashes = "//" \/ slashes = "///" ->
  Forall (fun l => has_char lf l = false /\ ~ trailing l) ls ->
  exists b, blank b = true /\ code len (text (map (fun l => indent ++ slashes ++ l ++ String lf "")%string ls) ++ rest)%string = (b ++ code len rest)%string.
Proof.
  induction ls as [|l ls IH]; intros rest S Sl F; [exists ""; auto|]. inversion F as [|? ? [N T] F']; subst. cbn [map]. rewrite text_cons.
  destruct (IH rest S Sl F') as (b & B & E).
  rewrite !append_assoc_s. change (String lf "" ++ ?x)%string with (String lf x). destruct (comment_line len indent slashes l (text (map (fun l => (indent ++ slashes ++ l ++ String lf "")%string) ls) ++ rest)%string S Sl N T) as (b' & B' & E').
  exists (b' ++ b)%string. split; [rewrite blank_app, B, B'; reflexivity|]. rewrite E'. rewrite E, append_assoc_s. reflexivity.
Qed.
Lemma not_trailing_nil : ~ trailing "".
Proof. intros (a & w & _ & E). destruct a; discriminate. Qed.
Lemma write_doc_code len doxygen indent fs rest : spaces indent = true -> (forall f, In f fs -> ~ ends_in_backslash f) ->
  exists b, blank b = true /\ code len (write_doc doxygen indent fs ++ rest)%string = (b ++ code len rest)%string.
Proof.
  intros S H. unfold write_doc.
  assert (F : Forall (fun l => has_char lf l = false /\ ~ trailing l) (lines (doc_to_string fs))).
  { apply Forall_forall. intros l I. split; [eapply line_no_lf; exact I|eapply line_ok; eauto]. }
  set (slashes := if doxygen then "///" else "//"). assert (Sl : slashes = "//" \/ slashes = "///") by (destruct doxygen; auto).
  rewrite append_assoc_s.
  match goal with |- exists b, _ /\ code len (_ ++ ?r)%string = _ => destruct (comment_lines len indent slashes _ r S Sl F) as (b & B & E) end.
  rewrite E. clear E. destruct (doxygen && Nat.eqb (List.length (lines (doc_to_string fs))) 1)%bool.
  - destruct (comment_line len indent "///" "" rest S (or_intror eq_refl) eq_refl not_trailing_nil) as (b' & B' & E').
    exists (b ++ b')%string. split; [rewrite blank_app, B, B'; reflexivity|]. rewrite (append_assoc_s b b'), <- E'. rewrite !append_assoc_s. reflexivity.
  - exists b. auto.
Qed.
