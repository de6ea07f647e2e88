(** C41, C42: Display and Debug of C++ strings. *)
From Verif Require Import Base Lossy_Model Lossy_Spec Lossy_Proofs.
Require Import NArith ZArith Lia.
Local Open Scope N_scope.

(** * C41 *)

(** Every byte string has exactly one decomposition into characters and maximal bad subparts,
    so the specification of the lossy conversion determines its result. *)
Theorem C41_spec_total : forall bytes, exists ps, parts bytes ps /\ forall qs, parts bytes qs -> qs = ps.
Proof.
  intros bytes. destruct (display_spec (Datatypes.S (List.length bytes)) bytes) as (ps & _ & P & _); [lia|].
  exists ps. split; [exact P|]. intros qs Q. now apply (parts_unique bytes).
Qed.
Print Assumptions C41_spec_total.

(** Displaying any bytes writes, piece by piece, exactly the lossy conversion; the pieces do not
    depend on the formatter, an error of the formatter is returned and nothing is written
    after it. *)
Theorem C41_lossy : forall bytes ps, parts bytes ps ->
  exists pieces, List.concat pieces = utf8_text (lossy ps) /\
    forall S (write : S -> list N -> option S) f, display_string write bytes f = Some (writes write pieces f).
Proof.
  intros bytes ps P. destruct (display_spec (Datatypes.S (List.length bytes)) bytes) as (qs & pieces & Q & C & D); [lia|].
  rewrite (parts_unique bytes ps P qs Q). exists pieces. split; auto.
Qed.
Print Assumptions C41_lossy.

(** What is written is valid UTF-8, and it is the string itself if that is valid UTF-8. *)
Theorem C41_valid : forall bytes, exists out,
  display_string (fun s l => Some (s ++ l)) bytes [] = Some (Some out) /\
  valid_utf8 out /\ (valid_utf8 bytes -> out = bytes).
Proof.
  intros bytes. destruct (display_spec (Datatypes.S (List.length bytes)) bytes) as (ps & pieces & P & C & D); [lia|].
  assert (W : forall pieces (s : list N), writes (fun s l => Some (s ++ l)) pieces s = Some (s ++ List.concat pieces)).
  { clear. induction pieces as [|p pieces IH]; intros s; cbn; [now rewrite app_nil_r|]. now rewrite IH, app_assoc. }
  exists (List.concat pieces). split; [|split].
  - unfold display_string. rewrite D, W. reflexivity.
  - exists (lossy ps). split; [|exact C]. unfold lossy. apply Forall_map.
    eapply Forall_impl; [|exact (parts_scalar _ _ P)]. intros [c|l]; auto. intros _. right. lia.
  - intros (cs & F & ->). rewrite (parts_unique _ _ P (map Char cs) (parts_text cs F)) in C.
    rewrite <- (app_nil_r (map Char cs)), lossy_chars in C. cbn in C. now rewrite app_nil_r in C.
Qed.
Print Assumptions C41_valid.

(** "a", the first two bytes of a three-byte character, a stray byte, the replacement of a
    surrogate (three bad parts), "é", and a character cut off at the end *)
Example C41_nonvacuous :
  let bytes := [97; 226; 130; 255; 237; 160; 128; 195; 169; 240; 159] in
  parts bytes [Char 97; Bad [226; 130]; Bad [255]; Bad [237]; Bad [160]; Bad [128]; Char 233; Bad [240; 159]] /\
  display_string (fun s l => Some (s ++ l)) bytes [] =
    Some (Some [97; 239; 191; 189; 239; 191; 189; 239; 191; 189; 239; 191; 189; 239; 191; 189; 195; 169; 239; 191; 189]).
Proof.
  cbv zeta. split; [|reflexivity].
  assert (R : forall x r bad k ps, validate1 x r = Bad_len (Some k) -> bad = firstn k (x :: r) -> parts (skipn k (x :: r)) ps -> parts (x :: r) (Bad bad :: ps)).
  { intros x r bad k ps V -> P. destruct (bad_round x r (Some k) V) as (b & r' & E & _ & L & H). rewrite E in P.
    rewrite <- L, skipn_len_app in P. replace (firstn k (x :: r)) with b; [auto|]. now rewrite E, <- L, firstn_len_app. }
  apply (parts_char 97); [left; lia|].
  eapply R; [reflexivity|reflexivity|cbn]. eapply R; [reflexivity|reflexivity|cbn]. eapply R; [reflexivity|reflexivity|cbn].
  eapply R; [reflexivity|reflexivity|cbn]. eapply R; [reflexivity|reflexivity|cbn].
  apply (parts_char 233); [left; lia|].
  destruct (bad_round 240 [159] None eq_refl) as (b & r & E & _ & -> & H). rewrite app_nil_r in E. subst b. apply H. constructor.
Qed.

(** * C42 *)

(** The Debug form is the parts, each shown as it is or escaped, between double quotes. *)
Theorem C42_escape : forall printable bytes ps,
  Forall (fun b => b < 256) bytes -> parts bytes ps ->
  exists css pieces, Forall2 (shown printable) ps css /\
    List.concat pieces = utf8_text (34 :: List.concat css ++ [34]) /\
    forall S (write : S -> list N -> option S) f, debug write printable bytes f = Some (writes write pieces f).
Proof.
  intros plain bytes ps B P. destruct (debug_loop_spec plain (List.length bytes) bytes (le_n _) B) as (qs & css & pieces & Q & SH & C & D).
  rewrite (parts_unique bytes ps P qs Q). exists css, ([utf8 34] ++ pieces ++ [utf8 34]). split; [exact SH|]. split.
  - rewrite !concat_app, C. change (34 :: List.concat css ++ [34]) with ([34] ++ List.concat css ++ [34]). now rewrite !utf8_text_app.
  - intros. unfold debug. rewrite writes_app, !encode_utf8. cbn [writes]. destruct (write f (utf8 34)) as [f1|]; [|reflexivity].
    rewrite D, writes_app. destruct (writes write pieces f1) as [f2|]; [|reflexivity]. cbn [writes]. now destruct (write f2 (utf8 34)).
Qed.
Print Assumptions C42_escape.

(** It is valid UTF-8, and the original bytes can be read back from it: reading ends at the
    closing quote and nowhere before. *)
Theorem C42_faithful : forall printable bytes,
  Forall (fun b => b < 256) bytes ->
  exists cs, debug (fun s l => Some (s ++ l)) printable bytes [] = Some (Some (utf8_text cs)) /\
    Forall scalar cs /\ unquote cs = Some bytes.
Proof.
  intros plain bytes B. destruct (C41_spec_total bytes) as (ps & P & _).
  destruct (C42_escape plain bytes ps B P) as (css & pieces & SH & C & D).
  exists (34 :: List.concat css ++ [34]).
  assert (W : forall pieces (s : list N), writes (fun s l => Some (s ++ l)) pieces s = Some (s ++ List.concat pieces)).
  { clear. induction pieces as [|p pieces IH]; intros s; cbn; [now rewrite app_nil_r|]. now rewrite IH, app_assoc. }
  split; [|split].
  - rewrite D, W, C. reflexivity.
  - assert (Q : scalar 34) by (left; lia). constructor; [exact Q|]. apply Forall_app; split; [|now constructor].
    pose proof (parts_scalar _ _ P) as SC. clear -SH SC. induction SH; inversion SC; subst; cbn; [constructor|].
    apply Forall_app; split; auto. eapply shown_scalar; eauto.
  - eapply unquote_shown; eauto.
Qed.
Print Assumptions C42_faithful.

(** Different strings have different Debug forms. *)
Theorem C42_injective : forall printable a b,
  Forall (fun b => b < 256) a -> Forall (fun b => b < 256) b ->
  debug (fun s l => Some (s ++ l)) printable a [] = debug (fun s l => Some (s ++ l)) printable b [] -> a = b.
Proof.
  intros plain a b A B E. destruct (C42_faithful plain a A) as (cs & DA & SA & UA). destruct (C42_faithful plain b B) as (ds & DB & SB & UB).
  rewrite DA, DB in E. inversion E as [H].
  assert (cs = ds).
  { pose proof (parts_unique _ _ (parts_text cs SA) (map Char ds)) as U. rewrite H in U. specialize (U (parts_text ds SB)).
    clear -U. revert ds U. induction cs as [|c cs IH]; intros [|d ds] U; inversion U; [reflexivity|]. f_equal. auto. }
  congruence.
Qed.
Print Assumptions C42_injective.

(** a letter, both kinds of quotes, a backslash, a newline, a zero, a control character that is
    not printable, broken bytes *)
Example C42_nonvacuous :
  debug (fun s l => Some (s ++ l)) (fun c => negb (c =? 133)) [97; 34; 39; 92; 10; 0; 194; 133; 255; 240; 159] [] =
  Some (Some ([34; 97; 92; 34; 39; 92; 92; 92; 110; 92; 48; 92; 117; 123; 56; 53; 125] ++
              [92; 120; 102; 102; 92; 120; 102; 48; 92; 120; 57; 102; 34])).
Proof. reflexivity. Qed.
