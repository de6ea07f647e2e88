(** C68: making rust::String and rust::Str out of C++ data.  C69: a rust::String is UTF-8. *)
From Verif Require Import Base Lossy_Spec Lossy_Proofs Construct_Model Construct_Spec Construct_Proofs.
Require Import NArith ZArith Lia.

(** The constructors, by the kind of their argument *)
Definition string_of m ndebug (a : arg) : res (list N) :=
  match a with Std d n => String_std m d n | CString s => String_cstr m ndebug s | Array s n => String_len m ndebug s n end.
Definition lossy_of m ndebug (a : arg) : res (list N) :=
  match a with Std d n => lossy_std m ndebug d n | CString s => lossy_cstr m ndebug s | Array s n => lossy_len m ndebug s n end.
Definition str_of m ndebug (a : arg) : res (nat * nat) :=
  match a with Std d n => Str_std m d n | CString s => Str_cstr m ndebug s | Array s n => Str_len m ndebug s n end.
(** with char8_t and char16_t in place of char; there are none that take a std::u16string *)
Definition string8_of m ndebug (a : arg) : res (list N) :=
  match a with Std d n => String_std m d n | CString s => String_u8cstr m ndebug s | Array s n => String_u8len m ndebug s n end.
Definition string16_of m little ndebug (a : arg) : res (list N) :=
  match a with Std _ _ => UB | CString s => String_cstr16 m little ndebug s | Array s n => String_len16 m little ndebug s n end.
Definition lossy16_of m little ndebug (a : arg) : res (list N) :=
  match a with Std _ _ => UB | CString s => lossy_cstr16 m little ndebug s | Array s n => lossy_len16 m little ndebug s n end.

(** where the bytes are *)
Definition pointer (a : arg) : nat := match a with Std d _ => d | CString s => s | Array s _ => s end.

Lemma eqb_0 p : p <> 0 -> Nat.eqb p 0 = false.
Proof. now destruct p. Qed.
Lemma slice_empty m p : p <> 0 -> slice_u8 m p 0 = Made [].
Proof. intros. unfold slice_u8. now rewrite eqb_0. Qed.

(** In any memory, whether assertions are on or not: an argument standing for a text makes a
    String of exactly that text if it is UTF-8, and throws otherwise. *)
Theorem C68_string : forall m ndebug a text, stands_for m a text ->
  (valid_utf8 text -> string_of m ndebug a = Made text /\ string8_of m ndebug a = Made text) /\
  (~ valid_utf8 text -> string_of m ndebug a = Throws "data for rust::String is not utf-8"
                        /\ string8_of m ndebug a = Throws "data for rust::String is not utf-8").
Proof.
  intros m ndebug a l S.
  assert (H : string_of m ndebug a = (if is_utf8 l then Made l else Throws "data for rust::String is not utf-8")).
  { assert (I : forall p, slice_u8 m p (List.length l) = Made l -> initString8 m p (List.length l) = if is_utf8 l then Made l else Throws "data for rust::String is not utf-8").
    { intros p E. unfold initString8, string_from_utf8. rewrite E. cbn [bind]. now destruct (is_utf8 l). }
    destruct a as [d n|s|s n]; cbn [stands_for string_of] in *.
    - destruct S as [S ->]. apply I. now apply holds_slice.
    - destruct S as [S N]. pose proof S as [Z _]. unfold String_cstr, assert. rewrite eqb_0 by auto. cbn [negb orb bind].
      rewrite (holds_strlen _ _ _ S N). cbn [bind]. apply I. apply holds_slice. eapply holds_prefix; eauto.
    - destruct S as [-> S]. unfold String_len, assert. destruct S as [->|S].
      + cbn [List.length Nat.eqb]. rewrite Bool.orb_true_r. cbn [orb bind]. rewrite Bool.andb_true_r. apply (I _).
        destruct (Nat.eqb_spec s 0); now apply slice_empty.
      + pose proof S as [Z _]. rewrite eqb_0 by auto. cbn [negb orb andb bind]. apply I. now apply holds_slice. }
  assert (E : string8_of m ndebug a = string_of m ndebug a) by (now destruct a). rewrite E, H.
  pose proof (is_utf8_spec l). destruct (is_utf8 l); split; intros V; auto; exfalso.
  - apply V. now apply H0.
  - apply H0 in V. discriminate.
Qed.
Print Assumptions C68_string.

(** A Str is a view of the caller's bytes, never a null pointer; the same texts are accepted. *)
Theorem C68_str : forall m ndebug a text, stands_for m a text ->
  (valid_utf8 text -> exists p,
     str_of m ndebug a = Made (p, List.length text) /\ p <> 0
     /\ (text <> [] -> p = pointer a)
     /\ Str_to_std m (p, List.length text) = Some text) /\
  (~ valid_utf8 text -> str_of m ndebug a = Throws "data for rust::Str is not utf-8").
Proof.
  intros m ndebug a l S.
  assert (H : exists p, str_of m ndebug a = (if is_utf8 l then Made (p, List.length l) else Throws "data for rust::Str is not utf-8")
    /\ slice_u8 m p (List.length l) = Made l /\ (l <> [] -> p = pointer a)).
  { assert (I : forall p, slice_u8 m p (List.length l) = Made l -> initStr m p (List.length l) = if is_utf8 l then Made (p, List.length l) else Throws "data for rust::Str is not utf-8").
    { intros p E. unfold initStr, str_from. rewrite E. cbn [bind]. now destruct (is_utf8 l). }
    destruct a as [d n|s|s n]; cbn [stands_for str_of pointer] in *.
    - destruct S as [S ->]. exists d. pose proof (holds_slice _ _ _ S). auto.
    - destruct S as [S N]. pose proof S as [Z _]. exists s. unfold Str_cstr, assert. rewrite eqb_0 by auto. cbn [negb orb bind].
      rewrite (holds_strlen _ _ _ S N). cbn [bind]. pose proof (holds_slice _ _ _ (holds_prefix _ _ _ _ S)). auto.
    - destruct S as [-> S]. unfold Str_len, assert. destruct S as [->|S].
      + cbn [List.length Nat.eqb] in *. rewrite Bool.orb_true_r. cbn [orb bind]. rewrite Bool.andb_true_r.
        assert (J : slice_u8 m (if Nat.eqb s 0 then 1 else s) 0 = Made []) by (destruct (Nat.eqb_spec s 0); now apply slice_empty).
        eexists. split; [apply (I _ J)|]. split; [exact J|congruence].
      + pose proof S as [Z _]. exists s. rewrite eqb_0 by auto. cbn [negb orb andb bind]. pose proof (holds_slice _ _ _ S). auto. }
  destruct H as (p & E & SL & PT). rewrite E. pose proof (is_utf8_spec l) as V. destruct (is_utf8 l); split; intros W.
  - exists p. unfold slice_u8 in SL. destruct (Nat.eqb_spec p 0); [discriminate|]. repeat split; auto.
    unfold Str_to_std. cbn [fst snd]. destruct (bytes_from m p (List.length l)); congruence.
  - exfalso. apply W. now apply V.
  - apply V in W. discriminate.
  - reflexivity.
Qed.
Print Assumptions C68_str.

(** The lossy functions accept every text, valid or not; what they make is the lossy conversion
    of the specification, which is UTF-8 and the text itself if that is. *)
Theorem C68_lossy : forall m ndebug a text, stands_for m a text -> exists out,
  lossy_of m ndebug a = Made out /\
  (forall ps, parts text ps -> out = utf8_text (lossy ps)) /\
  valid_utf8 out /\ (valid_utf8 text -> out = text).
Proof.
  intros m ndebug a l S. destruct (parts_total l) as [ps P]. exists (utf8_text (lossy ps)).
  assert (I : forall p, slice_u8 m p (List.length l) = Made l -> string_from_utf8_lossy m p (List.length l) = Made (utf8_text (lossy ps))).
  { intros p E. unfold string_from_utf8_lossy. rewrite E. cbn [bind]. now rewrite (from_utf8_lossy_spec _ l (le_n _) ps P). }
  assert (J : forall s, l = [] \/ holds m s l -> lossy_len m ndebug s (List.length l) = Made (utf8_text (lossy ps))).
  { intros s [E|H]; unfold lossy_len, String_lossy8, assert.
    - rewrite E in I |- *. cbn [List.length Nat.eqb] in *. rewrite Bool.orb_true_r. cbn [orb bind]. rewrite Bool.andb_true_r. apply (I _).
      destruct (Nat.eqb_spec s 0); now apply slice_empty.
    - pose proof H as [Z _]. rewrite eqb_0 by auto. cbn [negb orb andb bind]. apply I. now apply holds_slice. }
  split; [|split; [|split]].
  - destruct a as [d n|s|s n]; cbn [stands_for lossy_of] in *.
    + destruct S as [S ->]. apply J. auto.
    + destruct S as [S N]. pose proof S as [Z _]. unfold lossy_cstr. unfold assert at 1. rewrite eqb_0 by auto. cbn [negb orb bind].
      rewrite (holds_strlen _ _ _ S N). cbn [bind]. apply J. right. eapply holds_prefix; eauto.
    + destruct S as [-> S]. now apply J.
  - intros qs Q. now rewrite (parts_unique _ _ P _ Q).
  - exists (lossy ps). split; [|reflexivity]. unfold lossy. apply Forall_map.
    eapply Forall_impl; [|exact (parts_scalar _ _ P)]. intros [c|b]; auto. intros _. right. lia.
  - intros (cs & F & ->). rewrite (parts_unique _ _ P (map Char cs) (parts_text cs F)).
    rewrite <- (app_nil_r (map Char cs)), lossy_chars. cbn. now rewrite app_nil_r.
Qed.
Print Assumptions C68_lossy.

Lemma stands_for16_slice m little ndebug a us (f : nat -> nat -> res (list N)) r :
  stands_for16 little m a us ->
  (forall p, slice_u16 m little p (List.length us) = Made us -> f p (List.length us) = r) ->
  match a with
  | Std _ _ => UB
  | CString s => bind (assert ndebug (negb (Nat.eqb s 0))) (fun _ => bind (assert ndebug (is_aligned16 s)) (fun _ => bind (length16 m s) (fun len => f s len)))
  | Array s n => bind (assert ndebug (negb (Nat.eqb s 0) || Nat.eqb n 0)) (fun _ => bind (assert ndebug (is_aligned16 s)) (fun _ =>
      f (if Nat.eqb s 0 && Nat.eqb n 0 then 2 else s) n))
  end = r.
Proof.
  intros [F S] I. destruct a as [d n|s|s n]; [destruct S| |].
  - destruct S as (A & H & N). pose proof H as [Z _]. unfold assert, is_aligned16. rewrite eqb_0, (aligned_odd _ A) by auto. cbn [negb orb bind].
    rewrite (holds_length16 _ _ _ _ A H N). cbn [bind]. apply I. apply holds_slice16; auto.
    unfold holds16 in *. rewrite map_app, concat_app in H. eapply holds_prefix; eauto.
  - destruct S as (A & -> & S). unfold assert, is_aligned16. rewrite (aligned_odd _ A). destruct S as [->|H].
    + cbn [List.length Nat.eqb negb] in *. rewrite Bool.orb_true_r. cbn [orb bind]. rewrite Bool.andb_true_r. apply I.
      unfold slice_u16. destruct (Nat.eqb_spec s 0); [reflexivity|]. rewrite eqb_0, (aligned_odd _ A) by auto. reflexivity.
    + pose proof H as [Z _]. rewrite eqb_0 by auto. cbn [negb orb andb bind]. apply I. now apply holds_slice16.
Qed.

(** The same for UTF-16, in either byte order. *)
Theorem C68_utf16 : forall m little ndebug a units, stands_for16 little m a units ->
  (forall cs, Forall scalar cs -> units = utf16_text cs -> string16_of m little ndebug a = Made (utf8_text cs)) /\
  (~ (exists cs, Forall scalar cs /\ units = utf16_text cs) ->
   string16_of m little ndebug a = Throws "data for rust::String is not utf-16").
Proof.
  intros m little ndebug a us S.
  assert (H : string16_of m little ndebug a =
    match from_utf16 us with Some t => Made t | None => Throws "data for rust::String is not utf-16" end).
  { refine (stands_for16_slice m little ndebug a us (initString16 m little) _ S _).
    intros p E. unfold initString16, string_from_utf16. now rewrite E. }
  rewrite H. split.
  - intros cs F ->. now rewrite from_utf16_good.
  - intros N. rewrite from_utf16_bad; auto. apply S.
Qed.
Print Assumptions C68_utf16.

Theorem C68_lossy16 : forall m little ndebug a units, stands_for16 little m a units ->
  exists ps, parts16 units ps /\
    lossy16_of m little ndebug a = Made (utf8_text (lossy ps)) /\
    (forall qs, parts16 units qs -> lossy qs = lossy ps) /\
    (forall cs, Forall scalar cs -> units = utf16_text cs -> lossy ps = cs).
Proof.
  intros m little ndebug a us S. destruct (parts16_total _ us (le_n _)) as [ps P]; [apply S|]. exists ps. split; [exact P|].
  assert (L : forall ps qs, map decoded ps = map decoded qs -> lossy qs = lossy ps).
  { clear. induction ps as [|p ps IH]; intros [|q qs] E; try discriminate; auto. cbn in E. injection E as E1 E2.
    cbn. f_equal; auto. destruct p, q; cbn in E1; congruence. }
  split; [|split].
  - assert (A : forall s n, (if Nat.eqb (if Nat.eqb s 0 && Nat.eqb n 0 then 2 else s) 0 && Nat.eqb n 0 then 2 else if Nat.eqb s 0 && Nat.eqb n 0 then 2 else s)
                    = if Nat.eqb s 0 && Nat.eqb n 0 then 2 else s).
    { intros s n. destruct s, n; reflexivity. }
    transitivity (match a with
      | Std _ _ => UB
      | CString s => bind (assert ndebug (negb (Nat.eqb s 0))) (fun _ => bind (assert ndebug (is_aligned16 s)) (fun _ => bind (length16 m s) (fun len => String_lossy16 m little s len)))
      | Array s n => bind (assert ndebug (negb (Nat.eqb s 0) || Nat.eqb n 0)) (fun _ => bind (assert ndebug (is_aligned16 s)) (fun _ =>
          String_lossy16 m little (if Nat.eqb s 0 && Nat.eqb n 0 then 2 else s) n))
      end).
    { destruct a as [| |s n]; [reflexivity|reflexivity|]. cbn [lossy16_of]. unfold lossy_len16, String_lossy16. now rewrite A. }
    apply (stands_for16_slice m little ndebug a us _ _ S).
    intros p E. unfold String_lossy16. replace (if Nat.eqb p 0 && _ then 2 else p) with p.
    + unfold string_from_utf16_lossy. rewrite E. cbn [bind]. now rewrite (from_utf16_lossy_spec us ps P).
    + unfold slice_u16 in E. destruct (Nat.eqb_spec p 0); [discriminate|]. reflexivity.
  - intros qs Q. apply L. now apply (parts16_unique us).
  - intros cs F ->. rewrite (L (map Char cs) ps).
    + rewrite <- (app_nil_r (map Char cs)), lossy_chars. apply app_nil_r.
    + now apply (parts16_unique (utf16_text cs)); [apply parts16_text|].
Qed.
Print Assumptions C68_lossy16.

(** With assertions on, a null pointer in place of a C string, or with a length, and a
    misaligned pointer to char16_t are noticed before anything is read. *)
Definition null_misuse (a : arg) : Prop := match a with Std _ _ => False | CString s => s = 0 | Array s n => s = 0 /\ n <> 0 end.
Theorem C68_asserts : forall m little a,
  (null_misuse a -> string_of m false a = Abort /\ string8_of m false a = Abort /\ lossy_of m false a = Abort /\ str_of m false a = Abort) /\
  (match a with Std _ _ => False | _ => True end -> null_misuse a \/ ~ aligned (pointer a) ->
   string16_of m little false a = Abort /\ lossy16_of m little false a = Abort).
Proof.
  intros m little a. split.
  - destruct a as [d n|s|s n]; cbn; [tauto|intros ->; auto|]. intros [-> N].
    unfold String_u8len, String_len, lossy_len, Str_len, assert. rewrite (eqb_0 n N). cbn. auto.
  - intros NS M. assert (O : ~ aligned (pointer a) -> is_aligned16 (pointer a) = false).
    { unfold is_aligned16. destruct (Nat.odd (pointer a)) eqn:E; auto. intros X. exfalso. apply X. exists (Nat.div2 (pointer a)).
      pose proof (Nat.div2_odd (pointer a)) as D. rewrite E in D. cbn in D. lia. }
    destruct a as [d n|s|s n]; [destruct NS| |]; cbn [null_misuse pointer string16_of lossy16_of] in *;
      unfold String_cstr16, lossy_cstr16, String_len16, lossy_len16, assert.
    + destruct M as [->|M]; [auto|]. rewrite (O M). destruct (Nat.eqb s 0); auto.
    + destruct M as [[-> N]|M]; [rewrite (eqb_0 n N); auto|]. rewrite (O M). destruct (Nat.eqb s 0), (Nat.eqb n 0); auto.
Qed.
Print Assumptions C68_asserts.

(** Memory with "é", a NUL, a stray byte, and in UTF-16 a pair, an unpaired surrogate, a NUL *)
Definition memory1 : memory :=
  [None; None; Some 195; Some 169; Some 0; Some 255; Some 0; None; Some 61; Some 216; Some 0; Some 222; Some 0; Some 216; Some 0; Some 0]%N.
Example C68_nonvacuous :
  stands_for memory1 (CString 2) [195; 169]%N /\ string_of memory1 true (CString 2) = Made [195; 169]%N /\
  str_of memory1 true (Array 2 2) = Made (2, 2) /\
  stands_for memory1 (Std 2 4) [195; 169; 0; 255]%N /\ string_of memory1 true (Std 2 4) = Throws "data for rust::String is not utf-8" /\
  lossy_of memory1 true (Std 2 4) = Made [195; 169; 0; 239; 191; 189]%N /\
  stands_for memory1 (Array 0 0) [] /\ string_of memory1 false (Array 0 0) = Made [] /\
  stands_for16 true memory1 (Array 8 2) [55357; 56832]%N /\ string16_of memory1 true false (Array 8 2) = Made [240; 159; 152; 128]%N /\
  stands_for16 true memory1 (CString 8) [55357; 56832; 55296]%N /\
  string16_of memory1 true false (CString 8) = Throws "data for rust::String is not utf-16" /\
  lossy16_of memory1 true false (CString 8) = Made [240; 159; 152; 128; 239; 191; 189]%N.
Proof.
  assert (H : forall p l, (exists b a, memory1 = b ++ map Some l ++ a /\ List.length b = p) -> p <> 0 -> holds memory1 p l) by (unfold holds; auto).
  assert (I : forall p l, p <> 0 -> p <= 16 -> firstn (List.length l) (skipn p memory1) = map Some l -> holds memory1 p l).
  { intros p l Z L E. apply H; auto. exists (firstn p memory1), (skipn (List.length l) (skipn p memory1)). split.
    - rewrite <- E, firstn_skipn, firstn_skipn. reflexivity.
    - rewrite firstn_length. cbn [List.length memory1]. lia. }
  unfold stands_for, stands_for16, holds16.
  repeat match goal with |- _ /\ _ => split end;
    try reflexivity; try (apply I; [lia|lia|reflexivity]); try (now left); try (now exists 4); try (repeat constructor; reflexivity);
    try (right; apply I; [lia|lia|reflexivity]); cbn; intuition discriminate.
Qed.
Example C68_invalid_nonvacuous : ~ valid_utf8 [195; 169; 0; 255]%N /\ ~ (exists cs, Forall scalar cs /\ [55357; 56832; 55296]%N = utf16_text cs).
Proof.
  split.
  - rewrite <- is_utf8_spec. discriminate.
  - intros (cs & F & E). pose proof (from_utf16_good cs F) as G. rewrite <- E in G. discriminate.
Qed.

(** * C69 *)
From Verif Require Import Store_Lib.
From Verif Require RString_Model RString_Spec RString_Props.

(** What C++ can do with a String other than write through its iterators; Rust appends text. *)
Definition proper (o : RString_Model.op) : Prop :=
  match o with
  | RString_Model.Write _ _ _ => False
  | RString_Model.Append _ l => valid_utf8 l
  | _ => True
  end.
(** every string is UTF-8 *)
Definition all_utf8 (st : list (option (list (option N))) * list (nat * RString_Model.repr)) : Prop :=
  forall x l, RString_Model.text x st = Some l -> valid_utf8 l.

Lemma valid_app a b : valid_utf8 a -> valid_utf8 b -> valid_utf8 (a ++ b).
Proof.
  intros (cs & F & ->) (ds & G & ->). exists (cs ++ ds). split; [now apply Forall_app|]. now rewrite utf8_text_app.
Qed.
Lemma valid_nil : valid_utf8 [].
Proof. exists []. split; auto. Qed.
From Verif Require RString_Proofs.
Lemma rel_text st s x l : RString_Proofs.rel st s -> RString_Model.text x st = Some l -> lookup x s = Some l.
Proof.
  intros R T. pose proof R as (m & E & I & C). unfold RString_Model.text in T.
  destruct (lookup x (snd st)) as [r|] eqn:L; [|discriminate].
  destruct (lookup x s) as [t|] eqn:LS.
  2:{ apply (RString_Proofs.rel_found st s x R) in LS. congruence. }
  destruct (RString_Proofs.rel_lookup st s x t R LS) as (m' & r' & _ & E' & I' & _ & LM).
  rewrite E' in L. cbn [snd] in L. rewrite (RString_Proofs.reprs_lookup _ _ _ LM) in L. injection L as <-.
  pose proof (inv_lookup _ _ _ _ _ _ _ I' LM) as O. apply RString_Proofs.bytes_ok in O. congruence.
Qed.
Definition texts_ok (s : list (nat * list N)) : Prop := Forall (fun p => valid_utf8 (snd p)) s.
Lemma texts_lookup s x l : texts_ok s -> lookup x s = Some l -> valid_utf8 l.
Proof.
  induction 1 as [|[y t] s V F IH]; cbn; [discriminate|]. destruct (Nat.eqb x y); [intros [= <-]; auto|auto].
Qed.
Lemma texts_set s x l : texts_ok s -> valid_utf8 l -> texts_ok (set x l s).
Proof. induction 1 as [|[y t] s V F IH]; cbn; intros W; [constructor|]. destruct (Nat.eqb x y); constructor; auto. now apply IH. Qed.
Lemma texts_remove s x : texts_ok s -> texts_ok (remove x s).
Proof. induction 1 as [|[y t] s V F IH]; cbn; [constructor|]. destruct (Nat.eqb x y); auto. now constructor. Qed.
Lemma texts_step o s s' ob : proper o -> texts_ok s -> RString_Spec.spec_step is_utf8 o s = RString_Model.Ok s' ob -> texts_ok s'.
Proof.
  intros P T E. destruct o; cbn [RString_Spec.spec_step proper] in *; try contradiction;
    repeat match type of E with context [lookup ?x s] => destruct (lookup x s) eqn:?; try discriminate end;
    try (destruct (is_utf8 bytes) eqn:U); injection E as <- <-; auto;
    repeat first [ apply texts_set | apply texts_remove | apply valid_nil | assumption
                 | apply valid_app | (eapply texts_lookup; eassumption) | constructor; cbn [snd] | apply is_utf8_spec ].
Qed.
Lemma texts_run ops : forall s s' ob t, Forall proper ops -> texts_ok s -> RString_Spec.spec_run is_utf8 ops s = (RString_Model.Ok s' ob, t) -> texts_ok s'.
Proof.
  induction ops as [|o ops IH]; intros s s' ob t P T E; cbn [RString_Spec.spec_run] in E.
  - injection E as <- <- <-. auto.
  - inversion P; subst. destruct (RString_Spec.spec_step is_utf8 o s) as [| |s1 o1] eqn:S; try discriminate.
    destruct (RString_Spec.spec_run is_utf8 ops s1) as [r t1] eqn:R. injection E as -> <-.
    exact (IH s1 s' ob t1 H2 (texts_step o s s1 o1 H1 T S) R).
Qed.

(** After any program of such operations every string is UTF-8: however it was constructed,
    copied, moved, swapped, grown or made a C string. *)
Theorem C69_utf8_partial : forall slack ops st o t,
  Forall proper ops -> RString_Model.run slack is_utf8 ops ([], []) = (RString_Model.Ok st o, t) -> all_utf8 st.
Proof.
  intros slack ops st o t P R x l T. pose proof (RString_Proofs.run_ok slack is_utf8 ops _ _ RString_Proofs.rel_init) as K.
  rewrite R in K. destruct K as (s & E & REL). eapply texts_lookup; [|exact (rel_text _ _ _ _ REL T)].
  refine (texts_run ops [] s o t P _ E). constructor.
Qed.
Print Assumptions C69_utf8_partial.

(** begin() and end() of a String that is not const give pointers to char: one assignment
    through them and Rust sees a String that is not UTF-8. *)
Theorem C69_iterators_refuted : exists slack ops st o t,
  RString_Model.run slack is_utf8 ops ([], []) = (RString_Model.Ok st o, t) /\ ~ all_utf8 st.
Proof.
  exists (fun _ => 0), [RString_Model.FromBytes 0 [195; 169]%N; RString_Model.Write 0 1 65%N]. do 3 eexists. split; [vm_compute; reflexivity|].
  intros A. specialize (A 0 [195; 65]%N eq_refl). apply is_utf8_spec in A. discriminate.
Qed.
Print Assumptions C69_iterators_refuted.

Example C69_nonvacuous : exists st o t,
  Forall proper [RString_Model.FromBytes 0 [195; 169]%N; RString_Model.Copy 1 0; RString_Model.Append 1 [226; 130; 172]%N; RString_Model.CStr 1] /\
  RString_Model.run (fun _ => 0) is_utf8 [RString_Model.FromBytes 0 [195; 169]%N; RString_Model.Copy 1 0; RString_Model.Append 1 [226; 130; 172]%N; RString_Model.CStr 1] ([], [])
    = (RString_Model.Ok st o, t) /\ RString_Model.text 1 st = Some [195; 169; 226; 130; 172]%N.
Proof.
  do 3 eexists. split; [|split; vm_compute; reflexivity].
  repeat constructor. cbn [proper]. apply is_utf8_spec. reflexivity.
Qed.
