(** C92: the command line tool writes what was asked for.  Specification: Cmd_Spec.v. *)
From Verif Require Import Base Syntax_Model Cfg_Model Types_Model Check_Model Attrs_Model File_Model Cmd_Model Cmd_Spec.

  Lemma append_length a b : String.length (a ++ b) = String.length a + String.length b. Proof. induction a; cbn; [reflexivity|congruence]. Qed.
  Lemma drop_split n s : n <= String.length s -> exists a, s = (a ++ drop_bytes n s)%string /\ String.length a = n.
  Proof.
    revert s. induction n as [|n IH]; intros s L.
    - exists ""%string. split; [destruct s|]; reflexivity.
    - destruct s as [|c s]; [cbn in L; lia|]. destruct (IH s) as (a & E & La); [cbn in L; lia|]. exists (String c a). cbn. split; [f_equal; exact E|congruence].
  Qed.
  Lemma drop_app a b : drop_bytes (String.length a) (a ++ b) = b.
  Proof. induction a; [destruct b; reflexivity|exact IHa]. Qed.
  Lemma ends_ok s x : ends_with_str s x = true <-> has_suffix s x.
  Proof.
    unfold ends_with_str, has_suffix. rewrite andb_true_iff, Nat.leb_le, String.eqb_eq. split.
    - intros (L & E). destruct (drop_split (String.length s - String.length x) s) as (a & E1 & _); [lia|]. exists a. rewrite E in E1. exact E1.
    - intros (a & ->). rewrite append_length. split; [lia|]. replace (String.length a + String.length x - String.length x) with (String.length a) by lia. apply drop_app.
  Qed.
  Lemma prefix_lt s : starts_with "<" s = true <-> exists r, s = ("<" ++ r)%string.
  Proof.
    destruct s as [|c s]; cbn [starts_with]; [split; [discriminate|intros (r & E); discriminate]|]. rewrite andb_true_r, Ascii.eqb_eq. split; [intros <-; exists s; reflexivity|intros (r & E); injection E; congruence].
  Qed.
  Lemma substring_all a b : String.substring 0 (String.length a) (a ++ b) = a.
  Proof. induction a; cbn; [destruct b; reflexivity|]. rewrite IHa. reflexivity. Qed.
  Lemma include_ok s : include_means s (parse_include s).
  Proof.
    unfold parse_include. destruct (starts_with "<" s) eqn:A; cbn [andb].
    - apply prefix_lt in A as (r & ->). destruct (ends_with_str ("<" ++ r) ">") eqn:B.
      + apply ends_ok in B as (a & E). destruct a as [|c a]; cbn in E; [discriminate|]. injection E as <- E. subst r.
        cbn [append String.length]. rewrite append_length. cbn [String.length]. replace (S (String.length a + 1) - 2) with (String.length a) by lia.
        cbn [String.substring]. rewrite substring_all. apply (im_bracketed a).
      + apply im_quoted. intros p E. enough (ends_with_str ("<" ++ r) ">" = true) by congruence. apply ends_ok. rewrite E. exists ("<" ++ p)%string. reflexivity.
    - apply im_quoted. intros p E. enough (starts_with "<" s = true) by congruence. apply prefix_lt. eauto.
  Qed.
  Lemma includes_ok l : Forall2 include_means l (map parse_include l).
  Proof. induction l; cbn; constructor; [apply include_ok|assumption]. Qed.
  Lemma app_gt_inj p q : (p ++ ">")%string = (q ++ ">")%string -> p = q.
  Proof.
    revert q. induction p as [|c p IH]; intros [|d q] E; cbn in E; try reflexivity.
    - injection E as _ E. destruct q; discriminate.
    - injection E as _ E. destruct p; discriminate.
    - injection E as -> E. f_equal. apply IH, E.
  Qed.
  Lemma include_functional s a b : include_means s a -> include_means s b -> a = b.
  Proof.
    intros H K. inversion H as [p E Ea|s' N E Ea]; subst; inversion K as [p' E' Eb|s'' N' E' Eb]; subst; try reflexivity.
    - f_equal. symmetry. apply app_gt_inj. assumption.
    - destruct (N' p). reflexivity.
    - destruct (N p'). reflexivity.
  Qed.

  Definition dest (o : output) : option string := match o with Stdout => None | File p => Some p end.
  Lemma outputs_ok m : requested m (map dest (parse_outputs (m_outputs m))).
  Proof.
    unfold requested, parse_outputs. destruct (m_outputs m) as [|p l]; [right; auto|]. left. split; [discriminate|]. cbn [map].
    change (Forall2 place (p :: l) (map dest (map (fun p => if String.eqb p "-" then Stdout else File p) (p :: l)))). generalize (p :: l) as k. clear. induction k as [|p k IH]; constructor; [|exact IH].
    destruct (String.eqb_spec p "-") as [->|N]; [left|right]; auto.
  Qed.
  Lemma requested_functional m l l' : requested m l -> requested m l' -> l = l'.
  Proof.
    intros [(N & H)|(E & ->)] [(N' & K)|(E' & ->)]; try congruence. clear N N'.
    revert l' K. induction H as [|p d ps l P H IH]; intros l' K; inversion K as [|? d' ? l2 P' K']; subst; [reflexivity|]. rewrite (IH _ K'). f_equal.
    destruct P as [(A & ->)|(A & ->)], P' as [(B & ->)|(B & ->)]; congruence.
  Qed.
  Lemma kinds_ok o outs gh gi acc : kinds o outs gh gi acc =
    (acc ++ map (fun out => (out, output_kind o out)) outs, gh || existsb (fun out => is_gen_header (output_kind o out)) outs, gi || existsb (fun out => is_gen_implementation (output_kind o out)) outs).
  Proof.
    revert gh gi acc. induction outs as [|out outs IH]; intros gh gi acc; cbn; [rewrite app_nil_r, !orb_false_r; reflexivity|]. rewrite IH, <- app_assoc, !orb_assoc. reflexivity.
  Qed.

  (** * One run *)
  Definition opt_of (m : matches_) (flags : list (string * cfg_value)) : opt_ :=
    Opt_ (m_input m) (m_header m) (m_annotations m) (map parse_include (m_includes m)) (parse_outputs (m_outputs m)) (flag_map flags).
  Definition which_of (k : kind) : which := match k with Header => TheRuntimeHeader | GeneratedHeader => TheHeader | GeneratedImplementation => TheImplementation end.
  Lemma kind_ok m flags out : wants m (dest out) (which_of (output_kind (opt_of m flags) out)).
  Proof.
    unfold output_kind, opt_of. cbn [o_input o_header]. destruct (m_input m) as [i|] eqn:E; cbn; [|apply wants_runtime; exact E].
    destruct (m_header m) eqn:H; cbn; [apply (wants_header _ _ i); auto|].
    destruct out as [|p]; cbn; [apply (wants_implementation _ _ i); [exact E|exact H|discriminate]|].
    destruct (ends_with_str p ".h" || ends_with_str p ".hh" || ends_with_str p ".hpp") eqn:Q; cbn.
    - apply (wants_header _ _ i); [exact E|]. right. exists p. split; [reflexivity|]. unfold header_name. rewrite <- !ends_ok. apply orb_true_iff in Q as [Q|Q]; [apply orb_true_iff in Q|]; tauto.
    - apply (wants_implementation _ _ i); [exact E|exact H|]. intros p' Ep. injection Ep as <-. unfold header_name. rewrite <- !ends_ok. apply orb_false_iff in Q as (Q & Q3). apply orb_false_iff in Q as (Q1 & Q2). rewrite Q1, Q2, Q3. intuition discriminate.
  Qed.
  Lemma wants_functional m d k k' : wants m d k -> wants m d k' -> k = k'.
  Proof.
    intros [A|i A B|i A B C] [A'|i' A' B'|i' A' B' C']; try reflexivity; try congruence.
    - destruct B as [B|(p & B & P)]; [congruence|]. destruct (C' p B P).
    - destruct B' as [B'|(p & B' & P)]; [congruence|]. destruct (C p B' P).
  Qed.
  Lemma forall2_functional {A B} (R : A -> B -> Prop) l a b : (forall x y z, R x y -> R x z -> y = z) -> Forall2 R l a -> Forall2 R l b -> a = b.
  Proof. intros F H. revert b. induction H as [|x y l a P H IH]; intros b K; inversion K; subst; [reflexivity|]. f_equal; [eapply F; eauto|apply IH; assumption]. Qed.
  Lemma substring_prefix n s : exists r, s = (String.substring 0 n s ++ r)%string /\ (String.length s <= n -> r = EmptyString).
  Proof.
    revert s. induction n as [|n IH]; intros [|c s]; cbn.
    - exists ""%string. auto.
    - exists (String c s). split; [reflexivity|lia].
    - exists ""%string. auto.
    - destruct (IH s) as (r & E & L). exists r. split; [f_equal; exact E|]. intros Q. apply L. lia.
  Qed.
  Lemma writes_all cxx_h w g n outs s s' : write_outputs cxx_h w g n outs s = (s', Exit 0) ->
    writes w n (map (fun x => dest (fst x)) outs) (map (fun x => content cxx_h g (snd x)) outs) s s'.
  Proof.
    revert n s. induction outs as [|([|p] & k) outs IH]; intros n s H; cbn in H |- *.
    - injection H as <-. constructor.
    - destruct (substring_prefix (w_stdout w n) (content cxx_h g k)) as (r & E & L). eapply w_out; [exact E|exact L|]. apply IH, H.
    - destruct (w_write w n p) eqn:W; [discriminate|]. eapply w_in; [exact W| | | |apply IH, H]; cbn; unfold set_file; [rewrite Nat.eqb_refl; reflexivity| |reflexivity].
      intros f N. apply Nat.eqb_neq in N. rewrite N. reflexivity.
  Qed.
  Lemma writes_some cxx_h w g n outs s s' e : write_outputs cxx_h w g n outs s = (s', e) -> e = Exit 0 \/ (e = Exit 1 /\
    exists before p k after s1 left_, outs = before ++ (File p, k) :: after /\ writes w n (map (fun x => dest (fst x)) before) (map (fun x => content cxx_h g (snd x)) before) s s1 /\
      w_write w (n + List.length before) p = Some left_ /\ s_files s' (w_file w p) = left_ /\ (forall f, f <> w_file w p -> s_files s' f = s_files s1 f) /\ s_stdout s' = s_stdout s1).
  Proof.
    revert n s. induction outs as [|([|p] & k) outs IH]; intros n s H; cbn in H.
    - injection H as <- <-. auto.
    - destruct (IH _ _ H) as [->|(-> & before & q & k' & after & s1 & l & -> & W & R)]; [auto|]. right. split; [reflexivity|]. exists ((Stdout, k) :: before), q, k', after, s1, l. split; [reflexivity|]. split.
      + destruct (substring_prefix (w_stdout w n) (content cxx_h g k)) as (r & E & L). cbn [map fst snd dest]. eapply w_out; [exact E|exact L|exact W].
      + cbn [List.length]. rewrite <- plus_n_Sm. exact R.
    - destruct (w_write w n p) as [l|] eqn:E.
      + injection H as <- <-. right. split; [reflexivity|]. exists [], p, k, outs, s, l. split; [reflexivity|]. split; [constructor|]. cbn [List.length]. rewrite <- plus_n_O. split; [exact E|]. cbn. unfold set_file. rewrite Nat.eqb_refl.
        split; [reflexivity|]. split; [|reflexivity]. intros f N. apply Nat.eqb_neq in N. rewrite N. reflexivity.
      + destruct (IH _ _ H) as [->|(-> & before & q & k' & after & s1 & l & -> & W & R)]; [auto|]. right. split; [reflexivity|]. exists ((File p, k) :: before), q, k', after, s1, l. split; [reflexivity|]. split.
        * cbn [map fst snd dest]. eapply w_in; [exact E| | | |exact W]; cbn; unfold set_file; [rewrite Nat.eqb_refl; reflexivity| |reflexivity]. intros f N. apply Nat.eqb_neq in N. rewrite N. reflexivity.
        * cbn [List.length]. rewrite <- plus_n_Sm. exact R.
  Qed.
  Lemma good_writes cxx_h w g n outs s : (forall n p, w_write w n p = None) -> exists s', write_outputs cxx_h w g n outs s = (s', Exit 0).
  Proof. intros G. revert n s. induction outs as [|([|p] & k) outs IH]; intros n s; cbn; [eauto|apply IH|]. rewrite G. apply IH. Qed.
  Lemma requested_opt m flags : let o := opt_of m flags in requested m (map (fun x => dest (fst x)) (map (fun out => (out, output_kind o out)) (o_outputs o))).
  Proof. cbn. rewrite map_map. cbn. exact (outputs_ok m). Qed.
Section Proofs.
  Context (front : string -> option (list fitem)) (lex : string -> option (list tok)) (keyword : string -> bool) (experimental async_fn : bool)
    (ord : nat -> list string -> list string) (write_gen : list api -> types -> list (string * include_kind) -> option string -> bool -> string) (cxx_h : string).
  Notation main_ := (main front lex keyword experimental async_fn ord write_gen cxx_h).
  Notation proper_ := (proper front lex keyword experimental async_fn ord write_gen cxx_h).
  Notation source_ := (source front lex keyword experimental async_fn ord).
  Notation readable_ := (readable front lex keyword experimental async_fn ord).

  Lemma source_functional m w cev apis T apis' T' : source_ m w cev apis T -> source_ m w cev apis' T' -> apis = apis' /\ T = T'.
  Proof. intros (i & b & f & A & B & C & D) (i' & b' & f' & A' & B' & C' & D'). rewrite A in A'. injection A' as <-. rewrite B in B'. injection B' as <-. rewrite C in C'. injection C' as <-. rewrite D in D'. injection D' as -> ->. auto. Qed.
  Lemma proper_functional m w cev d c c' : proper_ m w cev d c -> proper_ m w cev d c' -> c = c'.
  Proof.
    intros (k & W & H) (k' & W' & H'). rewrite (wants_functional _ _ _ _ W W') in H. destruct H as [|apis T incs S I|apis T incs S I]; inversion H' as [|apis' T' incs' S' I'|apis' T' incs' S' I']; subst; try reflexivity;
      destruct (source_functional _ _ _ _ _ _ _ S S') as (-> & ->); rewrite (forall2_functional _ _ _ _ include_functional I I'); reflexivity.
  Qed.

  (** What has been generated is enough for all outputs. *)
  Lemma content_ok m w flags gen out : In out (parse_outputs (m_outputs m)) ->
    let o := opt_of m flags in
    match m_input m with
    | Some i => exists apis T, source_ m w (flags_eval (flag_map flags)) apis T /\
        gen = write_both write_gen apis T o (existsb (fun out => is_gen_header (output_kind o out)) (o_outputs o)) (existsb (fun out => is_gen_implementation (output_kind o out)) (o_outputs o))
    | None => True
    end ->
    proper_ m w (flags_eval (flag_map flags)) (dest out) (content cxx_h gen (output_kind o out)).
  Proof.
    intros I o H. exists (which_of (output_kind o out)). split; [apply kind_ok|]. unfold content. destruct (output_kind o out) eqn:K; cbn [which_of]; [| |constructor].
    - destruct (m_input m) as [i|] eqn:E; [|unfold output_kind in K; cbn in K; rewrite E in K; discriminate]. destruct H as (apis & T & S & ->). cbn [g_header write_both].
      replace (existsb _ _) with true; [apply t_header; [exact S|apply includes_ok]|]. symmetry. apply existsb_exists. exists out. rewrite K. auto.
    - destruct (m_input m) as [i|] eqn:E; [|unfold output_kind in K; cbn in K; rewrite E in K; discriminate]. destruct H as (apis & T & S & ->). cbn [g_implementation write_both].
      replace (existsb _ _) with true; [apply t_implementation; [exact S|apply includes_ok]|]. symmetry. apply existsb_exists. exists out. rewrite K. auto.
  Qed.


  (** The run, with everything in place *)
  Lemma main_run m w s flags : parse_flags (m_cfg m) [] = Some flags -> m_help m = false -> m_input m <> None \/ m_header m = true ->
    let o := opt_of m flags in let cev := flags_eval (flag_map flags) in
    let outs := map (fun out => (out, output_kind o out)) (o_outputs o) in
    (exists g, main_ m w s = write_outputs cxx_h w g 0 outs s /\
      match m_input m with
      | Some i => exists apis T, source_ m w cev apis T /\
          g = write_both write_gen apis T o (existsb (fun out => is_gen_header (output_kind o out)) (o_outputs o)) (existsb (fun out => is_gen_implementation (output_kind o out)) (o_outputs o))
      | None => True
      end) \/
    (~ readable_ m w cev /\ (main_ m w s = (s, Exit 1) \/ main_ m w s = (s, Panicked))).
  Proof.
    intros F Hh Hi o cev outs. unfold main, from_args. rewrite F, Hh. cbn [negb andb].
    replace (is_none (m_input m) && negb (m_header m) && true) with false by (destruct (m_input m), (m_header m); try reflexivity; destruct Hi; congruence).
    fold (opt_of m flags). fold o. rewrite kinds_ok. cbn [app orb]. fold outs. change (o_input o) with (m_input m). destruct (m_input m) as [i|] eqn:Ei; [|left; eexists; split; [reflexivity|exact I]].
    assert (NS : (forall apis T, ~ source_ m w cev apis T) -> ~ readable_ m w cev) by (intros N [C|(apis & T & S)]; [congruence|exact (N _ _ S)]).
    unfold generate_from_path. destruct (w_read w i) as [bytes|] eqn:Er.
    2:{ right. split; [|left; reflexivity]. apply NS. intros apis T (i' & b' & f' & A & B & _). congruence. }
    destruct (front bytes) as [file|] eqn:Ef.
    2:{ right. split; [|left; reflexivity]. apply NS. intros apis T (i' & b' & f' & A & B & C & _). congruence. }
    change (flags_eval (o_cfg o)) with cev. destruct (generate lex keyword experimental async_fn true cev ord file) as [(apis & T)|e|e] eqn:Eg.
    - left. eexists. split; [reflexivity|]. exists apis, T. split; [|reflexivity]. exists i, bytes, file. auto.
    - right. split; [|left; reflexivity]. apply NS. intros apis T (i' & b' & f' & A & B & C & D). congruence.
    - right. split; [|right; reflexivity]. apply NS. intros apis T (i' & b' & f' & A & B & C & D). congruence.
  Qed.
  Lemma contents_ok m w flags gen : let o := opt_of m flags in let outs := map (fun out => (out, output_kind o out)) (o_outputs o) in
    match m_input m with
    | Some i => exists apis T, source_ m w (flags_eval (flag_map flags)) apis T /\
        gen = write_both write_gen apis T o (existsb (fun out => is_gen_header (output_kind o out)) (o_outputs o)) (existsb (fun out => is_gen_implementation (output_kind o out)) (o_outputs o))
    | None => True
    end ->
    Forall2 (proper_ m w (flags_eval (flag_map flags))) (map (fun x => dest (fst x)) outs) (map (fun x => content cxx_h gen (snd x)) outs).
  Proof.
    intros o outs H. unfold outs. rewrite !map_map. cbn [fst snd]. assert (A : forall out, In out (o_outputs o) -> proper_ m w (flags_eval (flag_map flags)) (dest out) (content cxx_h gen (output_kind o out))).
    { intros out I. apply content_ok; assumption. }
    revert A. generalize (o_outputs o) as l. clear. induction l as [|x l IH]; cbn; intros A; constructor; [apply A; left; reflexivity|apply IH; intros y I; apply A; right; exact I].
  Qed.
End Proofs.

(** * The theorems *)
Lemma forall2_len {B C} (R : B -> C -> Prop) l l' : Forall2 R l l' -> List.length l = List.length l'.
Proof. induction 1; cbn; congruence. Qed.
Lemma forall2_app_map {A B C} (R : B -> C -> Prop) (f : A -> B) (g : A -> C) l l' : Forall2 R (map f (l ++ l')) (map g (l ++ l')) -> Forall2 R (map f l) (map g l).
Proof. induction l; cbn; intros H; [constructor|]. inversion H; subst. constructor; auto. Qed.
(** A run that ends well has written to each place, in order, the text that belongs there. *)
Theorem C92_written : forall front lex keyword experimental async_fn ord write_gen cxx_h m w s s', main front lex keyword experimental async_fn ord write_gen cxx_h m w s = (s', Exit 0) -> m_help m = false ->
  exists cev l cs, cli (m_cfg m) = Some cev /\ requested m l /\ Forall2 (proper front lex keyword experimental async_fn ord write_gen cxx_h m w cev) l cs /\ writes w 0 l cs s s'.
Proof.
  intros front lex keyword experimental async_fn ord write_gen cxx_h m w s s' H Hh. unfold cli. destruct (parse_flags (m_cfg m) []) as [flags|] eqn:F; [|unfold main, from_args in H; rewrite F in H; discriminate].
  assert (Hi : m_input m <> None \/ m_header m = true).
  { destruct (m_input m) eqn:E; [left; discriminate|right]. destruct (m_header m) eqn:E'; [reflexivity|]. unfold main, from_args in H. rewrite F, E, E', Hh in H. discriminate. }
  destruct (main_run front lex keyword experimental async_fn ord write_gen cxx_h m w s flags F Hh Hi) as [(g & E & G)|(_ & [E|E])]; [|congruence|congruence].
  rewrite E in H. apply writes_all in H. eexists _, _, _. split; [reflexivity|]. split; [apply (requested_opt m flags)|]. split; [|exact H]. exact (contents_ok front lex keyword experimental async_fn ord write_gen cxx_h m w flags g G).
Qed.
Print Assumptions C92_written.
(** It ends well whenever the input is good and files can be written. *)
Theorem C92_succeeds : forall front lex keyword experimental async_fn ord write_gen cxx_h m w s cev, cli (m_cfg m) = Some cev -> m_help m = false -> m_input m <> None \/ m_header m = true -> readable front lex keyword experimental async_fn ord m w cev ->
  (forall n p, w_write w n p = None) -> exists s', main front lex keyword experimental async_fn ord write_gen cxx_h m w s = (s', Exit 0).
Proof.
  intros front lex keyword experimental async_fn ord write_gen cxx_h m w s cev C Hh Hi R W. unfold cli in C. destruct (parse_flags (m_cfg m) []) as [flags|] eqn:F; [|discriminate]. injection C as <-.
  destruct (main_run front lex keyword experimental async_fn ord write_gen cxx_h m w s flags F Hh Hi) as [(g & E & G)|(N & _)]; [|destruct (N R)]. rewrite E. apply good_writes, W.
Qed.
Print Assumptions C92_succeeds.
(** Otherwise nothing at all is written before the first error: if the input is bad, nothing;
    if a file cannot be written, what was asked for before it. *)
Theorem C92_failed : forall front lex keyword experimental async_fn ord write_gen cxx_h m w s s' e, main front lex keyword experimental async_fn ord write_gen cxx_h m w s = (s', e) -> e <> Exit 0 ->
  s' = s \/
  (e = Exit 1 /\ exists cev before p after cs s1 left_, cli (m_cfg m) = Some cev /\ readable front lex keyword experimental async_fn ord m w cev /\ requested m (before ++ Some p :: after) /\ Forall2 (proper front lex keyword experimental async_fn ord write_gen cxx_h m w cev) before cs /\ writes w 0 before cs s s1 /\
    w_write w (List.length before) p = Some left_ /\ s_files s' (w_file w p) = left_ /\ (forall f, f <> w_file w p -> s_files s' f = s_files s1 f) /\ s_stdout s' = s_stdout s1).
Proof.
  intros front lex keyword experimental async_fn ord write_gen cxx_h m w s s' e H N. destruct (parse_flags (m_cfg m) []) as [flags|] eqn:F; [|unfold main, from_args in H; rewrite F in H; injection H as <- <-; auto].
  destruct (m_help m) eqn:Hh. { unfold main, from_args in H. rewrite F, Hh in H. rewrite andb_false_r in H. injection H as <- <-. auto. }
  destruct (is_none (m_input m) && negb (m_header m)) eqn:Q. { unfold main, from_args in H. rewrite F, Hh, Q in H. cbn in H. injection H as <- <-. auto. }
  assert (Hi : m_input m <> None \/ m_header m = true) by (destruct (m_input m); [left; discriminate|]; destruct (m_header m); [right; reflexivity|discriminate]).
  destruct (main_run front lex keyword experimental async_fn ord write_gen cxx_h m w s flags F Hh Hi) as [(g & E & G)|(_ & [E|E])]; [|left; congruence|left; congruence].
  rewrite E in H. destruct (writes_some _ _ _ _ _ _ _ _ H) as [->|(-> & before & p & k & after & s1 & left_ & Eo & W & A & B & C & D)]; [congruence|]. right. split; [reflexivity|].
  pose proof (contents_ok front lex keyword experimental async_fn ord write_gen cxx_h m w flags g G) as P. pose proof (requested_opt m flags) as R. cbn zeta in P, R. rewrite Eo in P, R. rewrite map_app in R. cbn [map fst snd dest] in R.
assert (P1 := forall2_app_map _ _ _ _ _ P).
  exists (flags_eval (flag_map flags)), (map (fun x => dest (fst x)) before), p, (map (fun x => dest (fst x)) after), (map (fun x => content cxx_h g (snd x)) before), s1, left_.
  split; [unfold cli; rewrite F; reflexivity|]. split; [destruct (m_input m) as [i|] eqn:Ei; [right; destruct G as (apis & T & S & _); eauto|left; exact Ei]|].
  split; [exact R|]. split; [exact P1|]. split; [exact W|]. rewrite map_length. auto.
Qed.
Print Assumptions C92_failed.

(** * What is left behind *)
Lemma append_nil_r s : (s ++ "")%string = s. Proof. induction s; cbn; congruence. Qed.
Lemma append_assoc a b c : ((a ++ b) ++ c)%string = (a ++ b ++ c)%string. Proof. induction a; cbn; congruence. Qed.
Lemma writes_stdout w n l cs s s' : writes w n l cs s s' -> (forall n k, k <= w_stdout w n) ->
  s_stdout s' = (s_stdout s ++ String.concat "" (flat_map (fun dc => match dc with (None, c) => [c] | _ => [] end) (combine l cs)))%string.
Proof.
  intros H G. induction H as [n s|n l c cs s s' b r E R H IH|n p l c cs s s1 s' W A B C H IH].
  - cbn. symmetry. apply append_nil_r.
  - rewrite IH. cbn [s_stdout combine flat_map app]. rewrite (R (G _ _)), append_nil_r in E. subst b. rewrite append_assoc. f_equal.
    destruct (flat_map _ _) as [|x xs]; cbn; [apply append_nil_r|reflexivity].
  - rewrite IH, C. reflexivity.
Qed.
Lemma writes_len w n l cs s s' : writes w n l cs s s' -> List.length l = List.length cs.
Proof. induction 1; cbn; congruence. Qed.
Lemma writes_file w n l cs s s' : writes w n l cs s s' -> forall f,
  (exists p c l1 l2, combine l cs = l1 ++ (Some p, c) :: l2 /\ w_file w p = f /\ s_files s' f = Some c /\ forall q c', In (Some q, c') l2 -> w_file w q <> f) \/
  ((forall p, In (Some p) l -> w_file w p <> f) /\ s_files s' f = s_files s f).
Proof.
  intros H f. induction H as [n s|n l c cs s s' b r E R H IH|n p l c cs s s1 s' W A B C H IH].
  - right. split; [intros p []|reflexivity].
  - destruct IH as [(p & c' & l1 & l2 & E1 & E2 & E3 & E4)|(N & E1)].
    + left. exists p, c', ((None, c) :: l1), l2. cbn. rewrite E1. auto.
    + right. split; [|exact E1]. intros p [D|I]; [discriminate|auto].
  - destruct IH as [(q & c' & l1 & l2 & E1 & E2 & E3 & E4)|(N & E1)].
    + left. exists q, c', ((Some p, c) :: l1), l2. cbn. rewrite E1. auto.
    + destruct (Nat.eq_dec (w_file w p) f) as [<-|D].
      * left. exists p, c, [], (combine l cs). split; [reflexivity|]. split; [reflexivity|]. split; [congruence|]. intros q c' I. apply in_combine_l in I. auto.
      * right. split; [|rewrite E1; apply B; congruence]. intros q [Q|I]; [injection Q as <-; exact D|auto].
Qed.
(** After a run that has ended well: a file holds the text of the last output that names it,
    and any other file is as before; standard output has got its texts, in order. *)
Theorem C92_files : forall front lex keyword experimental async_fn ord write_gen cxx_h m w s s', main front lex keyword experimental async_fn ord write_gen cxx_h m w s = (s', Exit 0) -> m_help m = false ->
  exists cev, cli (m_cfg m) = Some cev /\ forall f,
    (exists p c, In p (m_outputs m) /\ p <> "-"%string /\ w_file w p = f /\ s_files s' f = Some c /\ proper front lex keyword experimental async_fn ord write_gen cxx_h m w cev (Some p) c) \/
    ((forall p, In p (m_outputs m) -> p <> "-"%string -> w_file w p <> f) /\ s_files s' f = s_files s f).
Proof.
  intros front lex keyword experimental async_fn ord write_gen cxx_h m w s s' H Hh. destruct (C92_written _ _ _ _ _ _ _ _ _ _ _ _ H Hh) as (cev & l & cs & C & R & P & W). exists cev. split; [exact C|]. intros f.
  assert (L : forall p, In (Some p) l <-> In p (m_outputs m) /\ p <> "-"%string).
  { intros p. destruct R as [(_ & F)|(-> & ->)]; [|split; [intros [D|[]]; discriminate|intros ([] & _)]]. clear -F. induction F as [|q d ps l Q F IH]; cbn; [tauto|]. rewrite IH.
    destruct Q as [(-> & ->)|(N & ->)]; split.
    - intros [D|(A & B)]; [discriminate|]. auto.
    - intros ([<-|A] & B); [congruence|]. right. auto.
    - intros [D|(A & B)]; [injection D as ->; auto|]. auto.
    - intros ([->|A] & B); auto. }
  destruct (writes_file _ _ _ _ _ _ W f) as [(p & c & l1 & l2 & E & F & G & _)|(N & E)].
  - left. exists p, c. assert (I : In (Some p, c) (combine l cs)) by (rewrite E; apply in_or_app; right; left; reflexivity). pose proof (in_combine_l _ _ _ _ I) as I1. apply L in I1 as (I1 & I2).
    split; [exact I1|]. split; [exact I2|]. split; [exact F|]. split; [exact G|]. clear -P I. induction P as [|d c' l cs Q P IH]; [destruct I|]. destruct I as [Q'|I]; [injection Q' as <- <-; exact Q|exact (IH I)].
  - right. split; [|exact E]. intros p I D. apply N, L. auto.
Qed.
Print Assumptions C92_files.
(** Asking for several outputs at once gives each the text that it gets alone. *)
Theorem C92_alone : forall front lex keyword experimental async_fn ord write_gen cxx_h m w w1 s s1 s' s1' p,
  main front lex keyword experimental async_fn ord write_gen cxx_h m w s = (s', Exit 0) -> m_help m = false ->
  In p (m_outputs m) -> p <> "-"%string -> (forall q, In q (m_outputs m) -> q <> "-"%string -> w_file w q = w_file w p -> q = p) ->
  w_read w1 = w_read w -> main front lex keyword experimental async_fn ord write_gen cxx_h (Matches false (m_input m) (m_annotations m) (m_header m) (m_includes m) [p] (m_cfg m)) w1 s1 = (s1', Exit 0) ->
  s_files s1' (w_file w1 p) = s_files s' (w_file w p).
Proof.
  intros front lex keyword experimental async_fn ord write_gen cxx_h m w w1 s s1 s' s1' p H Hh I D U Er H1.
  destruct (C92_files _ _ _ _ _ _ _ _ _ _ _ _ H Hh) as (cev & C & F). destruct (C92_files _ _ _ _ _ _ _ _ _ _ _ _ H1 eq_refl) as (cev1 & C1 & F1). cbn [m_cfg] in C1. rewrite C in C1. injection C1 as <-.
  destruct (F (w_file w p)) as [(q & c & Iq & Dq & Eq & Ef & P)|(N & _)]; [|destruct (N p I D eq_refl)]. rewrite (U q Iq Dq Eq) in P.
  destruct (F1 (w_file w1 p)) as [(q1 & c1 & Iq1 & Dq1 & Eq1 & Ef1 & P1)|(N & _)]; [|destruct (N p (or_introl eq_refl) D eq_refl)]. destruct Iq1 as [<-|[]]. rewrite Ef, Ef1. f_equal.
  eapply proper_functional; [|exact P]. destruct P1 as (k & W & T). exists k. split.
  - inversion W as [A|i A B|i A B B']; cbn in *; [apply wants_runtime|eapply wants_header|eapply wants_implementation]; eauto.
  - assert (S : forall apis T, source front lex keyword experimental async_fn ord (Matches false (m_input m) (m_annotations m) (m_header m) (m_includes m) [p] (m_cfg m)) w1 cev apis T -> source front lex keyword experimental async_fn ord m w cev apis T).
    { intros apis T0 (i & b & f & A & B & R). exists i, b, f. rewrite Er in B. auto. }
    inversion T; subst; cbn in *; [apply t_runtime|apply t_header; auto|apply t_implementation; auto].
Qed.
Print Assumptions C92_alone.

(** The full claim: if the tool reports success, each place that is asked for has got the whole of
    its text (when no two outputs are the same file). *)
Definition C92_claim : Prop := forall front lex keyword experimental async_fn ord write_gen cxx_h m w s s',
  main front lex keyword experimental async_fn ord write_gen cxx_h m w s = (s', Exit 0) -> m_help m = false -> NoDup (map (w_file w) (m_outputs m)) ->
  exists cev l cs, cli (m_cfg m) = Some cev /\ requested m l /\ Forall2 (proper front lex keyword experimental async_fn ord write_gen cxx_h m w cev) l cs /\
    (forall i p c, nth_error l i = Some (Some p) -> nth_error cs i = Some c -> s_files s' (w_file w p) = Some c) /\
    s_stdout s' = (s_stdout s ++ String.concat "" (flat_map (fun dc => match dc with (None, c) => [c] | _ => [] end) (combine l cs)))%string.
(** It holds if standard output takes everything. *)
Theorem C92_all_partial : forall front lex keyword experimental async_fn ord write_gen cxx_h m w s s',
  main front lex keyword experimental async_fn ord write_gen cxx_h m w s = (s', Exit 0) -> m_help m = false -> NoDup (map (w_file w) (m_outputs m)) -> (forall n k, k <= w_stdout w n) ->
  exists cev l cs, cli (m_cfg m) = Some cev /\ requested m l /\ Forall2 (proper front lex keyword experimental async_fn ord write_gen cxx_h m w cev) l cs /\
    (forall i p c, nth_error l i = Some (Some p) -> nth_error cs i = Some c -> s_files s' (w_file w p) = Some c) /\
    s_stdout s' = (s_stdout s ++ String.concat "" (flat_map (fun dc => match dc with (None, c) => [c] | _ => [] end) (combine l cs)))%string.
Proof.
  intros front lex keyword experimental async_fn ord write_gen cxx_h m w s s' H Hh ND G. destruct (C92_written _ _ _ _ _ _ _ _ _ _ _ _ H Hh) as (cev & l & cs & C & R & P & W).
  exists cev, l, cs. split; [exact C|]. split; [exact R|]. split; [exact P|]. split; [|exact (writes_stdout _ _ _ _ _ _ W G)].
  assert (Hc : forall i p c, nth_error l i = Some (Some p) -> nth_error cs i = Some c -> In (Some p, c) (combine l cs)).
  { clear. intros i. revert l cs. induction i as [|i IH]; intros [|d l] [|c cs] p x; cbn; try discriminate; intros A B; [left; congruence|right; eauto]. }
  intros i p c Ip Ic. specialize (Hc _ _ _ Ip Ic). assert (Dl : forall q q' : string, w_file w q = w_file w q' -> In (Some q) l -> In (Some q') l -> q = q').
  { destruct R as [(_ & F)|(_ & ->)]; [|intros q q' _ [D|[]]; discriminate]. assert (Lq : forall q, In (Some q) l -> In q (m_outputs m)).
    { clear -F. induction F as [|a d ps l Q F IH]; [intros q []|]. intros q [->|I]; [|right; auto]. destruct Q as [(_ & D)|(_ & D)]; [discriminate|injection D as ->; left; reflexivity]. }
    intros q q' E I I'. apply Lq in I, I'. clear -ND E I I'. induction (m_outputs m) as [|a ps IH]; [destruct I|]. cbn in ND. inversion ND as [|? ? N ND']; subst. destruct I as [->|I], I' as [->|I']; [reflexivity| | |auto].
    - destruct N. rewrite E. apply in_map. exact I'.
    - destruct N. rewrite <- E. apply in_map. exact I. }
  destruct (writes_file _ _ _ _ _ _ W (w_file w p)) as [(q & c' & l1 & l2 & E1 & E2 & E3 & E4)|(N & _)].
  - assert (Iq : In (Some q, c') (combine l cs)) by (rewrite E1; apply in_or_app; right; left; reflexivity). assert (q = p) as -> by (apply Dl; [exact E2|exact (in_combine_l _ _ _ _ Iq)|exact (in_combine_l _ _ _ _ Hc)]).
    rewrite E3. f_equal. clear -P Iq Hc. assert (X : forall d c, In (d, c) (combine l cs) -> proper front lex keyword experimental async_fn ord write_gen cxx_h m w cev d c).
    { clear -P. induction P as [|d c l cs Q P IH]; [intros d c []|]. intros d' c' [E|I]; [injection E as <- <-; exact Q|auto]. }
    eapply proper_functional; eauto.
  - destruct (N p (in_combine_l _ _ _ _ Hc) eq_refl).
Qed.
Print Assumptions C92_all_partial.

Local Definition front0 : string -> option (list fitem) := fun _ => Some [FMod [SAttr false ["cxx"; "bridge"]%string MPath] false "ffi" (Some ([], []))].
Local Definition gen0 : list api -> types -> list (string * include_kind) -> option string -> bool -> string := fun _ _ incs _ h => String.concat " " ((if h then "H"%string else "I"%string) :: map fst incs).
Local Definition main0 := main front0 (fun _ => None) (fun _ => false) false false (fun _ l => l) gen0 "cxx".
Local Definition world0 (out : nat) : world := World (fun _ => Some "x"%string) (fun _ _ => None) (fun _ => out) String.length.
(** Standard output is full or closed: nothing arrives, and the tool reports success. *)
Theorem C92_stdout_refuted : ~ C92_claim.
Proof.
  intros H. specialize (H front0 (fun _ => None) (fun _ => false) false false (fun _ l => l) gen0 "cxx"%string (Matches false (Some "a.rs"%string) None false [] [] []) (world0 0) (State (fun _ => None) "") (State (fun _ => None) "")).
  destruct H as (cev & l & cs & _ & R & P & _ & E); [reflexivity|reflexivity|constructor|]. destruct R as [(N & _)|(_ & ->)]; [destruct N; reflexivity|]. inversion P as [|? c ? cs' Q P']; subst. inversion P'; subst.
  destruct Q as (k & W & T). assert (k = TheImplementation) as -> by (apply (wants_functional _ _ _ _ W); apply (wants_implementation _ _ "a.rs"%string); [reflexivity|reflexivity|discriminate]).
  inversion T as [| |apis T0 incs S I X1 X]. unfold gen0 in X. cbn in E. rewrite <- X in E. destruct incs; discriminate E.
Qed.
Print Assumptions C92_stdout_refuted.
(** Three outputs: both kinds of text and standard output, with a system include; and a run whose
    second file cannot be written. *)
Example C92_nonvacuous :
  let m := Matches false (Some "a.rs"%string) None false ["<x>"%string; "y"%string] ["ab.h"%string; "-"%string; "abc.cc"%string] [] in
  let s := State (fun _ => None) "" in
  (exists s', main0 m (world0 9) s = (s', Exit 0) /\ s_files s' 4 = Some "H x y"%string /\ s_files s' 6 = Some "I x y"%string /\ s_stdout s' = "I x y"%string) /\
  (exists s', main0 m (World (fun _ => Some "x"%string) (fun n _ => if Nat.eqb n 2 then Some (Some "I"%string) else None) (fun _ => 9) String.length) s = (s', Exit 1) /\ s_files s' 4 = Some "H x y"%string /\ s_files s' 6 = Some "I"%string).
Proof. split; eexists; (split; [vm_compute; reflexivity|]); repeat split. Qed.
