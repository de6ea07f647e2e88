(** Proofs about the #include directives. *)
From Verif Require Import Base StrLib Syntax_Model Parse_Model Parse_Spec Header_Text Ifndef_Model Builtin_Model Builtin_Spec Incl_Model Incl_Spec.
Open Scope N_scope.

Lemma lines_app l r : ~ In 10 l -> lines_of (l ++ 10 :: r) = l :: lines_of r.
Proof.
  induction l as [|c l IH]; intros N; [reflexivity|]. cbn [app lines_of].
  destruct (N.eqb_spec c 10) as [E|_]; [destruct N; left; exact E|]. rewrite IH; [reflexivity|]. intros I. apply N. right. exact I.
Qed.
Lemma lines_no_newline t : Forall (fun l => ~ In 10 l) (lines_of t).
Proof.
  induction t as [|c t IH]; [constructor|]. cbn [lines_of]. destruct (N.eqb_spec c 10) as [E|E]; [constructor; [intros []|exact IH]|].
  destruct (lines_of t) as [|l ls]; [repeat constructor; intros [H|[]]; auto|].
  inversion IH; subst. constructor; [intros [H|H]; auto|assumption].
Qed.
Lemma includes_app l r : ~ In 10 l -> includes_of (writeln l ++ r) = (match include_of l with Some h => [h] | None => [] end) ++ includes_of r.
Proof. intros N. unfold includes_of, writeln. rewrite <- app_assoc. cbn [app]. rewrite lines_app by exact N. reflexivity. Qed.

Lemma until_app d p r : ~ In d p -> until d (p ++ d :: r) = Some (p, r).
Proof.
  induction p as [|c p IH]; intros N; cbn [app until].
  - rewrite N.eqb_refl. reflexivity.
  - destruct (N.eqb_spec c d) as [E|_]; [destruct N; left; exact E|]. rewrite IH; [reflexivity|]. intros I. apply N. right. exact I.
Qed.
Lemma until_inv d t p r : until d t = Some (p, r) -> t = p ++ d :: r /\ ~ In d p.
Proof.
  revert p; induction t as [|c t IH]; intros p H; [discriminate|]. cbn [until] in H. destruct (N.eqb_spec c d) as [->|E].
  - injection H as <- <-. auto.
  - destruct (until d t) as [[q s]|]; [|discriminate]. injection H as <- <-. destruct (IH q eq_refl) as [-> N]. split; [reflexivity|]. intros [I|I]; auto.
Qed.
Lemma skip_in t c : In c (skip_blanks t) -> In c t.
Proof.
  induction t as [|a t IH]; [auto|]. cbn [skip_blanks]. destruct (_ || _); [right; auto|auto].
Qed.
Lemma after_in w t r c : after_word w t = Some r -> In c r -> In c t.
Proof.
  revert t; induction w as [|a w IH]; intros t H I; [injection H as <-; exact I|]. destruct t as [|b t]; [discriminate|]. cbn [after_word] in H.
  destruct (a =? b); [|discriminate]. right. eapply IH; eauto.
Qed.
Lemma header_name_inv t p b : header_name t = Some (p, b) -> p <> [] /\ ~ In (if b then 62 else 34) p /\ (forall c, In c p -> In c t).
Proof.
  assert (G : forall d b0 r, match until d r with
                      | Some (c :: q, rest) => match skip_blanks rest with [] => Some (c :: q, b0) | _ => None end
                      | _ => None end = Some (p, b) -> b0 = b /\ p <> [] /\ ~ In d p /\ (forall c, In c p -> In c r)).
  { intros d b0 r H. destruct (until d r) as [[[|c q] rest]|] eqn:U; try discriminate. destruct (skip_blanks rest); [|discriminate].
    injection H as <- <-. apply until_inv in U as [-> N]. split; [reflexivity|]. split; [discriminate|]. split; [exact N|].
    intros x I. apply in_or_app. left. exact I. }
  intros H. unfold header_name in H.
  assert (E : (exists r, t = 34 :: r /\ match until 34 r with
                      | Some (c :: q, rest) => match skip_blanks rest with [] => Some (c :: q, false) | _ => None end
                      | _ => None end = Some (p, b)) \/ (exists r, t = 60 :: r /\ match until 62 r with
                      | Some (c :: q, rest) => match skip_blanks rest with [] => Some (c :: q, true) | _ => None end
                      | _ => None end = Some (p, b))).
  { destruct t as [|c r]; [discriminate|]. destruct (N.eqb_spec c 34) as [->|N1]; [left; exists r; split; [reflexivity|exact H]|].
    destruct (N.eqb_spec c 60) as [->|N2]; [right; exists r; split; [reflexivity|exact H]|]. discriminate. }
  destruct E as [(r & -> & E)|(r & -> & E)]; destruct (G _ _ _ E) as (<- & A & B & C); (split; [exact A|]); (split; [exact B|]); intros x I; right; auto.
Qed.
Lemma include_of_inv l p b : include_of l = Some (p, b) -> p <> [] /\ ~ In (if b then 62 else 34) p /\ (forall c, In c p -> In c l).
Proof.
  unfold include_of. destruct (after_word [35] _) as [r|] eqn:A1; [|discriminate]. destruct (after_word (chars "include") _) as [r'|] eqn:A2; [|discriminate].
  intros H. apply header_name_inv in H as (A & B & C). repeat split; auto. intros c I. apply C in I. apply skip_in in I.
  apply skip_in. eapply after_in; [exact A1|]. apply skip_in. eapply after_in; [exact A2|exact I].
Qed.
Lemma includes_inv t p b : In (p, b) (includes_of t) -> p <> [] /\ ~ In (if b then 62 else 34) p /\ ~ In 10 p.
Proof.
  unfold includes_of. intros I. apply in_flat_map in I as (l & I & H). destruct (include_of l) as [h|] eqn:E; [|destruct H].
  destruct H as [->|[]]. apply include_of_inv in E as (A & B & C). split; [exact A|]. split; [exact B|]. intros J. apply C in J.
  pose proof (lines_no_newline t) as F. rewrite Forall_forall in F. exact (F l I J).
Qed.

(** * Escapes *)
Lemma hex_digit_ok d : d < 16 -> 48 <= hex_digit d <= 102 /\ hex_digit d <> 92.
Proof. unfold hex_digit. destruct (N.ltb_spec d 10); lia. Qed.
Lemma hex_ok n c : Forall (fun x => 48 <= x <= 102 /\ x <> 92) (hex n c).
Proof.
  revert c; induction n as [|n IH]; intros c; [constructor|]. cbn [hex]. destruct (N.ltb_spec c 16).
  - constructor; [apply hex_digit_ok; assumption|constructor].
  - apply Forall_app. split; [apply IH|]. constructor; [|constructor]. apply hex_digit_ok. apply N.mod_lt. discriminate.
Qed.
Lemma escape_unicode_ok c : Forall (fun x => 32 <= x <= 126 /\ x <> 34) (escape_unicode c).
Proof.
  unfold escape_unicode. apply Forall_app. split; [vm_compute; repeat constructor; try discriminate|]. apply Forall_app. split.
  - eapply Forall_impl; [|apply hex_ok]. cbn beta. lia.
  - vm_compute. repeat constructor; discriminate.
Qed.
Lemma escape_unicode_len c : (2 <= List.length (escape_unicode c))%nat.
Proof. unfold escape_unicode. rewrite app_length. cbn. lia. Qed.
Lemma escape_char_ok c : Forall (fun x => 32 <= x <= 126 /\ (c <> 34 -> x <> 34)) (escape_char c).
Proof.
  unfold escape_char.
  destruct (N.eqb_spec c 9); [vm_compute; repeat constructor; try discriminate|].
  destruct (N.eqb_spec c 13); [vm_compute; repeat constructor; try discriminate|].
  destruct (N.eqb_spec c 10); [vm_compute; repeat constructor; try discriminate|].
  destruct (N.eqb_spec c 39); [subst; vm_compute; repeat constructor; try discriminate|].
  destruct (N.eqb_spec c 34); [subst; vm_compute; repeat constructor; try discriminate; congruence|].
  destruct (N.eqb_spec c 92); [subst; vm_compute; repeat constructor; try discriminate|].
  cbn [orb]. destruct (N.leb_spec 32 c); cbn [andb]; [destruct (N.leb_spec c 126)|].
  - constructor; [|constructor]. auto.
  - eapply Forall_impl; [|apply escape_unicode_ok]. cbn beta. tauto.
  - eapply Forall_impl; [|apply escape_unicode_ok]. cbn beta. tauto.
Qed.
Lemma escape_char_plain c : plain_char c -> escape_char c = [c].
Proof.
  unfold plain_char, escape_char. intros H.
  destruct (N.eqb_spec c 9); [lia|]. destruct (N.eqb_spec c 13); [lia|]. destruct (N.eqb_spec c 10); [lia|].
  destruct (N.eqb_spec c 39); [lia|]. destruct (N.eqb_spec c 34); [lia|]. destruct (N.eqb_spec c 92); [lia|]. cbn [orb].
  destruct (N.leb_spec 32 c); [|lia]. destruct (N.leb_spec c 126); [|lia]. reflexivity.
Qed.
Lemma escape_char_len c : (1 <= List.length (escape_char c))%nat /\ ((List.length (escape_char c) <= 1)%nat -> plain_char c).
Proof.
  unfold escape_char, plain_char. pose proof (escape_unicode_len c).
  destruct (N.eqb_spec c 9); [cbn; lia|]. destruct (N.eqb_spec c 13); [cbn; lia|]. destruct (N.eqb_spec c 10); [cbn; lia|].
  destruct (N.eqb_spec c 39); [cbn; lia|]. destruct (N.eqb_spec c 34); [cbn; lia|]. destruct (N.eqb_spec c 92); [cbn; lia|]. cbn [orb].
  destruct (N.leb_spec 32 c); cbn [andb]; [destruct (N.leb_spec c 126)|]; [|lia|lia]. cbn [List.length]. lia.
Qed.
Lemma escape_ok p : Forall (fun x => 32 <= x <= 126) (escape_default p) /\ (~ In 34 p -> ~ In 34 (escape_default p)).
Proof.
  split.
  - apply Forall_forall. intros x I. apply in_flat_map in I as (c & _ & I). pose proof (escape_char_ok c) as F. rewrite Forall_forall in F.
    apply F in I. tauto.
  - intros N I. apply in_flat_map in I as (c & J & I). pose proof (escape_char_ok c) as F. rewrite Forall_forall in F. apply F in I as [_ I].
    apply I; [intros ->; auto|reflexivity].
Qed.
Lemma escape_plain p : Forall plain_char p -> escape_default p = p.
Proof. unfold escape_default. induction 1 as [|c p H _ IH]; [reflexivity|]. cbn [flat_map]. rewrite escape_char_plain, IH by exact H. reflexivity. Qed.
Lemma escape_len p : (List.length p <= List.length (escape_default p))%nat.
Proof.
  unfold escape_default. induction p as [|c p IH]; [apply le_n|]. cbn [flat_map List.length]. rewrite app_length. pose proof (escape_char_len c). lia.
Qed.
Lemma escape_same p : escape_default p = p -> Forall plain_char p.
Proof.
  intros E. apply (f_equal (@List.length _)) in E. revert E. unfold escape_default. induction p as [|c p IH]; [constructor|].
  cbn [flat_map List.length]. rewrite app_length. intros E. pose proof (escape_char_len c) as [L1 L2].
  pose proof (escape_len p) as L3. unfold escape_default in L3.
  constructor; [apply L2; lia|apply IH; lia].
Qed.

(** * One directive *)
Lemma quoted_no_newline p : ~ In 10 (custom_line (Directive p false)).
Proof.
  unfold custom_line. cbn [d_bracketed d_path]. intros I. apply in_app_or in I as [I|I]; [vm_compute in I; repeat (destruct I as [I|I]; [discriminate|]); exact I|].
  apply in_app_or in I as [I|I]; [|vm_compute in I; repeat (destruct I as [I|I]; [discriminate|]); exact I].
  destruct (escape_ok p) as [F _]. rewrite Forall_forall in F. apply F in I. lia.
Qed.
Lemma bracketed_no_newline p : ~ In 10 p -> ~ In 10 (custom_line (Directive p true)).
Proof.
  unfold custom_line. cbn [d_bracketed d_path]. intros N I. apply in_app_or in I as [I|I]; [vm_compute in I; repeat (destruct I as [I|I]; [discriminate|]); exact I|].
  apply in_app_or in I as [I|I]; [auto|vm_compute in I; repeat (destruct I as [I|I]; [discriminate|]); exact I].
Qed.
Lemma include_of_quoted p : ~ In 34 p -> include_of (chars "#include """ ++ p ++ chars """") = match p with [] => None | _ => Some (p, false) end.
Proof.
  intros N. change (include_of (chars "#include """ ++ p ++ chars """")) with (header_name (34 :: p ++ [34])).
  pose proof (until_app 34 p [] N) as U. cbv beta iota zeta delta [header_name]. cbn [N.eqb Pos.eqb]. rewrite U. destruct p; reflexivity.
Qed.
Lemma include_of_bracketed p : ~ In 62 p -> include_of (chars "#include <" ++ p ++ chars ">") = match p with [] => None | _ => Some (p, true) end.
Proof.
  intros N. change (include_of (chars "#include <" ++ p ++ chars ">")) with (header_name (60 :: p ++ [62])).
  pose proof (until_app 62 p [] N) as U. cbv beta iota zeta delta [header_name]. cbn [N.eqb Pos.eqb]. rewrite U. destruct p; reflexivity.
Qed.
Lemma plain_no_quote p : Forall plain_char p -> ~ In 34 p.
Proof. rewrite Forall_forall. intros F I. apply F in I. unfold plain_char in I. lia. Qed.
Lemma plain_line i : plain i -> ~ In 10 (custom_line i) /\ include_of (custom_line i) = Some (d_path i, d_bracketed i).
Proof.
  destruct i as [p [|]]; unfold plain; cbn [d_path d_bracketed]; intros [NE H].
  - destruct H as [H1 H2]. split; [apply bracketed_no_newline; exact H1|]. unfold custom_line. cbn [d_bracketed d_path].
    rewrite include_of_bracketed by exact H2. destruct p; [congruence|reflexivity].
  - split; [apply quoted_no_newline|]. unfold custom_line. cbn [d_bracketed d_path]. rewrite (escape_plain p H).
    rewrite include_of_quoted by (apply plain_no_quote; exact H). destruct p; [congruence|reflexivity].
Qed.
Lemma exact_iff i : includes_of (writeln (custom_line i)) = [(d_path i, d_bracketed i)] <-> plain i.
Proof.
  split.
  - intros E. assert (I : In (d_path i, d_bracketed i) (includes_of (writeln (custom_line i)))) by (rewrite E; left; reflexivity).
    apply includes_inv in I as (NE & D & NL). split; [exact NE|]. destruct i as [p [|]]; cbn [d_path d_bracketed] in *; [auto|].
    rewrite <- (app_nil_r (writeln _)), includes_app in E by apply quoted_no_newline.
    unfold custom_line in E. cbn [d_bracketed d_path] in E.
    rewrite include_of_quoted in E by (apply escape_ok; exact D). change (includes_of []) with (@nil (text * bool)) in E.
    destruct (escape_default p) as [|c q] eqn:Q; [discriminate|]. rewrite app_nil_r in E. apply escape_same. congruence.
  - intros P. destruct (plain_line i P) as [N E]. rewrite <- (app_nil_r (writeln _)), includes_app, E by exact N. reflexivity.
Qed.

(** * The file *)
Lemma custom_read l r : Forall plain l ->
  includes_of (flat_map (fun i => writeln (custom_line i)) l ++ r) = map (fun i => (d_path i, d_bracketed i)) l ++ includes_of r.
Proof.
  induction 1 as [|i l P _ IH]; [reflexivity|]. cbn [flat_map map]. rewrite <- app_assoc. destruct (plain_line i P) as [N E].
  rewrite includes_app, E, IH by exact N. reflexivity.
Qed.

(** the lines of include_lines, one at a time *)
Definition line_of (l : string) : list string := match include_of (chars l) with Some (p, true) => [l] | _ => [] end.
Definition good_line (l : string) : bool :=
  if in_dec N.eq_dec 10 (chars l) then false else true.
Definition known_lines : list (string * option inc) :=
  map (fun i => (("#include <" ++ std_header i ++ ">")%string, Some i))
    [IAlgorithm; IArray; ICassert; ICstddef; ICstdint; ICstring; IException; IFunctional; IInitializerList; IIterator; IMemory; INew; IRanges; IStdexcept;
     IString; IStringView; ITypeTraits; IUtility; IVector; IBasetsd; ISysTypes]
  ++ map (fun l => (l, None)) ["#if defined(_WIN32)"; "#else"; "#if not defined(_WIN32)"; "#endif"; "#if __cplusplus >= 201703L"; "#if __cplusplus >= 202002L"].
Lemma known_lines_ok : Forall (fun x => ~ In 10 (chars (fst x)) /\
  include_of (chars (fst x)) = match snd x with Some i => Some (chars (std_header i), true) | None => None end) known_lines.
Proof.
  unfold known_lines. apply Forall_forall. intros x I. apply in_app_or in I as [I|I]; cbn [map] in I;
    repeat (destruct I as [<-|I]; [split; [vm_compute; intuition discriminate|vm_compute; reflexivity]|]); destruct I.
Qed.
(** every line is known; those that include something are asked for *)
Definition written (s : settings) (x : string * option inc) : Prop := In x known_lines /\ match snd x with Some i => s (WInc i) = true | None => True end.
Lemma written_i s i : s (WInc i) = true -> exists x, written s x /\ fst x = ("#include <" ++ std_header i ++ ">")%string.
Proof.
  intros E. exists (("#include <" ++ std_header i ++ ">")%string, Some i). split; [|reflexivity]. split; [|exact E].
  apply in_or_app. left. destruct i; cbn [map]; repeat (first [left; reflexivity|right]).
Qed.
Lemma written_n s l : In (l, @None inc) known_lines -> exists x, written s x /\ fst x = l.
Proof. intros I. exists (l, None). split; [split; [exact I|exact Logic.I]|reflexivity]. Qed.
Definition tame (s : settings) (l : list string) : Prop := Forall (fun l => exists x, written s x /\ fst x = l) l.
Lemma tame_app s a b : tame s a -> tame s b -> tame s (a ++ b).
Proof. intros. apply Forall_app. auto. Qed.
Lemma tame_inc s (c : bool) i rest : (c = true -> s (WInc i) = true) -> (c = true -> tame s rest) -> tame s (if c then ("#include <" ++ std_header i ++ ">")%string :: rest else []).
Proof. intros A B. destruct c; [|constructor]. constructor; [apply written_i; auto|apply B; reflexivity]. Qed.
Lemma in_none l : In l ["#if defined(_WIN32)"; "#else"; "#if not defined(_WIN32)"; "#endif"; "#if __cplusplus >= 201703L"; "#if __cplusplus >= 202002L"] -> In (l, @None inc) known_lines.
Proof. intros I. apply in_or_app. right. apply (in_map (fun l => (l, @None inc)) _ _ I). Qed.
Lemma tame_other s l rest : In l ["#if defined(_WIN32)"; "#else"; "#if not defined(_WIN32)"; "#endif"; "#if __cplusplus >= 201703L"; "#if __cplusplus >= 202002L"] ->
  tame s rest -> tame s (l :: rest).
Proof. intros I T. constructor; [apply written_n, in_none, I|exact T]. Qed.
Lemma tame_one s i rest : s (WInc i) = true -> tame s rest -> tame s (("#include <" ++ std_header i ++ ">")%string :: rest).
Proof. intros E T. constructor; [apply written_i, E|exact T]. Qed.
Ltac other := apply tame_other; [cbn [In]; repeat (first [left; reflexivity|right])|].
Ltac single_line :=
  match goal with
  | |- tame ?S (if _ then [("#include <" ++ _ ++ ">")%string] else []) =>
      match goal with
      | |- tame S (if S (WInc ?i) && _ then _ else _) => apply (tame_inc S _ i []); [intros Hh; apply andb_true_iff in Hh; tauto|constructor]
      | |- tame S (if S (WInc ?i) then _ else _) => apply (tame_inc S _ i []); [auto|constructor]
      end
  end.
Lemma include_lines_tame s cxx : tame s (include_lines s cxx).
Proof.
  unfold include_lines. cbn zeta. repeat apply tame_app.
  all: try single_line.
  - destruct (s (WInc IBasetsd)) eqn:E; cbn [andb]; [|constructor]. destruct (negb cxx); [|constructor]. other. apply (tame_one s IBasetsd []); [exact E|constructor].
  - destruct (_ && _); [|constructor]. destruct (s (WInc IBasetsd)); other; constructor.
  - destruct (s (WInc ISysTypes)) eqn:E; cbn [andb]; [|constructor]. destruct (negb cxx); [|constructor]. apply (tame_one s ISysTypes []); [exact E|constructor].
  - destruct (_ && _); [|constructor]. other. constructor.
  - destruct (s (WInc IStringView)) eqn:E; cbn [andb]; [|constructor]. destruct (negb cxx); [|constructor]. other.
    apply (tame_one s IStringView); [exact E|]. other. constructor.
  - destruct (s (WInc IRanges)) eqn:E; cbn [andb]; [|constructor]. destruct (negb cxx); [|constructor]. other.
    apply (tame_one s IRanges); [exact E|]. other. constructor.
Qed.
Lemma tame_read s l r : tame s l -> exists std,
  includes_of (flat_map (fun l => writeln (chars l)) l ++ r) = map (fun i => (chars (std_header i), true)) std ++ includes_of r /\
  (forall i, In i std -> s (WInc i) = true) /\ (forall i, In (("#include <" ++ std_header i ++ ">")%string) l -> In (std_header i) (map std_header std)).
Proof.
  intros T. induction T as [|x l (y & [K W] & <-) _ (std & R & A & B)].
  - exists []. repeat split; intros i [].
  - pose proof known_lines_ok as F. rewrite Forall_forall in F. destruct (F y K) as [N E]. cbn [flat_map]. rewrite <- app_assoc.
    rewrite includes_app, E, R by exact N. destruct (snd y) as [i|].
    + exists (i :: std). split; [reflexivity|]. split; [intros j [<-|J]; auto|]. intros j [J|J]; [|right; auto].
      left. rewrite J in E. destruct i, j; first [reflexivity|exfalso; vm_compute in E; discriminate E].
    + exists std. split; [reflexivity|]. split; [exact A|]. intros j [J|J]; [|auto]. exfalso. rewrite J in E. destruct j; vm_compute in E; discriminate E.
Qed.

Lemma cxx_h_provides : forallb (fun i => match i with ICstring | IFunctional | IMemory => true
    | _ => smem ("#include <" ++ std_header i ++ ">")%string (lines HEADER) end)
  [IAlgorithm; IArray; ICassert; ICstddef; ICstdint; ICstring; IException; IFunctional; IInitializerList; IIterator; IMemory; INew; IRanges; IStdexcept;
   IString; IStringView; ITypeTraits; IUtility; IVector; IBasetsd; ISysTypes] = true.
Proof. vm_compute. reflexivity. Qed.
Local Opaque HEADER lines.
Lemma cxx_h_has i : i <> ICstring -> i <> IFunctional -> i <> IMemory -> In ("#include <" ++ std_header i ++ ">")%string (lines HEADER).
Proof.
  intros A B C. pose proof cxx_h_provides as H. rewrite forallb_forall in H.
  assert (I : In i [IAlgorithm; IArray; ICassert; ICstddef; ICstdint; ICstring; IException; IFunctional; IInitializerList; IIterator; IMemory; INew; IRanges; IStdexcept;
   IString; IStringView; ITypeTraits; IUtility; IVector; IBasetsd; ISysTypes]) by (destruct i; cbn; tauto).
  apply H in I. apply smem_In. destruct i; first [exact I|congruence].
Qed.
Ltac pick_it E := first [apply in_or_app; left; rewrite ?E; cbn [andb negb]; first [left; reflexivity | right; left; reflexivity] | apply in_or_app; right; pick_it E
                        | rewrite ?E; cbn [andb negb]; right; left; reflexivity].
Lemma asked_written s cxx i : s (WInc i) = true ->
  In (("#include <" ++ std_header i ++ ">")%string) (include_lines s cxx) \/ (cxx = true /\ In (("#include <" ++ std_header i ++ ">")%string) (lines HEADER)).
Proof.
  intros E. destruct cxx.
  - assert (D : (i = ICstring \/ i = IFunctional \/ i = IMemory) \/ (i <> ICstring /\ i <> IFunctional /\ i <> IMemory)) by (destruct i; intuition congruence).
    destruct D as [D|(A & B & C)]; [|right; split; [reflexivity|apply cxx_h_has; assumption]].
    left. unfold include_lines. cbn zeta. destruct D as [->|[->| ->]]; pick_it E.
  - left. unfold include_lines. cbn zeta. destruct i; pick_it E.
Qed.
Lemma has_cxx_header_spec l : has_cxx_header l = true -> exists c, In c l /\ rust_cxx_h (d_path c).
Proof.
  unfold has_cxx_header. intros H. apply existsb_exists in H as (c & I & H). exists c. split; [exact I|]. unfold rust_cxx_h, text_eqb in *.
  destruct (list_eq_dec N.eq_dec (d_path c) (chars "rust/cxx.h")) as [E|_]; [left; exact E|].
  destruct (list_eq_dec N.eq_dec (d_path c) (chars "rust\cxx.h")) as [E|_]; [right; exact E|discriminate].
Qed.
Lemma picked_asks decode apis l : asks apis l -> picked decode apis = map (fun i => Directive (decode (in_path i)) (in_bracketed i)) l.
Proof.
  unfold picked. induction 1 as [|i apis l _ IH|a apis l N _ IH]; [reflexivity| |]; cbn [flat_map map]; rewrite IH; [reflexivity|].
  destruct a; try reflexivity. destruct (N i eq_refl).
Qed.
