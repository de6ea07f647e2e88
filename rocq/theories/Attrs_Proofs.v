(** Proofs about attributes. *)
From Verif Require Import Base Syntax_Model Cfg_Model Cfg_Spec Cfg_Proofs Attrs_Model Attrs_Spec.

Lemma is_named_eqb a y : is_named a y -> forall x, is_ident a x = String.eqb y x.
Proof. intros [L P] x. unfold is_ident. rewrite L, P. reflexivity. Qed.
Lemma is_ident_named a x : is_ident a x = true -> is_named a x.
Proof.
  unfold is_ident, is_named. intros E. apply andb_prop in E as [E1 E2]. apply Bool.negb_true_iff in E1.
  destruct (a_path a) as [|y [|]]; try discriminate. apply String.eqb_eq in E2 as ->. auto.
Qed.
Lemma is_named_det a x y : is_named a x -> is_named a y -> x = y.
Proof. intros [_ A] [_ B]. congruence. Qed.

Lemma derive_from_spec x d : derive_from x = Some d <-> In (x, d) derivable.
Proof.
  unfold derive_from, derivable. split.
  - intros E. repeat (match type of E with (if String.eqb ?a ?b then _ else _) = _ => destruct (String.eqb_spec a b) as [->|?] end;
      [injection E as <-; cbn; tauto|]). discriminate.
  - cbn. intros I. repeat (destruct I as [I|I]; [injection I as <- <-; reflexivity|]). destruct I.
Qed.

Section Proofs.
  Variable lex : string -> option (list tok).
  Variable keyword : string -> bool.
  Variable experimental : bool.
  Notation any_ident := (any_ident keyword).
  Notation word := (word keyword).

  Lemma any_ident_spec t x : any_ident t = Some x <-> word t x.
  Proof.
    split.
    - destruct t; cbn; try discriminate; intros E.
      + injection E as <-. constructor.
      + destruct b; injection E as <-; constructor.
      + destruct (keyword s) eqn:K; [|discriminate]. injection E as <-. constructor. exact K.
    - intros W. destruct W as [|? K| |]; cbn; try reflexivity. rewrite K. reflexivity.
  Qed.
  Lemma word_det t x y : word t x -> word t y -> x = y.
  Proof. intros A B. apply any_ident_spec in A, B. congruence. Qed.

  Lemma strip_raw_spec x : (exists y, strip_raw x = Some y) <-> raw x.
  Proof.
    unfold raw, strip_raw. split.
    - intros [y E]. destruct x as [|c x]; [discriminate|].
      destruct c as [[] [] [] [] [] [] [] []]; try discriminate.
      destruct x as [|c x]; [discriminate|].
      destruct c as [[] [] [] [] [] [] [] []]; try discriminate. injection E as <-. exists x. reflexivity.
    - intros [y ->]. cbn. eauto.
  Qed.
  Lemma strip_raw_none x : strip_raw x = None <-> ~ raw x.
  Proof.
    rewrite <- strip_raw_spec. destruct (strip_raw x); split.
    - discriminate.
    - intros N. exfalso. apply N. eauto.
    - intros _ [y E]. discriminate.
    - reflexivity.
  Qed.
  Lemma is_sep_spec t : is_sep t = true <-> t = KPunct "::".
  Proof. destruct t; cbn; try (split; discriminate). rewrite String.eqb_eq. split; congruence. Qed.

  Lemma bind_ok {A B} (r : res A) (f : A -> res B) b : bind r f = Ok b <-> exists a, r = Ok a /\ f a = Ok b.
  Proof.
    destruct r; cbn; split.
    - eauto.
    - intros (x & E & F). congruence.
    - discriminate.
    - intros (? & E & _). discriminate.
    - discriminate.
    - intros (? & E & _). discriminate.
  Qed.

  Lemma qualified_loop_path l : forall ns tr, qualified_loop keyword false l = Ok (ns, tr, []) -> ns <> [] -> tr = false -> path keyword l ns.
  Proof.
    induction l as [l IH] using (well_founded_induction (Wf_nat.well_founded_ltof _ (@List.length tok))).
    intros ns tr E N T. destruct l as [|t rest]; [cbn in E; injection E as <- <-; congruence|].
    cbn in E. destruct (any_ident t) as [x|] eqn:A; [|injection E as <- <-; congruence].
    apply any_ident_spec in A. destruct (strip_raw x) eqn:R; [discriminate|]. cbn in E. apply strip_raw_none in R.
    destruct rest as [|c rest]; [injection E as <- <-; constructor; auto|].
    destruct (is_sep c) eqn:S.
    - apply is_sep_spec in S as ->. apply bind_ok in E as ([[ns' tr'] r'] & E & F). injection F as <- <- ->.
      constructor; auto. apply IH with (tr := tr'); auto.
      + unfold Wf_nat.ltof. cbn. lia.
      + intros ->. destruct rest as [|t' rest']; cbn in E; [injection E as <-; congruence|].
        destruct (any_ident t') as [x'|]; [|injection E as <-; congruence].
        destruct (strip_raw x'); [discriminate|]. cbn in E. destruct rest' as [|c' rest']; [discriminate|].
        destruct (is_sep c'); [|discriminate]. apply bind_ok in E as ([[? ?] ?] & _ & F). discriminate.
    - injection E as <- <- E. discriminate.
  Qed.
  Lemma path_qualified_loop l ns : path keyword l ns -> qualified_loop keyword false l = Ok (ns, false, []).
  Proof.
    induction 1 as [t x W R|t x l ns W R P IH]; cbn; apply any_ident_spec in W; rewrite W; apply strip_raw_none in R; rewrite R; cbn; [reflexivity|].
    rewrite IH. reflexivity.
  Qed.
  Lemma path_nonempty l ns : path keyword l ns -> ns <> [].
  Proof. intros []; discriminate. Qed.
  Lemma path_head l ns : path keyword l ns -> exists t l' x, l = t :: l' /\ word t x.
  Proof. intros []; eauto 6. Qed.
  (** `::` is no keyword *)
  Hypothesis keyword_sep : keyword "::" = false.
  Lemma word_not_sep t x : word t x -> is_sep t = false.
  Proof. intros W. destruct W as [|x K| |]; cbn; try reflexivity. destruct (String.eqb_spec x "::") as [->|]; [congruence|reflexivity]. Qed.

  Lemma parse_unquoted_spec l ns : parse_unquoted keyword false l = Ok (ns, []) <->
    path keyword l ns \/ exists l', l = KPunct "::" :: l' /\ path keyword l' ns.
  Proof.
    unfold parse_unquoted. split.
    - destruct l as [|t l].
      + cbn. discriminate.
      + destruct (is_sep t) eqn:S; intros E; apply bind_ok in E as ([[ns' tr] rest] & E & F).
        * right. apply is_sep_spec in S as ->. exists l. split; [reflexivity|].
          destruct ns' as [|n ns']; [discriminate|]. destruct tr; [discriminate|]. injection F as <- ->.
          eapply qualified_loop_path; eauto. discriminate.
        * left. destruct ns' as [|n ns']; [discriminate|]. destruct tr; [discriminate|]. injection F as <- ->.
          eapply qualified_loop_path; eauto. discriminate.
    - intros [P|(l' & -> & P)].
      + pose proof (path_head _ _ P) as (t & l' & x & -> & W). rewrite (word_not_sep _ _ W).
        apply path_qualified_loop in P as Q. rewrite Q. cbn. apply path_nonempty in P. destruct ns; [congruence|reflexivity].
      + cbn. apply path_qualified_loop in P as Q. rewrite Q. cbn. apply path_nonempty in P. destruct ns; [congruence|reflexivity].
  Qed.

  Lemma parse_quoted_spec s ns : parse_quoted lex keyword s = Ok ns <->
    (s = "" /\ ns = []) \/ (s <> "" /\ exists l, lex s = Some l /\ (path keyword l ns \/ exists l', l = KPunct "::" :: l' /\ path keyword l' ns)).
  Proof.
    unfold parse_quoted. destruct (String.eqb_spec s "") as [->|N].
    - split; [intros E; injection E as <-; auto|]. intros [[_ ->]|[N _]]; [reflexivity|congruence].
    - destruct (lex s) as [l|] eqn:L.
      + split.
        * intros E. apply bind_ok in E as ([ns' rest] & E & F). destruct rest; [|discriminate]. injection F as ->.
          right. split; [exact N|]. exists l. split; [reflexivity|]. apply parse_unquoted_spec. exact E.
        * intros [[-> _]|[_ (l' & E & P)]]; [congruence|]. injection E as <-.
          apply parse_unquoted_spec in P. rewrite P. reflexivity.
      + split; [discriminate|]. intros [[-> _]|[_ (l' & E & P)]]; [congruence|discriminate].
  Qed.

  (** ** derive *)
  Lemma mod_ident_derivable t x d : mod_ident t = Some x -> In (x, d) derivable -> t = KIdent x.
  Proof.
    intros M I. destruct t; cbn in M; try discriminate; [injection M as ->; reflexivity|].
    exfalso. match type of M with (if ?b then _ else _) = _ => destruct b eqn:E; [|discriminate] end. injection M as ->.
    unfold derivable in I. cbn in I. repeat (destruct I as [I|I]; [injection I as <- _; discriminate E|]). destruct I.
  Qed.
  Lemma mod_path_some input x rest : mod_path input = Ok (Some x, rest) ->
    exists t, input = t :: rest /\ mod_ident t = Some x.
  Proof.
    unfold mod_path. destruct input as [|t input]; [discriminate|]. destruct (is_sep t) eqn:S.
    - intros E. apply bind_ok in E as ([? ?] & _ & E). discriminate.
    - intros E. apply bind_ok in E as ([segs r] & E & F). destruct segs as [|y [|]]; try discriminate. injection F as -> ->.
      cbn in E. destruct (mod_ident t) as [z|] eqn:M; [|discriminate]. exists t.
      destruct input as [|c input]; [injection E as -> <-; auto|].
      destruct (is_sep c) eqn:C.
      + apply bind_ok in E as ([segs r] & E & F). injection F as -> -> ->. exfalso.
        destruct input as [|t' input]; cbn in E; [discriminate|]. destruct (mod_ident t'); [|discriminate].
        destruct input as [|c' input]; [discriminate|]. destruct (is_sep c'); [|discriminate]. apply bind_ok in E as ([? ?] & _ & F). discriminate.
      + injection E as -> <-. auto.
  Qed.
  Lemma mod_path_ident x rest : match rest with t :: _ => is_sep t = false | [] => True end -> mod_path (KIdent x :: rest) = Ok (Some x, rest).
  Proof. intros S. cbn. destruct rest as [|t rest]; [reflexivity|]. rewrite S. reflexivity. Qed.
  Lemma mod_path_shorter input p rest : mod_path input = Ok (p, rest) -> List.length rest < List.length input.
  Proof.
    assert (G : forall l segs r, mod_segments l = Ok (segs, r) -> List.length r < List.length l).
    { induction l as [l IH] using (well_founded_induction (Wf_nat.well_founded_ltof _ (@List.length tok))).
      intros segs r E. destruct l as [|t l]; [discriminate|]. cbn in E. destruct (mod_ident t); [|discriminate].
      destruct l as [|c l]; [injection E as _ <-; cbn; lia|]. destruct (is_sep c); [|injection E as _ <-; cbn; lia].
      apply bind_ok in E as ([segs' r'] & E & F). injection F as _ <-. apply IH in E; [cbn; lia|unfold Wf_nat.ltof; cbn; lia]. }
    unfold mod_path. destruct input as [|t input]; [discriminate|]. destruct (is_sep t); intros E.
    - apply bind_ok in E as ([? r] & E & F). injection F as _ <-. apply G in E. cbn. lia.
    - apply bind_ok in E as ([? r] & E & F). injection F as _ <-. apply G in E. exact E.
  Qed.

  Lemma derive_sound fuel : forall l paths ds, mod_paths fuel l = Ok paths -> derives_of paths = (ds, []) -> derive_list l ds.
  Proof.
    induction fuel as [|fuel IH]; intros l paths ds E D.
    - destruct l; [|discriminate]. injection E as <-. cbn in D. injection D as <-. constructor.
    - destruct l as [|t l]; [injection E as <-; cbn in D; injection D as <-; constructor|].
      change (bind (mod_path (t :: l)) (fun '(path, rest) =>
              match rest with
              | [] => Ok [path]
              | KComma :: rest => bind (mod_paths fuel rest) (fun l => Ok (path :: l))
              | _ => Err "expected `,`"
              end) = Ok paths) in E.
      apply bind_ok in E as ([path rest] & E & F).
      assert (exists paths', paths = path :: paths') as [paths' ->].
      { destruct rest as [|[] rest]; try discriminate; [injection F as <-; eauto|]. apply bind_ok in F as (? & _ & F). injection F as <-. eauto. }
      cbn in D. destruct (derives_of paths') as [ds' es'] eqn:D'.
      destruct path as [x|]; [|discriminate]. destruct (derive_from x) as [d|] eqn:DX; [|discriminate]. injection D as <- ->.
      apply derive_from_spec in DX. apply mod_path_some in E as (t' & E & M). injection E as <- ->.
      pose proof (mod_ident_derivable _ _ _ M DX) as ->.
      destruct rest as [|[] rest]; try discriminate.
      + injection F as <-. cbn in D'. injection D' as <-. constructor. exact DX.
      + apply bind_ok in F as (ps & F & G). injection G as ->. constructor; [exact DX|]. exact (IH _ _ _ F D').
  Qed.
  Lemma derive_complete l ds : derive_list l ds -> forall fuel, List.length l <= fuel -> exists paths, mod_paths fuel l = Ok paths /\ derives_of paths = (ds, []).
  Proof.
    induction 1 as [|x d I|x d l ds I D IH]; intros fuel LE.
    - exists []. destruct fuel; split; reflexivity.
    - destruct fuel as [|fuel]; [cbn in LE; lia|]. exists [Some x]. cbn. apply derive_from_spec in I. rewrite I. split; reflexivity.
    - destruct fuel as [|fuel]; [cbn in LE; lia|]. destruct (IH fuel) as (paths & E & DE); [cbn in LE; lia|].
      exists (Some x :: paths). cbn. rewrite E. cbn. rewrite DE. apply derive_from_spec in I. rewrite I. split; reflexivity.
  Qed.
  Lemma parse_derive_spec m ds : parse_derive m = Ok (ds, []) <-> exists l, m = MList l /\ derive_list l ds.
  Proof.
    split.
    - destruct m as [|l|]; try discriminate. intros E. cbn in E. apply bind_ok in E as (paths & E & F). injection F as F.
      exists l. split; [reflexivity|]. eapply derive_sound; eauto.
    - intros (l & -> & D). destruct (derive_complete _ _ D _ (le_n _)) as (paths & E & F). cbn. rewrite E. cbn. rewrite F. reflexivity.
  Qed.
  (** the fuel is enough *)
  Lemma mod_segments_total l : (exists r, mod_segments l = Ok r) \/ (exists e, mod_segments l = Err e).
  Proof.
    induction l as [l IH] using (well_founded_induction (Wf_nat.well_founded_ltof _ (@List.length tok))).
    destruct l as [|t l]; [right; eexists; reflexivity|]. cbn. destruct (mod_ident t); [|right; eauto].
    destruct l as [|c l]; [left; eauto|]. destruct (is_sep c); [|left; eauto].
    destruct (IH l) as [[[a b] ->]|[e ->]]; [unfold Wf_nat.ltof; cbn; lia|left; cbn; eauto|right; cbn; eauto].
  Qed.
  Lemma mod_path_total l : (exists r, mod_path l = Ok r) \/ (exists e, mod_path l = Err e).
  Proof.
    unfold mod_path. destruct l as [|t l]; [right; eauto|]. destruct (is_sep t).
    - destruct (mod_segments_total l) as [[[a b] ->]|[e ->]]; cbn; eauto.
    - destruct (mod_segments_total (t :: l)) as [[[a b] ->]|[e ->]]; cbn [bind]; eauto.
  Qed.
  Lemma mod_paths_total fuel : forall l, List.length l <= fuel -> forall m, mod_paths fuel l <> Panic m.
  Proof.
    induction fuel as [|fuel IH]; intros l LE m.
    - destruct l; [discriminate|cbn in LE; lia].
    - destruct l as [|t l]; [discriminate|].
      change (bind (mod_path (t :: l)) (fun '(path, rest) =>
              match rest with
              | [] => Ok [path]
              | KComma :: rest => bind (mod_paths fuel rest) (fun l => Ok (path :: l))
              | _ => Err "expected `,`"
              end) <> Panic m).
      destruct (mod_path_total (t :: l)) as [[[p rest] E]|[e ->]]; [|discriminate]. rewrite E. cbn [bind].
      apply mod_path_shorter in E. destruct rest as [|[] rest]; try discriminate.
      assert (LE' : List.length rest <= fuel) by (cbn in LE, E; lia).
      destruct (mod_paths fuel rest) eqn:F; try discriminate. exfalso. exact (IH rest LE' _ F).
  Qed.

  (** ** one attribute *)
  Definition apply (p : parser) (e : effect) : parser :=
    match e with
    | EDoc s => set_doc p (option_map (fun '(t, h) => (t ++ [s], h)) (ps_doc p))
    | EHidden => set_doc p (option_map (fun '(t, h) => (t, true)) (ps_doc p))
    | EDerive l => set_derives p (option_map (fun d => d ++ l) (ps_derives p))
    | ERepr r => set_repr p (option_map (fun _ => Some r) (ps_repr p))
    | ENamespace n => set_namespace p (option_map (fun _ => n) (ps_namespace p))
    | ECxx x => set_cxx_name p (option_map (fun _ => Some x) (ps_cxx_name p))
    | ERust x => set_rust_name p (option_map (fun _ => Some x) (ps_rust_name p))
    | ECfg e => set_cfg p (option_map (fun c => merge c e) (ps_cfg p))
    | EHeader => set_header p (option_map (fun _ => true) (ps_header p))
    | ELint | EFormat => p
    end.
  Definition keeps (e : effect) : bool := match e with ELint | ECfg _ => true | _ => false end.
  Notation means := (means lex keyword experimental).
  Notation attr_step := (attr_step lex keyword experimental).

  Ltac names := match goal with N : is_named _ ?y |- _ => rewrite !(is_named_eqb _ _ N); cbn [String.eqb Ascii.eqb Bool.eqb orb andb] end.
  Lemma integer_repr t : integer t -> parse_repr (MList [KIdent (atom_name t)]) = Ok t.
  Proof. unfold integer. cbn. intros I. repeat (destruct I as [<-|I]; [reflexivity|]). destruct I. Qed.
  Lemma two_segments a x y l : a_path a = x :: y :: l -> forall z, is_ident a z = false.
  Proof. intros E z. unfold is_ident. rewrite E. apply Bool.andb_false_r. Qed.

  Lemma step_complete p a e : means a e -> allowed p e -> attr_step p a = (SContinue (apply p e) (keeps e), []).
  Proof.
    intros M A. unfold Attrs_Model.attr_step. destruct M; cbn in A; try names.
    - rewrite H0. cbn. destruct (ps_doc p) as [[texts h]|]; [reflexivity|congruence].
    - rewrite H0. cbn. destruct (ps_doc p) as [[texts h]|]; [reflexivity|congruence].
    - assert (E : parse_derive (a_meta a) = Ok (ds, [])) by (apply parse_derive_spec; eauto). rewrite E.
      cbn. destruct (ps_derives p); [reflexivity|congruence].
    - rewrite H1, (integer_repr _ H0). cbn. destruct (ps_repr p); [reflexivity|congruence].
    - rewrite H0. cbn. destruct (ps_namespace p); [reflexivity|congruence].
    - rewrite H0. cbn. assert (E : parse_quoted lex keyword s = Ok ns) by (apply parse_quoted_spec; right; eauto). rewrite E. cbn.
      destruct (ps_namespace p); [reflexivity|congruence].
    - rewrite H0. cbn. destruct (ps_namespace p); [reflexivity|congruence].
    - rewrite H0. cbn. unfold foreign_name. rewrite H1. apply any_ident_spec in H2. rewrite H2. cbn. destruct (ps_cxx_name p); [reflexivity|congruence].
    - rewrite H0. cbn. unfold foreign_name. rewrite H1. apply any_ident_spec in H2. rewrite H2. cbn. destruct (ps_cxx_name p); [reflexivity|congruence].
    - rewrite H0. cbn. rewrite H1. cbn. destruct (ps_rust_name p); [reflexivity|congruence].
    - rewrite H0. cbn. destruct (ps_rust_name p); [reflexivity|congruence].
    - rewrite H0. cbn. apply parse_attribute_spec in H1. rewrite H1. cbn. destruct (ps_cfg p); [reflexivity|congruence].
    - rewrite H0. cbn. rewrite H1. destruct (ps_header p); [reflexivity|congruence].
    - cbn in H0. repeat (destruct H0 as [<-|H0]; [cbn; reflexivity|]). destruct H0.
    - rewrite !(two_segments _ _ _ _ H), H. cbn. reflexivity.
    - rewrite !(two_segments _ _ _ _ H), H. cbn. reflexivity.
  Qed.

  Lemma slot_inv {A B} (r : res A) (s : option B) f p' b : slot r s f = (SContinue p' b, []) ->
    exists x y, r = Ok x /\ s = Some y /\ f x y = SContinue p' b.
  Proof. unfold slot. destruct r; [|discriminate|discriminate]. destruct s; [|discriminate]. intros E. injection E as E. eauto. Qed.

  Lemma repr_integer m t : parse_repr m = Ok t -> integer t /\ m = MList [KIdent (atom_name t)].
  Proof.
    destruct m as [|l|]; try discriminate. destruct l as [|[x| | | | | |] [|]]; try discriminate.
    cbn. destruct (atom_from_str x) as [a|] eqn:E; [|discriminate]. apply atom_from_str_inv in E as ->.
    unfold integer. destruct a; try discriminate; intros F; injection F as <-; cbn; tauto.
  Qed.
  Lemma foreign_name_spec s x : foreign_name lex keyword s = Ok x <-> exists t, lex s = Some [t] /\ word t x.
  Proof.
    unfold foreign_name. split.
    - destruct (lex s) as [[|t [|]]|]; try discriminate. destruct (any_ident t) eqn:E; [|discriminate]. intros F. injection F as ->.
      apply any_ident_spec in E. eauto.
    - intros (t & -> & W). apply any_ident_spec in W. rewrite W. reflexivity.
  Qed.
  Lemma get_ident_spec v x : get_ident v = Some x -> exists q, v = VPath q false false [x].
  Proof. destruct v as [|q [] [] [|y [|]]|]; try discriminate. intros E. injection E as ->. eauto. Qed.

  Lemma step_sound p a p' b : attr_step p a = (SContinue p' b, []) -> exists e, means a e /\ allowed p e.
  Proof.
    unfold Attrs_Model.attr_step. intros E.
    destruct (is_ident a "doc") eqn:I1; [apply is_ident_named in I1|clear I1].
    { apply slot_inv in E as (d & [t h] & E1 & E2 & _). destruct (a_meta a) as [|l|v] eqn:M; cbn in E1; try discriminate.
      - destruct l as [|[x| | | | | |] [|]]; try discriminate. destruct (String.eqb_spec x "hidden") as [->|]; [|discriminate].
        exists EHidden. split; [apply m_hidden; auto|cbn; congruence].
      - destruct v as [s| |]; try discriminate. exists (EDoc s). split; [apply m_doc; auto|cbn; congruence]. }
    destruct (is_ident a "derive") eqn:I1; [apply is_ident_named in I1|clear I1].
    { destruct (parse_derive (a_meta a)) as [[ds es]| |] eqn:D; try discriminate.
      destruct (ps_derives p) eqn:S; [|discriminate]. injection E as _ _ ->. apply parse_derive_spec in D as (ts & M & D).
      exists (EDerive ds). split; [eapply m_derive; eauto|cbn; congruence]. }
    destruct (is_ident a "repr") eqn:I1; [apply is_ident_named in I1|clear I1].
    { apply slot_inv in E as (r & y & E1 & E2 & _). apply repr_integer in E1 as [IT M]. exists (ERepr r). split; [apply m_repr; auto|cbn; congruence]. }
    destruct (is_ident a "namespace") eqn:I1; [apply is_ident_named in I1|clear I1].
    { apply slot_inv in E as (ns & y & E1 & E2 & _). destruct (a_meta a) as [| |[s|q ar ld segs|]] eqn:M; cbn in E1; try discriminate.
      - exists (ENamespace ns). split; [|cbn; congruence]. apply parse_quoted_spec in E1 as [[-> ->]|(N & l & L & P)].
        + apply m_namespace_empty; auto.
        + eapply m_namespace_quoted; eauto.
      - destruct q; [discriminate|]. destruct ar; [discriminate|]. injection E1 as ->. exists (ENamespace ns). split; [eapply m_namespace; eauto|cbn; congruence]. }
    destruct (is_ident a "cxx_name") eqn:I1; [apply is_ident_named in I1|clear I1].
    { apply slot_inv in E as (x & y & E1 & E2 & _). exists (ECxx x). split; [|cbn; congruence].
      destruct (a_meta a) as [| |v] eqn:M; cbn in E1; try discriminate.
      assert (G : (exists s, v = VStr s /\ foreign_name lex keyword s = Ok x) \/
                  (exists z, get_ident v = Some z /\ foreign_name lex keyword z = Ok x)).
      { destruct v; [left; eauto|right|right]; (destruct (get_ident _) eqn:G; [eauto|discriminate]). }
      destruct G as [(s & -> & F)|(z & G & F)]; apply foreign_name_spec in F as (t & L & W).
      - eapply m_cxx_quoted; eauto.
      - apply get_ident_spec in G as [q ->]. eapply m_cxx; eauto. }
    destruct (is_ident a "rust_name") eqn:I1; [apply is_ident_named in I1|clear I1].
    { apply slot_inv in E as (x & y & E1 & E2 & _). exists (ERust x). split; [|cbn; congruence].
      destruct (a_meta a) as [| |v] eqn:M; cbn in E1; try discriminate.
      assert (G : (exists s, v = VStr s /\ lex s = Some [KIdent x]) \/ get_ident v = Some x).
      { destruct v as [s| |]; [left|right|right].
        - destruct (lex s) as [[|[z| | | | | |] [|]]|] eqn:L; try discriminate. injection E1 as ->. eauto.
        - destruct (get_ident _) eqn:G; [congruence|discriminate].
        - discriminate. }
      destruct G as [(s & -> & F)|G].
      - eapply m_rust_quoted; eauto.
      - apply get_ident_spec in G as [q ->]. eapply m_rust; eauto. }
    destruct (is_ident a "cfg") eqn:I1; [apply is_ident_named in I1|clear I1].
    { apply slot_inv in E as (e & y & E1 & E2 & _). exists (ECfg e). split; [|cbn; congruence].
      destruct (a_meta a) as [|l|] eqn:M; try discriminate. cbn in E1. apply parse_attribute_spec in E1. eapply m_cfg; eauto. }
    destruct (is_ident a "variants_from_header" && experimental)%bool eqn:I1; [apply andb_prop in I1 as [I1 X]; apply is_ident_named in I1|clear I1].
    { destruct (ps_header p) eqn:H; [|discriminate]. exists EHeader. split; [|cbn; congruence].
      destruct (a_meta a) eqn:M; try discriminate. apply m_header; auto. }
    assert (L : forall x, is_ident a x = true -> In x ["allow"; "warn"; "deny"; "forbid"; "deprecated"; "must_use"; "serde"] -> exists e, means a e /\ allowed p e).
    { intros x J K. apply is_ident_named in J. exists ELint. split; [eapply m_lint; eauto|exact I]. }
    destruct (_ || _)%bool eqn:I1 in E; [|clear I1].
    { repeat (apply Bool.orb_prop in I1 as [I1|I1]; [|apply (L _ I1); cbn; tauto]). apply (L _ I1). cbn. tauto. }
    destruct (is_ident a "serde") eqn:I1; [apply (L _ I1); cbn; tauto|].
    destruct (a_path a) as [|tool [|x l]] eqn:P; try discriminate.
    destruct (String.eqb_spec tool "rustfmt") as [->|]; [exists EFormat; split; [eapply m_rustfmt; eauto|exact I]|].
    destruct (String.eqb_spec tool "clippy") as [->|]; [exists ELint; split; [eapply m_clippy; eauto|exact I]|]. discriminate.
  Qed.

  (** An attribute has one meaning. *)
  Lemma path_det l ns : path keyword l ns -> forall ns', path keyword l ns' -> ns = ns'.
  Proof. intros P ns' P'. apply path_qualified_loop in P, P'. congruence. Qed.
  Lemma derive_list_det l ds : derive_list l ds -> forall ds', derive_list l ds' -> ds = ds'.
  Proof. intros D ds' D'. assert (E : parse_derive (MList l) = Ok (ds, [])) by (apply parse_derive_spec; eauto).
    assert (E' : parse_derive (MList l) = Ok (ds', [])) by (apply parse_derive_spec; eauto). congruence. Qed.
  Lemma means_det a e e' : means a e -> means a e' -> e = e'.
  Proof.
    intros M M'.
    assert (LN : forall x, In x ["allow"; "warn"; "deny"; "forbid"; "deprecated"; "must_use"; "serde"] ->
      x <> "doc" /\ x <> "derive" /\ x <> "repr" /\ x <> "namespace" /\ x <> "cxx_name" /\ x <> "rust_name" /\ x <> "cfg" /\ x <> "variants_from_header").
    { cbn. intros x J. repeat (destruct J as [<-|J]; [repeat split; discriminate|]). destruct J. }
    destruct M, M'; try reflexivity;
      try (match goal with N : is_named ?a ?x, N' : is_named ?a ?y |- _ => first [is_var x | is_var y | (pose proof (is_named_det _ _ _ N N'); discriminate)] end);
      try (match goal with N : is_named ?a _, P : a_path ?a = _ :: _ :: _ |- _ => destruct N as [_ N]; congruence end);
      try (match goal with H : a_meta ?a = _, H' : a_meta ?a = _ |- _ => rewrite H in H'; injection H' as H'; try subst end; try reflexivity);
      try congruence;
      try (match goal with J : In ?x _, N : is_named ?a ?x, N' : is_named ?a ?y |- _ => pose proof (is_named_det _ _ _ N N'); apply LN in J; intuition congruence end).
    - f_equal. eapply derive_list_det; eauto.
    - f_equal. match goal with H : atom_name _ = atom_name _ |- _ => apply (f_equal atom_from_str) in H; rewrite !atom_from_name in H; congruence end.
    - match goal with H : lex ?s = Some ?l, H' : lex ?s = Some ?m |- _ => rewrite H in H'; injection H' as <- end. f_equal.
      repeat match goal with H : _ \/ _ |- _ => destruct H as [H|(? & H & ?)] end; subst;
        repeat match goal with P : path _ (KPunct "::" :: _) _ |- _ => exfalso; apply path_head in P as (? & ? & ? & X & W); injection X as <- <-; apply word_not_sep in W; discriminate W end;
        try (eapply path_det; eauto; fail).
      match goal with H : _ :: _ = _ :: _ |- _ => injection H as <- end. eapply path_det; eauto.
    - f_equal. eapply word_det; [eassumption|]. congruence.
    - f_equal. eapply word_det; [eassumption|]. congruence.
    - f_equal. eapply cfg_attribute_det; eauto.
  Qed.

  Lemma slot_break {A B} (r : res A) (s : option B) f es : (forall x y, f x y <> SBreak) -> slot r s f = (SBreak, es) -> es <> [].
  Proof.
    intros N E. unfold slot in E. destruct r; [|injection E as <-; discriminate|injection E as <-; discriminate].
    destruct s; [|discriminate]. injection E as E <-. exfalso. exact (N _ _ E).
  Qed.
  Lemma step_break p a es : attr_step p a = (SBreak, es) -> es <> [].
  Proof.
    unfold Attrs_Model.attr_step. intros E.
    repeat match type of E with (if ?b then _ else _) = _ => destruct b end;
      try (eapply slot_break; [|exact E]; intros x y; try destruct y; discriminate); try discriminate.
    - destruct (parse_derive (a_meta a)) as [[ds es']| |]; [destruct (ps_derives p); discriminate|injection E as <-; discriminate|injection E as <-; discriminate].
    - destruct (ps_header p); discriminate.
    - destruct (a_path a) as [|? [|]]; try discriminate. repeat match type of E with (if ?b then _ else _) = _ => destruct b end; discriminate.
  Qed.

  Lemma apply_allowed p e e' : allowed (apply p e) e' <-> allowed p e'.
  Proof. destruct e, e'; cbn; try tauto; match goal with |- option_map _ ?o <> None <-> _ => destruct o; cbn; split; congruence end. Qed.
  Lemma apply_ignore p e : ps_ignore (apply p e) = ps_ignore p.
  Proof. destruct e; reflexivity. Qed.

  Notation attrs_parse := (attrs_parse lex keyword experimental).
  Definition final (p : parser) (effs : list effect) : parser := fold_left apply effs p.

  Lemma parse_sound attrs : forall p p' pass, ps_ignore p = false -> attrs_parse p attrs = (p', pass, []) ->
    exists effs, Forall2 means attrs effs /\ Forall (allowed p) effs.
  Proof.
    induction attrs as [|a attrs IH]; intros p p' pass G E; [exists []; split; constructor|].
    cbn in E. destruct (attr_step p a) as [s es] eqn:S. destruct s as [p1 b| |].
    - destruct (attrs_parse p1 attrs) as [[p2 others] es'] eqn:R. injection E as _ _ E. apply app_eq_nil in E as [-> ->].
      apply step_sound in S as S'. destruct S' as (e & M & A).
      pose proof (step_complete _ _ _ M A) as S2. rewrite S in S2. injection S2 as -> _.
      destruct (IH (apply p e) _ _ (eq_trans (apply_ignore _ _) G) R) as (effs & F & AL). exists (e :: effs). split; constructor; auto.
      apply Forall_forall. intros x I. rewrite Forall_forall in AL. apply (apply_allowed p e). auto.
    - injection E as _ _ ->. exfalso. eapply step_break; eauto.
    - rewrite G in E. injection E as _ _ E. apply app_eq_nil in E as [_ E]. discriminate.
  Qed.
  Lemma parse_complete attrs effs : Forall2 means attrs effs -> forall p, Forall (allowed p) effs ->
    attrs_parse p attrs = (final p effs, kept (combine attrs effs), []).
  Proof.
    induction 1 as [|a e attrs effs M F IH]; intros p A; [reflexivity|]. inversion A as [|? ? A1 A2]; subst.
    cbn. rewrite (step_complete _ _ _ M A1). rewrite IH.
    - cbn. destruct e; reflexivity.
    - eapply Forall_impl; [|exact A2]. intros x. apply apply_allowed.
  Qed.
  Lemma means_unique attrs : forall effs effs', Forall2 means attrs effs -> Forall2 means attrs effs' -> effs = effs'.
  Proof.
    induction attrs as [|a attrs IH]; intros effs effs' F F'; inversion F; inversion F'; subst; [reflexivity|].
    f_equal; [eapply means_det; eauto|auto].
  Qed.

  Lemma merge_holds c e e' : holds c (merge e e') = (holds c e && holds c e')%bool.
  Proof. destruct e; cbn; rewrite ?Bool.andb_true_r; try reflexivity. rewrite forallb_app. cbn. rewrite Bool.andb_true_r. reflexivity. Qed.

  Lemma last_cons_default {A} (l : list A) : forall x d, last (x :: l) d = last l x.
  Proof. induction l as [|y l IH]; intros x d; [reflexivity|]. change (last (y :: l) d = last (y :: l) x). rewrite !IH. reflexivity. Qed.
  Lemma final_outcome effs : forall p, outcome effs p (final p effs).
  Proof.
    induction effs as [|e effs IH]; intros p.
    - unfold outcome, final. cbn. destruct p as [c d dv r n x y h ig]; cbn.
      repeat match goal with |- _ /\ _ => split end;
        try (match goal with |- ?o = option_map _ ?o => destruct o as [z|]; [|reflexivity]; cbn; try destruct z; rewrite ?app_nil_r, ?Bool.orb_false_r; reflexivity end).
      destruct c; [|exact I]. intros c'. rewrite Bool.andb_true_r. reflexivity.
    - change (final p (e :: effs)) with (final (apply p e) effs). specialize (IH (apply p e)).
      destruct IH as (H1 & H2 & H3 & H4 & H5 & H6 & H7 & H8).
      unfold outcome. rewrite H1, H2, H3, H4, H5, H6, H7. clear H1 H2 H3 H4 H5 H6 H7.
      destruct p as [c d dv r n x y h ig].
      repeat match goal with |- _ /\ _ => split end;
        try (clear H8; destruct e; cbn -[last]; try reflexivity;
             match goal with |- option_map _ (option_map _ ?o) = _ => destruct o as [z|]; [|reflexivity]; cbn -[last]; try (destruct z); cbn -[last];
               rewrite <- ?app_assoc, ?Bool.orb_true_r, ?last_cons_default; reflexivity end).
      revert H8. cbn. destruct e; cbn; try (intros H; exact H).
      destruct c as [c|]; cbn; [|intros H; exact H]. destruct (ps_cfg (final _ effs)); [|intros H; exact H].
      intros H c'. rewrite H, merge_holds, Bool.andb_assoc. reflexivity.
  Qed.
End Proofs.
