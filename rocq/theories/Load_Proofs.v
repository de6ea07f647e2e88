From Coq Require Import DecimalString DecimalN DecimalZ DecimalFacts DecimalPos.
From Verif Require Import Base Syntax_Model Discriminant_Model Names_Model Load_Model Load_Spec.

(** * Decimal text *)
Lemma uint_head d c r : NilZero.string_of_uint d = String c r -> c <> "-"%char /\ c <> "+"%char.
Proof.
  destruct d; unfold NilZero.string_of_uint; try (cbn [NilEmpty.string_of_uint]; intros H; injection H as <- _; split; discriminate).
Qed.
Lemma parse_uint d : d <> Decimal.Nil -> parse_u64 (NilZero.string_of_uint d) = if N.leb (N.of_uint d) u64_max then Some (N.of_uint d) else None.
Proof.
  intros N. unfold parse_u64.
  assert (E : (match NilZero.string_of_uint d with String "+" s => s | _ => NilZero.string_of_uint d end) = NilZero.string_of_uint d).
  { destruct (NilZero.string_of_uint d) as [|c r] eqn:E; [reflexivity|]. apply uint_head in E as (_ & P).
    destruct c as [[] [] [] [] [] [] [] []]; try reflexivity. exfalso. apply P. reflexivity. }
  cbv zeta. rewrite E, NilZero.usu by exact N. reflexivity.
Qed.
Lemma to_uint_nonnil n : N.to_uint n <> Decimal.Nil.
Proof. destruct n; cbn [N.to_uint]; [discriminate|]. apply Unsigned.to_uint_nonnil. Qed.
Definition of_Z (z : Z) : disc := Disc (if Z.ltb z 0 then Negative else Positive) (Z.abs_N z).
Lemma from_text z : disc_from_str (text_of z) = if N.leb (Z.abs_N z) u64_max then Some (of_Z z) else None.
Proof.
  unfold text_of, disc_from_str, of_Z.
  assert (P : forall n, parse_u64 (NilZero.string_of_uint (N.to_uint n)) = if N.leb n u64_max then Some n else None).
  { intros n. rewrite parse_uint by apply to_uint_nonnil. rewrite DecimalN.Unsigned.of_to. reflexivity. }
  destruct z as [|p|p]; cbn [Z.to_int NilZero.string_of_int Z.abs_N Z.ltb Z.compare].
  - reflexivity.
  - specialize (P (Npos p)). cbn [N.to_uint] in P.
    destruct (NilZero.string_of_uint (Pos.to_uint p)) as [|c r] eqn:E.
    + rewrite P. destruct (N.leb _ _); reflexivity.
    + apply uint_head in E as (M & _). rewrite P.
      assert (X : forall (A : Type) (a b : A), match c with "-"%char => a | _ => b end = b).
      { intros A a b. destruct c as [[] [] [] [] [] [] [] []]; try reflexivity. exfalso. apply M. reflexivity. }
      rewrite X. destruct (N.leb _ _); reflexivity.
  - specialize (P (Npos p)). cbn [N.to_uint] in P. rewrite P. destruct (N.leb _ _); reflexivity.
Qed.
Definition fits (z : Z) : Prop := (- 2 ^ 64 < z < 2 ^ 64)%Z.
Lemma fits_leb z : N.leb (Z.abs_N z) u64_max = true <-> fits z.
Proof. unfold fits, u64_max. rewrite N.leb_le. change (2 ^ 64)%Z with 18446744073709551616%Z. lia. Qed.
Lemma of_Z_value z : disc_value (of_Z z) = z.
Proof. unfold disc_value, of_Z. cbn [d_sign d_mag]. destruct (Z.ltb_spec z 0); lia. Qed.

(** * Initialisers *)
Definition good (d : disc) : Prop := exists z, fits z /\ d = of_Z z.
Lemma gives_constant n z : gives n z -> constant_of n = if N.leb (Z.abs_N z) u64_max then Constant (of_Z z) else Fail.
Proof. induction 1; cbn [constant_of]; [rewrite from_text; destruct (N.leb _ _); reflexivity|assumption]. Qed.
Lemma constant_gives : forall n d, plain n -> constant_of n = Constant d -> exists z, gives n z /\ fits z /\ d = of_Z z.
Proof.
  fix IH 1. intros [k l] d P H. inversion P as [k' l' K V F]; subst. destruct k; try destruct K; cbn [constant_of] in H.
  - destruct l as [|n [|]]; try discriminate H. apply Forall_inv in F. destruct (IH n d F H) as (z & G & Z). exists z. split; [constructor; exact G|exact Z].
  - destruct V as (z & ->). rewrite from_text in H. destruct (N.leb _ _) eqn:L; [|discriminate H]. injection H as <-. exists z. split; [constructor|]. split; [apply fits_leb, L|reflexivity].
  - discriminate H.
Qed.
Lemma gives_unique n z z' : gives n z -> gives n z' -> z = z'.
Proof.
  intros G. revert z'. induction G; intros z' G'; inversion G'; subst.
  - match goal with H : text_of _ = text_of _ |- _ => rename H into E end. unfold text_of in E.
    apply (f_equal NilZero.int_of_string) in E. rewrite !NilZero.isi in E.
    + injection E as E. apply (f_equal Z.of_int) in E. rewrite !DecimalZ.of_to in E. congruence.
    + destruct z; cbn [Z.to_int]; try discriminate; intros X; injection X; apply Unsigned.to_uint_nonnil.
    + destruct z; cbn [Z.to_int]; try discriminate; intros X; injection X; apply Unsigned.to_uint_nonnil.
    + destruct z'; cbn [Z.to_int]; try discriminate; intros X; injection X; apply Unsigned.to_uint_nonnil.
    + destruct z'; cbn [Z.to_int]; try discriminate; intros X; injection X; apply Unsigned.to_uint_nonnil.
  - auto.
Qed.
Lemma enumerators_unique prev l vs vs' : enumerators prev l vs -> enumerators prev l vs' -> vs = vs'.
Proof.
  intros E. revert vs'. induction E; intros vs' E'; inversion E'; subst; [reflexivity| |].
  - assert (z0 = z) as -> by (eapply gives_unique; eassumption). f_equal. auto.
  - f_equal. auto.
Qed.
Lemma succ_of_Z z : fits z -> checked_succ (of_Z z) = Ok (if Z.eqb z (2 ^ 64 - 1) then None else Some (of_Z (z + 1))).
Proof.
  unfold fits, checked_succ, of_Z, u64_max, disc_zero. change (2 ^ 64)%Z with 18446744073709551616%Z. cbn [d_sign d_mag]. intros F.
  destruct (Z.ltb_spec z 0); cbn [d_sign d_mag].
  - destruct (N.eqb_spec (Z.abs_N z) 1); [assert (z = -1)%Z as -> by lia; reflexivity|].
    destruct (N.eqb_spec (Z.abs_N z) 0); [lia|]. destruct (Z.eqb_spec z (18446744073709551616 - 1)); [lia|].
    destruct (Z.ltb_spec (z + 1) 0); [|lia]. do 3 f_equal. lia.
  - destruct (Z.eqb_spec z (18446744073709551616 - 1)).
    + destruct (N.ltb_spec (Z.abs_N z) 18446744073709551615); [lia|reflexivity].
    + destruct (N.ltb_spec (Z.abs_N z) 18446744073709551615); [|lia]. destruct (Z.ltb_spec (z + 1) 0); [lia|]. do 3 f_equal. lia.
Qed.

Section Load.
  Context (any_ident ident : string -> bool).

  (** * One enum *)
  Definition succ1 (d : disc) : option disc := match checked_succ d with Ok r => r | _ => None end.
  Definition push1 (e : lenum) (x : string) (d : disc) : lenum :=
    LEnum (l_name e) (l_variants e ++ [LVariant x (if ident x then x else ("__Variant" ++ decimal (List.length (l_variants e)))%string) d]) (l_repr e).
  Definition c1 (e : lenum) (c : string * list node) : lenum * list lerror :=
    let (x, init) := c in
    if any_ident x then
      match discriminant_value init with
      | Constant d => (push1 e x d, [])
      | Successor =>
          match rev (l_variants e) with
          | [] => (push1 e x disc_zero, [])
          | last :: _ => match succ1 (lv_disc last) with Some d => (push1 e x d, []) | None => (e, [Overflow (l_name e) x]) end
          end
      | Fail => (push1 e x disc_zero, [NoValue (l_name e) x])
      end
    else (e, [UnsupportedName (l_name e) x]).
  Fixpoint cs1 (e : lenum) (l : list (string * list node)) : lenum * list lerror :=
    match l with
    | [] => (e, [])
    | c :: l => let (e, er) := c1 e c in let (e, er') := cs1 e l in (e, er ++ er')
    end.
  Definition d1 (e : lenum) (d : decl) : lenum * list lerror :=
    match l_variants e, d_fixed d with
    | _ :: _, _ => (e, [MultipleDefinitions (l_name e)])
    | [], None => (e, [ImplicitRepr (l_name e)])
    | [], Some q =>
        let t := match q_desugared q with Some t => t | None => q_type q end in
        let r := translate_qual_type t in
        let (e', er) := cs1 (LEnum (l_name e) (l_variants e) (Some match r with Some r => r | None => "c_int" end)) (constants (d_inner d)) in
        (e', match r with Some _ => [] | None => [UnsupportedRepr (l_name e) t] end ++ er)
    end.
  Fixpoint ds1 (e : lenum) (l : list decl) : lenum * list lerror :=
    match l with
    | [] => (e, [])
    | d :: l => let (e, er) := d1 e d in let (e, er') := ds1 e l in (e, er ++ er')
    end.

  Definition good_enum (e : lenum) : Prop := Forall (fun v => good (lv_disc v)) (l_variants e).
  Definition init_ok (c : string * list node) : Prop := Forall plain (snd c).
  Lemma fits_0 : fits 0.
  Proof. unfold fits. lia. Qed.
  Lemma good_zero : good disc_zero.
  Proof. exists 0%Z. split; [exact fits_0|reflexivity]. Qed.
  Lemma good_push e x d : good_enum e -> good d -> good_enum (push1 e x d).
  Proof. intros G D. unfold good_enum, push1. cbn [l_variants]. apply Forall_app. split; [exact G|]. constructor; [exact D|constructor]. Qed.
  Lemma good_last e v r : good_enum e -> rev (l_variants e) = v :: r -> good (lv_disc v).
  Proof. intros G E. unfold good_enum in G. rewrite <- (rev_involutive (l_variants e)), E in G. cbn [rev] in G. apply Forall_app in G as (_ & G). apply Forall_inv in G. exact G. Qed.
  Lemma good_succ d d' : good d -> succ1 d = Some d' -> good d'.
  Proof.
    intros (z & F & ->). unfold succ1. rewrite succ_of_Z by exact F. destruct (Z.eqb_spec z (2 ^ 64 - 1)); [discriminate|]. intros H. injection H as <-.
    exists (z + 1)%Z. split; [unfold fits in *; lia|reflexivity].
  Qed.
  Lemma good_value init d : Forall plain init -> discriminant_value init = Constant d -> exists n z, init = [n] /\ gives n z /\ fits z /\ d = of_Z z.
  Proof. intros P. unfold discriminant_value. destruct init as [|n [|]]; try discriminate. intros H. apply Forall_inv in P. destruct (constant_gives n d P H) as (z & G). eauto. Qed.
  Lemma c1_good e c : good_enum e -> init_ok c -> good_enum (fst (c1 e c)).
  Proof.
    destruct c as [x init]. unfold init_ok. cbn [snd]. intros G P. unfold c1. destruct (any_ident x); [|exact G]. destruct (discriminant_value init) as [d| |] eqn:D.
    - destruct (good_value _ _ P D) as (n & z & _ & _ & F & ->). apply good_push; [exact G|exists z; auto].
    - destruct (rev (l_variants e)) as [|v r] eqn:R; [apply good_push; [exact G|exact good_zero]|].
      destruct (succ1 (lv_disc v)) eqn:S; [|exact G]. apply good_push; [exact G|]. eapply good_succ; [|exact S]. eapply good_last; eassumption.
    - apply good_push; [exact G|exact good_zero].
  Qed.
  Lemma c1_name e c : l_name (fst (c1 e c)) = l_name e.
  Proof.
    destruct c as [x init]. unfold c1. destruct (any_ident x); [|reflexivity]. destruct (discriminant_value init); try reflexivity.
    destruct (rev (l_variants e)); [reflexivity|]. destruct (succ1 _); reflexivity.
  Qed.
  Lemma cs1_facts l : forall e, good_enum e -> Forall init_ok l -> good_enum (fst (cs1 e l)) /\ l_name (fst (cs1 e l)) = l_name e.
  Proof.
    induction l as [|c l IH]; intros e G P; cbn [cs1]; [auto|]. pose proof (c1_good e c G (Forall_inv P)) as G'. pose proof (c1_name e c) as N.
    destruct (c1 e c) as [e1 er]. cbn [fst] in *. destruct (IH e1 G' (Forall_inv_tail P)) as (A & B). destruct (cs1 e1 l) as [e2 er2]. cbn [fst] in *. split; [exact A|congruence].
  Qed.

  (** ** What its enumerators become *)
  Definition last_value (e : lenum) : option Z := match rev (l_variants e) with [] => None | v :: _ => Some (disc_value (lv_disc v)) end.
  Lemma last_push e x d : last_value (push1 e x d) = Some (disc_value d).
  Proof. unfold last_value, push1. cbn [l_variants]. rewrite rev_app_distr. reflexivity. Qed.
  Definition shown (l : list lvariant) : list (string * Z) := map (fun v => (lv_cxx v, disc_value (lv_disc v))) l.
  Definition acceptable (vs : list (string * Z)) : Prop := forall x z, In (x, z) vs -> any_ident x = true /\ fits z.
  Lemma acceptable_cons x z vs : acceptable ((x, z) :: vs) <-> (any_ident x = true /\ fits z) /\ acceptable vs.
  Proof.
    unfold acceptable. split.
    - intros H. split; [apply H; left; reflexivity|]. intros y w I. apply H. right. exact I.
    - intros (H & A) y w [E|I]; [injection E as <- <-; exact H|exact (A y w I)].
  Qed.
  Lemma c1_exact e x init : good_enum e -> Forall plain init ->
    (snd (c1 e (x, init)) = [] <->
     exists z, (exists n, init = [n] /\ gives n z \/ init = [] /\ z = match last_value e with Some z => (z + 1)%Z | None => 0%Z end) /\ any_ident x = true /\ fits z) /\
    forall z, (exists n, init = [n] /\ gives n z \/ init = [] /\ z = match last_value e with Some z => (z + 1)%Z | None => 0%Z end) -> any_ident x = true -> fits z ->
      fst (c1 e (x, init)) = push1 e x (of_Z z).
  Proof.
    intros G P. unfold c1. destruct (any_ident x) eqn:A.
    2: { split; [split; [discriminate|intros (z & _ & H & _); discriminate H]|intros z _ H; discriminate H]. }
    destruct init as [|n [|n' l]].
    - cbn [discriminant_value]. unfold last_value. destruct (rev (l_variants e)) as [|v r] eqn:R.
      + split.
        * split; [intros _|reflexivity]. exists 0%Z. split; [exists (Node ImplicitCastExpr []); right; auto|]. split; [reflexivity|exact fits_0].
        * intros z (n & [(H & _)|(_ & ->)]) _ _; [discriminate H|reflexivity].
      + pose proof (good_last e v r G R) as (w & F & E). unfold succ1. rewrite E, of_Z_value, succ_of_Z by exact F.
        destruct (Z.eqb_spec w (2 ^ 64 - 1)) as [->|Nw].
        * split; [split; [discriminate|]|].
          -- intros (z & (n & [(H & _)|(_ & ->)]) & _ & Fz); [discriminate H|]. unfold fits in Fz. lia.
          -- intros z (n & [(H & _)|(_ & ->)]) _ Fz; [discriminate H|]. unfold fits in Fz. lia.
        * split.
          -- split; [intros _|reflexivity]. exists (w + 1)%Z. split; [exists (Node ImplicitCastExpr []); right; auto|]. split; [reflexivity|]. unfold fits in *. lia.
          -- intros z (n & [(H & _)|(_ & ->)]) _ _; [discriminate H|reflexivity].
    - cbn [discriminant_value]. apply Forall_inv in P. destruct (constant_of n) as [d| |] eqn:C.
      + destruct (constant_gives n d P C) as (z & Gz & Fz & ->). split.
        * split; [intros _|reflexivity]. exists z. split; [exists n; left; auto|auto].
        * intros z' (n' & [(H & Gz')|(H & _)]) _ _; [|discriminate H]. injection H as <-. rewrite (gives_unique n z' z Gz' Gz). reflexivity.
      + exfalso. revert C. clear. revert n. fix IH 1. intros [k l]. destruct k; cbn [constant_of]; try discriminate.
        * destruct l as [|n [|]]; try discriminate. apply IH.
        * destruct (disc_from_str value); discriminate.
      + split.
        * split; [discriminate|]. intros (z & (n' & [(H & Gz)|(H & _)]) & _ & Fz); [|discriminate H]. injection H as <-.
          apply gives_constant in Gz. apply fits_leb in Fz. rewrite Fz, C in Gz. discriminate Gz.
        * intros z (n' & [(H & Gz)|(H & _)]) _ Fz; [|discriminate H]. injection H as <-.
          apply gives_constant in Gz. apply fits_leb in Fz. rewrite Fz, C in Gz. discriminate Gz.
    - cbn [discriminant_value]. split.
      + split; [discriminate|]. intros (z & (m & [(H & _)|(H & _)]) & _); discriminate H.
      + intros z (m & [(H & _)|(H & _)]) _ _; discriminate H.
  Qed.
  Lemma cs1_exact l : forall e, good_enum e -> Forall init_ok l ->
    (snd (cs1 e l) = [] <-> exists vs, enumerators (last_value e) l vs /\ acceptable vs) /\
    forall vs, enumerators (last_value e) l vs -> acceptable vs ->
      shown (l_variants (fst (cs1 e l))) = shown (l_variants e) ++ vs /\ l_repr (fst (cs1 e l)) = l_repr e.
  Proof.
    induction l as [|[x init] l IH]; intros e G P.
    - cbn [cs1 fst snd]. split.
      + split; [intros _; exists []; split; [constructor|intros y w []]|reflexivity].
      + intros vs E _. inversion E; subst. rewrite app_nil_r. auto.
    - cbn [cs1]. destruct (c1_exact e x init G (Forall_inv P)) as (C & D). pose proof (c1_good e (x, init) G (Forall_inv P)) as G'.
      destruct (c1 e (x, init)) as [e1 er] eqn:E1. cbn [fst snd] in *.
      specialize (IH e1 G' (Forall_inv_tail P)) as (I & J). destruct (cs1 e1 l) as [e2 er2] eqn:E2. cbn [fst snd] in *.
      assert (K : forall vs, enumerators (last_value e) ((x, init) :: l) vs -> exists z vs', vs = (x, z) :: vs' /\ enumerators (Some z) l vs' /\
        exists n, init = [n] /\ gives n z \/ init = [] /\ z = match last_value e with Some z => (z + 1)%Z | None => 0%Z end).
      { intros vs E. inversion E; subst.
        - eexists _, _. split; [reflexivity|]. split; [eassumption|]. eexists. left. split; [reflexivity|assumption].
        - eexists _, _. split; [reflexivity|]. split; [eassumption|]. exists (Node ImplicitCastExpr []). right. split; reflexivity. }
      assert (K' : forall z vs', enumerators (Some z) l vs' -> (exists n, init = [n] /\ gives n z \/ init = [] /\ z = match last_value e with Some z => (z + 1)%Z | None => 0%Z end) ->
        enumerators (last_value e) ((x, init) :: l) ((x, z) :: vs')).
      { intros z vs' E (n & [(-> & Gz)|(-> & ->)]); [constructor; assumption|]. apply en_next. exact E. }
      assert (S : forall z, e1 = push1 e x (of_Z z) -> last_value e1 = Some z) by (intros z ->; rewrite last_push, of_Z_value; reflexivity).
      split; [split|].
      + intros H. apply app_eq_nil in H as (H1 & H2). apply C in H1 as (z & Hz & A & F). rewrite (S z (D z Hz A F)) in I. apply I in H2 as (vs & E & Ac).
        exists ((x, z) :: vs). split; [apply K'; assumption|]. apply acceptable_cons. auto.
      + intros (vs & E & Ac). apply K in E as (z & vs' & -> & E & Hz). apply acceptable_cons in Ac as ((A & F) & Ac).
        assert (er = []) as -> by (apply C; exists z; auto). rewrite (S z (D z Hz A F)) in I. cbn [app]. apply I. exists vs'. auto.
      + intros vs E Ac. apply K in E as (z & vs' & -> & E & Hz). apply acceptable_cons in Ac as ((A & F) & Ac).
        pose proof (D z Hz A F) as E1'. rewrite (S z E1') in J. destruct (J vs' E Ac) as (J1 & J2). split.
        * rewrite J1, E1'. unfold push1, shown. cbn [l_variants]. rewrite map_app, <- app_assoc. cbn [map lv_cxx lv_disc app]. rewrite of_Z_value. reflexivity.
        * rewrite J2, E1'. reflexivity.
  Qed.
  (** The number of errors or variants does not shrink *)
  Lemma cs1_some l : forall e, snd (cs1 e l) = [] -> l <> [] -> l_variants (fst (cs1 e l)) <> [].
  Proof.
    assert (C : forall e c, snd (c1 e c) = [] -> l_variants (fst (c1 e c)) <> []).
    { intros e [x init]. unfold c1. destruct (any_ident x); [|discriminate].
      assert (Q : forall d, l_variants (push1 e x d) <> []) by (intros d; unfold push1; cbn [l_variants]; intros H; apply app_eq_nil in H as (_ & H); discriminate H).
      destruct (discriminant_value init); cbn [fst snd]; intros H; try discriminate H; try apply Q.
      destruct (rev (l_variants e)); [apply Q|]. destruct (succ1 _); [apply Q|discriminate H]. }
    assert (M : forall l e, l_variants e <> [] -> l_variants (fst (cs1 e l)) <> []).
    { induction l0 as [|c l0 IH]; intros e N; cbn [cs1]; [exact N|].
      assert (N' : l_variants (fst (c1 e c)) <> []).
      { destruct c as [x init]. unfold c1. destruct (any_ident x); [|exact N].
        assert (Q : forall d, l_variants (push1 e x d) <> []) by (intros d; unfold push1; cbn [l_variants]; intros H; apply app_eq_nil in H as (_ & H); discriminate H).
        destruct (discriminant_value init); cbn [fst]; try apply Q. destruct (rev (l_variants e)); [apply Q|]. destruct (succ1 _); [apply Q|exact N]. }
      destruct (c1 e c) as [e1 er]. cbn [fst] in *. specialize (IH e1 N'). destruct (cs1 e1 l0). exact IH. }
    intros e H N. destruct l as [|c l]; [contradiction|]. cbn [cs1] in *. specialize (C e c). destruct (c1 e c) as [e1 er]. cbn [fst snd] in *.
    specialize (M l e1). destruct (cs1 e1 l) as [e2 er2]. cbn [fst snd] in *. apply app_eq_nil in H as (-> & _). auto.
  Qed.
End Load.
