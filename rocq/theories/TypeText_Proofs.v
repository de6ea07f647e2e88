From Verif Require Import Base Syntax_Model Types_Model Mangle_Model Deps_Model Deps_Proofs TypeText_Model TypeText_Spec.
From Coq Require Import Lia.

(** ** Tokens *)
Definition not_word (r : list ascii) : Prop := match r with [] => True | c :: _ => word_char c = false end.
Definition plus (ts : list tok) (o : option (list tok)) : option (list tok) := option_map (app ts) o.
Lemma plus_plus a b o : plus a (plus b o) = plus (a ++ b) o.
Proof. destruct o; cbn; [rewrite app_assoc|]; reflexivity. Qed.
Lemma lex_word u : forall w r, forallb word_char u = true -> lex w (u ++ r) = lex (w ++ u) r.
Proof.
  induction u as [|c u IH]; intros w r F; [rewrite app_nil_r; reflexivity|]. cbn in F. apply andb_prop in F as [A B]. cbn [app lex]. rewrite A, IH by exact B.
  rewrite <- app_assoc. reflexivity.
Qed.
Lemma lex_flush w r : w <> [] -> not_word r -> lex w r = plus [word w] (lex [] r).
Proof.
  intros N W. destruct w as [|c w]; [congruence|]. destruct r as [|d r]; [reflexivity|]. cbn in W. cbn [lex]. rewrite W. unfold flush at 1 2.
  unfold plus. cbn [app]. reflexivity.
Qed.
Lemma word_ident x : identifier x -> word (chars x) = KIdent x.
Proof.
  unfold identifier, word, chars. intros [H N]. assert (E := string_of_list_ascii_of_string x). destruct (list_ascii_of_string x) as [|c r]; [destruct H|]. destruct H as [D _]. rewrite D, E.
  destruct (String.eqb_spec x "const"); [congruence|reflexivity].
Qed.
Lemma ident_chars x : identifier x -> forallb word_char (chars x) = true /\ chars x <> [].
Proof. unfold identifier, chars. intros [H _]. destruct (list_ascii_of_string x); [destruct H|]. destruct H as [_ H]. split; [exact H|discriminate]. Qed.
Lemma lex_ident x r : identifier x -> not_word r -> lex [] (chars x ++ r) = plus [KIdent x] (lex [] r).
Proof.
  intros I N. destruct (ident_chars x I) as [W E]. rewrite lex_word by exact W. cbn [app]. rewrite lex_flush by assumption. rewrite word_ident by exact I. reflexivity.
Qed.
Lemma lex_colons r : lex [] (chars "::" ++ r) = plus [KColons] (lex [] r).
Proof. reflexivity. Qed.
Definition path_text (p : list string) : list ascii := List.concat (map (fun s => chars "::" ++ chars s) p).
Definition path_toks (p : list string) : list tok := flat_map (fun s => [KColons; KIdent s]) p.
Lemma not_word_path p r : not_word r -> not_word (path_text p ++ r).
Proof. destruct p; [auto|reflexivity]. Qed.
Lemma lex_path p : forall r, Forall identifier p -> not_word r -> lex [] (path_text p ++ r) = plus (path_toks p) (lex [] r).
Proof.
  induction p as [|x p IH]; intros r F N; [cbn; destruct (lex [] r); reflexivity|]. inversion F as [|? ? I F']; subst.
  change (path_text (x :: p)) with ((chars "::" ++ chars x) ++ path_text p). rewrite <- !app_assoc, lex_colons, lex_ident by (auto using not_word_path).
  rewrite IH by assumption. rewrite !plus_plus. reflexivity.
Qed.
(** how the text of a type begins *)
Definition starts (s : list ascii) : Prop :=
  match s with
  | c :: r => word_char c = true \/ c = ":"%char /\ match r with d :: f :: _ => d = ":"%char /\ word_char f = true | _ => False end
  | [] => False
  end.
Lemma starts_path p x r : identifier x -> starts (path_text (x :: p) ++ r).
Proof.
  intros I. change (path_text (x :: p)) with ((chars "::" ++ chars x) ++ path_text p). rewrite <- !app_assoc. cbn [chars list_ascii_of_string app starts].
  right. split; [reflexivity|]. destruct (ident_chars x I) as [W E]. unfold chars in *. destruct (list_ascii_of_string x) as [|f w]; [congruence|].
  cbn in W |- *. apply andb_prop in W. tauto.
Qed.
Lemma starts_app s r : starts s -> starts (s ++ r).
Proof. destruct s as [|c [|d [|f s]]]; cbn; tauto. Qed.
Lemma word_not c : word_char c = true -> Ascii.eqb c " " = false /\ Ascii.eqb c ":" = false /\ Ascii.eqb c ">" = false /\ Ascii.eqb c "&" = false.
Proof.
  intros W. repeat split; match goal with |- Ascii.eqb c ?x = false => destruct (Ascii.eqb_spec c x) as [->|]; [vm_compute in W; discriminate|reflexivity] end.
Qed.
Lemma lex_lt s : starts s -> lex [] (chars "<" ++ s) = plus [KLt] (lex [] s).
Proof.
  intros S. destruct s as [|c r]; [destruct S|]. cbn [chars list_ascii_of_string app].
  change (lex [] ("<"%char :: c :: r)) with
    (match c :: r with
     | d :: e :: f :: _ =>
         if Ascii.eqb d ":" then
           if (Ascii.eqb e ":" && negb (Ascii.eqb f ":") && negb (Ascii.eqb f ">"))%bool then option_map (cons KLt) (lex [] (c :: r)) else None
         else option_map (cons KLt) (lex [] (c :: r))
     | d :: _ => if Ascii.eqb d ":" then None else option_map (cons KLt) (lex [] (c :: r))
     | [] => option_map (cons KLt) (lex [] (c :: r))
     end).
  destruct S as [W|[-> S]].
  - destruct (word_not c W) as (_ & -> & _). destruct r as [|e [|f r]]; reflexivity.
  - destruct r as [|d [|f r]]; try contradiction. destruct S as [-> W]. destruct (word_not f W) as (_ & -> & -> & _). reflexivity.
Qed.
Lemma lex_gt r : lex [] (chars ">" ++ r) = plus [KGt] (lex [] r). Proof. reflexivity. Qed.
Lemma lex_open r : lex [] (chars "(" ++ r) = plus [KOpen] (lex [] r). Proof. reflexivity. Qed.
Lemma lex_close r : lex [] (chars ")>" ++ r) = plus [KClose; KGt] (lex [] r). Proof. cbn. destruct (lex [] r); reflexivity. Qed.
Lemma lex_comma r : lex [] (chars ", " ++ r) = plus [KComma] (lex [] r). Proof. reflexivity. Qed.
Lemma lex_space r : lex [] (chars " " ++ r) = lex [] r. Proof. reflexivity. Qed.
Lemma lex_star r : lex [] (chars "*" ++ r) = plus [KStar] (lex [] r). Proof. reflexivity. Qed.
Lemma lex_const r : not_word r -> lex [] (chars "const" ++ r) = plus [KConst] (lex [] r).
Proof. intros N. rewrite lex_word by reflexivity. cbn [app]. rewrite lex_flush; [reflexivity|discriminate|exact N]. Qed.
Lemma lex_amp r : match r with c :: _ => c <> "&"%char | [] => True end -> lex [] (chars "&" ++ r) = plus [KAmp] (lex [] r).
Proof.
  intros N. destruct r as [|c r]; [reflexivity|]. cbn [chars list_ascii_of_string app].
  change (lex [] ("&"%char :: c :: r)) with (if Ascii.eqb c "&" then None else option_map (cons KAmp) (lex [] (c :: r))).
  destruct (Ascii.eqb_spec c "&"); [congruence|reflexivity].
Qed.
Lemma lex_decimal n r : not_word r -> lex [] (decimal n ++ r) = plus [KNum n] (lex [] r).
Proof.
  intros N. assert (D := Deps_Proofs.decimal_digits (S (N.to_nat (N.size n))) n). fold (decimal n) in D.
  assert (E := Deps_Proofs.decimal_ne n). rewrite lex_word.
  - cbn [app]. rewrite lex_flush by assumption. f_equal. unfold word. destruct (decimal n) as [|c w] eqn:Ed; [congruence|].
    inversion D as [|? ? Dc _]; subst. change (Deps_Model.is_digit c) with (is_digit c) in Dc. rewrite Dc. rewrite <- Ed. do 2 f_equal.
    apply Deps_Proofs.parse_fold. left. lia.
  - clear - D. induction D as [|c l H _ IH]; [reflexivity|]. cbn. rewrite IH, andb_true_r. unfold word_char. change (Deps_Model.is_digit c) with (is_digit c) in H. rewrite H. apply orb_true_r.
Qed.

(** ** Grammar *)
Definition base (n : nat) (ts : list tok) : option (ct * list tok) :=
  match type_name ts with
  | None => None
  | Some (g, path, r) =>
      match r with
      | KLt :: r' => option_map (fun p => (Named g path (fst p), snd p)) (template_args n r')
      | _ => Some (Named g path [], r)
      end
  end.
Lemma type_id_S n ts : type_id (S n) ts = match base n ts with
  | None => None
  | Some (b, r) => match suffixes b r with
                   | (c, KOpen :: KClose :: r') => Some (FunOf c [], r')
                   | (c, KOpen :: r') => option_map (fun p => (FunOf c (fst p), snd p)) (parameters n r')
                   | p => Some p
                   end
  end.
Proof. reflexivity. Qed.
Lemma template_S n ts : template_args (S n) ts =
  match (match ts with KNum k :: r => Some (Num k, r) | _ => type_id n ts end) with
  | Some (c, KGt :: r) => Some ([c], r)
  | Some (c, KComma :: r) => option_map (fun p => (c :: fst p, snd p)) (template_args n r)
  | _ => None
  end.
Proof. reflexivity. Qed.
Lemma parameters_S n ts : parameters (S n) ts =
  match type_id n ts with
  | Some (c, KClose :: r) => Some ([c], r)
  | Some (c, KComma :: r) => option_map (fun p => (c :: fst p, snd p)) (parameters n r)
  | _ => None
  end.
Proof. reflexivity. Qed.

(** more fuel does not change anything *)
Lemma mono n :
  (forall ts x, type_id n ts = Some x -> type_id (S n) ts = Some x) /\
  (forall ts x, template_args n ts = Some x -> template_args (S n) ts = Some x) /\
  (forall ts x, parameters n ts = Some x -> parameters (S n) ts = Some x).
Proof.
  induction n as [|n (I1 & I2 & I3)]; [repeat split; intros; discriminate|]. split; [|split]; intros ts x H.
  - rewrite type_id_S in *.
    assert (B : forall p, base n ts = Some p -> base (S n) ts = Some p).
    { intros p. unfold base. destruct (type_name ts) as [[[g path] r]|]; [|discriminate]. destruct r as [|[] r]; auto.
      destruct (template_args n r) as [q|] eqn:E; [|discriminate]. rewrite (I2 _ _ E). auto. }
    destruct (base n ts) as [[b r]|]; [|discriminate]. rewrite (B _ eq_refl).
    destruct (suffixes b r) as [c [|k r0]]; [exact H|]. destruct k; try exact H.
    destruct r0 as [|k r1].
    + destruct (parameters n []) as [q|] eqn:E; [|discriminate]. rewrite (I3 _ _ E). exact H.
    + destruct k; try exact H; match goal with |- option_map _ (parameters _ ?l) = _ => destruct (parameters n l) as [q|] eqn:E; [|discriminate]; rewrite (I3 _ _ E); exact H end.
  - rewrite template_S in *. destruct (match ts with KNum k :: r => Some (Num k, r) | _ => type_id n ts end) as [[c r]|] eqn:E; [|discriminate].
    assert (E' : match ts with KNum k :: r => Some (Num k, r) | _ => type_id (S n) ts end = Some (c, r)).
    { destruct ts as [|k ts]; [exact (I1 _ _ E)|]. destruct k; try exact (I1 _ _ E). exact E. }
    rewrite E'. destruct r as [|k r]; [discriminate|]. destruct k; try exact H.
    destruct (template_args n r) as [q|] eqn:E2; [|discriminate]. rewrite (I2 _ _ E2). exact H.
  - rewrite parameters_S in *. destruct (type_id n ts) as [[c r]|] eqn:E; [|discriminate]. rewrite (I1 _ _ E).
    destruct r as [|k r]; [discriminate|]. destruct k; try exact H.
    destruct (parameters n r) as [q|] eqn:E2; [|discriminate]. rewrite (I3 _ _ E2). exact H.
Qed.
Lemma mono_le n m : (n <= m)%nat ->
  (forall ts x, type_id n ts = Some x -> type_id m ts = Some x) /\
  (forall ts x, template_args n ts = Some x -> template_args m ts = Some x) /\
  (forall ts x, parameters n ts = Some x -> parameters m ts = Some x).
Proof.
  induction 1 as [|m L (I1 & I2 & I3)]; [auto|]. destruct (mono m) as (M1 & M2 & M3). repeat split; auto.
Qed.
Lemma reads_det s c c' : reads s c -> reads s c' -> c = c'.
Proof.
  intros (ts & n & E & H) (ts' & n' & E' & H'). rewrite E in E'. injection E' as <-.
  apply (proj1 (mono_le n (max n n') (Nat.le_max_l _ _))) in H. apply (proj1 (mono_le n' (max n n') (Nat.le_max_r _ _))) in H'. congruence.
Qed.
Lemma base_mono n m ts x : (n <= m)%nat -> base n ts = Some x -> base m ts = Some x.
Proof.
  intros L. unfold base. destruct (type_name ts) as [[[g path] r]|]; [|discriminate]. destruct r as [|[] r]; auto.
  destruct (template_args n r) as [q|] eqn:E; [|discriminate]. rewrite (proj1 (proj2 (mono_le _ _ L)) _ _ E). auto.
Qed.

Definition no_colons (ts : list tok) : Prop := match ts with KColons :: _ => False | _ => True end.
Definition no_lt (ts : list tok) : Prop := match ts with KColons :: _ | KLt :: _ => False | _ => True end.
Lemma qualified_path p : forall x r, no_colons r -> qualified (KIdent x :: path_toks p ++ r) = Some (x :: p, r).
Proof.
  induction p as [|y p IH]; intros x r N.
  - cbn. destruct r as [|[] r]; try reflexivity. contradiction.
  - change (path_toks (y :: p) ++ r) with (KColons :: KIdent y :: path_toks p ++ r).
    change (option_map (fun q => (x :: fst q, snd q)) (qualified (KIdent y :: path_toks p ++ r)) = Some (x :: y :: p, r)). rewrite IH by exact N. reflexivity.
Qed.
Lemma type_name_path x p r : no_colons r -> type_name (path_toks (x :: p) ++ r) = Some (true, x :: p, r).
Proof. intros N. change (option_map (fun q => (true, fst q, snd q)) (qualified (KIdent x :: path_toks p ++ r)) = Some (true, x :: p, r)). rewrite qualified_path by exact N. reflexivity. Qed.
Lemma base_path n x p r : no_lt r -> base n (path_toks (x :: p) ++ r) = Some (Named true (x :: p) [], r).
Proof. intros N. unfold base. rewrite type_name_path by (destruct r as [|[] r]; cbn in *; auto). destruct r as [|[] r]; try reflexivity; contradiction. Qed.
Lemma base_template n x p args r ts : template_args n ts = Some (args, r) -> base n (path_toks (x :: p) ++ KLt :: ts) = Some (Named true (x :: p) args, r).
Proof. intros E. unfold base. rewrite type_name_path by exact Logic.I. rewrite E. reflexivity. Qed.

(** ** One type *)
Record printed (t : ty) (s : list ascii) (c : ct) : Prop := Printed
  { pr_starts : starts s;
    pr_toks : exists B S b n0,
      (forall r, match t with TRef _ _ _ _ => match r with d :: _ => d <> "&"%char | [] => True end | TPtr _ _ => True | _ => not_word r end ->
                 lex [] (s ++ r) = plus (B ++ S) (lex [] r)) /\
      (forall n x, (n0 <= n)%nat -> no_lt x -> base n (B ++ x) = Some (b, x)) /\
      (forall x, suffixes b (S ++ x) = suffixes c x) /\
      no_lt (S ++ [KGt]) /\ match B with KNum _ :: _ | KClose :: _ | [] => False | _ => True end;
    pr_shape : match c with Named _ _ _ | PtrTo _ => True | RefTo _ => match t with TRef _ _ _ _ => True | _ => False end | _ => False end }.

(** a type at the end of a template argument or parameter *)
Definition stop (x : list tok) : Prop := match x with KGt :: _ | KComma :: _ | KClose :: _ | [] => True | _ => False end.
Lemma suffixes_stop c x : stop x -> suffixes c x = (c, x).
Proof. destruct x as [|[] x]; intros H; try reflexivity; contradiction. Qed.
Lemma no_lt_app S x : no_lt (S ++ [KGt]) -> match x with KColons :: _ | KLt :: _ => False | _ => True end -> no_lt (S ++ x).
Proof. destruct S as [|k S]; cbn; auto. Qed.
Definition may_follow (t : ty) (r : list ascii) : Prop :=
  match t with TRef _ _ _ _ => match r with d :: _ => d <> "&"%char | [] => True end | TPtr _ _ => True | _ => not_word r end.
Lemma printed_id t s c : printed t s c -> exists ts n0, match ts with KNum _ :: _ | KClose :: _ | [] => False | _ => True end /\
  (forall r, may_follow t r -> lex [] (s ++ r) = plus ts (lex [] r)) /\
  (forall n x, (n0 <= n)%nat -> stop x -> type_id n (ts ++ x) = Some (c, x)) /\
  (forall n x cs r, (n0 <= n)%nat -> parameters n x = Some (cs, r) -> match x with KClose :: _ => False | _ => True end -> type_id (S n) (ts ++ KOpen :: x) = Some (FunOf c cs, r)) /\
  (forall n x, (n0 <= n)%nat -> type_id n (ts ++ KOpen :: KClose :: x) = Some (FunOf c [], x)) /\
  (match c with RefTo _ => False | _ => True end -> forall n x, (n0 <= n)%nat -> stop x -> type_id n (ts ++ KConst :: x) = Some (Const c, x)).
Proof.
  intros [St (B & S & b & n0 & Lx & Bs & Sf & NS & Hd) Sh]. exists (B ++ S), (Datatypes.S n0).
  split; [destruct B as [|[] B]; cbn in *; try contradiction; auto|]. split; [exact Lx|].
  assert (X : forall n x, (n0 <= n)%nat -> match x with KColons :: _ | KLt :: _ => False | _ => True end -> base n ((B ++ S) ++ x) = Some (b, S ++ x)).
  { intros n x L Hx. rewrite <- app_assoc. apply Bs; [lia|]. apply no_lt_app; assumption. }
  split; [|split; [|split]].
  - intros n x L P. destruct n as [|m]; [lia|]. rewrite type_id_S, X, Sf, suffixes_stop by (exact P || lia || (destruct x as [|[] x]; cbn in P; auto)).
    destruct x as [|[] x]; try reflexivity; contradiction.
  - intros n x cs r L P Nx. rewrite type_id_S, X, Sf by (exact Logic.I || lia). change (suffixes c (KOpen :: x)) with (c, KOpen :: x). cbv beta iota.
    destruct x as [|[] x]; try contradiction; rewrite P; reflexivity.
  - intros n x L. destruct n as [|m]; [lia|]. rewrite type_id_S, X, Sf by (exact Logic.I || lia). reflexivity.
  - intros Nr n x L P. destruct n as [|m]; [lia|]. rewrite type_id_S, X, Sf by (exact Logic.I || lia).
    assert (E : suffixes c (KConst :: x) = (Const c, x)).
    { transitivity (suffixes (Const c) x); [|apply suffixes_stop; exact P]. destruct c; try contradiction; reflexivity. }
    rewrite E. destruct x as [|[] x]; try reflexivity; contradiction.
Qed.

(** text of the form ::a::b<...> *)
Lemma ends_template s p x : starts s -> Forall identifier (x :: p) -> forall args ts n0,
  (forall r, lex [] (s ++ r) = plus ts (lex [] r)) ->
  (forall n y, (n0 <= n)%nat -> template_args n (ts ++ y) = Some (args, y)) ->
  forall t, match t with TRef _ _ _ _ => False | _ => True end ->
  printed t (path_text (x :: p) ++ chars "<" ++ s) (Named true (x :: p) args).
Proof.
  intros Ss F args ts n0 Lx Ta t Nt. split.
  - inversion F; subst. apply starts_path; assumption.
  - exists (path_toks (x :: p) ++ KLt :: ts), [], (Named true (x :: p) args), n0. split; [|split; [|split; [|split]]].
    + intros r _. rewrite <- !app_assoc. rewrite lex_path by (exact F || reflexivity). rewrite lex_lt by (apply starts_app; exact Ss).
      rewrite Lx, !plus_plus. rewrite app_nil_r, <- app_assoc. reflexivity.
    + intros n y L _. rewrite <- app_assoc. cbn [app]. apply base_template. apply Ta. exact L.
    + reflexivity.
    + exact Logic.I.
    + exact Logic.I.
  - exact Logic.I.
Qed.

Definition is_ref (t : ty) : bool := match t with TRef _ _ _ _ => true | _ => false end.
(** no template argument, pointer or reference over a reference *)
Fixpoint plain (t : ty) : bool :=
  match t with
  | TBox t | TVec t | TUniquePtr t | TSharedPtr t | TWeakPtr t | TCxxVector t | TRef _ _ _ t | TPtr _ t | TSlice _ _ t | TArray t _ => negb (is_ref t) && plain t
  | TFn _ _ args ret => forallb (fun a => plain (snd a)) args && match ret with Some r => plain r | None => true end
  | _ => true
  end.

Lemma ident_rust : identifier "rust". Proof. split; [split; reflexivity|discriminate]. Qed.
Lemma ident_std : identifier "std". Proof. split; [split; reflexivity|discriminate]. Qed.
Ltac ident := match goal with |- identifier ?x => split; [split; reflexivity|discriminate] | |- Forall identifier [] => apply Forall_nil | |- Forall identifier _ => apply Forall_cons; ident end.
Lemma follow_space t r : may_follow t (chars " " ++ r). Proof. destruct t; cbn; auto; congruence. Qed.
Lemma follow_punct t r c : word_char c = false -> c <> "&"%char -> may_follow t (c :: r). Proof. destruct t; cbn; auto. Qed.
Lemma lex_after t s c ts r : printed t s c -> (forall r, may_follow t r -> lex [] (s ++ r) = plus ts (lex [] r)) -> is_ref t = false ->
  lex [] (s ++ space_after_type t ++ r) = plus ts (lex [] r).
Proof.
  intros P H N. rewrite H; [|destruct t; cbn; auto; discriminate N]. destruct t; reflexivity.
Qed.

Section Written.
  Variables (T : types) (name : string -> list string -> Prop).
  Hypothesis Hname : forall x p, resolve_name T x = Some p -> Forall identifier (p_ns p ++ [p_cxx p]) /\ name x (p_ns p ++ [p_cxx p]).
  Hypothesis Hprim : forall x, primitive x = match atom_from_str x with Some a => Some (match a with
      | ABool => Named false ["bool"] [] | AChar => Named false ["char"] []
      | AU8 => std_ "uint8_t" [] | AU16 => std_ "uint16_t" [] | AU32 => std_ "uint32_t" [] | AU64 => std_ "uint64_t" [] | AUsize => std_ "size_t" []
      | AI8 => std_ "int8_t" [] | AI16 => std_ "int16_t" [] | AI32 => std_ "int32_t" [] | AI64 => std_ "int64_t" [] | AIsize => rust_ "isize" []
      | AF32 => Named false ["float"] [] | AF64 => Named false ["double"] []
      | ACxxString => std_ "string" [] | ARustString => rust_ "String" [] end) | None => None end.

  Lemma printed_path t x p : Forall identifier (x :: p) -> is_ref t = false -> match t with TPtr _ _ => False | _ => True end -> printed t (path_text (x :: p)) (Named true (x :: p) []).
  Proof.
    intros F Nr Np. split.
    - inversion F; subst. rewrite <- (app_nil_r (path_text _)). apply starts_path; assumption.
    - exists (path_toks (x :: p)), [], (Named true (x :: p) []), O. split; [|split; [|split; [|split]]]; try exact Logic.I; try reflexivity.
      + intros r H. rewrite app_nil_r. apply lex_path; [exact F|]. destruct t; try exact H; [discriminate|contradiction].
      + intros n y _ N. apply base_path. exact N.
    - exact Logic.I.
  Qed.
  Lemma printed_word n x : identifier x -> printed (TIdent n) (chars x) (Named false [x] []).
  Proof.
    intros F. split.
    - destruct (ident_chars x F) as [W E]. unfold chars in *. destruct (list_ascii_of_string x); [congruence|]. cbn in W |- *. apply andb_prop in W. tauto.
    - exists [KIdent x], [], (Named false [x] []), O. split; [|split; [|split; [|split]]]; try exact Logic.I; try reflexivity.
      + intros r H. cbn [app]. apply lex_ident; assumption.
      + intros m y _ N. unfold base. cbn [app type_name qualified option_map]. destruct y as [|[] y]; try reflexivity; contradiction.
    - exact Logic.I.
  Qed.
  Lemma printed_one t s c t' g x : printed t s c -> is_ref t = false -> is_ref t' = false -> identifier g -> identifier x ->
    printed t' (path_text [g; x] ++ chars "<" ++ s ++ chars ">") (Named true [g; x] [c]).
  Proof.
    intros P Nr Nr' Ig Ix. destruct (printed_id _ _ _ P) as (ts & n0 & H0 & Lx & Id & _).
    apply (ends_template _ [x] g) with (ts := ts ++ [KGt]) (n0 := S n0).
    - apply starts_app, P.
    - apply Forall_cons; [exact Ig|apply Forall_cons; [exact Ix|apply Forall_nil]].
    - intros r. rewrite <- app_assoc, Lx by (apply follow_punct; [reflexivity|discriminate]). rewrite lex_gt, plus_plus. reflexivity.
    - intros n y L. destruct n as [|n]; [lia|]. rewrite template_S, <- app_assoc. cbn [app].
      assert (E : type_id n (ts ++ KGt :: y) = Some (c, KGt :: y)) by (apply Id; [lia|exact Logic.I]).
      destruct ts as [|[] ts]; cbn [app] in *; try contradiction; rewrite E; reflexivity.
    - destruct t'; try exact Logic.I. discriminate.
  Qed.
  Lemma printed_const t s c t' g x : printed t s c -> is_ref t = false -> is_ref t' = false -> identifier g -> identifier x ->
    printed t' (path_text [g; x] ++ chars "<" ++ s ++ space_after_type t ++ chars "const>") (Named true [g; x] [Const c]).
  Proof.
    intros P Nr Nr' Ig Ix. destruct (printed_id _ _ _ P) as (ts & n0 & H0 & Lx & _ & _ & _ & Id).
    assert (Nc : match c with RefTo _ => False | _ => True end) by (destruct P as [_ _ Sh]; destruct c; auto; destruct t; auto; discriminate).
    apply (ends_template _ [x] g) with (ts := ts ++ [KConst; KGt]) (n0 := S n0).
    - apply starts_app, P.
    - apply Forall_cons; [exact Ig|apply Forall_cons; [exact Ix|apply Forall_nil]].
    - intros r. rewrite <- !app_assoc, (lex_after _ _ _ _ _ P Lx Nr). change (chars "const>") with (chars "const" ++ chars ">"). rewrite <- app_assoc, lex_const by reflexivity.
      rewrite lex_gt, !plus_plus, <- ?app_assoc. reflexivity.
    - intros n y L. destruct n as [|n]; [lia|]. rewrite template_S, <- app_assoc. cbn [app].
      assert (E : type_id n (ts ++ KConst :: KGt :: y) = Some (Const c, KGt :: y)) by (apply Id; [exact Nc|lia|exact Logic.I]).
      destruct ts as [|[] ts]; cbn [app] in *; try contradiction; rewrite E; reflexivity.
    - destruct t'; try exact Logic.I. discriminate.
  Qed.
  Lemma printed_slice t s c m l : printed t s c -> is_ref t = false ->
    printed (TSlice m l t) (chars "::rust::Slice<" ++ s ++ space_after_type t ++ (if m then [] else chars "const") ++ chars ">") (rust_ "Slice" [const_unless m c]).
  Proof.
    intros P N. destruct m; cbn [const_unless app].
    - destruct (printed_id _ _ _ P) as (ts & n0 & H0 & Lx & Id & _).
      change (chars "::rust::Slice<") with (path_text ["rust"; "Slice"] ++ chars "<"). rewrite <- app_assoc.
      apply (ends_template _ ["Slice"] "rust") with (ts := ts ++ [KGt]) (n0 := S n0); [apply starts_app, P|ident| | |exact Logic.I].
      + intros r. rewrite <- !app_assoc, (lex_after _ _ _ _ _ P Lx N), lex_gt, plus_plus. reflexivity.
      + intros n y L. destruct n as [|n]; [lia|]. rewrite template_S, <- app_assoc. cbn [app].
        assert (E : type_id n (ts ++ KGt :: y) = Some (c, KGt :: y)) by (apply Id; [lia|exact Logic.I]).
        destruct ts as [|[] ts]; cbn [app] in *; try contradiction; rewrite E; reflexivity.
    - change (chars "::rust::Slice<") with (path_text ["rust"; "Slice"] ++ chars "<"). change (chars "const" ++ chars ">") with (chars "const>"). rewrite <- app_assoc.
      apply printed_const; auto; ident.
  Qed.
  Lemma printed_array t s c len : printed t s c -> is_ref t = false ->
    printed (TArray t len) (chars "::std::array<" ++ s ++ chars ", " ++ decimal len ++ chars ">") (std_ "array" [c; Num len]).
  Proof.
    intros P N. destruct (printed_id _ _ _ P) as (ts & n0 & H0 & Lx & Id & _).
    change (chars "::std::array<") with (path_text ["std"; "array"] ++ chars "<"). rewrite <- app_assoc.
    apply (ends_template _ ["array"] "std") with (ts := ts ++ [KComma; KNum len; KGt]) (n0 := S (S n0)); [apply starts_app, P|ident| | |exact Logic.I].
    - intros r. rewrite <- !app_assoc, Lx by (apply follow_punct; [reflexivity|discriminate]). rewrite lex_comma, lex_decimal by reflexivity. rewrite lex_gt, !plus_plus, <- ?app_assoc. reflexivity.
    - intros n y L. destruct n as [|[|n]]; [lia..|]. rewrite template_S, <- app_assoc. cbn [app].
      assert (E : type_id (S n) (ts ++ KComma :: KNum len :: KGt :: y) = Some (c, KComma :: KNum len :: KGt :: y)) by (apply Id; [lia|exact Logic.I]).
      destruct ts as [|[] ts]; cbn [app] in *; try contradiction; rewrite E, template_S; reflexivity.
  Qed.
  Lemma printed_suffix (t : ty) (s : list ascii) (c : ct) (m : bool) (mk : ct -> ct) (t' : ty) (k : ascii) (tk : tok) :
    printed t s c -> is_ref t = false ->
    ((mk = RefTo /\ tk = KAmp /\ k = "&"%char /\ is_ref t' = true) \/ (mk = PtrTo /\ tk = KStar /\ k = "*"%char /\ match t' with TPtr _ _ => True | _ => False end)) ->
    printed t' (s ++ space_after_type t ++ (if m then [] else chars "const ") ++ [k]) (mk (const_unless m c)).
  Proof.
    intros P N K. pose proof P as [St (B & S & b & n0 & Lx & Bs & Sf & NS & Hd) Sh].
    assert (Nc : match c with Named _ _ _ | PtrTo _ => True | _ => False end) by (destruct c; auto; destruct t; auto; discriminate).
    split.
    - apply starts_app, St.
    - exists B, (S ++ (if m then [] else [KConst]) ++ [tk]), b, n0. split; [|split; [exact Bs|split; [|split; [|exact Hd]]]].
      + intros r Hr. rewrite <- !app_assoc. rewrite (lex_after t s c (B ++ S) _ P Lx N).
        assert (Kr : lex [] ([k] ++ r) = plus [tk] (lex [] r)).
        { destruct K as [(-> & -> & -> & Hk)|(-> & -> & -> & Hk)]; [apply lex_amp; destruct t'; try discriminate; exact Hr|apply lex_star]. }
        destruct m; cbn [app].
        * cbn [app] in Kr. rewrite Kr, !plus_plus. rewrite <- !app_assoc. reflexivity.
        * change (chars "const " ++ k :: r) with (chars "const" ++ (chars " " ++ [k] ++ r)). rewrite lex_const by reflexivity. rewrite lex_space, Kr, !plus_plus, <- !app_assoc. reflexivity.
      + intros x. rewrite <- !app_assoc, Sf. destruct K as [(-> & -> & _)|(-> & -> & _)]; destruct m, c; try contradiction; reflexivity.
      + destruct S as [|k0 S]; [|exact NS]. destruct K as [(_ & -> & _)|(_ & -> & _)]; destruct m; exact Logic.I.
    - destruct K as [(-> & _ & _ & Hk)|(-> & _)]; [destruct t'; try discriminate|]; exact Logic.I.
  Qed.

  (** function pointers *)
  Lemma starts_comma s ss : starts s -> starts (comma_separated (s :: ss)).
  Proof. intros H. cbn. apply starts_app, H. Qed.
  Lemma parameters_ok : forall ps cs, ps <> [] -> Forall2 (fun p c => printed (fst p) (snd p) c) ps cs ->
    exists ts n0, match ts with KClose :: _ | [] => False | _ => True end /\
      (forall r, lex [] (comma_separated (map snd ps) ++ chars ")>" ++ r) = plus (ts ++ [KClose; KGt]) (lex [] r)) /\
      (forall n x, (n0 <= n)%nat -> parameters n (ts ++ KClose :: x) = Some (cs, x)).
  Proof.
    intros ps. induction ps as [|[t s] ps IH]; intros cs N F; [congruence|]. inversion F as [|? c ? cs' P F']; subst. cbn [fst snd] in P.
    destruct (printed_id _ _ _ P) as (ts & n0 & H0 & Lx & Id & _). destruct ps as [|[t2 s2] ps].
    - inversion F'; subst. exists ts, (S n0). split; [destruct ts as [|[] ts]; cbn in *; try contradiction; auto|]. split.
      + intros r. cbn [map snd comma_separated List.concat]. rewrite app_nil_r, Lx by (apply follow_punct; [reflexivity|discriminate]). rewrite lex_close, plus_plus. reflexivity.
      + intros n x L. destruct n as [|n]; [lia|]. rewrite parameters_S, Id; [reflexivity|lia|exact Logic.I].
    - destruct (IH cs') as (ts' & n1 & H1 & Lx' & Pa); [discriminate|exact F'|]. exists (ts ++ KComma :: ts'), (S (max n0 n1)). split; [destruct ts as [|[] ts]; cbn in *; try contradiction; auto|]. split.
      + intros r. change (comma_separated (map snd ((t, s) :: (t2, s2) :: ps))) with (s ++ (chars ", " ++ s2) ++ List.concat (map (fun y => chars ", " ++ y) (map snd ps))).
        rewrite <- !app_assoc, Lx by (apply follow_punct; [reflexivity|discriminate]). rewrite lex_comma. specialize (Lx' r).
        change (comma_separated (map snd ((t2, s2) :: ps))) with (s2 ++ List.concat (map (fun y => chars ", " ++ y) (map snd ps))) in Lx'. rewrite <- app_assoc in Lx'. rewrite Lx', !plus_plus.
        f_equal. rewrite <- !app_assoc. reflexivity.
      + intros n x L. destruct n as [|n]; [lia|]. rewrite parameters_S, <- app_assoc. cbn [app]. rewrite Id by (exact Logic.I || lia). rewrite Pa by lia. reflexivity.
  Qed.
  Lemma printed_fn tr r c ps cs t' : printed tr r c -> Forall2 (fun p c => printed (fst p) (snd p) c) ps cs -> is_ref t' = false ->
    printed t' (chars "::rust::Fn<" ++ r ++ chars "(" ++ comma_separated (map snd ps) ++ chars ")>") (rust_ "Fn" [FunOf c cs]).
  Proof.
    intros P F N. destruct (printed_id _ _ _ P) as (ts & n0 & H0 & Lx & _ & Ip & Iz & _).
    change (chars "::rust::Fn<") with (path_text ["rust"; "Fn"] ++ chars "<"). rewrite <- app_assoc. destruct ps as [|p ps].
    - inversion F; subst. apply (ends_template _ ["Fn"] "rust") with (ts := ts ++ [KOpen; KClose; KGt]) (n0 := S n0); [apply starts_app, P|ident| | |destruct t'; auto; discriminate].
      + intros x. cbn [map comma_separated app]. rewrite <- !app_assoc, Lx by (apply follow_punct; [reflexivity|discriminate]). rewrite lex_open, lex_close, !plus_plus, <- ?app_assoc. reflexivity.
      + intros n y L. destruct n as [|n]; [lia|]. rewrite template_S, <- app_assoc. cbn [app].
        assert (E : type_id n (ts ++ KOpen :: KClose :: KGt :: y) = Some (FunOf c [], KGt :: y)) by (apply Iz; lia).
        destruct ts as [|[] ts]; cbn [app] in *; try contradiction; rewrite E; reflexivity.
    - destruct (parameters_ok (p :: ps) cs) as (us & n1 & H1 & Lu & Pa); [discriminate|exact F|].
      apply (ends_template _ ["Fn"] "rust") with (ts := ts ++ KOpen :: us ++ [KClose; KGt]) (n0 := S (S (max n0 n1))); [apply starts_app, P|ident| | |destruct t'; auto; discriminate].
      + intros x. rewrite <- !app_assoc, Lx by (apply follow_punct; [reflexivity|discriminate]). rewrite lex_open, Lu, !plus_plus. f_equal. rewrite <- !app_assoc. reflexivity.
      + intros n y L. destruct n as [|[|n]]; [lia..|]. rewrite template_S, <- app_assoc. cbn [app]. rewrite <- app_assoc. cbn [app].
        assert (E : type_id (S n) (ts ++ KOpen :: us ++ KClose :: KGt :: y) = Some (FunOf c cs, KGt :: y)).
        { apply Ip; [lia|apply Pa; lia|]. destruct us as [|[] us]; try contradiction; exact Logic.I. }
        destruct ts as [|[] ts]; cbn [app] in *; try contradiction; rewrite E; reflexivity.
  Qed.
  Definition write_args := fix go (l : list (string * ty)) : option (list (list ascii)) :=
    match l with
    | [] => Some []
    | a :: l => match write_type T (snd a), go l with Some s, Some ss => Some (s :: ss) | _, _ => None end
    end.
  Lemma printed_void n : printed n (chars "void") (Named false ["void"] []) \/ is_ref n = true \/ match n with TPtr _ _ => True | _ => False end.
  Proof. destruct n; try (right; right; exact Logic.I); try (right; left; reflexivity); left; destruct (printed_word (Syntax_Model.Named "" []) "void" ltac:(ident)) as [A B C]; split; assumption. Qed.

  Lemma primitive_printed n a : atom_from_str (n_rust n) = Some a -> exists c, primitive (n_rust n) = Some c /\ printed (TIdent n) (write_atom a) c /\ objects_only c = true.
  Proof.
    intros E. rewrite Hprim, E. eexists. split; [reflexivity|].
    destruct a; (split; [|reflexivity]);
      match goal with
      | |- printed _ ?s (Named false [?x] []) => change s with (chars x); apply printed_word; ident
      | |- printed _ ?s (std_ ?x []) => change s with (path_text ["std"; x]); apply printed_path; [ident|reflexivity|exact Logic.I]
      | |- printed _ ?s (rust_ ?x []) => change s with (path_text ["rust"; x]); apply printed_path; [ident|reflexivity|exact Logic.I]
      end.
  Qed.
  Lemma qualified_text p : to_fully_qualified p = path_text (p_ns p ++ [p_cxx p]).
  Proof. unfold to_fully_qualified, path_text. rewrite map_app, concat_app. cbn [map List.concat]. rewrite app_nil_r. reflexivity. Qed.
  Lemma obj_const m c : objects_only (const_unless m c) = objects_only c. Proof. destruct m; reflexivity. Qed.
  Lemma obj_arg t s c : printed t s c -> is_ref t = false -> objects_only c = true -> match c with RefTo _ => false | _ => objects_only c end = true.
  Proof. intros [_ _ Sh] N O. destruct c; auto. destruct t; try contradiction. discriminate. Qed.

  Theorem written t : forall s, write_type T t = Some s -> plain t = true -> exists c, documented name t c /\ printed t s c /\ objects_only c = true.
  Proof.
    assert (One : forall t t' s0 (g x w : string) (mk : ct -> ct),
      (forall s, write_type T t = Some s -> plain t = true -> exists c, documented name t c /\ printed t s c /\ objects_only c = true) ->
      option_map (fun s => chars w ++ s ++ chars ">") (write_type T t) = Some s0 -> negb (is_ref t) && plain t = true -> is_ref t' = false ->
      chars w = path_text [g; x] ++ chars "<" -> identifier g -> identifier x ->
      exists c, documented name t c /\ printed t' s0 (Named true [g; x] [c]) /\ objects_only (Named true [g; x] [c]) = true).
    { intros u t' s0 g x w mk IH E P N Ew Ig Ix. destruct (write_type T u) as [s|]; [|discriminate]. injection E as <-. apply andb_prop in P as [N1 P]. apply negb_true_iff in N1.
      destruct (IH s eq_refl P) as (c & D & Pr & O). exists c. split; [exact D|]. split.
      - rewrite Ew, <- app_assoc. apply (printed_one u); assumption.
      - change (forallb (fun a => match a with RefTo _ => false | _ => objects_only a end) [c] = true). cbn [forallb]. rewrite (obj_arg _ _ _ Pr N1 O). reflexivity. }
    induction t using ty_ind'; intros s E P.
    - cbn in E. destruct (atom_from_str (n_rust n)) as [a|] eqn:Ea.
      + injection E as <-. destruct (primitive_printed n a Ea) as (c & Hc & Pr & O). exists c. split; [apply d_primitive, Hc|]. split; assumption.
      + destruct (resolve_name T (n_rust n)) as [p|] eqn:R; [|discriminate]. cbn [option_map] in E. assert (s = to_fully_qualified p) as -> by (injection E as <-; reflexivity).
        destruct (Hname _ _ R) as [F Nm]. exists (Named true (p_ns p ++ [p_cxx p]) []). split; [apply d_named; [rewrite Hprim, Ea; reflexivity|exact Nm]|]. split; [|reflexivity].
        rewrite qualified_text. destruct (p_ns p ++ [p_cxx p]) as [|x q] eqn:Eq; [destruct (p_ns p); discriminate|]. apply printed_path; [exact F|reflexivity|exact Logic.I].
    - destruct (One t (TBox t) s "rust" "Box" "::rust::Box<" (fun c => c) IHt E P) as (c & D & Pr & O); [reflexivity|reflexivity|ident|ident|]. exists (rust_ "Box" [c]). split; [apply d_box, D|]. split; assumption.
    - destruct (One t (TVec t) s "rust" "Vec" "::rust::Vec<" (fun c => c) IHt E P) as (c & D & Pr & O); [reflexivity|reflexivity|ident|ident|]. exists (rust_ "Vec" [c]). split; [apply d_vec, D|]. split; assumption.
    - destruct (One t (TUniquePtr t) s "std" "unique_ptr" "::std::unique_ptr<" (fun c => c) IHt E P) as (c & D & Pr & O); [reflexivity|reflexivity|ident|ident|]. exists (std_ "unique_ptr" [c]). split; [apply d_unique, D|]. split; assumption.
    - destruct (One t (TSharedPtr t) s "std" "shared_ptr" "::std::shared_ptr<" (fun c => c) IHt E P) as (c & D & Pr & O); [reflexivity|reflexivity|ident|ident|]. exists (std_ "shared_ptr" [c]). split; [apply d_shared, D|]. split; assumption.
    - destruct (One t (TWeakPtr t) s "std" "weak_ptr" "::std::weak_ptr<" (fun c => c) IHt E P) as (c & D & Pr & O); [reflexivity|reflexivity|ident|ident|]. exists (std_ "weak_ptr" [c]). split; [apply d_weak, D|]. split; assumption.
    - cbn in E. destruct (write_type T t) as [s0|] eqn:Et; [|discriminate]. injection E as <-. cbn in P. apply andb_prop in P as [N1 P]. apply negb_true_iff in N1.
      destruct (IHt s0 eq_refl P) as (c & D & Pr & O). exists (RefTo (const_unless m c)). split; [apply d_ref, D|]. split; [|cbn; rewrite obj_const; exact O].
      apply printed_suffix with (tk := KAmp); auto.
    - cbn in E. destruct (write_type T t) as [s0|] eqn:Et; [|discriminate]. injection E as <-. cbn in P. apply andb_prop in P as [N1 P]. apply negb_true_iff in N1.
      destruct (IHt s0 eq_refl P) as (c & D & Pr & O). exists (PtrTo (const_unless m c)). split; [apply d_ptr, D|]. split; [|cbn; rewrite obj_const; exact O].
      apply printed_suffix with (tk := KStar); auto.
    - cbn [write_type] in E. assert (s = chars "::rust::Str") as -> by (injection E as <-; reflexivity). exists (rust_ "Str" []). split; [apply d_str|]. split; [|reflexivity].
      change (chars "::rust::Str") with (path_text ["rust"; "Str"]). apply printed_path; [ident|reflexivity|exact Logic.I].
    - destruct (One t (TCxxVector t) s "std" "vector" "::std::vector<" (fun c => c) IHt E P) as (c & D & Pr & O); [reflexivity|reflexivity|ident|ident|]. exists (std_ "vector" [c]). split; [apply d_vector, D|]. split; assumption.
    - cbn [plain] in P. apply andb_prop in P as [Pa Pr].
      change (match (match ret with Some r => write_type T r | None => Some (chars "void") end) with None => None | Some r =>
                match write_args args with None => None | Some ss => Some (chars "::rust::Fn<" ++ r ++ chars "(" ++ comma_separated ss ++ chars ")>") end end = Some s) in E.
      assert (A : forall ss, write_args args = Some ss -> exists ps cs, map snd ps = ss /\ Forall2 (fun a c => documented name (snd a) c) args cs /\
                    Forall2 (fun p c => printed (fst p) (snd p) c) ps cs /\ forallb objects_only cs = true).
      { clear E Pr H0. revert Pa. induction H as [|a l Ha _ IH]; intros Pa ss Es; [exists [], []; injection Es as <-; repeat split; constructor|].
        cbn in Pa. apply andb_prop in Pa as [P1 P2]. cbn in Es. destruct (write_type T (snd a)) as [s1|] eqn:E1; [|discriminate].
        change ((match write_args l with Some ss0 => Some (s1 :: ss0) | None => None end) = Some ss) in Es. destruct (write_args l) as [ss0|] eqn:E2; [|discriminate].
        destruct (Ha s1 eq_refl P1) as (c & D & Pr & O). destruct (IH P2 ss0 eq_refl) as (ps & cs & M & F1 & F2 & O2).
        exists ((snd a, s1) :: ps), (c :: cs). split; [cbn; congruence|]. split; [constructor; assumption|]. split; [constructor; assumption|]. cbn. rewrite O, O2. reflexivity. }
      destruct ret as [r|].
      + destruct (write_type T r) as [sr|] eqn:Er; [|discriminate]. destruct (write_args args) as [ss|] eqn:Ea; [|discriminate]. assert (s = chars "::rust::Fn<" ++ sr ++ chars "(" ++ comma_separated ss ++ chars ")>") as -> by (injection E as <-; reflexivity).
        destruct (H0 r eq_refl sr Er Pr) as (c & D & Pc & O). destruct (A ss eq_refl) as (ps & cs & <- & F1 & F2 & O2).
        exists (rust_ "Fn" [FunOf c cs]). split; [apply d_fn_ret; assumption|]. split; [apply (printed_fn r); [assumption|assumption|reflexivity]|].
        cbn. rewrite O, O2. reflexivity.
      + destruct (write_args args) as [ss|] eqn:Ea; [|discriminate]. assert (s = chars "::rust::Fn<" ++ chars "void" ++ chars "(" ++ comma_separated ss ++ chars ")>") as -> by (injection E as <-; reflexivity).
        destruct (A ss eq_refl) as (ps & cs & <- & F1 & F2 & O2).
        exists (rust_ "Fn" [FunOf (Named false ["void"] []) cs]). split; [apply d_fn; assumption|]. split; [|cbn; rewrite O2; reflexivity].
        apply (printed_fn (TIdent (Syntax_Model.Named "" []))); [|assumption|reflexivity]. apply printed_word. ident.
    - discriminate.
    - cbn in E. destruct (write_type T t) as [s0|] eqn:Et; [|discriminate]. cbn in P. apply andb_prop in P as [N1 P]. apply negb_true_iff in N1.
      destruct (IHt s0 eq_refl P) as (c & D & Pr & O). exists (rust_ "Slice" [const_unless m c]). split; [apply d_slice, D|]. split.
      + assert (s = chars "::rust::Slice<" ++ s0 ++ space_after_type t ++ (if m then [] else chars "const") ++ chars ">") as -> by (injection E as <-; reflexivity).
        apply printed_slice; assumption.
      + assert (A := obj_arg _ _ _ Pr N1 O). cbn. destruct m; cbn; [rewrite A|rewrite O]; reflexivity.
    - cbn [write_type] in E. destruct (write_type T t) as [s0|] eqn:Et; [|discriminate]. cbn in P. apply andb_prop in P as [N1 P]. apply negb_true_iff in N1.
      destruct (IHt s0 eq_refl P) as (c & D & Pr & O). exists (std_ "array" [c; Num n]). split; [apply d_array, D|]. split.
      + assert (s = chars "::std::array<" ++ s0 ++ chars ", " ++ decimal n ++ chars ">") as -> by (injection E as <-; reflexivity).
        apply printed_array; assumption.
      + assert (A := obj_arg _ _ _ Pr N1 O). cbn. rewrite A. reflexivity.
  Qed.
  Lemma printed_reads t s c : printed t s c -> reads s c.
  Proof.
    intros P. destruct (printed_id _ _ _ P) as (ts & n0 & _ & Lx & Id & _). exists ts, n0. split.
    - rewrite <- (app_nil_r s), Lx; [cbn; rewrite app_nil_r; reflexivity|]. destruct t; exact Logic.I.
    - rewrite <- (app_nil_r ts). apply Id; [lia|exact Logic.I].
  Qed.
End Written.
