(** C55: the names declared in each generated function are distinct.  Specification:
    Names_Spec.v. *)
From Verif Require Import Base StrLib Syntax_Model Toposort_Spec Types_Model Types_Spec Check_Model Check_Spec Check_Proofs Check_Proofs2 Check_Props
  Mangle_Model Abi_Model Abi_Props Names_Model Names_Spec.
From Coq Require Import Lia DecimalString DecimalNat.

Lemma arg_name_inj a b : arg_name a = arg_name b -> a = b.
Proof.
  unfold arg_name, decimal. cbn [append]. intros E. injection E as E.
  apply (f_equal NilEmpty.uint_of_string) in E. rewrite !NilEmpty.usu in E. injection E as E.
  rewrite <- (Unsigned.of_to a), <- (Unsigned.of_to b), E. reflexivity.
Qed.
Lemma string_of_uint_clean c d : ~ In c (list_ascii_of_string "0123456789") -> has_char c (NilEmpty.string_of_uint d) = false.
Proof.
  intros H. induction d; cbn [NilEmpty.string_of_uint has_char]; [reflexivity|..]; rewrite IHd, orb_false_r;
    apply Ascii.eqb_neq; intros <-; apply H; cbn; auto 12.
Qed.
Lemma arg_name_clean c n : ~ In c (list_ascii_of_string "arg0123456789") -> has_char c (arg_name n) = false.
Proof.
  intros H. unfold arg_name. rewrite has_char_app. unfold decimal. rewrite string_of_uint_clean; [|intros I; apply H; right; right; right; exact I].
  rewrite orb_false_r. cbn [has_char]. rewrite !(proj2 (Ascii.eqb_neq _ _)); [reflexivity|..]; intros <-; apply H; cbn; auto.
Qed.
Lemma arg_name_identifier n : identifier (arg_name n).
Proof.
  split; [apply arg_name_clean; cbn; intros H; repeat (destruct H as [H|H]; [discriminate H|]); exact H|].
  intros [E|[E|[E|[E|[E|[]]]]]]; discriminate E.
Qed.
Lemma arg_name_plain n : has_char "_" (arg_name n) = false.
Proof. apply arg_name_clean; cbn; intros H; repeat (destruct H as [H|H]; [discriminate H|]); exact H. Qed.

Lemma parse_names l : forall k names, parse_fn_args k l = Some names -> NoDup (written l) ->
  (forall x i, In x (written l) -> nth_error l i = Some AWild -> x <> arg_name (k + i)) ->
  NoDup names /\ forall x, In x names -> In x (written l) \/ exists i, nth_error l i = Some AWild /\ x = arg_name (k + i).
Proof.
  induction l as [|[x| |] l IH]; intros k names E N C; cbn [parse_fn_args written] in *.
  - injection E as <-. split; [constructor|intros x []].
  - destruct (parse_fn_args (S k) l) as [ns|] eqn:E2; [|discriminate]. injection E as <-. inversion N as [|? ? N1 N2]; subst.
    destruct (IH (S k) ns E2 N2) as (D & I).
    { intros y i Hy Hi. replace (S k + i) with (k + S i) by lia. apply C; [right; exact Hy|exact Hi]. }
    split.
    + constructor; [|exact D]. intros Hx. destruct (I x Hx) as [W|(i & Hi & Ex)]; [contradiction|].
      apply (C x (S i)); [left; reflexivity|exact Hi|]. rewrite Ex. f_equal. lia.
    + intros y [<-|Hy]; [left; left; reflexivity|]. destruct (I y Hy) as [W|(i & Hi & Ey)]; [left; right; exact W|].
      right. exists (S i). split; [exact Hi|]. rewrite Ey. f_equal. lia.
  - destruct (parse_fn_args (S k) l) as [ns|] eqn:E2; [|discriminate]. injection E as <-.
    destruct (IH (S k) ns E2 N) as (D & I).
    { intros y i Hy Hi. replace (S k + i) with (k + S i) by lia. apply C; [exact Hy|exact Hi]. }
    split.
    + constructor; [|exact D]. intros Hx. destruct (I _ Hx) as [W|(i & Hi & Ex)].
      * apply (C (arg_name k) 0%nat W eq_refl). f_equal. lia.
      * apply arg_name_inj in Ex. lia.
    + intros y [<-|Hy]; [right; exists 0%nat; split; [reflexivity|f_equal; lia]|]. destruct (I y Hy) as [W|(i & Hi & Ey)]; [left; exact W|].
      right. exists (S i). split; [exact Hi|]. rewrite Ey. f_equal. lia.
  - discriminate.
Qed.

Definition as_fn_arg (o : option string) : fn_arg := match o with Some x => AIdent x | None => AWild end.
Lemma parse_bare l : forall k, parse_fn_args k (map as_fn_arg l) = Some (parse_bare_args k l).
Proof. induction l as [|[x|] l IH]; intros k; cbn; rewrite ?IH; reflexivity. Qed.
Lemma written_as l : written (map as_fn_arg l) = written_bare l.
Proof. induction l as [|[x|] l IH]; cbn; rewrite ?IH; reflexivity. Qed.

(** ** Scopes *)
Lemma nodup_app {A} (a b : list A) : NoDup a -> NoDup b -> (forall x, In x a -> ~ In x b) -> NoDup (a ++ b).
Proof.
  induction a as [|x a IH]; intros Ha Hb D; [exact Hb|]. inversion Ha; subst. cbn. constructor.
  - rewrite in_app_iff. intros [I|I]; [contradiction|apply (D x); [left; reflexivity|exact I]].
  - apply IH; auto. intros y Hy. apply D. right. exact Hy.
Qed.
Lemma dollar_char x : has_char "$" (x ++ "$") = true.
Proof. rewrite has_char_app. cbn. apply orb_true_r. Qed.
Lemma dollar_inj x y : (x ++ "$" = y ++ "$")%string -> x = y.
Proof.
  revert y. induction x as [|c x IH]; intros [|d y] E; cbn in E; [reflexivity| | |].
  - injection E as <- E. destruct y; discriminate.
  - injection E as -> E. destruct x; discriminate.
  - injection E as <- E. f_equal. apply IH. exact E.
Qed.
Lemma dropped_ok fuel T args : forall l, dropped_names fuel T args = Some l -> NoDup (map fst args) ->
  NoDup l /\ forall y, In y l -> exists x, In x (map fst args) /\ y = (x ++ "$")%string.
Proof.
  induction args as [|(x, t) args IH]; cbn [dropped_names map fst]; intros l E N; [injection E as <-; split; [constructor|intros y []]|].
  destruct (if is_rust_string t then Some false else needs_indirect_abi fuel T t) as [b|]; [|discriminate]. cbn [obind] in E.
  destruct (dropped_names fuel T args) as [l'|]; [|discriminate]. injection E as <-. inversion N as [|? ? N1 N2]; subst.
  destruct (IH l' eq_refl N2) as (D & I). destruct b; cbn.
  - split.
    + constructor; [|exact D]. intros Hx. destruct (I _ Hx) as (z & Hz & Ez). apply dollar_inj in Ez. subst. contradiction.
    + intros y [<-|Hy]; [exists x; auto|]. destruct (I y Hy) as (z & Hz & Ez). exists z. auto.
  - split; [exact D|]. intros y Hy. destruct (I y Hy) as (z & Hz & Ez). exists z. auto.
Qed.
Lemma out_inv fuel T x s out : out_name fuel T x s = Some out -> out = [] \/ out = [x].
Proof. unfold out_name. destruct (indirect_return fuel T s) as [[|]|]; cbn; [|intros E|discriminate]; [intros E|]; injection E as <-; auto. Qed.

Section Scopes.
  Context (names : list string).
  Hypothesis Hn : NoDup names.
  Hypothesis Hi : forall x, In x names -> identifier x.

  Lemma not_dollar x : In (x ++ "$")%string names -> False.
  Proof. intros I. destruct (Hi _ I) as (E & _). rewrite dollar_char in E. discriminate. Qed.
  Lemma self_names b : NoDup (when b ["self"] ++ names).
  Proof.
    destruct b; cbn; [|exact Hn]. constructor; [|exact Hn]. intros I. destruct (Hi _ I) as (_ & E). apply E. cbn. auto.
  Qed.
  Lemma self_dollar b x : In (x ++ "$")%string (when b ["self"] ++ names) -> False.
  Proof. rewrite in_app_iff. intros [I|I]; [|exact (not_dollar _ I)]. destruct b; [|destruct I]. destruct I as [E|[]].
         pose proof (dollar_char x) as D. rewrite <- E in D. discriminate. Qed.
End Scopes.

Lemma dollar_tail names tail : NoDup names -> (forall x, In x names -> has_char "$" x = false) -> NoDup tail ->
  (forall y, In y tail -> has_char "$" y = true) -> NoDup (names ++ tail).
Proof. intros N H1 T H2. apply nodup_app; auto. intros x Hx Hy. specialize (H2 x Hy). rewrite (H1 x Hx) in H2. discriminate. Qed.
Ltac in_cases H := repeat (rewrite in_app_iff in H || destruct H as [H|H]); try (destruct H; fail).

Section Frames.
  Context (fuel : nat) (T : types) (s : signature).
  Let names := map fst (sg_args s).
  Hypothesis Hn : NoDup names.
  Hypothesis Hi : forall x, In x names -> identifier x.
  Hypothesis Hu : forall x, In x names -> ~ has_prefix "__" x.

  Lemma self_clean b x : In x (when b ["self"] ++ names) -> has_char "$" x = false.
  Proof. rewrite in_app_iff. intros [I|I]; [destruct b; [destruct I as [<-|[]]; reflexivity|destruct I]|apply Hi; exact I]. Qed.

  Lemma shim_scope recv f throws out : identifier f -> (throws = true -> f <> "throw") -> out_name fuel T "return$" s = Some out ->
    NoDup (when recv ["self"] ++ names ++ out ++ [(f ++ "$")%string] ++ when throws ["throw$"]).
  Proof.
    intros Hf Ht Ho. rewrite app_assoc.
    assert (F1 : (f ++ "$")%string <> "return$") by (intros E; apply (dollar_inj f "return") in E; subst; apply (proj2 Hf); cbn; auto).
    assert (F2 : throws = true -> (f ++ "$")%string <> "throw$") by (intros E1 E; apply (dollar_inj f "throw") in E; exact (Ht E1 E)).
    pose proof (dollar_char f) as Hd.
    apply dollar_tail; [apply self_names; auto|apply self_clean| |].
    - destruct (out_inv _ _ _ _ _ Ho) as [-> | ->]; destruct throws; cbn; repeat constructor; cbn; intuition congruence.
    - destruct (out_inv _ _ _ _ _ Ho) as [-> | ->]; destruct throws; cbn; intuition (subst; auto).
  Qed.
  Lemma decl_scope l : rust_decl_names fuel T s = Some l -> NoDup l.
  Proof.
    unfold rust_decl_names. destruct (out_name fuel T "return$" s) as [out|] eqn:Ho; [|discriminate]. cbn [obind]. intros E. injection E as <-.
    rewrite app_assoc. apply dollar_tail; [apply self_names; auto|apply self_clean|..]; destruct (out_inv _ _ _ _ _ Ho) as [-> | ->].
    - constructor.
    - constructor; [intros []|constructor].
    - intros y [].
    - intros y [<-|[]]; reflexivity.
  Qed.
  Lemma function_scope call l : (sg_throws s = true -> ~ In "error" names) -> rust_function_names fuel T s call = Some l -> NoDup l.
  Proof.
    unfold rust_function_names. destruct (dropped_names fuel T (sg_args s)) as [dr|] eqn:Hd; [|discriminate]. cbn [obind].
    destruct (out_name fuel T "return$" s) as [out|] eqn:Ho; [|discriminate]. cbn [obind]. intros He E. injection E as <-.
    destruct (dropped_ok _ _ _ _ Hd Hn) as (Nd & Id).
    assert (X : forall w, In w ["return"; "extern"] -> ~ In (w ++ "$")%string dr).
    { intros w Hw I. destruct (Id _ I) as (x & Hx & Ex). apply dollar_inj in Ex. subst x. apply (proj2 (Hi _ Hx)). cbn in Hw |- *. intuition. }
    assert (Xr : ~ In "return$" dr) by (apply (X "return"); cbn; auto). assert (Xe : ~ In "extern$" dr) by (apply (X "extern"); cbn; auto). clear X.
    assert (Xo : sg_throws s = true -> ~ In "error$" dr).
    { intros E I. destruct (Id _ I) as (x & Hx & Ex). apply (dollar_inj "error") in Ex. subst x. exact (He E Hx). }
    assert (Dd : forall y, In y dr -> has_char "$" y = true) by (intros y I; destruct (Id _ I) as (x & _ & ->); apply dollar_char).
    apply dollar_tail; [exact Hn|intros x I; apply Hi; exact I| |].
    - apply nodup_app; [destruct call; repeat constructor; intros []| |].
      + apply nodup_app; [exact Nd| |].
        * destruct (out_inv _ _ _ _ _ Ho) as [-> | ->]; destruct (sg_throws s); cbn; repeat constructor; cbn; intuition discriminate.
        * intros x Hx Hy. destruct (out_inv _ _ _ _ _ Ho) as [-> | ->]; destruct (sg_throws s); cbn in Hy; intuition (subst; auto).
      + intros x Hx Hy. destruct call; [|destruct Hx]. destruct Hx as [<-|[]]. rewrite !in_app_iff in Hy. destruct Hy as [Hy|[Hy|Hy]]; [auto| |].
        * destruct (out_inv _ _ _ _ _ Ho) as [-> | ->]; cbn in Hy; intuition discriminate.
        * destruct (sg_throws s); cbn in Hy; intuition discriminate.
    - intros y Hy. rewrite !in_app_iff in Hy. destruct Hy as [Hy|[Hy|[Hy|Hy]]]; [|auto| |].
      + destruct call; [|destruct Hy]. destruct Hy as [<-|[]]. reflexivity.
      + destruct (out_inv _ _ _ _ _ Ho) as [-> | ->]; cbn in Hy; intuition (subst; reflexivity).
      + destruct (sg_throws s); cbn in Hy; intuition (subst; reflexivity).
  Qed.

  Lemma under_tail a tail : NoDup a -> NoDup tail -> (forall x, In x a -> ~ has_prefix "__" x) -> (forall x, In x tail -> has_prefix "__" x) -> NoDup (a ++ tail).
  Proof. intros A B C D. apply nodup_app; auto. intros x Hx Hy. exact (C x Hx (D x Hy)). Qed.
  Lemma under x : has_prefix "__" ("__" ++ x). Proof. exists x. reflexivity. Qed.
  Lemma self_under b x : In x (when b ["self"] ++ names) -> ~ has_prefix "__" x.
  Proof. rewrite in_app_iff. intros [I|I]; [destruct b; [destruct I as [<-|[]]; intros (r & E); discriminate|destruct I]|apply Hu; exact I]. Qed.

  Lemma wrapper_scope recv f out : identifier f -> out_name fuel T "__return" s = Some out ->
    NoDup (when recv ["self"] ++ names ++ [("__" ++ f)%string] ++ out).
  Proof.
    intros Hf Ho. rewrite app_assoc.
    assert (F1 : ("__" ++ f)%string <> "__return") by (intros E; injection E as E; subst; apply (proj2 Hf); cbn; auto).
    pose proof (under f) as Hp. set (g := ("__" ++ f)%string) in *. clearbody g.
    apply under_tail; [apply self_names; auto| |apply self_under|].
    - destruct (out_inv _ _ _ _ _ Ho) as [-> | ->]; cbn; repeat constructor; cbn; intuition congruence.
    - destruct (out_inv _ _ _ _ _ Ho) as [-> | ->]; intros x H; cbn in H; intuition (subst; auto). exists "return". reflexivity.
  Qed.
  Lemma exported_scope local ptr l : ~ In local ["__self"; "__return"; "__extern"; "__fn"] -> has_prefix "__" local ->
    rust_shim_names fuel T s local ptr = Some l -> NoDup l.
  Proof.
    unfold rust_shim_names. destruct (out_name fuel T "__return" s) as [out|] eqn:Ho; [|discriminate]. cbn [obind]. intros Hl Hp E. injection E as <-.
    assert (A : forall r, NoDup r -> NoDup (out ++ when ptr ["__extern"] ++ ["__fn"] ++ when (negb ptr) [local]) ->
      (forall x, In x r -> x = "__self") -> (forall x, In x (out ++ when ptr ["__extern"] ++ ["__fn"] ++ when (negb ptr) [local]) -> has_prefix "__" x /\ x <> "__self") ->
      NoDup (r ++ names ++ out ++ when ptr ["__extern"] ++ ["__fn"] ++ when (negb ptr) [local])).
    { intros r Nr Nt Hr Ht. apply nodup_app; [exact Nr| |].
      - apply nodup_app; [exact Hn|exact Nt|]. intros x Hx Hy. apply (Hu x Hx), Ht, Hy.
      - intros x Hx Hy. apply Hr in Hx. subst x. apply in_app_iff in Hy. destruct Hy as [Hy|Hy]; [|destruct (Ht _ Hy) as (_ & F); auto].
        apply (Hu _ Hy). exists "self". reflexivity. }
    apply A.
    - destruct (sg_receiver s); repeat constructor. intros [].
    - destruct (out_inv _ _ _ _ _ Ho) as [-> | ->]; destruct ptr; cbn; repeat constructor; cbn in *; intuition congruence.
    - intros x. destruct (sg_receiver s); cbn; intuition.
    - intros x H. assert (K : In x ["__return"; "__extern"; "__fn"; local]).
      { destruct (out_inv _ _ _ _ _ Ho) as [-> | ->]; destruct ptr; cbn in H |- *; intuition. }
      destruct K as [<-|[<-|[<-|[<-|[]]]]].
      + split; [exists "return"; reflexivity|discriminate].
      + split; [exists "extern"; reflexivity|discriminate].
      + split; [exists "fn"; reflexivity|discriminate].
      + split; [exact Hp|intros ->; apply Hl; cbn; auto].
  Qed.
End Frames.

(** * C55 *)
Local Definition nm (a : string) : pair_name := Pair [] a a.
Local Definition I_ (a : string) : ty := TIdent (Named a []).
Local Definition fn_ (l : lang) (x : string) (recv : option string) (args : list (string * ty)) (ret : option ty) (th : bool) : extern_fn :=
  ExternFn CUnconditional l (nm x) false false [] (option_map (fun t => Receiver false None false (Named t []) false) recv) args ret th true.

(** The generated functions for a C++ function, for a Rust function, and for a callback
    parameter of a C++ function: C++ definitions and declarations, then Rust ones. *)
Definition cxx_function_distinct n T f : Prop := distinct (cxx_function_names n T f) /\ distinct (cxx_wrapper_names n T f).
Definition rust_function_distinct n T f : Prop :=
  distinct (rust_decl_names n T (fn_sig f)) /\ distinct (rust_function_names n T (fn_sig f) false) /\
  distinct (rust_shim_names n T (fn_sig f) (rust_local_name f) false).
Definition callback_distinct n T (s : signature) : Prop :=
  distinct (rust_decl_names n T s) /\ distinct (rust_function_names n T s true) /\ distinct (rust_shim_names n T s "__" true).

(** Function [f] of an accepted bridge, written with the parameter patterns [pats], all
    whose names are identifiers and distinct. *)
Definition well_written apis f pats : Prop :=
  (exists gen ord T, accepted_bridge gen ord apis T) /\ all_functions apis f /\ parse_fn_args 0 pats = Some (map fst (fn_args f)) /\
  NoDup (written pats) /\ Forall identifier (written pats) /\ identifier (p_rust (fn_name f)) /\
  (forall r, fn_receiver f = Some r -> identifier (n_rust (rc_ty r))).
Definition C55_claim : Prop := forall apis f pats n T, well_written apis f pats ->
  (In (ACxxFunction f) apis -> cxx_function_distinct n T f) /\ (In (ARustFunction f) apis -> rust_function_distinct n T f).
Definition C55_callback_claim : Prop := forall th ret pats n T args, map fst args = parse_bare_args 0 pats -> NoDup (written_bare pats) ->
  callback_distinct n T (ptr_sig th args ret).

(** False: the name invented for `_` may be taken.
    `extern "C++" { fn f(_: i32, arg0: i32); }` *)
Theorem C55_wildcard_refuted : ~ C55_claim.
Proof.
  intros H. pose (f := fn_ LCxx "f" None [("arg0", I_ "i32"); ("arg0", I_ "i32")] None false).
  destruct (accepts_ok GBuild [ACxxFunction f] eq_refl) as (T & HT).
  destruct (H [ACxxFunction f] f [AWild; AIdent "arg0"] 1%nat T) as (G & _).
  - split; [exists GBuild, id_order, T; exact HT|]. split; [left; left; reflexivity|]. split; [reflexivity|].
    split; [repeat constructor; intros []|]. split; [constructor; [apply (arg_name_identifier 0)|constructor]|].
    split; [split; [reflexivity|cbn; intuition discriminate]|discriminate].
  - destruct (G (or_introl eq_refl)) as (D & _). specialize (D _ eq_refl). inversion D as [|? ? N _]. apply N. left. reflexivity.
Qed.
Print Assumptions C55_wildcard_refuted.

(** False: a fallible Rust function with an owned parameter named `error`;
    `extern "Rust" { fn f(error: Vec<u8>) -> Result<()>; }` declares `error$` twice. *)
Theorem C55_error_refuted : ~ C55_claim.
Proof.
  intros H. pose (f := fn_ LRust "f" None [("error", TVec (I_ "u8"))] None true).
  destruct (accepts_ok GBuild [ARustFunction f] eq_refl) as (T & HT).
  destruct (H [ARustFunction f] f [AIdent "error"] 2%nat T) as (_ & G).
  - split; [exists GBuild, id_order, T; exact HT|]. split; [right; left; reflexivity|]. split; [reflexivity|].
    split; [repeat constructor; intros []|]. split; [constructor; [|constructor]; split; [reflexivity|cbn; intuition discriminate]|].
    split; [split; [reflexivity|cbn; intuition discriminate]|discriminate].
  - destruct (G (or_introl eq_refl)) as (_ & D & _). destruct HT as ((_ & Hc) & _). vm_compute in Hc. injection Hc as <-.
    specialize (D ["error"; "error$"; "error$"] eq_refl). inversion D as [|? ? _ D2]. inversion D2 as [|? ? N _]. apply N. left. reflexivity.
Qed.
Print Assumptions C55_error_refuted.

(** False: a fallible C++ function whose Rust name is `throw`;
    `extern "C++" { #[cxx_name = "fail"] fn throw() -> Result<()>; }` declares `throw$` twice. *)
Theorem C55_throw_refuted : ~ C55_claim.
Proof.
  intros H. pose (f := ExternFn CUnconditional LCxx (Pair [] "fail" "throw") false false [] None [] None true true).
  destruct (accepts_ok GBuild [ACxxFunction f] eq_refl) as (T & HT).
  destruct (H [ACxxFunction f] f [] 2%nat T) as (G & _).
  - split; [exists GBuild, id_order, T; exact HT|]. split; [left; left; reflexivity|]. split; [reflexivity|].
    split; [constructor|]. split; [constructor|].
    split; [split; [reflexivity|cbn; intuition discriminate]|discriminate].
  - destruct (G (or_introl eq_refl)) as (D & _). specialize (D _ eq_refl). inversion D as [|? ? N _]. apply N. left. reflexivity.
Qed.
Print Assumptions C55_throw_refuted.

(** False of callbacks also because their parameter names are not checked at all:
    `cb: fn(__extern: i32)`. *)
Theorem C55_callback_refuted : ~ C55_callback_claim.
Proof.
  intros H. destruct (accepts_ok GBuild [] eq_refl) as (T & _).
  destruct (H false None [Some "__extern"] 1%nat T [("__extern", I_ "i32")]) as (_ & _ & D); [reflexivity|repeat constructor; intros []|].
  specialize (D _ eq_refl). inversion D as [|? ? N _]. apply N. left. reflexivity.
Qed.
Print Assumptions C55_callback_refuted.

(** What holds: with these cases excluded, all names are distinct. *)
Theorem C55_distinct_partial : forall apis f pats n T, well_written apis f pats ->
  (forall x k, In x (written pats) -> nth_error pats k = Some AWild -> x <> arg_name k) ->
  (In (ACxxFunction f) apis -> (fn_throws f = true -> p_rust (fn_name f) <> "throw") -> cxx_function_distinct n T f) /\
  (In (ARustFunction f) apis -> (fn_throws f = true -> ~ In "error" (map fst (fn_args f))) -> rust_function_distinct n T f).
Proof.
  intros apis f pats n T ((gen & ord & T0 & HT) & Hf & Hp & Nw & Fw & Hid & Hrc) Hwild.
  destruct (parse_names pats 0 _ Hp Nw Hwild) as (N & I).
  assert (Hi : forall x, In x (map fst (fn_args f)) -> identifier x).
  { intros x Hx. destruct (I x Hx) as [W|(i & _ & ->)]; [rewrite Forall_forall in Fw; auto|apply arg_name_identifier]. }
  assert (Hu : forall x, In x (map fst (fn_args f)) -> ~ has_prefix "__" x).
  { intros x Hx (r & E). apply in_map_iff in Hx. destruct Hx as ((y, t) & Ey & Hy). cbn in Ey. subst y.
    destruct (C23_reserved_identifiers gen ord apis T0 (Pair [] x x) HT (in_arg _ _ _ _ Hf Hy)) as (K & _).
    destruct (K x (or_intror eq_refl)) as (_ & K2). apply K2. exists "", r. exact E. }
  split.
  - intros _ Ht. split; intros l E.
    + unfold cxx_function_names in E. destruct (out_name n T "return$" (fn_sig f)) as [out|] eqn:Ho; [|discriminate]. cbn [obind] in E. injection E as <-.
      apply (shim_scope n T (fn_sig f)); auto.
    + unfold cxx_wrapper_names in E. destruct (out_name n T "__return" (fn_sig f)) as [out|] eqn:Ho; [|discriminate]. cbn [obind] in E. injection E as <-.
      apply (wrapper_scope n T (fn_sig f)); auto.
  - intros _ He. split; [|split]; intros l E.
    + apply (decl_scope n T (fn_sig f)) in E; auto.
    + apply (function_scope n T (fn_sig f)) in E; auto.
    + apply (exported_scope n T (fn_sig f)) in E; auto.
      * unfold rust_local_name. destruct (fn_receiver f) as [r|] eqn:Hr.
        -- intros [E2|[E2|[E2|[E2|[]]]]]; injection E2 as E2; symmetry in E2; apply (f_equal (has_char "_")) in E2; rewrite !has_char_app in E2; cbn in E2;
             rewrite orb_true_r in E2; discriminate E2.
        -- intros [E2|[E2|[E2|[E2|[]]]]]; injection E2 as E2; rewrite <- E2 in Hid; apply (proj2 Hid); cbn; auto 6.
      * unfold rust_local_name. destruct (fn_receiver f); apply under.
Qed.
Print Assumptions C55_distinct_partial.

(** For a callback the checks of the bridge have to be asked for explicitly. *)
Theorem C55_callback_partial : forall th ret pats n T args, map fst args = parse_bare_args 0 pats -> NoDup (written_bare pats) ->
  Forall (fun x => identifier x /\ ~ has_prefix "__" x) (written_bare pats) ->
  (forall x k, In x (written_bare pats) -> nth_error pats k = Some None -> x <> arg_name k) ->
  (th = true -> ~ In "error" (written_bare pats)) ->
  callback_distinct n T (ptr_sig th args ret) /\ Forall (fun x => x <> "_") (map fst args).
Proof.
  intros th ret pats n T args E Nw Fw Hwild He. rewrite Forall_forall in Fw.
  destruct (parse_names (map as_fn_arg pats) 0 _ (parse_bare pats 0)) as (N & I).
  { rewrite written_as. exact Nw. }
  { rewrite written_as. intros x i Hx Hi. rewrite nth_error_map in Hi. destruct (nth_error pats i) as [[y|]|] eqn:En; try discriminate Hi. apply Hwild; auto. }
  rewrite written_as in I. rewrite <- E in N, I.
  assert (Hi : forall x, In x (map fst args) -> identifier x).
  { intros x Hx. destruct (I x Hx) as [W|(i & _ & ->)]; [apply Fw, W|apply arg_name_identifier]. }
  assert (Hu : forall x, In x (map fst args) -> ~ has_prefix "__" x).
  { intros x Hx. destruct (I x Hx) as [W|(i & _ & ->)]; [apply Fw, W|intros (r & E2); discriminate E2]. }
  assert (He' : th = true -> ~ In "error" (map fst args)).
  { intros Eh Hx. destruct (I _ Hx) as [W|(i & _ & E2)]; [exact (He Eh W)|discriminate E2]. }
  split; [split; [|split]; intros l El|].
  - apply (decl_scope n T (ptr_sig th args ret)) in El; auto.
  - apply (function_scope n T (ptr_sig th args ret)) in El; auto.
  - apply (exported_scope n T (ptr_sig th args ret)) in El; auto; [cbn; intuition discriminate|exists ""; reflexivity].
  - apply Forall_forall. intros x Hx Ex. apply (proj2 (Hi x Hx)). rewrite Ex. cbn. auto 6.
Qed.
Print Assumptions C55_callback_partial.

Example C55_nonvacuous :
  let cb := TFn false false (combine (parse_bare_args 0 [None; Some "x"]) [I_ "i32"; TVec (I_ "u8")]) (Some (I_ "String")) in
  let f := fn_ LCxx "f" (Some "C") [("s", I_ "String"); ("arg1", TVec (I_ "u8")); ("cb", cb)] (Some (TSharedPtr (I_ "C"))) true in
  let g := fn_ LRust "g" (Some "R") [("arg0", TVec (I_ "u8")); ("b", I_ "String"); ("arg2", TSharedPtr (I_ "C"))] (Some (I_ "String")) true in
  let apis := [ACxxType (ExternType CUnconditional LCxx [] (nm "C") [] [] true); ARustType (ExternType CUnconditional LRust [] (nm "R") [] [] true);
               ACxxFunction f; ARustFunction g] in
  exists T, accepted_bridge GBuild id_order apis T /\
  well_written apis f [AIdent "s"; AWild; AIdent "cb"] /\ well_written apis g [AWild; AIdent "b"; AWild] /\
  cxx_function_names 3 T f = Some ["self"; "s"; "arg1"; "cb"; "return$"; "f$"; "throw$"] /\
  rust_function_names 3 T (fn_sig g) false = Some ["arg0"; "b"; "arg2"; "arg0$"; "arg2$"; "return$"; "error$"] /\
  rust_shim_names 3 T (fn_sig g) (rust_local_name g) false = Some ["__self"; "arg0"; "b"; "arg2"; "__return"; "__fn"; "__R__g"] /\
  rust_function_names 3 T (ptr_sig false (combine (parse_bare_args 0 [None; Some "x"]) [I_ "i32"; TVec (I_ "u8")]) (Some (I_ "String"))) true =
    Some ["arg0"; "x"; "extern$"; "x$"; "return$"].
Proof.
  cbv zeta. match goal with |- exists T, accepted_bridge _ _ ?l T /\ _ => destruct (accepts_ok GBuild l eq_refl) as (T & HT) end.
  exists T. split; [exact HT|].
  assert (W : forall x, In x ["f"; "g"; "s"; "b"; "cb"; "C"; "R"] -> identifier x).
  { intros x H. cbn in H. repeat (destruct H as [<-|H]; [split; [reflexivity|cbn; intuition discriminate]|]). destruct H. }
  split; [|split].
  - split; [exists GBuild, id_order, T; exact HT|]. split; [left; right; right; left; reflexivity|]. split; [reflexivity|].
    split; [repeat constructor; cbn; intuition discriminate|]. split; [repeat constructor; apply W; cbn; auto 8|]. split; [apply W; cbn; auto|].
    intros r E. injection E as <-. apply W. cbn. auto 9.
  - split; [exists GBuild, id_order, T; exact HT|]. split; [right; right; right; right; left; reflexivity|]. split; [reflexivity|].
    split; [repeat constructor; cbn; intuition discriminate|]. split; [repeat constructor; apply W; cbn; auto 8|]. split; [apply W; cbn; auto|].
    intros r E. injection E as <-. apply W. cbn. auto 9.
  - destruct HT as ((_ & Hc) & _). vm_compute in Hc. injection Hc as <-. repeat split.
Qed.
