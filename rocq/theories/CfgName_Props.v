(** C58: names in cfg attributes.  In the model of cfg attributes an identifier is its text as Ident::to_string
    (gen/src/cfg.rs 63) gives it, with r# if that is written. *)
From Verif Require Import Base StrLib Syntax_Model Cfg_Model Cfg_Spec Cfg_Proofs Cfg_Proofs2 CfgName_Spec.

Fixpoint cfg_induction (P : cfg_expr -> Prop) (U : P CUnconditional) (E : forall k v, P (CEq k v))
  (A : forall l, Forall P l -> P (CAll l)) (Y : forall l, Forall P l -> P (CAny l)) (N : forall e, P e -> P (CNot e)) (e : cfg_expr) : P e :=
  let all := fix all (l : list cfg_expr) : Forall P l :=
    match l with [] => Forall_nil P | x :: r => Forall_cons x (cfg_induction P U E A Y N x) (all r) end in
  match e with
  | CUnconditional => U
  | CEq k v => E k v
  | CAll l => A l (all l)
  | CAny l => Y l (all l)
  | CNot e => N e (cfg_induction P U E A Y N e)
  end.
Lemma raw_dec n : {raw n} + {~ raw n}.
Proof.
  destruct n as [|a [|b m]]; try (right; intros (m' & E); discriminate).
  destruct (Ascii.ascii_dec a "r"), (Ascii.ascii_dec b "#"); subst; try (right; intros (m' & E); injection E as E1 E2; congruence).
  left. exists m. reflexivity.
Qed.
Lemma named_fun k n n' : named k n -> named k n' -> n = n'.
Proof.
  intros A B. inversion A as [m E1 E2|x Nx E1 E2]; inversion B as [m' F1 F2|y Ny F1 F2]; subst.
  - cbn in F1. congruence.
  - destruct Ny. exists n. reflexivity.
  - destruct Nx. exists n'. reflexivity.
  - congruence.
Qed.
Lemma named_total k : exists n, named k n.
Proof. destruct (raw_dec k) as [(m & ->)|N]; [exists m; constructor|exists k; now constructor]. Qed.

(** Every predicate has one meaning. *)
Lemma means_total c e : exists b, rust_means c e b.
Proof.
  induction e as [|k v|l IH|l IH|e IH] using cfg_induction.
  - eexists. constructor.
  - destruct (named_total k) as (n & N). eexists. constructor. exact N.
  - assert (X : exists bs, Forall2 (rust_means c) l bs) by (clear -IH; induction IH as [|x l (b & B) _ (bs & IH)]; [exists []|exists (b :: bs)]; constructor; auto).
    destruct X as (bs & X). eexists. constructor. exact X.
  - assert (X : exists bs, Forall2 (rust_means c) l bs) by (clear -IH; induction IH as [|x l (b & B) _ (bs & IH)]; [exists []|exists (b :: bs)]; constructor; auto).
    destruct X as (bs & X). eexists. constructor. exact X.
  - destruct IH as (b & B). eexists. constructor. exact B.
Qed.
Lemma means_fun c e : forall b b', rust_means c e b -> rust_means c e b' -> b = b'.
Proof.
  assert (L : forall l, Forall (fun e => forall b b', rust_means c e b -> rust_means c e b' -> b = b') l -> forall bs bs', Forall2 (rust_means c) l bs -> Forall2 (rust_means c) l bs' -> bs = bs').
  { induction 1 as [|x l Hx _ IH]; intros bs bs' A B; inversion A; inversion B; subst; [reflexivity|]. f_equal; eauto. }
  induction e as [|k v|l IH|l IH|e IH] using cfg_induction; intros b b' A B; inversion A; inversion B; subst; try reflexivity.
  - f_equal. eapply named_fun; eassumption.
  - f_equal. eapply L; eassumption.
  - f_equal. eapply L; eassumption.
  - f_equal. eapply IH; eassumption.
Qed.
Lemma plain_means c e : (forall k v, mentions e k v -> ~ raw k) -> rust_means c e (holds c e).
Proof.
  assert (L : forall l, Forall (fun e => (forall k v, mentions e k v -> ~ raw k) -> rust_means c e (holds c e)) l ->
    (forall e k v, In e l -> mentions e k v -> ~ raw k) -> Forall2 (rust_means c) l (map (holds c) l)).
  { induction 1 as [|x l Hx _ IH]; intros H; [constructor|]. cbn [map]. constructor; [apply Hx; intros k v; apply H; left; reflexivity|apply IH; intros e' k v I; apply H; right; exact I]. }
  assert (F : forall l, forallb (holds c) l = forallb (fun b => b) (map (holds c) l)) by (induction l as [|x l IH]; cbn; [reflexivity|now rewrite IH]).
  assert (G : forall l, existsb (holds c) l = existsb (fun b => b) (map (holds c) l)) by (induction l as [|x l IH]; cbn; [reflexivity|now rewrite IH]).
  induction e as [|k v|l IH|l IH|e IH] using cfg_induction; intros H; cbn [holds].
  - constructor.
  - constructor. constructor. apply (H k v). constructor.
  - rewrite F. constructor. apply L; [exact IH|]. intros e k v I M. apply (H k v). econstructor; eassumption.
  - rewrite G. constructor. apply L; [exact IH|]. intros e k v I M. apply (H k v). econstructor; eassumption.
  - constructor. apply IH. intros k v M. apply (H k v). now constructor.
Qed.

(** The generator and rustc mean the same by an attribute, whatever is set, if none of its names is a raw identifier; a
    name that is one is another name to the generator. *)
Theorem C58_names_partial : forall l e, parse_attribute l = Ok e ->
  ((forall k v, mentions e k v -> ~ raw k) -> forall c b, rust_means c e b <-> b = holds c e) /\
  (forall k v, e = CEq k v -> ((forall c, rust_means c e (holds c e)) <-> ~ raw k)).
Proof.
  intros l e _. split.
  - intros H c b. split; [intros M; eapply means_fun; [exact M|]|intros ->]; now apply plain_means.
  - intros k v ->. split.
    + intros H (m & ->). specialize (H (fun n _ => String.eqb n m)). cbn [holds] in H.
      pose proof (rm_name (fun n _ => String.eqb n m) _ m v (named_raw m)) as H'. cbv beta in H'.
      pose proof (means_fun _ _ _ _ H H') as E. rewrite (String.eqb_refl m) in E.
      apply String.eqb_eq in E. apply (f_equal String.length) in E. cbn in E. lia.
    + intros N c. apply plain_means. intros k' v' M. inversion M; subst. exact N.
Qed.
Print Assumptions C58_names_partial.

(** So that in a build script for Linux what is under #[cfg(r#unix)], and with the feature "x" what is under
    #[cfg(r#feature = "x")], is compiled by rustc and left out of the generated C++ without an error. *)
Theorem C58_raw_refuted :
  (exists l e cfgs vars, parse_attribute l = Ok e /\ cargo_vars [] cfgs vars /\
     rust_means (rustc_config [] cfgs) e true /\ forall dbg, try_eval (cargo_eval vars dbg) e = EvOk false) /\
  (exists l e features vars, parse_attribute l = Ok e /\ cargo_vars features [] vars /\
     rust_means (rustc_config features []) e true /\ forall dbg, try_eval (cargo_eval vars dbg) e = EvOk false).
Proof.
  split.
  - exists [KIdent "r#unix"], (CEq "r#unix" None), [("unix", None)], [("CARGO_CFG_UNIX", "")]. split; [reflexivity|]. split; [|split].
    + split.
      * intros n. split; [intros (v & [E|[]]); discriminate|intros (f & [] & _)].
      * intros n v. split.
        -- intros [E|[]]. injection E as E1 E2. exists "unix". split; [left; reflexivity|]. split; vm_compute; congruence.
        -- intros (k & [<-|[]] & -> & ->). left. reflexivity.
    + exact (rm_name (rustc_config [] [("unix", None)]) _ "unix" None (named_raw "unix")).
    + intros [|]; vm_compute; reflexivity.
  - exists [KIdent "r#feature"; KEq; KStr "x"], (CEq "r#feature" (Some "x")), ["x"], [("CARGO_FEATURE_X", "1")]. split; [reflexivity|]. split; [|split].
    + split.
      * intros n. split.
        -- intros (v & [E|[]]). injection E as E _. exists "x". split; [left; reflexivity|]. vm_compute. congruence.
        -- intros (f & [<-|[]] & ->). exists "1". left. reflexivity.
      * intros n v. split; [intros [E|[]]; discriminate|intros (k & [] & _)].
    + exact (rm_name (rustc_config ["x"] []) _ "feature" (Some "x") (named_raw "feature")).
    + intros [|]; vm_compute; reflexivity.
Qed.
Print Assumptions C58_raw_refuted.

Example C58_names_nonvacuous :
  let l := [KIdent "all"; KGroup [KIdent "unix"; KComma; KIdent "not"; KGroup [KIdent "feature"; KEq; KStr "r#x"]]] in
  exists e, parse_attribute l = Ok e /\ (forall k v, mentions e k v -> ~ raw k) /\ rust_means (fun k v => String.eqb k "unix") e true.
Proof.
  cbv zeta. eexists. split; [vm_compute; reflexivity|]. assert (N : forall k v, mentions (CAll [CEq "unix" None; CNot (CEq "feature" (Some "r#x"))]) k v -> ~ raw k).
  { intros k v M (m & ->). inversion M; clear M; subst.
    repeat match goal with I : In _ _ |- _ => destruct I as [<-|I] | I : In _ [] |- _ => destruct I end;
      repeat match goal with H : mentions _ _ _ |- _ => inversion H; clear H; subst end. }
  split; [exact N|]. exact (plain_means (fun k v => String.eqb k "unix") _ N).
Qed.
