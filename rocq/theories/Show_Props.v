(** C64, continued: Debug and Default of shared structs. *)
From Verif Require Import Base Syntax_Model Show_Model Show_Spec.
From Verif Require Check_Model Check_Proofs Check_Props.
From Coq Require Import Lia.
Local Open Scope string_scope.

Local Arguments text : simpl never.
Lemma app_nil s : s ++ "" = s. Proof. induction s; cbn; congruence. Qed.
Lemma app_assoc_s a b c : (a ++ b) ++ c = a ++ b ++ c. Proof. induction a; cbn; congruence. Qed.
Lemma text_cons s o : text (s :: o) = s ++ text o. Proof. unfold text. destruct o; cbn; [symmetry; apply app_nil|reflexivity]. Qed.
Lemma text_app o1 o2 : text (o1 ++ o2)%list = text o1 ++ text o2.
Proof. induction o1 as [|s o1 IH]; [reflexivity|]. cbn [app]. rewrite !text_cons, IH. symmetry. apply app_assoc_s. Qed.

Fixpoint last_nl (b : bool) (s : string) : bool := match s with "" => b | String c s => last_nl (Ascii.eqb c newline) s end.
Lemma indent_app b s t : indent b (s ++ t) = indent b s ++ indent (last_nl b s) t.
Proof. revert b. induction s as [|c s IH]; intros b; [reflexivity|]. cbn [append indent last_nl]. rewrite IH, !app_assoc_s. reflexivity. Qed.
Lemma split_concat s : text (split_inclusive s) = s.
Proof.
  induction s as [|c s IH]; [reflexivity|]. cbn [split_inclusive]. destruct (Ascii.eqb c newline).
  - rewrite text_cons, IH. reflexivity.
  - destruct (split_inclusive s) as [|l ls]; [cbn in IH; rewrite <- IH; reflexivity|]. rewrite text_cons in *. cbn. rewrite IH. reflexivity.
Qed.
(** A piece of split_inclusive has a newline at most at its end. *)
Fixpoint one_line (s : string) : Prop := match s with "" => False | String c "" => True | String c s => c <> newline /\ one_line s end.
Lemma split_lines s : Forall one_line (split_inclusive s).
Proof.
  induction s as [|c s IH]; [constructor|]. cbn [split_inclusive]. destruct (Ascii.eqb c newline) eqn:E; [constructor; [exact I|exact IH]|].
  apply Ascii.eqb_neq in E. destruct (split_inclusive s) as [|l ls]; [repeat constructor|]. inversion IH as [|? ? A B]; subst. constructor; [|exact B].
  destruct l; [destruct A|]. split; assumption.
Qed.
Lemma one_indent b s : one_line s -> indent b s = (if b then "    " else "") ++ s /\ last_nl b s = ends_with_newline s.
Proof.
  revert b. induction s as [|c s IH]; intros b H; [destruct H|]. destruct s as [|c' s]; [split; reflexivity|]. destruct H as (N & H).
  destruct (IH (Ascii.eqb c newline) H) as (E1 & E2). apply Ascii.eqb_neq in N. unfold newline in *. rewrite N in *. split.
  - change (indent b (String c (String c' s))) with ((if b then "    " else "") ++ String c (indent (Ascii.eqb c (ascii_of_nat 10)) (String c' s))). rewrite N, E1. reflexivity.
  - change (last_nl b (String c (String c' s))) with (last_nl (Ascii.eqb c newline) (String c' s)). unfold newline. rewrite N. exact E2.
Qed.
Lemma pad_lines_ok ls : Forall one_line ls -> forall b, text (fst (pad_lines b ls)) = indent b (text ls) /\ snd (pad_lines b ls) = last_nl b (text ls).
Proof.
  induction 1 as [|l ls H _ IH]; intros b; [split; reflexivity|]. cbn. destruct (IH (ends_with_newline l)) as (E1 & E2).
  destruct (pad_lines (ends_with_newline l) ls) as (out, st). cbn in *. destruct (one_indent b l H) as (F1 & F2).
  rewrite text_cons, indent_app, F1, F2, text_app, E1. split.
  - destruct b; rewrite ?text_cons; cbn; rewrite ?app_nil, ?app_assoc_s; reflexivity.
  - rewrite E2, <- F2. clear. revert b. induction l as [|c l IH]; intros b; [reflexivity|]. cbn. apply IH.
Qed.
Lemma pad_ok o b : text (pad b o) = indent b (text o).
Proof.
  revert b. induction o as [|s o IH]; intros b; [reflexivity|]. cbn. destruct (pad_lines_ok _ (split_lines s) b) as (E1 & E2).
  destruct (pad_lines b (split_inclusive s)) as (out, st). cbn in *. rewrite text_app, text_cons, indent_app, E1, split_concat, IH, E2, split_concat. reflexivity.
Qed.

Lemma all_fields_text alt l : forall h, text (fst (all_fields alt h l)) = match l with [] => "" | _ =>
    if alt then (if h then "" else " {" ++ nl) ++ String.concat "" (map (fun f => indent true (fst f ++ ": " ++ text (snd f) ++ "," ++ nl)) l)
    else (if h then ", " else " { ") ++ String.concat ", " (map (fun f => fst f ++ ": " ++ text (snd f)) l) end /\
  snd (all_fields alt h l) = (h || match l with [] => false | _ => true end)%bool.
Proof.
  induction l as [|(n, v) l IH]; intros h; [split; [reflexivity|cbn; symmetry; apply orb_false_r]|]. cbn [all_fields]. destruct (IH true) as (E1 & E2).
  destruct (all_fields alt true l) as (out, h'). cbn [fst snd] in *. split; [|rewrite E2, orb_true_r; reflexivity]. rewrite text_app, E1. unfold field. destruct alt.
  - rewrite text_app, pad_ok, !text_app, !text_cons. cbn [map fst snd]. change (String.concat "") with text. rewrite text_cons.
    destruct l as [|f l]; destruct h; cbn [map text String.concat]; rewrite ?text_cons; cbn; rewrite ?app_nil, ?app_assoc_s; reflexivity.
  - rewrite text_app, !text_cons. cbn [map fst snd]. destruct l as [|f l]; destruct h; cbn; rewrite ?app_nil, ?app_assoc_s; reflexivity.
Qed.

Local Notation len := String.length.
  Lemma len_app a b : len (a ++ b) = len a + len b. Proof. induction a; cbn; [reflexivity|]. f_equal. exact IHa. Qed.
  Lemma plain_len x : len (plain_name x) <= len x /\ (len (plain_name x) = len x <-> ~ raw x) /\ (~ raw x -> plain_name x = x).
  Proof.
    destruct x as [|a [|b y]]; [split; [cbn; lia|split; [split; [intros _ (z & E); discriminate E|reflexivity]|reflexivity]] ..|]. cbn [plain_name].
    destruct (Ascii.eqb_spec a "r") as [->|Na]; cbn [andb]; [destruct (Ascii.eqb_spec b "#") as [->|Nb]|]; cbn [String.length].
    - split; [lia|]. split; [split; [intros E; lia|intros N; destruct N; exists y; reflexivity]|intros N; destruct N; exists y; reflexivity].
    - split; [lia|]. split; [split; [intros _ (z & E); injection E as -> _; congruence|auto]|auto].
    - split; [lia|]. split; [split; [intros _ (z & E); injection E as -> _; congruence|auto]|auto].
  Qed.
  Lemma plain_spaces : forall x t b, len (indent b (plain_name x ++ ": " ++ t)) <= len (indent b (x ++ ": " ++ t)) /\
    (raw x -> len (indent b (plain_name x ++ ": " ++ t)) < len (indent b (x ++ ": " ++ t))).
  Proof.
    intros x t b. assert (R : raw x \/ ~ raw x).
    { destruct (plain_len x) as (_ & H & _). destruct (Nat.eq_dec (len (plain_name x)) (len x)); [right; tauto|left].
      destruct x as [|a1 [|b1 y]]; [cbn in n; lia ..|]. cbn [plain_name] in n. destruct (Ascii.eqb_spec a1 "r") as [->|]; cbn [andb] in n; [|lia]. destruct (Ascii.eqb_spec b1 "#") as [->|]; [|lia]. exists y. reflexivity. }
    destruct R as [(y & ->)|N].
    - enough (X : len (indent b (plain_name ("r#" ++ y) ++ ": " ++ t)) < len (indent b (("r#" ++ y) ++ ": " ++ t))) by (split; [lia|auto]).
      cbn [plain_name append Ascii.eqb Bool.eqb andb]. change (plain_name (String "r" (String "#" y))) with y.
      assert (M : forall u, len (indent b u) <= len (indent false u) + (if b then 4 else 0)) by (intros [|c u]; destruct b; cbn; lia).
      specialize (M (y ++ ": " ++ t)). cbn. destruct b; cbn in *; lia.
    - destruct (plain_len x) as (_ & _ & E). rewrite (E N). split; [lia|tauto].
  Qed.

(** The output of the derived Debug is that of Rust's own derive, in both styles and for any
    output of the fields, exactly if neither the struct nor a field has a raw identifier for a name. *)
Theorem C64_struct_debug : forall (V : Type) (debug : string -> bool -> V -> list string) s alternate a, st_fields s <> [] ->
  text (struct_debug debug s alternate a) =
    derived_text alternate (plain_name (p_rust (st_name s)))
      (map (fun f => (plain_name (p_rust (v_name f)), text (debug (p_rust (v_name f)) alternate (a (p_rust (v_name f)))))) (st_fields s))
  <-> ~ raw (p_rust (st_name s)) /\ forall f, In f (st_fields s) -> ~ raw (p_rust (v_name f)).
Proof.
  intros V debug s alt a Ne. unfold struct_debug.
  match goal with |- context [all_fields alt false ?x] => set (l := x) end.
  destruct (all_fields_text alt l false) as (E1 & E2). destruct (all_fields alt false l) as (out, h). cbn [fst snd] in *. cbv iota beta.
  rewrite !text_app, E1. change (text [p_rust (st_name s)]) with (p_rust (st_name s)).
  assert (L : l <> []) by (unfold l; destruct (st_fields s); [congruence|discriminate]). replace h with true by (rewrite E2; destruct l; [congruence|reflexivity]).
  match goal with |- context [derived_text alt _ ?x] => set (m := x) end.
  assert (Em : m = map (fun x => (plain_name (fst x), text (snd x))) l) by (unfold m, l; rewrite map_map; reflexivity).
  assert (Q : (forall f, In f (st_fields s) -> ~ raw (p_rust (v_name f))) <-> forall x, In x l -> ~ raw (fst x)).
  { unfold l. split.
    - intros H x I. apply in_map_iff in I as (f & <- & I). apply (H f I).
    - intros H f I. specialize (H (p_rust (v_name f), debug (p_rust (v_name f)) alt (a (p_rust (v_name f))))). apply H. apply in_map_iff. exists f. split; [reflexivity|exact I]. }
  rewrite Q, Em. clear Q Em m E1 E2. clearbody l. generalize (p_rust (st_name s)) as nm. intros nm.
  assert (D : derived_text alt (plain_name nm) (map (fun x => (plain_name (fst x), text (snd x))) l) =
    if alt then plain_name nm ++ " {" ++ nl ++ String.concat "" (map (fun f => indent true (plain_name (fst f) ++ ": " ++ text (snd f) ++ "," ++ nl)) l) ++ "}"
    else plain_name nm ++ " { " ++ String.concat ", " (map (fun f => plain_name (fst f) ++ ": " ++ text (snd f)) l) ++ " }").
  { destruct l as [|x l]; [congruence|]. unfold derived_text. rewrite !map_map. reflexivity. }
  rewrite D. clear D.
  pose proof (plain_len nm) as (Ln & Le & Lq). split.
  - intros E. change (text (finish alt true)) with (if alt then "}" else " }") in E. apply (f_equal String.length) in E. destruct l as [|x0 l0] eqn:El; [congruence|]. rewrite <- El in *. clear El x0 l0.
    destruct alt; rewrite !len_app in E; cbn [String.length] in E.
    + change (String.concat "") with text in E.
      assert (A : forall l : list (string * output), String.length (text (map (fun f => indent true (plain_name (fst f) ++ ": " ++ text (snd f) ++ "," ++ nl)) l)) <= String.length (text (map (fun f => indent true (fst f ++ ": " ++ text (snd f) ++ "," ++ nl)) l)) /\
        ((exists x, In x l /\ raw (fst x)) -> String.length (text (map (fun f => indent true (plain_name (fst f) ++ ": " ++ text (snd f) ++ "," ++ nl)) l)) < String.length (text (map (fun f => indent true (fst f ++ ": " ++ text (snd f) ++ "," ++ nl)) l)))).
      { intros l1. induction l1 as [|x l1 (I1 & I2)]; [split; [apply le_n|intros (x & [] & _)]|]. cbn [map]. rewrite !text_cons, !len_app. destruct (plain_spaces (fst x) (text (snd x) ++ "," ++ nl) true) as (P1 & P2).
        split; [lia|]. intros (z & [->|I] & R); [specialize (P2 R); lia|]. assert (X : exists x, In x l1 /\ raw (fst x)) by eauto. specialize (I2 X). lia. }
      destruct (A l) as (A1 & A2).  split; [apply Le; lia|]. intros x I R. assert (X : exists x, In x l /\ raw (fst x)) by eauto. specialize (A2 X). lia.
    + assert (A : forall l : list (string * output), String.length (String.concat ", " (map (fun f => plain_name (fst f) ++ ": " ++ text (snd f)) l)) <= String.length (String.concat ", " (map (fun f => fst f ++ ": " ++ text (snd f)) l)) /\
        ((exists x, In x l /\ raw (fst x)) -> String.length (String.concat ", " (map (fun f => plain_name (fst f) ++ ": " ++ text (snd f)) l)) < String.length (String.concat ", " (map (fun f => fst f ++ ": " ++ text (snd f)) l)))).
      { intros l1. induction l1 as [|x l1 (I1 & I2)]; [split; [apply le_n|intros (x & [] & _)]|]. destruct (plain_len (fst x)) as (P1 & P2 & _).
        assert (P3 : raw (fst x) -> String.length (plain_name (fst x)) < String.length (fst x)) by (intros R; destruct (Nat.eq_dec (String.length (plain_name (fst x))) (String.length (fst x))) as [q|q]; [apply P2 in q; contradiction|lia]).
        destruct l1 as [|y l1]; cbn [map String.concat] in *; rewrite ?len_app in *; cbn [String.length] in *; rewrite ?len_app in *; cbn [String.length] in *.
        - split; [lia|]. intros (z & [->|[]] & R). specialize (P3 R). lia.
        - split; [lia|]. intros (z & [->|I] & R); [specialize (P3 R); lia|]. assert (X : exists x, (y = x \/ In x l1) /\ raw (fst x)) by (exists z; split; [exact I|exact R]). specialize (I2 X). lia. }
      destruct (A l) as (A1 & A2). split; [apply Le; lia|]. intros x I R. assert (X : exists x, In x l /\ raw (fst x)) by eauto. specialize (A2 X). lia.
  - intros (Nn & Nf). rewrite (Lq Nn).
    assert (Fx : forall x, In x l -> plain_name (fst x) = fst x) by (intros x I; destruct (plain_len (fst x)) as (_ & _ & X); apply X, Nf, I).
    destruct l as [|x0 l0] eqn:El; [congruence|]. rewrite <- El in *. clear El x0 l0.
    change (text (finish alt true)) with (if alt then "}" else " }"). destruct alt.
    + assert (Q : map (fun f => indent true (plain_name (fst f) ++ ": " ++ text (snd f) ++ "," ++ nl)) l = map (fun f => indent true (fst f ++ ": " ++ text (snd f) ++ "," ++ nl)) l)
        by (apply map_ext_in; intros x I; rewrite (Fx x I); reflexivity). rewrite Q, !app_assoc_s. reflexivity.
    + assert (Q : map (fun f => plain_name (fst f) ++ ": " ++ text (snd f)) l = map (fun f => fst f ++ ": " ++ text (snd f)) l)
        by (apply map_ext_in; intros x I; rewrite (Fx x I); reflexivity). rewrite Q, !app_assoc_s. reflexivity.
Qed.
Print Assumptions C64_struct_debug.

(** The derived Default sets every field of the struct to the default of its type. *)
Theorem C64_default : forall (V : Type) (default : string -> V) s f, In f (st_fields s) ->
  struct_default default s (p_rust (v_name f)) = Some (default (p_rust (v_name f))).
Proof.
  intros V default s f I. unfold struct_default. replace (existsb _ _) with true; [reflexivity|]. symmetry. apply existsb_exists.
  exists (p_rust (v_name f)). split; [apply (in_map (fun f => p_rust (v_name f)) _ _ I)|apply String.eqb_refl].
Qed.
Print Assumptions C64_default.

(** * Where it differs *)
Local Definition point (x : string) : struct_ :=
  Struct_ CUnconditional [DDebug; DDefault] (Pair [] "Point" "Point") [] [Var CUnconditional (Pair [] "x" x) (TIdent (Named "i32" [])); Var CUnconditional (Pair [] "y" "y") (TIdent (Named "i32" []))].
Local Definition show_number (_ : string) (_ : bool) (n : nat) : list string := [if Nat.eqb n 1 then "1" else "2"].
Local Definition xy (n : string) : nat := if String.eqb n "y" then 2 else 1.
(** A field `r#x` is printed as r#x, where Rust prints x. *)
Local Notation accepted := Check_Proofs.accepted_bridge.
Theorem C64_raw_refuted : exists s a, (exists T, accepted Check_Model.GBuild Check_Props.id_order [AStruct s] T) /\ text (struct_debug show_number s false a) = "Point { r#x: 1, y: 2 }" /\
  derived_text false (plain_name (p_rust (st_name s))) (map (fun f => (plain_name (p_rust (v_name f)), text (show_number (p_rust (v_name f)) false (a (p_rust (v_name f)))))) (st_fields s)) = "Point { x: 1, y: 2 }".
Proof.
  exists (point "r#x"), xy. split; [apply Check_Props.accepts_ok; reflexivity|]. split; reflexivity.
Qed.
Print Assumptions C64_raw_refuted.
Example C64_debug_nonvacuous :
  let s := point "x" in st_fields s <> [] /\ (~ raw (p_rust (st_name s)) /\ forall f, In f (st_fields s) -> ~ raw (p_rust (v_name f))) /\
  text (struct_debug show_number s false xy) = "Point { x: 1, y: 2 }" /\
  text (struct_debug show_number s true xy) = "Point {" ++ newline_ ++ "    x: 1," ++ newline_ ++ "    y: 2," ++ newline_ ++ "}" /\
  text (struct_debug (fun _ alt n => struct_debug show_number s alt xy) s true xy) =
    "Point {" ++ newline_ ++ "    x: Point {" ++ newline_ ++ "        x: 1," ++ newline_ ++ "        y: 2," ++ newline_ ++ "    }," ++ newline_ ++
    "    y: Point {" ++ newline_ ++ "        x: 1," ++ newline_ ++ "        y: 2," ++ newline_ ++ "    }," ++ newline_ ++ "}" /\
  struct_default (fun _ => 0) s "y" = Some 0.
Proof.
  cbv zeta. split; [discriminate|]. split; [split; [intros (y & E); discriminate E|intros f [<-|[<-|[]]] (y & E); discriminate E]|]. repeat split.
Qed.
