(** Proofs about the generated C++ file: the include guards, and the whole file. *)
From Verif Require Import Base StrLib Syntax_Model Toposort_Model Toposort_Spec Toposort_Proofs2 Toposort_Props Types_Model Types_Spec Types_Proofs Types_Proofs2 Types_Props
  Check_Model Check_Spec Check_Proofs Mangle_Model Mangle_Spec Mangle_Proofs Mangle_Proofs2 Abi_Model Nested_Model Nested_Spec Nested_Props Derive_Model CxxExpr_Model CxxExpr_Spec
  Expr_Proofs2 Uses_Proofs3 Unit_Model Unit_Spec Unit_Proofs Unit_Proofs2 Unit_Proofs3.
From Coq Require Import Lia Permutation.

Definition guards (l : list placed_decl) : list string := flat_map (fun x => match guard (snd x) with Some g => [g] | None => [] end) l.
Lemma preprocess_id l : forall defined, NoDup (guards l) -> (forall g, In g (guards l) -> ~ In g defined) -> preprocess defined l = l.
Proof.
  induction l as [|[ns d] l IH]; intros defined N D; [reflexivity|]. cbn [preprocess]. unfold guards in N, D. cbn [flat_map snd] in N, D.
  destruct (guard d) as [g|]; cbn [app] in N, D.
  - apply NoDup_cons_iff in N as (N1 & N2). destruct (in_dec string_dec g defined) as [I|_]; [exfalso; exact (D g (or_introl eq_refl) I)|].
    f_equal. apply IH; [exact N2|]. intros g' I [<-|I']; [exact (N1 I)|]. exact (D g' (or_intror I) I').
  - f_equal. apply IH; assumption.
Qed.
Lemma guards_app l l' : guards (l ++ l') = guards l ++ guards l'.
Proof. apply flat_map_app. Qed.
Lemma guards_none l : (forall x, In x l -> guard (snd x) = None) -> guards l = [].
Proof. induction l as [|x l IH]; intros H; [reflexivity|]. unfold guards. cbn [flat_map]. rewrite (H x (or_introl eq_refl)). apply IH. intros y I. apply H. right. exact I. Qed.

Definition defines (a : api) : list string :=
  match a with AStruct s => [p_rust (st_name s)] | AEnum e => [p_rust (en_name e)] | ARustType t => [p_rust (et_name t)] | _ => [] end.
Definition em_pair (e : emitted) : pair_name :=
  match e with EmStruct s => st_name s | EmEnum e | EmCheckEnum e => en_name e | EmOpaque t => et_name t end.
Definition em_others (inc : string -> bool) (a : api) : list emitted :=
  match a with
  | AEnum e => if inc (p_rust (en_name e)) then (if en_from_header e then [] else [EmCheckEnum e]) else [EmEnum e]
  | ARustType t => [EmOpaque t]
  | _ => [] end.
Notation count := (count_occ string_dec).
Lemma em_counts inc apis n :
  (count (map struct_rust (filter (fun s => negb (inc (struct_rust s))) (structs_of apis))) n + count (map (fun e => p_rust (em_pair e)) (flat_map (em_others inc) apis)) n <=
   count (flat_map defines apis) n)%nat.
Proof.
  induction apis as [|a l IH]; [cbn; lia|].
  destruct a as [|s|e|t|f|t|f|a|i]; cbn [flat_map em_others defines app]; try exact IH.
  - change (structs_of (AStruct s :: l)) with (s :: structs_of l). cbn [filter]. destruct (inc (struct_rust s)); cbn [negb map count_occ]; unfold struct_rust in *;
      destruct (string_dec (p_rust (st_name s)) n); lia.
  - change (structs_of (AEnum e :: l)) with (structs_of l). rewrite map_app, count_occ_app. destruct (inc (p_rust (en_name e))); [destruct (en_from_header e)|]; cbn [map count_occ em_pair];
      destruct (string_dec (p_rust (en_name e)) n); lia.
  - change (structs_of (ARustType t :: l)) with (structs_of l). cbn [map count_occ em_pair].  destruct (string_dec (p_rust (et_name t)) n); lia.
Qed.
Lemma split_perm {A} (f : A -> bool) l : Permutation l (filter (fun x => negb (f x)) l ++ filter f l).
Proof.
  induction l as [|a l IH]; [constructor|]. cbn [filter]. destruct (f a); cbn [negb app]; [|constructor; exact IH].
  apply Permutation_cons_app. exact IH.
Qed.

Lemma decl_item apis a p : In a apis -> decl_name a = Some p -> item_name apis p.
Proof. intros I D. destruct a; try discriminate D; injection D as <-; eapply in_type; [eapply de_struct|eapply de_enum|eapply de_cxx|eapply de_rust|eapply de_alias]; exact I. Qed.

Section File.
  Variables (gen : generator) (ord : nat -> list string -> list string) (apis : list api) (T : types) (fuel : nat).
  Hypothesis Hacc : accepted_bridge gen ord apis T.
  Hypothesis Hwf : wf_bridge apis.
  Hypothesis Hagree : names_agree apis.
  Hypothesis Hhome : methods_at_home apis.
  Hypothesis Harr : array_free (structs_of apis).
  Hypothesis Hfuel : forall a, In a apis -> (List.length (api_namespace a) < fuel)%nat.
  Notation inc := (fun x => smem x (t_cxx T)).
  Notation em := (write_loop inc apis [] (t_toposorted T)).

  Lemma defines_nodup : NoDup (flat_map defines apis).
  Proof.
    apply (NoDup_count_occ string_dec). intros n. destruct Hacc as [[Ho Hc] _].
    assert (A : accepted_decls (decls n apis)).
    { destruct (proj1 (C09_duplicates_partial ord apis T [] n Ho Hc) (fun x => x)) as [[G|G]|G]; unfold accepted_decls; cbn [In]; intuition auto. }
    assert (C : (count (flat_map defines apis) n <= List.length (filter (fun k => match k with DkCxx | DkAlias => false | _ => true end) (decls n apis)))%nat).
    { clear. unfold decls. induction apis as [|a l IH]; [cbn; lia|]. cbn [flat_map]. rewrite count_occ_app, filter_app, app_length.
      destruct a as [|s|e|t|f|t|f|a|i]; cbn [defines decl_of count_occ filter List.length]; try exact IH.
      - destruct (string_dec (p_rust (st_name s)) n) as [->|N]; [rewrite String.eqb_refl; cbn; lia|]. lia.
      - destruct (string_dec (p_rust (en_name e)) n) as [->|N]; [rewrite String.eqb_refl; destruct (en_from_header e); cbn; lia|]. lia.
      - destruct (String.eqb (p_rust (et_name t)) n); cbn; lia.
      - destruct (string_dec (p_rust (et_name t)) n) as [->|N]; [rewrite String.eqb_refl; cbn; lia|]. lia.
      - destruct (String.eqb (p_rust (ta_name a)) n); cbn; lia. }
    enough (L : (List.length (filter (fun k => match k with DkCxx | DkAlias => false | _ => true end) (decls n apis)) <= 1)%nat) by lia.
    clear -A. unfold accepted_decls in A. generalize dependent (decls n apis). intros l A.
    assert (B : forall l : list decl_kind, (List.length (filter (fun k => match k with DkCxx | DkAlias => false | _ => true end) l) <= List.length l)%nat)
      by (clear; induction l as [|k l IH]; [cbn; lia|]; cbn [filter]; destruct k; cbn [List.length]; lia).
    destruct A as [A|A]; [specialize (B l); lia|]. cbn [In] in A. intuition (subst; cbn; lia).
  Qed.
  Lemma em_nodup : NoDup (map (fun e => p_rust (em_pair e)) em).
  Proof.
    pose proof (structs_nodup gen ord apis T Hacc) as Hd.
    destruct (C06_emitted_once inc apis Hd) as (em' & E & P & Q). rewrite (em_written gen ord apis T Hacc) in E. injection E as <-.
    assert (Pm : Permutation (map (fun e => p_rust (em_pair e)) em)
       (map struct_rust (filter (fun s => negb (inc (struct_rust s))) (structs_of apis)) ++ map (fun e => p_rust (em_pair e)) (flat_map (em_others inc) apis))).
    { etransitivity; [apply Permutation_map, (split_perm (fun e => match e with EmStruct _ => false | _ => true end))|]. rewrite map_app. apply Permutation_app.
      - etransitivity; [|apply Permutation_map, P]. clear. induction em as [|e l IH]; [constructor|]. cbn [filter flat_map]. destruct e; cbn [negb map app]; [constructor; exact IH|exact IH..].
      - rewrite Q. reflexivity. }
    apply (Permutation_NoDup (Permutation_sym Pm)). apply (NoDup_count_occ string_dec). intros n. rewrite count_occ_app.
    pose proof (em_counts inc apis n) as C. pose proof defines_nodup as D. rewrite (NoDup_count_occ string_dec) in D. specialize (D n). lia.
  Qed.
  Lemma em_declared e : In e em -> exists a, In a apis /\ decl_name a = Some (em_pair e).
  Proof.
    intros I. destruct e as [s|e|e|t].
    - apply (em_struct gen ord apis T Hacc) in I as (I & _). exists (AStruct s). auto.
    - apply (em_other gen ord apis T Hacc (EmEnum e) Logic.I) in I as (a & I & J). destruct a; try destruct J; [|discriminate|destruct H].
      destruct (inc (p_rust (en_name e0))); [destruct (en_from_header e0); destruct J as [J|[]] || destruct J; discriminate|]. destruct J as [J|[]]. injection J as <-. exists (AEnum e0). auto.
    - apply (em_other gen ord apis T Hacc (EmCheckEnum e) Logic.I) in I as (a & I & J). destruct a; try destruct J; [|discriminate|destruct H].
      destruct (inc (p_rust (en_name e0))); [|destruct J as [J|[]]; discriminate]. destruct (en_from_header e0); [destruct J|]. destruct J as [J|[]]. injection J as <-. exists (AEnum e0). auto.
    - apply (em_other gen ord apis T Hacc (EmOpaque t) Logic.I) in I as (a & I & J). destruct a; try destruct J; [| |destruct H].
      + destruct (inc (p_rust (en_name e))); [destruct (en_from_header e); destruct J as [J|[]] || destruct J; discriminate|]. destruct J as [J|[]]. discriminate.
      + injection H as <-. exists (ARustType t0). auto.
  Qed.
  Lemma symbol_inj a b p q : In a apis -> In b apis -> decl_name a = Some p -> decl_name b = Some q -> to_symbol p = to_symbol q -> qualified p = qualified q.
  Proof.
    intros Ia Ib Da Db E.
    assert (W : forall c r, In c apis -> decl_name c = Some r -> Forall identifier (p_ns r ++ [p_cxx r])).
    { intros c r Ic Dc. destruct (Hwf r (decl_item _ c r Ic Dc)) as (W1 & W2 & _). apply Forall_app. split; [exact W1|]. constructor; [exact W2|constructor]. }
    pose proof (W a p Ia Da) as Wp. pose proof (W b q Ib Db) as Wq. unfold to_symbol in E.
    assert (Z : forall l, Forall identifier l -> Forall (fun s => s <> ""%string) l) by (intros l F; eapply Forall_impl; [|exact F]; apply identifier_ne).
    assert (N : forall (l : list string) x, l ++ [x] <> []) by (intros l x; destruct l; discriminate).
    rewrite !sym_join_segs in E by (apply N || apply Z; assumption). injection E as E. unfold qualified.
    rewrite Forall_forall in Wp, Wq. apply (join_inj dollar); [apply N|apply N| | |exact E]; intros s I; apply identifier_dollar; auto.
  Qed.
  Lemma guard_inj k k' p q g : In k ["STRUCT"; "ENUM"]%string -> In k' ["STRUCT"; "ENUM"]%string -> guard_of k p = Some g -> guard_of k' q = Some g -> to_symbol p = to_symbol q.
  Proof.
    unfold guard_of. intros K K' E E'. apply option_map_inv in E as (x & -> & ->). apply option_map_inv in E' as (y & -> & E').
    destruct K as [<-|[<-|[]]], K' as [<-|[<-|[]]]; cbn in E'; congruence.
  Qed.
  Lemma data_guard e x : data_decl T apis e = Some [x] -> match guard (snd x) with Some g => exists k, In k ["STRUCT"; "ENUM"]%string /\ guard_of k (em_pair e) = Some g | None => True end.
  Proof.
    destruct e; cbn [data_decl em_pair]; unfold struct_decl, opaque_decl; intros E.
    - apply obind_inv in E as (g & Eg & E). do 2 (apply obind_inv in E as (? & _ & E)). injection E as <-. cbn. eauto.
    - apply option_map_inv in E as (g & Eg & E). injection E as ->. cbn. eauto.
    - injection E as <-. exact I.
    - apply obind_inv in E as (g & Eg & E). apply obind_inv in E as (? & _ & E). injection E as <-. cbn. eauto.
  Qed.
  Lemma data_guards data : data_structures T apis = Some data -> NoDup (guards data).
  Proof.
    intros E. unfold data_structures in E. apply option_map_inv in E as (ds & E & ->). pose proof em_nodup as N. pose proof em_declared as D.
    generalize dependent em. intros l. revert ds. induction l as [|e l IH]; intros ds E N D.
    - injection E as <-. constructor.
    - apply otraverse_inv in E as (b & bs & Ee & El & ->). destruct (data_single _ _ _ _ Ee) as (x & ->). cbn [List.concat app]. cbn [map] in N. apply NoDup_cons_iff in N as (N1 & N2).
      assert (R : NoDup (guards (List.concat bs))) by (apply IH; [exact El|exact N2|intros e' I; apply D; right; exact I]).
      unfold guards in *. cbn [flat_map]. pose proof (data_guard _ _ Ee) as G. destruct (guard (snd x)) as [g|]; [|exact R]. cbn [app]. constructor; [|exact R].
      intros I. apply in_flat_map in I as (y & Iy & Jy). apply in_concat in Iy as (c & Ic & Iy). destruct (otraverse_in _ _ _ _ El Ic) as (e' & Ie' & Ee').
      destruct (data_single _ _ _ _ Ee') as (y' & ->). destruct Iy as [->|[]]. pose proof (data_guard _ _ Ee') as G'. destruct (guard (snd y)) as [g'|]; [|destruct Jy]. destruct Jy as [->|[]].
      destruct G as (k & Ik & G), G' as (k' & Ik' & G'). apply N1. destruct (D e (or_introl eq_refl)) as (a & Ia & Da). destruct (D e' (or_intror Ie')) as (a' & Ia' & Da').
      assert (Q : qualified (em_pair e) = qualified (em_pair e')) by exact (symbol_inj a a' _ _ Ia Ia' Da Da' (guard_inj k k' _ _ g Ik Ik' G G')).
      apply (Hagree a a' _ _ Ia Ia' Da Da') in Q. rewrite Q. apply (in_map (fun e => p_rust (em_pair e))). exact Ie'.
  Qed.

  Lemma fwd_guards toks : forall st, guards (place_tokens st toks) = [].
  Proof.
    induction toks as [|t toks IH]; intros st; [reflexivity|]. destruct t; cbn [place_tokens]; try apply IH. rewrite guards_app, IH, app_nil_r.
    apply guards_none. intros y J. apply in_map_iff in J as (d & <- & J). cbn [snd]. destruct a; destruct J as [<-|[]] || destruct J; reflexivity.
  Qed.
  Lemma concat_guards {A} (f : A -> option (list placed_decl)) l r : (forall a b, f a = Some b -> guards b = []) -> otraverse f l = Some r -> guards (List.concat r) = [].
  Proof.
    intros H E. revert r E. induction l as [|a l IH]; intros r E; [injection E as <-; reflexivity|]. apply otraverse_inv in E as (b & bs & Ea & El & ->).
    cbn [List.concat]. rewrite guards_app, (H _ _ Ea), (IH _ El). reflexivity.
  Qed.
  Lemma map_guards {A} (f : A -> option placed_decl) l r : (forall a b, f a = Some b -> guard (snd b) = None) -> otraverse f l = Some r -> guards r = [].
  Proof. intros H E. apply guards_none. intros x I. destruct (otraverse_in _ _ _ _ E I) as (a & _ & Ea). eapply H, Ea. Qed.

  (** Guards stand around the data structures, and nowhere else. *)
  Lemma file_guards_data header l : unit_decls fuel T apis header = Some l -> exists data, data_structures T apis = Some data /\ guards l = guards data.
  Proof.
    unfold unit_decls. intros E. apply obind_inv in E as (toks & _ & E). apply obind_inv in E as (data & Ed & E). apply obind_inv in E as (decls & Ec & E).
    apply obind_inv in E as (defs & Ef & E). apply obind_inv in E as (impls & Ei & E). injection E as <-.
    rewrite !guards_app, fwd_guards.
    assert (G1 : guards decls = []).
    { destruct header; [injection Ec as <-; reflexivity|]. apply obind_inv in Ec as (ds & E1 & Ec). apply obind_inv in Ec as (hs & E2 & Ec). injection Ec as <-. rewrite !guards_app.
      assert (Z1 : guards (List.concat ds) = []).
      { eapply concat_guards; [|exact E1]. intros a b E. destruct a; cbn [function_decl] in E; try (injection E as <-; reflexivity).
        - unfold operator_decl in E. apply obind_inv in E as (l1 & F1 & E). apply obind_inv in E as (l2 & F2 & E). injection E as <-. rewrite guards_app.
          assert (Y1 : guards l1 = []) by (eapply map_guards; [|exact F1]; intros x y H; apply option_map_inv in H as (? & _ & ->); reflexivity).
          assert (Y2 : guards l2 = []) by (eapply map_guards; [|exact F2]; intros x y H; apply option_map_inv in H as (? & _ & ->); reflexivity).
          rewrite Y1, Y2. reflexivity.
        - unfold shim_decl in E. do 2 (apply obind_inv in E as (? & _ & E)). apply obind_inv in E as (ts & Et & E). injection E as <-. unfold guards. cbn [flat_map snd guard app].
          eapply concat_guards; [|exact Et]. intros y z. unfold trampoline. destruct (snd y); intros H; try (injection H as <-; reflexivity). do 4 (apply obind_inv in H as (? & _ & H)). injection H as <-. reflexivity.
        - eapply map_guards; [|exact E]. intros x y H. apply option_map_inv in H as (? & _ & ->). reflexivity.
        - unfold rust_decl in E. do 2 (apply obind_inv in E as (? & _ & E)). injection E as <-. reflexivity. }
      assert (Z2 : guards (List.concat hs) = []).
      { eapply concat_guards; [|exact E2]. intros a b E. destruct a; cbn [hash_decl] in E; try (injection E as <-; reflexivity).
        destruct (derives DHash (st_derives s)); [|injection E as <-; reflexivity]. apply option_map_inv in E as (? & _ & ->). reflexivity. }
      rewrite Z1, Z2, guards_none; [reflexivity|]. intros x I. unfold trivial_checks in I. apply in_flat_map in I as (a & _ & I).
      destruct a; try (destruct I; fail). destruct (has _ _); [destruct I as [<-|[]]; reflexivity|destruct I]. }
    assert (G2 : guards (List.concat defs) = []).
    { eapply concat_guards; [|exact Ef]. intros a b H. destruct a; cbn [function_def] in H; try (injection H as <-; reflexivity).
      - destruct header; [injection H as <-; reflexivity|]. eapply map_guards; [|exact H]. intros x y. unfold operator_def. destruct (snd x); intros H'; [|injection H' as <-; reflexivity].
        apply option_map_inv in H' as (? & _ & ->). reflexivity.
      - destruct header; [injection H as <-; reflexivity|]. eapply map_guards; [|exact H]. intros x y H'. apply option_map_inv in H' as (? & _ & ->). reflexivity.
      - unfold rust_def in H. destruct header.
        + destruct (fn_receiver f); [injection H as <-; reflexivity|]. apply option_map_inv in H as (? & _ & ->). reflexivity.
        + do 2 (apply obind_inv in H as (? & _ & H)). destruct (fn_receiver f); [|injection H as <-; reflexivity]. apply option_map_inv in H as (? & _ & ->). reflexivity. }
    assert (G3 : guards impls = []).
    { destruct header; [injection Ei as <-; reflexivity|]. apply obind_inv in Ei as (es & E1 & Ei). apply obind_inv in Ei as (ms & E2 & Ei). injection Ei as <-. rewrite guards_app.
      assert (Z1 : guards (List.concat es) = []).
      { eapply concat_guards; [|exact E1]. intros k b H. unfold impl_extern in H. apply obind_inv in H as (? & _ & H). destruct (specializes _); [|injection H as <-; reflexivity].
        eapply map_guards; [|exact H]. intros u y H'. apply option_map_inv in H' as (? & _ & ->). reflexivity. }
      assert (Z2 : guards (List.concat ms) = []).
      { eapply concat_guards; [|exact E2]. intros k b H. unfold impl_member in H. destruct (specializes _); [|injection H as <-; reflexivity]. apply obind_inv in H as (? & _ & H).
        apply option_map_inv in H as (? & _ & ->). reflexivity. }
      rewrite Z1, Z2. reflexivity. }
    rewrite G1, G2, G3, !app_nil_r. exists data. auto.
  Qed.
  Lemma file_guards header l : unit_decls fuel T apis header = Some l -> NoDup (guards l).
  Proof. intros E. destruct (file_guards_data _ _ E) as (data & Ed & ->). eapply data_guards, Ed. Qed.

  Lemma file_founded header l : unit_decls fuel T apis header = Some l -> founded (users apis) l.
  Proof.
    unfold unit_decls. intros E. apply obind_inv in E as (toks & Et & E). apply obind_inv in E as (data & Ed & E). apply obind_inv in E as (decls & Ec & E).
    apply obind_inv in E as (defs & Ef & E). apply obind_inv in E as (impls & Ei & E). injection E as <-.
    set (fwd := place_tokens [] toks). set (K1 := later (users apis) fwd). set (K2 := later K1 data).
    assert (Hu : forall f, users apis f -> K2 f) by (intros f U; left; left; exact U).
    assert (D1 : forall a p, In a apis -> decl_name a = Some p -> K2 (Declared (qualified p))) by (intros a p Ia Da; left; eapply declared_decl; eassumption).
    assert (D2 : forall a p, In a apis -> decl_name a = Some p -> K2 (Complete (qualified p))) by (intros a p Ia Da; eapply complete_decl; eassumption).
    assert (S : forall x p, resolve_name T x = Some p -> stands_for apis x p) by (intros x p; eapply resolve_stands; eassumption).
    assert (D3 : forall p, resolved T p -> K2 (Declared (qualified p))) by (intros p R; left; eapply declared_resolved; eassumption).
    assert (D4 : forall p, resolved T p -> K2 (Complete (qualified p))) by (intros p R; eapply complete_resolved; eassumption).
    pose proof (receiver_member gen ord apis T fuel Hacc Hagree Hfuel toks Et data Ed) as M. fold fwd in M. fold K1 in M. fold K2 in M.
    pose proof (operator_member gen ord apis T Hacc Hagree toks data Ed) as O. fold fwd in O. fold K1 in O. fold K2 in O.
    pose proof (layout_member gen ord apis T Hacc toks data Ed) as L. fold fwd in L. fold K1 in L. fold K2 in L.
    apply founded_app; [eapply fwd_founded; eassumption|]. apply founded_app; [eapply data_founded; eassumption|]. fold fwd. fold K1. fold K2.
    destruct header.
    - injection Ec as <-. injection Ei as <-. cbn [app]. rewrite app_nil_r. apply founded_concat. intros x I. destruct (otraverse_in _ _ _ _ Ef I) as (a & Ia & Ea).
      eapply header_def_founded; eassumption.
    - apply obind_inv in Ec as (ds & E1 & Ec). apply obind_inv in Ec as (hs & E2 & Ec). injection Ec as <-. apply obind_inv in Ei as (es & E3 & Ei). apply obind_inv in Ei as (ms & E4 & Ei). injection Ei as <-.
      apply founded_app; [eapply decls_founded; eassumption|]. apply founded_app.
      + apply founded_concat. intros x I. destruct (otraverse_in _ _ _ _ Ef I) as (a & Ia & Ea).
        eapply (function_def_founded apis T fuel K2) with (ds := ds); try eassumption. intros f P. apply provided_app. right. apply provided_app. left. exact P.
      + eapply founded_mono; [|eapply (impls_founded T K2); eassumption]. intros f Kf. left. left. exact Kf.
  Qed.
End File.
