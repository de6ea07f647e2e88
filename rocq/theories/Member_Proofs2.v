(** Proofs about the names that the generated header declares. *)
From Verif Require Import Base StrLib Syntax_Model Toposort_Model Toposort_Spec Toposort_Proofs2 Toposort_Props Types_Model Types_Spec Types_Proofs Types_Proofs2 Types_Props
  Check_Model Check_Spec Check_Proofs Mangle_Model Mangle_Spec Mangle_Proofs Mangle_Proofs2 Abi_Model Nested_Model Nested_Spec Nested_Props Derive_Model CxxExpr_Model CxxExpr_Spec CxxExpr_Proofs
  Expr_Proofs2 Uses_Proofs3 Unit_Model Unit_Spec Unit_Proofs Unit_Proofs2 Unit_Proofs3 Unit_Proofs4 Member_Model Member_Spec Member_Proofs.
From Coq Require Import Lia Permutation.

Lemma concat_forall2 {A B} (f : A -> option (list B)) l r : (forall a b, f a = Some b -> exists x, b = [x]) -> otraverse f l = Some r ->
  Forall2 (fun a x => f a = Some [x]) l (List.concat r).
Proof.
  intros H E. apply otraverse_forall2 in E. induction E as [|a b l r E F IH]; [constructor|]. destruct (H a b E) as (x & ->). cbn [List.concat app]. constructor; [exact E|exact IH].
Qed.
Lemma nodup_flat {A B} (f : A -> list B) l a b n : NoDup (flat_map f l) -> In a l -> In b l -> In n (f a) -> In n (f b) -> a = b.
Proof.
  induction l as [|c l IH]; intros N Ia Ib Na Nb; [destruct Ia|]. cbn [flat_map] in N.
  assert (D : forall x, In n (f c) -> In x l -> In n (f x) -> False).
  { intros x I J K. clear -N I J K. assert (Q : In n (flat_map f l)) by (apply in_flat_map; eauto). revert N Q I. generalize (flat_map f l) as m. induction (f c) as [|y k IH]; intros m N Q I; [destruct I|].
    cbn [app] in N. apply NoDup_cons_iff in N as (N1 & N2). destruct I as [->|I]; [apply N1, in_or_app; right; exact Q|exact (IH m N2 Q I)]. }
  assert (N' : NoDup (flat_map f l)) by (clear -N; induction (f c) as [|y k IH]; [exact N|]; cbn [app] in N; apply NoDup_cons_iff in N as (_ & N); apply IH, N).
  destruct Ia as [->|Ia], Ib as [->|Ib]; [reflexivity|exfalso; exact (D b Na Ib Nb)|exfalso; exact (D a Nb Ia Na)|]. apply IH; assumption.
Qed.

Section Header.
  Variables (gen : generator) (ord : nat -> list string -> list string) (apis : list api) (T : types) (fuel : nat).
  Hypothesis Hacc : accepted_bridge gen ord apis T.
  Hypothesis Hagree : names_agree apis.
  Hypothesis Hfuel : forall a, In a apis -> (List.length (api_namespace a) < fuel)%nat.
  Notation inc := (fun x => smem x (t_cxx T)).
  Notation em := (write_loop inc apis [] (t_toposorted T)).

  Definition fn_decl (f : extern_fn) (x : placed_decl) : Prop := exists ret cs, x = (p_ns (fn_name f), TDeclare (p_cxx (fn_name f)) ret cs) /\ cxx_params apis f cs.
  Lemma defs_fns apis' : forall defs, otraverse (function_def fuel T true) apis' = Some defs -> Forall2 fn_decl (rust_functions apis') (List.concat defs).
  Proof using Hacc.
    induction apis' as [|a l IH]; intros defs E; [injection E as <-; constructor|]. apply otraverse_inv in E as (b & bs & Ea & El & ->). specialize (IH bs El). cbn [List.concat].
    destruct a; cbn [function_def] in Ea; try (injection Ea as <-; exact IH).
    unfold rust_def in Ea. unfold rust_functions in *. cbn [flat_map app filter]. destruct (fn_receiver f) as [r|] eqn:R.
    - injection Ea as <-. exact IH.
    - apply option_map_inv in Ea as (s & Es & ->). cbn [app]. constructor; [|exact IH]. eexists _, _. split; [reflexivity|]. eapply shim_params; eassumption.
  Qed.

  Variable toks : list ftok.
  Hypothesis Htoks : forward_declarations fuel T apis = Some toks.
  Notation fwd := (place_tokens [] toks).
  Variable data : list placed_decl.
  Hypothesis Hdata : data_structures T apis = Some data.
  Variable defs : list (list placed_decl).
  Hypothesis Hdefs : otraverse (function_def fuel T true) apis = Some defs.
  Notation header := (fwd ++ data ++ List.concat defs).

  Definition definition (m : meaning) : bool := match m with IsClass d | IsEnum d => d | _ => false end.
  Definition kind_of (a : api) (p : pair_name) (m : meaning) : Prop :=
    match m with
    | IsClass _ => (exists s, a = AStruct s) \/ (exists t, a = ARustType t)
    | IsEnum _ => exists e, a = AEnum e
    | IsName p' => p' = p
    | IsFunction _ => False
    end.
  Definition comes_from (ns : list string) (x : string) (m : meaning) : Prop :=
    exists a p, In a apis /\ decl_name a = Some p /\ header_type apis p /\ ns = p_ns p /\ x = p_cxx p /\ kind_of a p m.
  Lemma fwd_type ns d x m : In (ns, d) fwd -> means d = Some (x, m) -> comes_from ns x m /\ definition m = false.
  Proof using Hacc Hagree Hfuel Htoks.
    destruct (fwd_facts gen ord apis T fuel Hacc Hagree Hfuel toks Htoks) as (r & -> & H). intros I M. apply in_flat_map in I as ((ns', a) & I & J). cbn [fst snd] in J.
    apply in_map_iff in J as (d' & E & J). injection E as -> ->. apply H in I as (I & N & E). subst ns.
    destruct a; cbn [forward_decl] in J; try (destruct J; fail); destruct J as [<-|[]]; cbn [means] in M; injection M as <- <-; (split; [|reflexivity]).
    - exists (AStruct s), (st_name s). repeat split; try assumption. constructor; exact I. left; eauto.
    - exists (AEnum e), (en_name e). repeat split; try assumption; [|eexists; reflexivity]. apply ht_enum; [exact I|]. rewrite <- (inc_ok gen ord apis T Hacc). cbn [needs_forward] in N. intros Q. rewrite Q in N. discriminate N.
    - exists (ACxxType t), (et_name t). repeat split; try assumption. apply ht_cxx; exact I.
    - exists (ARustType t), (et_name t). repeat split; try assumption. apply ht_rust; exact I. right; eauto.
  Qed.
  Lemma type_fwd p : header_type apis p -> exists d m, In (p_ns p, d) fwd /\ means d = Some (p_cxx p, m) /\ match m with IsFunction _ => False | _ => True end.
  Proof using Hacc Hagree Hfuel Htoks.
    intros [s I|e I N|t I|t I].
    - exists (TForward (p_cxx (st_name s))), (IsClass false). split; [|split; [reflexivity|exact Logic.I]]. apply (fwd_has gen ord apis T fuel Hacc Hagree Hfuel toks Htoks (AStruct s)); [exact I|reflexivity|left; reflexivity].
    - exists (TForwardEnum (p_cxx (en_name e))), (IsEnum false). split; [|split; [reflexivity|exact Logic.I]]. apply (fwd_has gen ord apis T fuel Hacc Hagree Hfuel toks Htoks (AEnum e)); [exact I| |left; reflexivity].
      cbn [needs_forward]. rewrite <- (inc_ok gen ord apis T Hacc) in N. destruct (smem _ _); [exfalso; apply N; reflexivity|reflexivity].
    - exists (TUsing (p_cxx (et_name t)) (et_name t)), (IsName (et_name t)). split; [|split; [reflexivity|exact Logic.I]]. apply (fwd_has gen ord apis T fuel Hacc Hagree Hfuel toks Htoks (ACxxType t)); [exact I|reflexivity|left; reflexivity].
    - exists (TForward (p_cxx (et_name t))), (IsClass false). split; [|split; [reflexivity|exact Logic.I]]. apply (fwd_has gen ord apis T fuel Hacc Hagree Hfuel toks Htoks (ARustType t)); [exact I|reflexivity|left; reflexivity].
  Qed.
  Definition data_as (e : emitted) (x : placed_decl) : Prop := fst x = p_ns (em_pair e) /\
    match means (snd x) with
    | Some (y, m) => y = p_cxx (em_pair e) /\ comes_from (p_ns (em_pair e)) y m
    | None => exists en, e = EmCheckEnum en
    end.
  Lemma data_means e x : In e em -> data_decl T apis e = Some [x] -> data_as e x.
  Proof using Hacc.
    intros I E. unfold data_as. destruct e as [s|e|e|t]; cbn [data_decl] in E; unfold struct_decl, opaque_decl in E.
    - do 3 (apply obind_inv in E as (? & _ & E)). injection E as <-. cbn [fst snd means em_pair]. split; [reflexivity|]. split; [reflexivity|].
      apply (em_struct gen ord apis T Hacc) in I as (I & _). exists (AStruct s), (st_name s). repeat split; try assumption. constructor; exact I. left; eauto.
    - apply option_map_inv in E as (? & _ & E). injection E as ->. cbn [fst snd means em_pair]. split; [reflexivity|]. split; [reflexivity|].
      apply (em_other gen ord apis T Hacc (EmEnum e) Logic.I) in I as (a & I & J). destruct a; try destruct J; [|discriminate|destruct H].
      destruct (inc (p_rust (en_name e0))) eqn:Q; [destruct (en_from_header e0); destruct J as [J|[]] || destruct J; discriminate|]. destruct J as [J|[]]. injection J as <-.
      exists (AEnum e0), (en_name e0). repeat split; try assumption; [|eexists; reflexivity]. apply ht_enum; [exact I|]. rewrite <- (inc_ok gen ord apis T Hacc), Q. discriminate.
    - injection E as <-. cbn [fst snd means em_pair]. split; [reflexivity|eauto].
    - do 2 (apply obind_inv in E as (? & _ & E)). injection E as <-. cbn [fst snd means em_pair]. split; [reflexivity|]. split; [reflexivity|].
      apply (em_other gen ord apis T Hacc (EmOpaque t) Logic.I) in I as (a & I & J). destruct a; try destruct J; [| |destruct H].
      + destruct (inc (p_rust (en_name e))); [destruct (en_from_header e); destruct J as [J|[]] || destruct J; discriminate|]. destruct J as [J|[]]. discriminate.
      + injection H as <-. exists (ARustType t0), (et_name t0). repeat split; try assumption. apply ht_rust; exact I. right; eauto.
  Qed.
  Lemma data_forall2 : Forall2 (fun e x => In e em /\ data_as e x) em data.
  Proof using Hacc Hdata.
    destruct (data_split apis T data Hdata) as (ds & E & ->). apply concat_forall2 in E; [|apply data_single].
    assert (G : forall e x, In e em -> data_decl T apis e = Some [x] -> In e em /\ data_as e x) by (intros e x I J; split; [exact I|apply data_means; assumption]).
    assert (K : forall l l', Forall2 (fun e x => data_decl T apis e = Some [x]) l l' -> (forall e, In e l -> In e em) -> Forall2 (fun e x => In e em /\ data_as e x) l l').
    { clear -G. intros l l' F. induction F as [|e x l l' E F IH]; intros H; constructor; [apply G; [apply H; left; reflexivity|exact E]|apply IH; intros e' I; apply H; right; exact I]. }
    apply (K _ _ E). auto.
  Qed.
  Lemma same_item ns x m ns' x' m' : comes_from ns x m -> comes_from ns' x' m' -> ns ++ [x] = ns' ++ [x'] -> definition m = false \/ definition m' = false -> agree (ns ++ [x]) m m'.
  Proof using Hacc Hagree.
    intros (a & p & Ia & Da & _ & -> & -> & K) (b & q & Ib & Db & _ & -> & -> & K') E F.
    assert (R : p_rust p = p_rust q) by (apply (Hagree a b p q Ia Ib Da Db); exact E).
    assert (N : forall n, In n (defines a) -> In n (defines b) -> a = b) by (intros n; apply (nodup_flat defines apis); [exact (defines_nodup gen ord apis T Hacc)|exact Ia|exact Ib]).
    destruct m as [d|d|p1|ps], m' as [d'|d'|p1'|ps']; cbn [kind_of] in K, K'; cbn [agree definition] in *; try contradiction; try exact F; subst; try exact E; try reflexivity; try (symmetry; exact E).
    - destruct K' as (e & ->). injection Db as <-. destruct K as [(s & ->)|(t & ->)]; injection Da as <-; discriminate (N _ (or_introl eq_refl) (or_introl (eq_sym R))).
    - destruct K as (e & ->). injection Da as <-. destruct K' as [(s & ->)|(t & ->)]; injection Db as <-; discriminate (N _ (or_introl eq_refl) (or_introl (eq_sym R))).
  Qed.
  Lemma data_apart : ForallOrdPairs apart data.
  Proof using Hacc Hagree Hdata.
    pose proof (em_nodup gen ord apis T Hacc) as N. apply fop_nodup in N. rewrite fop_map in N.
    pose proof data_forall2 as F. revert N F. generalize data as l'. generalize em at 1 3 as l. intros l l' N F.
    assert (G : forall e x e' x', In e em /\ data_as e x -> In e' em /\ data_as e' x' -> p_rust (em_pair e) <> p_rust (em_pair e') -> apart x x').
    { intros e x e' x' (I & D) (I' & D') R y m y' m' M M' Q. exfalso. apply R. destruct D as (D1 & D2), D' as (D1' & D2'). rewrite M in D2. rewrite M' in D2'. destruct D2 as (-> & _), D2' as (-> & _).
      destruct (em_declared gen ord apis T Hacc e I) as (a & Ia & Da). destruct (em_declared gen ord apis T Hacc e' I') as (b & Ib & Db). apply (Hagree a b _ _ Ia Ib Da Db). unfold qualified. rewrite <- D1, <- D1'. exact Q. }
    induction F as [|e x l l' P F IH]; [constructor|]. inversion N as [|? ? N1 N2]; subst. constructor; [|apply IH, N2].
    apply Forall_forall. intros x' I'. destruct (forall2_in_r _ _ _ _ F I') as (e' & Ie' & P'). rewrite Forall_forall in N1. exact (G e x e' x' P P' (N1 e' Ie')).
  Qed.
  Lemma data_from ns d x m : In (ns, d) data -> means d = Some (x, m) -> comes_from ns x m.
  Proof using Hacc Hdata.
    intros I M. destruct (forall2_in_r _ _ _ _ data_forall2 I) as (e & _ & (_ & D1 & D2)). cbn [fst snd] in D1, D2. rewrite M in D2. destruct D2 as (E & C). rewrite D1. exact C.
  Qed.
  Lemma types_apart : ForallOrdPairs apart (fwd ++ data).
  Proof using Hacc Hagree Hdata Hfuel Htoks.
    apply fop_app. split; [|split; [exact data_apart|]].
    - assert (G : forall l, (forall x, In x l -> In x fwd) -> ForallOrdPairs apart l).
      { induction l as [|x l IH]; intros H; constructor; [|apply IH; intros y I; apply H; right; exact I]. apply Forall_forall. intros y I z m z' m' M M' Q.
        destruct x as (ns, d), y as (ns', d'). destruct (fwd_type _ _ _ _ (H _ (or_introl eq_refl)) M) as (C & D). destruct (fwd_type _ _ _ _ (H _ (or_intror I)) M') as (C' & _).
        apply (same_item _ _ _ _ _ _ C C' Q). left. exact D. }
      apply G. auto.
    - intros (ns, d) (ns', d') I I' z m z' m' M M' Q. destruct (fwd_type _ _ _ _ I M) as (C & D). apply (same_item _ _ _ _ _ _ C (data_from _ _ _ _ I' M') Q). left. exact D.
  Qed.
  Lemma fns_apart : ForallOrdPairs apart (List.concat defs) <-> ForallOrdPairs (fun f g => qualified (fn_name f) = qualified (fn_name g) -> ~ same_params apis f g) (rust_functions apis).
  Proof using Hacc Hdefs.
    symmetry. eapply fop_forall2; [|exact (defs_fns apis defs Hdefs)]. intros f x g y (ret & cs & -> & P) (ret' & cs' & -> & P'). unfold apart. cbn [fst snd means]. split.
    - intros H z m z' m' M M' Q. injection M as <- <-. injection M' as <- <-. cbn [agree]. intros <-. apply (H Q). exists cs. auto.
    - intros H Q (ks & S & S'). specialize (H _ _ _ _ eq_refl eq_refl Q). cbn [agree] in H. apply H. rewrite (params_fun _ _ _ _ P S), (params_fun _ _ _ _ P' S'). reflexivity.
  Qed.
  Lemma name_decl p : header_name apis p -> exists d m, In (p_ns p, d) header /\ means d = Some (p_cxx p, m).
  Proof using Hacc Hagree Hfuel Htoks Hdefs.
    intros [q H|f H].
    - destruct (type_fwd q H) as (d & m & I & M & _). exists d, m. split; [apply in_or_app; left; exact I|exact M].
    - destruct (forall2_in_l _ _ _ _ (defs_fns apis defs Hdefs) H) as (x & I & (ret & cs & -> & _)). eexists _, _. split; [apply in_or_app; right; apply in_or_app; right; exact I|reflexivity].
  Qed.
  Lemma decl_from ns d x m : In (ns, d) header -> means d = Some (x, m) -> exists p, header_name apis p /\ ns = p_ns p /\ x = p_cxx p.
  Proof using Hacc Hagree Hfuel Htoks Hdefs Hdata.
    intros I M. apply in_app_or in I as [I|I]; [|apply in_app_or in I as [I|I]].
    - destruct (fwd_type _ _ _ _ I M) as ((a & p & _ & _ & H & E1 & E2 & _) & _). exists p. split; [apply hn_type, H|auto].
    - destruct (data_from _ _ _ _ I M) as (a & p & _ & _ & H & E1 & E2 & _). exists p. split; [apply hn_type, H|auto].
    - destruct (forall2_in_r _ _ _ _ (defs_fns apis defs Hdefs) I) as (f & H & (ret & cs & E & _)). injection E as -> ->. cbn [means] in M. injection M as <- _. exists (fn_name f). split; [apply hn_fn, H|auto].
  Qed.
  Lemma place_from ns d : In (ns, d) header -> exists q, header_place apis q /\ ns = p_ns q.
  Proof using Hacc Hagree Hfuel Htoks Hdefs Hdata.
    intros I. destruct (means d) as [(x, m)|] eqn:M; [destruct (decl_from _ _ _ _ I M) as (p & H & E & _); exists p; split; [apply hp_name, H|exact E]|].
    apply in_app_or in I as [I|I]; [|apply in_app_or in I as [I|I]].
    - exfalso. destruct (fwd_facts gen ord apis T fuel Hacc Hagree Hfuel toks Htoks) as (r & Q & _). rewrite Q in I. apply in_flat_map in I as ((ns', a) & _ & J). cbn [fst snd] in J.
      apply in_map_iff in J as (d' & E & J). injection E as -> ->. destruct a; cbn [forward_decl] in J; try (destruct J; fail); destruct J as [<-|[]]; discriminate M.
    - destruct (forall2_in_r _ _ _ _ data_forall2 I) as (e & _ & (Ie & D1 & D2)). cbn [fst snd] in D1, D2. rewrite M in D2. destruct D2 as (en & ->). exists (en_name en). split; [|exact D1].
      apply (em_other gen ord apis T Hacc (EmCheckEnum en) Logic.I) in Ie as (a & Ia & J). destruct a; try destruct J; [|discriminate|destruct H].
      destruct (inc (p_rust (en_name e))); [|destruct J as [J|[]]; discriminate]. destruct (en_from_header e) eqn:Fh; [destruct J|]. destruct J as [J|[]]. injection J as <-. apply hp_checked; assumption.
    - destruct (forall2_in_r _ _ _ _ (defs_fns apis defs Hdefs) I) as (f & H & (ret & cs & E & _)). injection E as -> ->. discriminate M.
  Qed.
  Lemma place_decl q : header_place apis q -> exists d, In (p_ns q, d) header.
  Proof using Hacc Hagree Hfuel Htoks Hdefs Hdata.
    intros [p H|e H F]; [destruct (name_decl p H) as (d & m & I & _); eauto|].
    destruct (inc (p_rust (en_name e))) eqn:Q.
    - assert (I : In (EmCheckEnum e) em).
      { apply (em_other gen ord apis T Hacc (EmCheckEnum e) Logic.I). exists (AEnum e). split; [exact H|]. cbv beta. rewrite Q, F. left. reflexivity. }
      destruct (forall2_in_l _ _ _ _ data_forall2 I) as ((ns, d) & J & (_ & D1 & _)). cbn [fst em_pair] in D1. subst ns. exists d. apply in_or_app. right. apply in_or_app. left. exact J.
    - destruct (name_decl (en_name e)) as (d & m & I & _); [|eauto]. apply hn_type, ht_enum; [exact H|]. rewrite <- (inc_ok gen ord apis T Hacc), Q. discriminate.
  Qed.
  Lemma header_iff : one_meaning header <-> names_apart apis.
  Proof using Hacc Hagree Hfuel Htoks Hdefs Hdata.
    unfold one_meaning. rewrite app_assoc, fop_app, fns_apart. rewrite <- app_assoc. split.
    - intros ((_ & O & X) & N). constructor; [exact O| |].
      + intros f p If Hp Q. destruct (type_fwd p Hp) as (d & m & I & M & Z). destruct (forall2_in_l _ _ _ _ (defs_fns apis defs Hdefs) If) as (x & J & (ret & cs & -> & _)).
        specialize (X _ _ (in_or_app _ _ _ (or_introl I)) J _ _ _ _ M eq_refl (eq_sym Q)). destruct m; cbn [agree] in X; contradiction.
      + intros p q rest Hp Hq Q. destruct (name_decl p Hp) as (d & m & I & M). destruct (place_decl q Hq) as (d' & I'). apply (N _ _ _ _ _ _ rest I M I'). rewrite Q. unfold qualified. rewrite <- app_assoc. reflexivity.
    - intros [O Ty Ns]. split.
      + split; [exact types_apart|]. split; [exact O|]. intros (ns, d) y I J z m z' m' M M' Q. exfalso.
        assert (C : comes_from ns z m) by (apply in_app_or in I as [I|I]; [eapply fwd_type; eassumption|eapply data_from; eassumption]).
        destruct (forall2_in_r _ _ _ _ (defs_fns apis defs Hdefs) J) as (f & If & (ret & cs & -> & _)). cbn [snd means] in M'. injection M' as <- _. cbn [fst] in Q.
        destruct C as (a & p & _ & _ & H & -> & -> & _). apply (Ty f p If H). symmetry. exact Q.
      + intros ns d x m ns' d' rest I M I' Q. destruct (decl_from _ _ _ _ I M) as (p & Hp & -> & ->). destruct (place_from _ _ I') as (q & Hq & E). apply (Ns p q rest Hp Hq). rewrite <- E, Q.
        unfold qualified. rewrite <- app_assoc. reflexivity.
  Qed.
End Header.
