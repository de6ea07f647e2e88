(** C74-C77: from a source file to its bridges. *)
From Verif Require Import Base Syntax_Model Cfg_Model Cfg_Spec Cfg_Proofs Types_Model Types_Spec Types_Props Check_Model Check_Spec Check_Proofs Check_Props
  Mangle_Model Mangle_Spec Mangle_Props ParseTy_Model Attrs_Model Attrs_Spec Attrs_Proofs Parse_Model Parse_Spec Parse_Proofs Parse_Props
  File_Model File_Spec File_Proofs File_Proofs2.
From Coq Require Import Sorting.Sorted.

(** * C74: every bridge of a file is found *)
(** The modules found are the bridges, at any depth, in the order of the source, each with its
    attributes, the namespace written in its attribute and all of its items. *)
Theorem C74_found : forall lex keyword file ms, keyword "::" = false -> parse_fitems lex keyword file = Ok ms ->
  exists ps, StronglySorted before ps /\ (forall p, In p ps <-> bridge_at file p) /\
    Forall2 (fun p m => exists i, item_at file p = Some i /\ reads lex keyword i m) ps ms.
Proof. intros lex keyword file ms K. exact (file_found lex keyword K file ms). Qed.
Print Assumptions C74_found.

(** A file can be read if and only if each of its bridges can. *)
Theorem C74_readable : forall lex keyword file, keyword "::" = false ->
  (exists ms, parse_fitems lex keyword file = Ok ms) <->
  (forall p i, item_at file p = Some i -> bridge_at file p -> exists m, reads lex keyword i m).
Proof.
  intros lex keyword file K. split.
  - intros (ms & E) p i A B. apply (file_found lex keyword K) in E as (ps & _ & I & F). apply I in B.
    clear - A B F. induction F as [|q m ps ms (j & Aj & R) F IH]; [destruct B|]. destruct B as [->|B]; [|auto].
    exists m. assert (j = i) by congruence. subst. exact R.
  - apply (file_readable lex keyword K).
Qed.
Print Assumptions C74_readable.

(** The bridges that are inside of bridges are not forgotten either: the file is rejected. *)
Theorem C74_nested : forall lex keyword experimental async_fn allow cev c ord file apis T, keyword "::" = false -> completion cev c ->
  generate lex keyword experimental async_fn allow cev ord file = Ok (apis, T) ->
  forall p i, bridge_at file p -> item_at file p = Some i -> switched c i true ->
  forall n j, item_at file (p ++ [n]) = Some j -> exists attrs k, j = FItem attrs k.
Proof.
  intros lex keyword experimental async_fn allow cev c ord file apis T K C G p i B A S n j J.
  destruct (generated lex keyword K experimental async_fn allow cev c ord file apis T C G) as ((ps & outss & (_ & E) & F & _) & _).
  assert (I : In p ps) by (apply E; eauto).
  destruct (Forall2_in _ _ _ _ F I) as (outs & _ & i' & A' & m & R & P). assert (i' = i) by congruence. subst i'.
  destruct R as (attrs & un & x & inner & items & pre & a & post & ns & -> & _ & _ & _ & _ & ->).
  assert (In_ : In j items).
  { assert (X : inside (FMod attrs un x (Some (inner, items))) [n] = Some j).
    { clear - A J. destruct p as [|k p]; [discriminate|]. cbn in A, J. destruct (nth_error file k) as [r|]; [|discriminate].
      revert r A J. induction p as [|k' p IH]; intros r A J; [cbn in A; injection A as ->; exact J|].
      cbn [app] in J. cbn [inside] in A, J. destruct r as [? ? ? [[? l]|]|]; try discriminate. destruct (nth_error l k'); [|discriminate]. eauto. }
    cbn in X. destruct (nth_error items n) eqn:E'; [|discriminate]. injection X as ->. eapply nth_error_In. exact E'. }
  cbn in P. apply items_sound in P; [|exact K]. destruct P as (os & F2 & _).
  assert (Im : In (as_item j) (map as_item items)) by (apply in_map; exact In_).
  destruct (Forall2_in _ _ _ _ F2 Im) as (o & _ & Q). destruct j as [? ? ? ?|attrs' k]; [cbn in Q; inversion Q|eauto].
Qed.
Print Assumptions C74_nested.

(** A module with a bridge attribute that is written in another way (after `use cxx::bridge;`) is
    passed over without a word: the compiler expands it, and nothing is generated for it. *)
Definition bridge_ : sattr := SAttr false ["cxx"; "bridge"] MPath.
Definition mod_ attrs items := FMod attrs false "ffi" (Some ([], map (FItem []) items)).
Definition block_ abi l := ItForeign (SBlock [] (String.eqb abi "C++") (Some abi) l).
Definition type_ x := FType (SType [] x no_generics).
Definition named x := RPath false false [] x ANone.
Definition over g x := RPath false false [] g (AAngle (ATy (named x) ANil)).
Definition takes f args := FFn (SFn [] f no_generics false false false false false None (map (fun t => SArg [] (PIdent "x") t) args) RetDefault).
Definition cev0 : evaluator := Cfg_Model.unsupported.
Notation gen_ := (generate all_idents no_keyword false false true cev0 id_order).
Notation macro_ := (expand_bridge all_idents no_keyword false false id_order []).

Theorem C74_imported_refuted : exists file i a p,
  (exists r, gen_ file = Ok r /\ gen_ (firstn 1 file) = Ok r) /\
  item_at file p = Some i /\ In a (attrs_of i) /\ a_path a = ["bridge"] /\ p <> [0%nat] /\
  exists outs T, macro_ [] false (match i with FMod _ _ _ b => b | _ => None end) = Ok (outs, T) /\ outs <> [].
Proof.
  pose (i := mod_ [SAttr false ["bridge"] MPath] [block_ "C++" [type_ "D"]]).
  exists [mod_ [bridge_] [block_ "C++" [type_ "C"]]; FItem [] ItUse; i], i, (SAttr false ["bridge"] MPath), [2%nat].
  split; [eexists; split; vm_compute; reflexivity|]. split; [reflexivity|]. split; [left; reflexivity|]. split; [reflexivity|].
  split; [discriminate|]. eexists _, _. split; [vm_compute; reflexivity|discriminate].
Qed.
Print Assumptions C74_imported_refuted.

Example C74_nonvacuous :
  let inner := FMod [SAttr false ["cxx"; "bridge"] (MList [KIdent "namespace"; KEq; KIdent "a"; KPunct "::"; KIdent "b"])] true "ffi" (Some ([], [FItem [] ItUse])) in
  let file := [mod_ [bridge_] []; FMod [] false "m" (Some ([], [FItem [] ItOther; inner])); FItem [] ItOther] in
  bridge_at file [0%nat] /\ bridge_at file [1%nat; 1%nat] /\
  (exists ms, parse_fitems all_idents no_keyword file = Ok ms /\ map mo_namespace ms = [[]; ["a"; "b"]] /\ map mo_unsafe ms = [false; true]) /\
  (* a bridge without a body, and one that is not a module *)
  (forall ms, parse_fitems all_idents no_keyword [FMod [bridge_] false "m" None] <> Ok ms) /\
  (forall ms, parse_fitems all_idents no_keyword [FItem [bridge_] ItOther] <> Ok ms).
Proof.
  cbv zeta. split; [|split; [|split; [eexists; split; [reflexivity|split; reflexivity]|split; intros ms; discriminate]]].
  - split.
    + eexists. split; [reflexivity|]. exists bridge_. split; [left; reflexivity|reflexivity].
    + intros [|n q] r i E N A; [discriminate|]. destruct q; [|discriminate]. destruct r; [congruence|discriminate].
  - split.
    + eexists. split; [reflexivity|]. eexists. split; [left; reflexivity|reflexivity].
    + intros [|n [|m [|k q]]] r i E N A; try discriminate.
      * cbn in E. injection E as <- E. cbn in A. injection A as <-. intros (a & [] & _).
      * cbn in E. injection E as <- <- E. destruct r; [congruence|discriminate].
Qed.

(** * C75: both programs read the same bridge *)
(** What the generator works on are the declarations that the macro reads in the bridges that are
    switched on, in order, without the ones that are switched off themselves.  This is so for
    every configuration that agrees with what the generator knows about it, whatever attributes
    the macro is given along with the module. *)
Theorem C75_same_declarations : forall lex keyword experimental async_fn allow cev c ord file apis T,
  keyword "::" = false -> completion cev c -> generate lex keyword experimental async_fn allow cev ord file = Ok (apis, T) ->
  exists ps outss, enabled_bridges c file ps /\
    Forall2 (fun p outs => exists i, item_at file p = Some i /\
      forall ord' outs' T', macro_expands lex keyword experimental async_fn ord' i outs' T' -> outs' = outs) ps outss /\
    apis = enabled c (map o_api (List.concat outss)).
Proof.
  intros lex keyword experimental async_fn allow cev c ord file apis T K C G.
  destruct (generated lex keyword K experimental async_fn allow cev c ord file apis T C G) as ((ps & outss & E & F & A) & _).
  exists ps, outss. split; [exact E|]. split; [|exact A]. clear - F K. induction F as [|p outs ps outss (i & At & R) F IH]; constructor; auto.
  exists i. split; [exact At|]. intros ord' outs' T' M. eapply macro_same; eauto.
Qed.
Print Assumptions C75_same_declarations.

(** A file with one bridge from which no condition takes anything away: what the generator accepts
    the macro accepts, with the same declarations and types.  The attributes of the module are
    those that the macro knows. *)
Definition macro_attr lex keyword experimental (a : sattr) : Prop :=
  exists e, means lex keyword experimental a e /\ match e with EDoc _ | EHidden | ECfg _ | ELint | EFormat => True | _ => False end.
Theorem C75_accepted_partial : forall lex keyword experimental async_fn allow cev c ord file apis T p pre a post un x inner items args,
  keyword "::" = false -> completion cev c -> generate lex keyword experimental async_fn allow cev ord file = Ok (apis, T) ->
  enabled_bridges c file [p] ->
  item_at file p = Some (FMod (pre ++ a :: post) un x (Some (inner, items))) -> Forall (fun b => ~ names_bridge b) pre -> names_bridge a ->
  a_meta a = MPath /\ args = [] \/ a_meta a = MList args ->
  Forall (macro_attr lex keyword experimental) (pre ++ post ++ inner) ->
  exists outs, apis = enabled c (map o_api outs) /\
    (apis = map o_api outs -> expand_bridge lex keyword experimental async_fn ord args (pre ++ post) un (Some (inner, items)) = Ok (outs, T)).
Proof.
  intros lex keyword experimental async_fn allow cev c ord file apis T p pre a post un x inner items args K C G E1 At Fp Na Ar Fm.
  destruct (generated lex keyword K experimental async_fn allow cev c ord file apis T C G) as ((ps & outss & E & F & A) & _ & Co & _ & Ty).
  pose proof (enabled_unique _ K _ _ _ _ E1 E) as <-. inversion F as [|? outs ? os (i & At' & m & R & P) Fn]; subst. inversion Fn; subst. clear Fn F.
  rewrite At in At'. injection At' as <-.
  exists outs. cbn [List.concat] in *. rewrite app_nil_r in *. split; [reflexivity|]. intros Eq. rewrite Eq in *. clear G.
  destruct R as (attrs & un' & x' & inner' & items' & pre' & a' & post' & ns & E' & -> & Fp' & Na' & Ba & ->). injection E' as E' <- <- <- <-.
  pose proof (first_split _ _ _ _ _ _ E' Fp Na Fp' Na') as <-. cbn in P.
  unfold expand_bridge. assert (Pn : parse_bridge_namespace lex keyword args = Ok ns).
  { apply (bridge_namespace_ok _ _ K). destruct Ar as [[M ->]|M]; rewrite M in Ba; inversion Ba; subst; [constructor|assumption]. }
  rewrite Pn. cbn [bind parse_module mo_attrs mo_unsafe mo_content].
  assert (Fe : exists effs, Forall2 (means lex keyword experimental) ((pre ++ post) ++ inner) effs /\
                 Forall (allowed (Parser (Some CUnconditional) (Some ([], false)) None None None None None None false)) effs).
  { rewrite <- app_assoc. clear - Fm. induction Fm as [|b l (e & M & S) F IH]; [exists []; split; constructor|].
    destruct IH as (effs & F1 & F2). exists (e :: effs). split; constructor; auto. destruct e; cbn; try destruct S; try discriminate; exact Logic.I. }
  destruct Fe as (effs & F1 & F2). pose proof (parse_complete _ _ _ K _ _ F1 _ F2) as Pa. rewrite Pa. cbn [bind].
  rewrite P. cbn [bind]. rewrite Co. cbn [app]. rewrite (typecheck_macro _ _ Ty). reflexivity.
Qed.
Print Assumptions C75_accepted_partial.

(** With several bridges this is false: the generator looks at their declarations together, so
    that a bridge may use a type of another one; the macro sees one at a time. *)
Theorem C75_several_refuted : exists b1 b2 r,
  let file := [mod_ [bridge_] b1; mod_ [bridge_] b2] in
  gen_ file = Ok r /\ fst r <> [] /\ (exists r1, macro_ [] false (Some ([], map (FItem []) b1)) = Ok r1) /\
  forall rest r2, macro_ rest false (Some ([], map (FItem []) b2)) <> Ok r2.
Proof.
  exists [block_ "C++" [type_ "C"]], [block_ "C++" [takes "f" [RRef None false (named "C")]]]. eexists. cbv zeta.
  split; [vm_compute; reflexivity|]. split; [discriminate|]. split; [eexists; vm_compute; reflexivity|].
  intros rest r2. unfold expand_bridge. cbn [bind parse_bridge_namespace parse_module mo_attrs mo_unsafe mo_content].
  destruct (attrs_parse _ _ _ _ (rest ++ [])) as [[p1 p2] es]. vm_compute. destruct es; discriminate.
Qed.
Print Assumptions C75_several_refuted.

Example C75_nonvacuous :
  let off := SAttr false ["cfg"] (MList [KIdent "any"; KGroup []]) in
  let file := [mod_ [bridge_] [block_ "C++" [type_ "C"]]; mod_ [bridge_; off] [block_ "C++" [type_ "D"]]; mod_ [bridge_] [block_ "Rust" [type_ "E"]]] in
  exists apis T, gen_ file = Ok (apis, T) /\ map decl_name apis = [Some (Pair [] "C" "C"); Some (Pair [] "E" "E")] /\
  completion cev0 (fun _ _ => false).
Proof.
  cbv zeta. eexists _, _. split; [vm_compute; reflexivity|]. split; [reflexivity|]. intros k v b H. discriminate.
Qed.

(** * C76: the symbols of a file *)
Definition C76_claim : Prop := forall lex keyword experimental async_fn allow cev c ord file apis T ps rs,
  keyword "::" = false -> hash_order ord -> completion cev c -> generate lex keyword experimental async_fn allow cev ord file = Ok (apis, T) ->
  enabled_bridges c file ps ->
  Forall2 (fun p r => exists i ord', hash_order ord' /\ item_at file p = Some i /\ macro_expands lex keyword experimental async_fn ord' i (fst r) (snd r)) ps rs ->
  enabled c (map o_api (List.concat (map fst rs))) = map o_api (List.concat (map fst rs)) -> wf_bridge apis ->
  forall s, In (Some s) (cxx_defs T apis) <-> exists r, In r rs /\ In (Some s) (rust_imports (snd r) (map o_api (fst r))).

(** False: the second bridge has a unique_ptr to the struct it declares; the first one names the
    same struct through an alias.  The generator takes the struct for an alias, of which somebody
    else will instantiate unique_ptr, so that what the second macro refers to is never defined. *)
Definition alias_ x := FVerbatimType [] x [] TailAlias.
Definition struct_ := ItStruct (SStruct [] "S" no_generics (FNamed [SField [] "x" (named "i32")])).
Definition b1_ := [block_ "C++" [alias_ "S"]].
Definition b2_ := [struct_; block_ "C++" [takes "f" [over "UniquePtr" "S"]]].
Definition file_ := [mod_ [bridge_] b1_; mod_ [bridge_] b2_].
Lemma unwrap {A} (r : res A) a : r = Ok a -> exists b, r = Ok b.
Proof. eauto. Qed.
Lemma file_bridges c : enabled_bridges c file_ [[0%nat]; [1%nat]].
Proof.
  split; [constructor; [constructor; [constructor|constructor]|constructor; [apply bf_lt; lia|constructor]]|].
  assert (Sw : forall i n, nth_error file_ n = Some i -> switched c i true).
  { intros i n E. exists []. split; [|reflexivity]. destruct n as [|[|[|n]]]; cbn in E; try discriminate; injection E as <-; cbn;
      apply co_other; try constructor; intros (_ & X); discriminate X. }
  assert (Br : forall i n, nth_error file_ n = Some i -> bridged i).
  { intros i n E. exists bridge_. split; [|reflexivity]. destruct n as [|[|[|n]]]; cbn in E; try discriminate; injection E as <-; left; reflexivity. }
  intros p. split.
  - intros [<-|[<-|[]]]; (split; [split|]);
      try (eexists; split; [reflexivity|]; first [eapply (Br _ 0%nat); reflexivity|eapply (Br _ 1%nat); reflexivity|eapply (Sw _ 0%nat); reflexivity|eapply (Sw _ 1%nat); reflexivity]);
      intros q r i E N A; (destruct q as [|k q]; [discriminate|]); (destruct q; [|discriminate]); (destruct r; [congruence|discriminate]).
  - intros [[(i & A & _) H] _]. destruct p as [|n p]; [discriminate|]. cbn in A. destruct (nth_error file_ n) as [k|] eqn:E; [|discriminate].
    destruct p as [|m p].
    + destruct n as [|[|[|n]]]; cbn in E; try discriminate; cbn; tauto.
    + exfalso. apply (H [n] (m :: p) k eq_refl ltac:(discriminate)); [cbn; rewrite E; reflexivity|exact (Br _ _ E)].
Qed.
Lemma macro_of b outs T : macro_ [] false (Some ([], map (FItem []) b)) = Ok (outs, T) -> macro_expands all_idents no_keyword false false id_order (mod_ [bridge_] b) outs T.
Proof.
  intros E. exists [bridge_], false, "ffi", (Some ([], map (FItem []) b)), [], bridge_, [], [], []. split; [reflexivity|]. split; [reflexivity|].
  split; [constructor|]. split; [reflexivity|]. split; [left; split; reflexivity|exact E].
Qed.
Lemma names_of apis : wf_bridgeb apis = true -> wf_bridge apis.
Proof. apply wf_bridgeb_ok. Qed.

Theorem C76_links_refuted : ~ C76_claim.
Proof.
  intros H.
  destruct (gen_ file_) as [[apis T]| |] eqn:G; [|vm_compute in G; discriminate|vm_compute in G; discriminate].
  destruct (macro_ [] false (Some ([], map (FItem []) b1_))) as [[o1 T1]| |] eqn:M1; [|vm_compute in M1; discriminate|vm_compute in M1; discriminate].
  destruct (macro_ [] false (Some ([], map (FItem []) b2_))) as [[o2 T2]| |] eqn:M2; [|vm_compute in M2; discriminate|vm_compute in M2; discriminate].
  specialize (H all_idents no_keyword false false true cev0 (fun _ _ => false) id_order file_ apis T [[0%nat]; [1%nat]] [(o1, T1); (o2, T2)]
    eq_refl id_hash ltac:(intros k v b X; discriminate) G (file_bridges _)).
  assert (W : wf_bridge apis) by (vm_compute in G; injection G as <- <-; apply wf_bridgeb_ok; reflexivity).
  assert (E : enabled (fun _ _ => false) (map o_api (List.concat [o1; o2])) = map o_api (List.concat [o1; o2]))
    by (vm_compute in M1, M2; injection M1 as <- _; injection M2 as <- _; reflexivity).
  specialize (H ltac:(constructor; [|constructor; [|constructor]]; eexists _, id_order; (split; [exact id_hash|split; [reflexivity|apply macro_of; assumption]])) E W
    "cxxbridge1$unique_ptr$S$get").
  assert (X : In (Some "cxxbridge1$unique_ptr$S$get") (rust_imports T2 (map o_api o2)))
    by (vm_compute in M2; injection M2 as <- <-; vm_compute; tauto).
  pose proof (proj2 H (ex_intro _ (o2, T2) (conj (or_intror (or_introl eq_refl)) X))) as Y.
  vm_compute in G. injection G as <- <-. vm_compute in Y. repeat (destruct Y as [Y|Y]; [discriminate|]). exact Y.
Qed.
Print Assumptions C76_links_refuted.

(** If no type name is declared in two bridges, what Rust refers to is what C++ defines, and what
    C++ declares is what Rust exports; no name is missing. *)
Lemma item_name_mono b apis p : incl b apis -> item_name b p -> item_name apis p.
Proof.
  intros I [q lts D|s f S F|e v S F|f S|f x t S F].
  - apply (in_type _ _ lts). destruct D; [apply Check_Spec.de_struct|apply Check_Spec.de_enum|apply Check_Spec.de_cxx|apply Check_Spec.de_rust|apply Check_Spec.de_alias]; apply I; assumption.
  - eapply in_field; eauto.
  - eapply in_variant; eauto.
  - apply in_fn. destruct S; [left|right]; apply I; assumption.
  - eapply in_arg; [|eauto]. destruct S; [left|right]; apply I; assumption.
Qed.
Lemma macro_accepted lex keyword experimental async_fn ord i outs T : hash_order ord ->
  macro_expands lex keyword experimental async_fn ord i outs T -> accepted_bridge GMacro ord (map o_api outs) T.
Proof.
  intros O (attrs & un & x & body & pre & a & post & args & rest & _ & _ & _ & _ & _ & E). unfold expand_bridge in E.
  apply bind_ok in E as (ns & _ & E). apply bind_ok in E as (m & _ & E). destruct (attrs_parse _ _ _ _ (mo_attrs m)) as [[? ?] es].
  apply bind_ok in E as ([outs1 es1] & _ & E). destruct (collect ord (map o_api outs1)) as [[T1 errs]|] eqn:Co; [|discriminate].
  destruct (es ++ es1); [|discriminate]. destruct errs; [|discriminate]. destruct (typecheck GMacro T1 (map o_api outs1)) eqn:Ty; [|discriminate].
  injection E as -> ->. split; [split; assumption|exact Ty].
Qed.
Theorem C76_links_partial : forall lex keyword experimental async_fn allow cev c ord file apis T ps rs,
  keyword "::" = false -> hash_order ord -> completion cev c -> generate lex keyword experimental async_fn allow cev ord file = Ok (apis, T) ->
  enabled_bridges c file ps ->
  Forall2 (fun p r => exists i ord', hash_order ord' /\ item_at file p = Some i /\ macro_expands lex keyword experimental async_fn ord' i (fst r) (snd r)) ps rs ->
  enabled c (map o_api (List.concat (map fst rs))) = map o_api (List.concat (map fst rs)) -> wf_bridge apis ->
  names_apart (map (fun r => map o_api (fst r)) rs) ->
  (forall s, In (Some s) (cxx_defs T apis) <-> exists r, In r rs /\ In (Some s) (rust_imports (snd r) (map o_api (fst r)))) /\
  (forall s, In (Some s) (cxx_decls T apis) <-> exists r, In r rs /\ In (Some s) (rust_exports (snd r) (map o_api (fst r)))) /\
  (forall s, In (Some s) (cxx_calls T apis) <-> exists r, In r rs /\ In (Some s) (rust_exports (snd r) (map o_api (fst r)))) /\
  ~ In None (cxx_defs T apis ++ cxx_decls T apis ++ cxx_calls T apis) /\
  (forall r, In r rs -> ~ In None (rust_imports (snd r) (map o_api (fst r)) ++ rust_exports (snd r) (map o_api (fst r)))).
Proof.
  intros lex keyword experimental async_fn allow cev c ord file apis T ps rs K O C G E F U W N.
  destruct (generated lex keyword K experimental async_fn allow cev c ord file apis T C G) as ((qs & outss & E' & F' & A) & _ & Co & _ & Ty).
  pose proof (enabled_unique _ K _ _ _ _ E' E) as ->.
  assert (Eo : outss = map fst rs).
  { clear - K F F'. revert outss F'. induction F as [|p r ps rs (i & ord' & _ & At & M) F IH]; intros outss F'; inversion F' as [|? outs ? os (i' & At' & R) F'']; subst; [reflexivity|].
    cbn. f_equal; [|auto]. assert (i' = i) by congruence. subst i'. symmetry. eapply macro_same; eauto. }
  subst outss. rewrite U in A. rewrite concat_map, map_map in A. set (bss := map (fun r => map o_api (fst r)) rs) in *.
  assert (Acc : forall r, In r rs -> exists ord', accepted_bridge GMacro ord' (map o_api (fst r)) (snd r)).
  { intros r I. clear - F I. induction F as [|p r' ps rs (i & ord' & O' & _ & M) F IH]; [destruct I|]. destruct I as [->|I]; [|auto].
    exists ord'. eapply macro_accepted; eauto. }
  assert (Accb : forall b, In b bss -> exists gen ord T, accepted_bridge gen ord b T).
  { intros b I. apply in_map_iff in I as (r & <- & I). destruct (Acc r I) as (ord' & H). eauto. }
  assert (Acca : accepted_bridge GBuild ord apis T) by (split; [split; assumption|exact Ty]).
  destruct (C12_symbols_agree _ _ _ _ Acca W) as (N0 & _ & Sd & _ & Sc & Sl).
  assert (Inc : forall r, In r rs -> incl (map o_api (fst r)) apis).
  { intros r I a Ia. rewrite A. apply in_concat. exists (map o_api (fst r)). split; [|exact Ia]. apply (in_map (fun r => map o_api (fst r))). exact I. }
  assert (Wr : forall r, In r rs -> wf_bridge (map o_api (fst r))).
  { intros r I p Ip. apply W. eapply item_name_mono; [apply Inc; exact I|exact Ip]. }
  assert (Q : forall r, In r rs ->
     (~ In None (rust_imports (snd r) (map o_api (fst r)) ++ rust_exports (snd r) (map o_api (fst r)))) /\
     (forall s, In (Some s) (rust_imports (snd r) (map o_api (fst r))) <-> exists e, cxx_provides (map o_api (fst r)) e /\ s = link_name e) /\
     (forall s, In (Some s) (rust_exports (snd r) (map o_api (fst r))) <-> exists e, rust_provides (map o_api (fst r)) e /\ s = link_name e)).
  { intros r I. destruct (Acc r I) as (ord' & H). destruct (C12_symbols_agree _ _ _ _ H (Wr r I)) as (N1 & S1 & _ & S2 & _).
    split; [|split; assumption]. intros X. apply N1. apply in_app_or in X as [X|X]; apply in_or_app; [left; exact X|right].
    apply in_or_app. right. apply in_or_app. left. exact X. }
  assert (PC : forall e, cxx_provides apis e <-> exists r, In r rs /\ cxx_provides (map o_api (fst r)) e).
  { intros e. rewrite A. rewrite (cxx_provides_all bss N Accb e). split.
    - intros (b & I & P). apply in_map_iff in I as (r & <- & I). eauto.
    - intros (r & I & P). exists (map o_api (fst r)). split; [apply (in_map (fun r => map o_api (fst r))); exact I|exact P]. }
  assert (PR : forall e, rust_provides apis e <-> exists r, In r rs /\ rust_provides (map o_api (fst r)) e).
  { intros e. rewrite A. rewrite (rust_provides_all bss N Accb e). split.
    - intros (b & I & P). apply in_map_iff in I as (r & <- & I). eauto.
    - intros (r & I & P). exists (map o_api (fst r)). split; [apply (in_map (fun r => map o_api (fst r))); exact I|exact P]. }
  assert (RX : forall s, (exists e, rust_provides apis e /\ s = link_name e) <-> exists r, In r rs /\ In (Some s) (rust_exports (snd r) (map o_api (fst r)))).
  { intros s. split.
    - intros (e & P & ->). apply PR in P as (r & I & P). exists r. split; [exact I|]. apply (proj2 (proj2 (Q r I))). eauto.
    - intros (r & I & X). apply (proj2 (proj2 (Q r I))) in X as (e & P & ->). exists e. split; [apply PR; eauto|reflexivity]. }
  split; [|split; [|split; [|split]]].
  - intros s. rewrite Sd. split.
    + intros (e & P & ->). apply PC in P as (r & I & P). exists r. split; [exact I|]. apply (proj1 (proj2 (Q r I))). eauto.
    + intros (r & I & X). apply (proj1 (proj2 (Q r I))) in X as (e & P & ->). exists e. split; [apply PC; eauto|reflexivity].
  - intros s. rewrite Sc. apply RX.
  - intros s. rewrite Sl. apply RX.
  - intros X. apply N0. rewrite !in_app_iff in *. tauto.
  - intros r I. exact (proj1 (Q r I)).
Qed.
Print Assumptions C76_links_partial.

(** With one bridge, the names are apart. *)
Lemma single_apart : forall (r : list out * types), names_apart (map (fun r => map o_api (fst r)) [r]).
Proof.
  intros r i j b b' a a' p q Hi Hj _ _ _ _ _. destruct i as [|[|i]], j as [|[|j]]; try discriminate; reflexivity.
Qed.


Definition b3_ := [block_ "C++" [type_ "C"; takes "g" [over "UniquePtr" "C"]]].
Example C76_nonvacuous : exists apis T o1 T1 o2 T2,
  gen_ [mod_ [bridge_] b2_; mod_ [bridge_] b3_] = Ok (apis, T) /\
  macro_ [] false (Some ([], map (FItem []) b2_)) = Ok (o1, T1) /\ macro_ [] false (Some ([], map (FItem []) b3_)) = Ok (o2, T2) /\
  wf_bridge apis /\ names_apart [map o_api o1; map o_api o2] /\
  enabled (fun _ _ => false) (map o_api (o1 ++ o2)) = map o_api (o1 ++ o2) /\
  In (Some "cxxbridge1$unique_ptr$S$get") (cxx_defs T apis) /\ In (Some "cxxbridge1$unique_ptr$S$get") (rust_imports T1 (map o_api o1)) /\
  In (Some "cxxbridge1$g") (cxx_defs T apis) /\ In (Some "cxxbridge1$g") (rust_imports T2 (map o_api o2)).
Proof.
  eexists _, _, _, _, _, _. split; [vm_compute; reflexivity|]. split; [vm_compute; reflexivity|]. split; [vm_compute; reflexivity|].
  split; [apply wf_bridgeb_ok; reflexivity|]. split.
  - intros i j b b' a a' p q Hi Hj Ha Ha' Da Da' E.
    destruct i as [|[|[|i]]], j as [|[|[|j]]]; try discriminate; try reflexivity; exfalso; cbn in Hi, Hj; injection Hi as <-; injection Hj as <-; cbn in Ha, Ha';
      repeat (destruct Ha as [<-|Ha]; [|]); try destruct Ha; cbn in Da; try discriminate; injection Da as <-;
      repeat (destruct Ha' as [<-|Ha']; [|]); try destruct Ha'; cbn in Da'; try discriminate; injection Da' as <-; discriminate.
  - split; [reflexivity|]. vm_compute. tauto.
Qed.

(** * C77: includes relative to the including file *)
(** Where these are not allowed (in builds by cargo), an accepted file has no include whose first
    component is `.` or `..`; of the files that are accepted where they are allowed, only those
    that do have one are rejected. *)
Theorem C77_relative_includes : forall lex keyword experimental async_fn cev ord file apis T,
  generate lex keyword experimental async_fn false cev ord file = Ok (apis, T) <->
  generate lex keyword experimental async_fn true cev ord file = Ok (apis, T) /\ forall i, In (AInclude i) apis -> ~ relative (in_path i).
Proof.
  intros lex keyword experimental async_fn cev ord file apis T. unfold generate.
  destruct (parse_fitems lex keyword file) as [ms| |]; cbn [bind]; [|split; [discriminate|intros [X _]; discriminate]|split; [discriminate|intros [X _]; discriminate]].
  destruct ms as [|m ms]; [split; [discriminate|intros [X _]; discriminate]|].
  destruct (gather_modules _ _ _ _ cev _ _) as [[[st apis0] es]| |]; cbn [bind]; [|split; [discriminate|intros [X _]; discriminate]|split; [discriminate|intros [X _]; discriminate]].
  destruct (strip cev st apis0) as [st' apis1]. destruct es; [|split; [discriminate|intros [X _]; discriminate]]. destruct (cs_pushed st'); [|split; [discriminate|intros [X _]; discriminate]].
  destruct (collect ord apis1) as [[T1 errs]|]; [|split; [discriminate|intros [X _]; discriminate]]. destruct errs; [|split; [discriminate|intros [X _]; discriminate]].
  pose proof (precheck_spec true apis1) as P1. pose proof (precheck_spec false apis1) as P2.
  assert (precheck true apis1 = []) as -> by tauto. destruct (typecheck GBuild T1 apis1).
  - destruct (precheck false apis1) eqn:P.
    + split; [|tauto]. intros X. split; [exact X|]. injection X as -> _. destruct (proj1 P2 eq_refl) as [Y|Y]; [discriminate|exact Y].
    + split; [discriminate|]. intros [X Y]. injection X as -> _. assert (Z : s :: l = []) by (apply P2; right; exact Y). discriminate.
  - destruct (precheck false apis1); split; try discriminate; intros [X _]; discriminate.
Qed.
Print Assumptions C77_relative_includes.

Example C77_nonvacuous :
  let inc s := [mod_ [bridge_] [block_ "C++" [FInclude [] [ITStr s]]]] in
  (exists r, generate all_idents no_keyword false false false cev0 id_order (inc "a/../b.h") = Ok r) /\
  (exists r, generate all_idents no_keyword false false false cev0 id_order (inc ".hidden/b.h") = Ok r) /\
  (exists r, generate all_idents no_keyword false false true cev0 id_order (inc "./b.h") = Ok r) /\
  (forall r, generate all_idents no_keyword false false false cev0 id_order (inc "./b.h") <> Ok r) /\ relative "../b.h".
Proof.
  cbv zeta. split; [eexists; vm_compute; reflexivity|]. split; [eexists; vm_compute; reflexivity|]. split; [eexists; vm_compute; reflexivity|].
  split; [intros r; vm_compute; discriminate|]. right. right. exists "b.h". right. reflexivity.
Qed.
