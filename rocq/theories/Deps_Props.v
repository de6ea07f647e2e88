(** C66: header directories reach dependents, in order and once each. *)
From Verif Require Import Base Paths_Model Paths_Proofs Deps_Model Deps_Spec Deps_Proofs.
Require Import NArith Lia Permutation Sorted.

(** What a build script learns of its direct dependencies is exactly what they export,
    whatever the order in which the environment lists the variables and whatever else it
    contains.  The dependencies are listed in the order of their names. *)
Theorem C66_roundtrip : forall (deps : list (key * crate)) noise env,
  StronglySorted (fun a b => key_compare (fst a) (fst b) = Lt) deps ->
  (forall n c, In (n, c) deps -> c_prefix c <> None /\ (N.of_nat (List.length (c_dirs c)) <= usize_max)%N) ->
  Forall unrelated noise ->
  Permutation env (flat_map (fun d => env_of (fst d) (snd d)) deps ++ noise) ->
  direct_dependencies env = map (fun d => visible (snd d)) deps.
Proof.
  intros deps noise env SS HC HN P.
  unfold direct_dependencies.
  destruct (scan_get env ([], []) (SSorted_nil _) (SSorted_nil _)) as (S1 & S2 & G).
  destruct (fold_left scan_var env ([], [])) as [crates dirs] eqn:EQ. cbn [fst snd] in *. clear EQ.
  destruct (final_get dirs crates (sorted_nodup _ S2) S1) as [S3 G3].
  set (final := fold_left _ dirs crates) in *. clearbody final.
  assert (T : final = map (fun d => (chars "DEP_" ++ fst d, visible (snd d))) deps).
  { apply sorted_ext; [exact S3| |].
    - unfold sorted. rewrite map_map. cbn [fst]. clear -SS.
      induction SS as [|[n c] l S IH F]; cbn [map]; constructor; auto.
      apply Forall_forall. intros k I. apply in_map_iff in I. destruct I as ([m d] & <- & I).
      rewrite Forall_forall in F. apply F in I. cbn [fst] in *. unfold key_lt. now rewrite key_compare_app.
    - intros k. rewrite G3. destruct (G k) as [G1 G2]. rewrite G1, G2. clear G G1 G2 G3 S1 S2 S3.
      pose proof (perm_flat_map (fun kv => match classify (fst kv) with
                      | Some (k', c) => if key_eqb k' k then [(c, snd kv)] else []
                      | None => [] end) _ _ P) as PE.
      fold (events k env) in PE.
      fold (events k (flat_map (fun d => env_of (fst d) (snd d)) deps ++ noise)) in PE.
      rewrite events_app, (events_noise k noise HN), app_nil_r in PE.
      pose (fnd := fun d : key * crate => key_eqb (chars "DEP_" ++ fst d) k).
      assert (E : events k (flat_map (fun d => env_of (fst d) (snd d)) deps) =
                  match find fnd deps with
                  | Some d => crate_events (snd d) | None => [] end /\
                  get k (map (fun d => (chars "DEP_" ++ fst d, visible (snd d))) deps) =
                  option_map (fun d => visible (snd d)) (find fnd deps)).
      { clear PE P. induction SS as [|[n c] l S IH F]; [split; reflexivity|].
        destruct IH as [IH1 IH2]; [intros; eapply HC; right; eauto|].
        cbn [flat_map map find]. unfold fnd at 1 3. cbn [fst snd]. rewrite events_app, get_cons.
        rewrite events_crate by (apply (HC n c); now left).
        change (@map ascii ascii) with (@map ascii ascii).
        destruct (key_eqb (chars "DEP_" ++ n) k) eqn:E.
        - split; [|reflexivity]. rewrite IH1.
          assert (N : find fnd l = None).
          { clear -F E fnd. apply key_eqb_eq in E. subst k. induction l as [|[m d] l IH]; [reflexivity|].
            inversion F; subst. cbn [find]. unfold fnd at 1. cbn [fst]. destruct (key_eqb (chars "DEP_" ++ m) (chars "DEP_" ++ n)) eqn:E; [|auto].
            apply key_eqb_eq in E. apply app_inv_head in E. subst. cbn in H1.
            now apply key_lt_irrefl in H1. }
          rewrite N. now rewrite app_nil_r.
        - split; [exact IH1|exact IH2]. }
      destruct E as [E1 E2]. rewrite E1 in PE. rewrite E2. clear E1 E2.
      destruct (find fnd deps) as [[n c]|] eqn:FD; cbn [option_map snd].
      + apply find_some in FD. destruct FD as [FD _]. destruct (HC _ _ FD) as [HP HLn].
        destruct (c_prefix c) as [p|] eqn:CP; [|congruence].
        assert (IN : forall e, In e (events k env) <-> In e (crate_events c)).
        { intros e. split; apply Permutation_in; [exact PE|now apply Permutation_sym]. }
        assert (FC : fold_left on_crate (events k env) (get k []) = Some (Crate (Some p) (c_links c) [])).
        { apply on_crate_fold.
          - intros v I. apply IN in I. unfold crate_events in I. rewrite CP in I.
            apply in_app_or in I. destruct I as [[I|[]]|I]; [now inversion I|]. exfalso.
            apply in_app_or in I. destruct I as [I|I].
            + destruct (c_links c); [destruct I as [I|[]]; discriminate|destruct I].
            + apply in_map_iff in I. destruct I as (x & X & _). discriminate.
          - intros v I. apply IN in I. unfold crate_events in I. rewrite CP in I.
            apply in_app_or in I. destruct I as [[I|[]]|I]; [discriminate|].
            apply in_app_or in I. destruct I as [I|I].
            + destruct (c_links c); [destruct I as [I|[]]; now inversion I|destruct I].
            + apply in_map_iff in I. destruct I as (x & X & _). discriminate.
          - exact I.
          - left. apply IN. unfold crate_events. rewrite CP. now left.
          - destruct (c_links c) as [ls|] eqn:CL; [|now left]. right; left. exists ls. apply IN.
            unfold crate_events. rewrite CP, CL. right. now left. }
        assert (FD' : Permutation (dirs_of (events k env)) (dir_events 0 (c_dirs c))).
        { assert (Q : dirs_of (crate_events c) = dir_events 0 (c_dirs c)).
          { unfold crate_events, dirs_of. rewrite !flat_map_app.
            assert (X1 : flat_map (fun e => match fst e with KDir n => [(n, snd e)] | _ => [] end)
                    match c_prefix c with Some p => [(KPrefix, p)] | None => [] end = []) by (destruct (c_prefix c); reflexivity).
            assert (X2 : flat_map (fun e => match fst e with KDir n => [(n, snd e)] | _ => [] end)
                    match c_links c with Some p => [(KLinks, p)] | None => [] end = []) by (destruct (c_links c); reflexivity).
            rewrite X1, X2. cbn [app]. generalize (dir_events 0 (c_dirs c)). intros l.
            induction l as [|[i v] l IH]; [reflexivity|]. cbn. now rewrite IH. }
          rewrite <- Q. unfold dirs_of. now apply perm_flat_map. }
        rewrite on_dirs_fold, FC. unfold visible. rewrite CP.
        assert (SE : sort_by_key (dirs_of (events k env)) = dir_events 0 (c_dirs c)).
        { destruct (sort_spec (dirs_of (events k env))) as [Ss Sp].
          apply sorted_unique; [exact Ss|apply dir_events_sorted|].
          etransitivity; [apply Permutation_sym; exact Sp|exact FD']. }
        destruct (dirs_of (events k env)) as [|x l] eqn:DE.
        * cbn [get find option_map]. apply Permutation_nil in FD'.
          rewrite <- (dir_events_visible (c_dirs c) 0), FD'. reflexivity.
        * cbn [get find option_map app]. rewrite SE, dir_events_visible. reflexivity.
      + apply Permutation_sym, Permutation_nil in PE. rewrite PE. reflexivity. }
  rewrite T, map_map. reflexivity.
Qed.
Print Assumptions C66_roundtrip.

(** * The include path of a crate *)

(** Each element once, at its first occurrence *)
Fixpoint first_occurrences (l : list string) : list string :=
  match l with
  | [] => []
  | x :: l => x :: filter (fun y => negb (String.eqb x y)) (first_occurrences l)
  end.

Definition selected (g : cfg) (c : crate) : Prop :=
  (exists l, In l (exported_header_links g) /\ selected_by_link l c) \/
  (exists e, In e (exported_header_prefixes g) /\ selected_by_prefix e c).

Lemma starts_with_spec p q : path_starts_with p q = true <-> exists r, p = q ++ r.
Proof.
  revert p. induction q as [|c q IH]; intros p; cbn [path_starts_with app].
  - destruct p; cbn; split; eauto.
  - destruct p as [|d p]; cbn [path_starts_with].
    + split; [discriminate|]. intros [r E]. discriminate.
    + rewrite andb_true_iff, IH, component_eqb_eq. split.
      * intros [-> [r ->]]. now exists r.
      * intros [r E]. inversion E; subst. eauto.
Qed.

Definition sel (g : cfg) (c : crate) : bool :=
  match link_match g c with Some _ => true | None => match prefix_match g c with Some _ => true | None => false end end.
Lemma link_match_spec g c l : link_match g c = Some l <-> In l (exported_header_links g) /\ c_links c = Some l.
Proof.
  unfold link_match. destruct (c_links c) as [x|]; [|split; [discriminate|intros [_ E]; discriminate]].
  split.
  - intros E. apply find_some in E. destruct E as [I E]. apply String.eqb_eq in E. subst. auto.
  - intros [I E]. inversion E; subst.
    destruct (find (String.eqb l) (exported_header_links g)) as [y|] eqn:F.
    + apply find_some in F. destruct F as [_ F]. apply String.eqb_eq in F. now subst.
    + apply (find_none _ _ F) in I. rewrite String.eqb_refl in I. discriminate.
Qed.
Lemma prefix_match_some g c e : prefix_match g c = Some e -> In e (exported_header_prefixes g) /\ selected_by_prefix e c.
Proof.
  unfold prefix_match, selected_by_prefix. destruct (c_prefix c) as [p|]; [|discriminate].
  intros E. apply find_some in E. destruct E as [I E]. apply starts_with_spec in E. destruct E as [r E].
  split; [exact I|]. eauto.
Qed.
Lemma prefix_match_none g c : prefix_match g c = None -> forall e, In e (exported_header_prefixes g) -> ~ selected_by_prefix e c.
Proof.
  unfold prefix_match, selected_by_prefix. intros N e I (p & r & E & R). rewrite E in N.
  apply (find_none _ _ N) in I. cbn beta in I. rewrite (proj2 (starts_with_spec _ _)) in I; [discriminate|eauto].
Qed.
Lemma sel_spec g c : sel g c = true <-> selected g c.
Proof.
  unfold sel, selected. destruct (link_match g c) as [l|] eqn:L.
  - apply link_match_spec in L. split; [|reflexivity]. intros _. left. exists l. exact L.
  - destruct (prefix_match g c) as [e|] eqn:E.
    + apply prefix_match_some in E. split; [|reflexivity]. intros _. right. eauto.
    + split; [discriminate|]. intros [(l & I & S)|(e & I & S)].
      * assert (X : link_match g c = Some l) by (apply link_match_spec; auto). congruence.
      * exfalso. eapply prefix_match_none; eauto.
Qed.
Lemma add_dependency_dirs g st c :
  ds_dirs (add_dependency g st c) = fold_left (fun l d => add_dir d (sel g c) l) (c_dirs c) (ds_dirs st).
Proof.
  unfold add_dependency, sel. destruct (link_match g c); [reflexivity|]. destruct (prefix_match g c); reflexivity.
Qed.
Lemma dirs_fold g deps : forall st,
  ds_dirs (fold_left (add_dependency g) deps st) =
  fold_left (fun l de => add_dir (fst de) (snd de) l)
            (flat_map (fun c => map (fun d => (d, sel g c)) (c_dirs c)) deps) (ds_dirs st).
Proof.
  induction deps as [|c deps IH]; intros st; cbn; [reflexivity|].
  rewrite IH, fold_left_app, add_dependency_dirs. f_equal.
  generalize (ds_dirs st). induction (c_dirs c) as [|d l IHl]; intros s; cbn; auto.
Qed.

Lemma add_dir_paths d e l : map hd_path (add_dir d e l) =
  map hd_path l ++ (if existsb (String.eqb (hd_path d)) (map hd_path l) then [] else [hd_path d]).
Proof.
  induction l as [|x l IH]; cbn; [reflexivity|]. rewrite (String.eqb_sym (hd_path x)).
  destruct (String.eqb (hd_path d) (hd_path x)); cbn.
  - now rewrite app_nil_r.
  - now rewrite IH.
Qed.
Lemma add_dir_exported d e l x : NoDup (map hd_path l) ->
  In x (add_dir d e l) <->
  (In x l /\ hd_path x <> hd_path d) \/
  (hd_path x = hd_path d /\ exported x = (existsb (fun y => String.eqb (hd_path y) (hd_path d) && exported y) l || e)).
Proof.
  induction l as [|y l IH]; intros ND; cbn.
  - destruct x as [ex px]. cbn. split.
    + intros [E|[]]. inversion E; subst. auto.
    + intros [[[] _]|[-> ->]]. now left.
  - inversion ND as [|? ? NI ND']; subst. destruct (String.eqb_spec (hd_path y) (hd_path d)) as [E|E]; cbn.
    + assert (NX : existsb (fun z => String.eqb (hd_path z) (hd_path d) && exported z) l = false).
      { apply not_true_is_false. intros X. apply existsb_exists in X. destruct X as (z & I & Z).
        apply andb_true_iff in Z. destruct Z as [Z _]. apply String.eqb_eq in Z.
        apply NI. rewrite E, <- Z. now apply in_map. }
      rewrite NX, orb_false_r. destruct x as [ex px], y as [ey py]. cbn in *. subst py. split.
      * intros [Q|I]; [inversion Q; subst; auto|]. left. split; [auto|].
        intros ->. apply NI. change (hd_path d) with (hd_path (HeaderDir ex (hd_path d))). now apply in_map.
      * intros [[[Q|I] N]|[-> ->]]; [inversion Q; subst; congruence|auto|auto].
    + rewrite (IH ND'). split.
      * intros [->|[[I N]|Q]]; auto.
      * intros [[[->|I] N]|Q]; auto.
Qed.

Lemma add_fold l : forall acc, NoDup (map hd_path acc) ->
  let r := fold_left (fun l de => add_dir (fst de) (snd de) l) l acc in
  map hd_path r = map hd_path acc ++ filter (fun p => negb (existsb (String.eqb p) (map hd_path acc)))
                                        (first_occurrences (map (fun de => hd_path (fst de)) l)) /\
  NoDup (map hd_path r) /\
  forall x, In x r -> exported x = true <->
    (exists y, In y acc /\ hd_path y = hd_path x /\ exported y = true) \/
    (exists d, In (d, true) l /\ hd_path d = hd_path x).
Proof.
  induction l as [|[d e] l IH]; intros acc ND.
  - cbn. rewrite app_nil_r. repeat split; auto.
    + intros E. left. eauto.
    + intros [(y & I & P & E)|(d & [] & _)].
      assert (y = x); [|now subst].
      clear -ND H I P. induction acc as [|z acc IH]; [destruct H|]. cbn in ND. inversion ND as [|? ? NI ND']; subst.
      destruct H as [->|H], I as [->|I]; auto.
      * exfalso. apply NI. rewrite <- P. now apply in_map.
      * exfalso. apply NI. rewrite P. now apply in_map.
  - cbn [fold_left fst snd map].
    assert (ND' : NoDup (map hd_path (add_dir d e acc))).
    { rewrite add_dir_paths. destruct (existsb _ _) eqn:E; [now rewrite app_nil_r|].
      apply (NoDup_Add (a := hd_path d) (l := map hd_path acc)).
      - pose proof (Add_app (hd_path d) (map hd_path acc) []) as X. now rewrite app_nil_r in X.
      - split; [exact ND|]. intros I. assert (T : existsb (String.eqb (hd_path d)) (map hd_path acc) = true).
        { apply existsb_exists. exists (hd_path d). split; [exact I|apply String.eqb_refl]. }
        congruence. }
    destruct (IH _ ND') as (A & B & C). split; [|split; [exact B|]].
    + rewrite A, add_dir_paths, <- app_assoc. f_equal. cbn [first_occurrences filter].
      assert (FF : forall q f (l : list string), filter f (filter q l) = filter (fun x => q x && f x) l).
      { intros q f l0. induction l0 as [|x l0 IHl]; cbn; [reflexivity|]. destruct (q x); cbn; [destruct (f x); cbn; now rewrite IHl|exact IHl]. }
      assert (FE : forall f f' (l : list string), (forall x, f x = f' x) -> filter f l = filter f' l).
      { intros f f' l0 Q. induction l0 as [|x l0 IHl]; cbn; [reflexivity|]. now rewrite Q, IHl. }
      rewrite FF. destruct (existsb (String.eqb (hd_path d)) (map hd_path acc)) eqn:E; cbn [negb].
      * rewrite app_nil_r, app_nil_l. apply FE. intros x.
        destruct (String.eqb_spec (hd_path d) x) as [<-|N]; cbn; [now rewrite E|reflexivity].
      * cbn [app]. f_equal. apply FE. intros x. rewrite existsb_app. cbn.
        rewrite orb_false_r, negb_orb, (String.eqb_sym x (hd_path d)). apply andb_comm.
    + intros x I. rewrite (C x I). split.
      * intros [(y & Iy & P & E)|(d' & Id & P)].
        -- apply (add_dir_exported d e acc y ND) in Iy. destruct Iy as [[Iy N]|[Q X]]; [left; eauto|].
           rewrite E in X. symmetry in X. apply orb_true_iff in X. destruct X as [X| ->].
           ++ apply existsb_exists in X. destruct X as (z & Iz & Z). apply andb_true_iff in Z. destruct Z as [Z Ez].
              apply String.eqb_eq in Z. left. exists z. repeat split; auto. congruence.
           ++ right. exists d. split; [now left|congruence].
        -- right. exists d'. split; [now right|exact P].
      * intros [(y & Iy & P & E)|(d' & [Q|Id] & P)].
        -- left. destruct (string_dec (hd_path y) (hd_path d)) as [Q|Q].
           ++ exists (HeaderDir true (hd_path d)). cbn. split; [|split; [congruence|reflexivity]].
              apply (add_dir_exported d e acc _ ND). right. cbn. split; [reflexivity|].
              symmetry. apply orb_true_iff. left. apply existsb_exists. exists y. split; [exact Iy|].
              rewrite Q, String.eqb_refl, E. reflexivity.
           ++ exists y. split; [|split; [exact P|exact E]]. apply (add_dir_exported d e acc _ ND). auto.
        -- inversion Q; subst. left. exists (HeaderDir true (hd_path d')). cbn. split; [|split; [exact P|reflexivity]].
           apply (add_dir_exported d' true acc _ ND). right. cbn. split; [reflexivity|]. now rewrite orb_true_r.
        -- right. eauto.
Qed.

(** The include path: the crate's own directories first, generated headers before all
    others, then every directory of a dependency once, in the order of the dependencies; a
    dependency's directory is re-exported exactly if the configuration selects a dependency
    that provides it. *)
Theorem C66_include_path : forall g prefix links include_dir crate_dir deps c,
  make_this_crate g prefix links include_dir crate_dir deps = inl c ->
  c_prefix c = Some prefix /\ c_links c = links /\
  exists from_deps,
    c_dirs c = HeaderDir true include_dir :: HeaderDir true crate_dir ::
               map (HeaderDir true) (exported_header_dirs g) ++ from_deps /\
    map hd_path from_deps = first_occurrences (flat_map (fun k => map hd_path (c_dirs k)) deps) /\
    forall d, In d from_deps ->
      (exported d = true <-> exists k, In k deps /\ selected g k /\ In (hd_path d) (map hd_path (c_dirs k))).
Proof.
  intros g prefix links include_dir crate_dir deps c E. unfold make_this_crate in E.
  destruct (find _ (exported_header_links g)); [discriminate|].
  destruct (find _ (exported_header_prefixes g)); [discriminate|]. inversion E; subst; clear E. cbn.
  split; [reflexivity|]. split; [reflexivity|].
  exists (ds_dirs (fold_left (add_dependency g) deps (DepsState [] [] []))).
  split; [reflexivity|].
  rewrite dirs_fold. cbn [ds_dirs].
  destruct (add_fold (flat_map (fun c => map (fun d => (d, sel g c)) (c_dirs c)) deps) [] (NoDup_nil _)) as (A & _ & C).
  split.
  - rewrite A. cbn [map app existsb negb]. 
    assert (FT : forall l : list string, filter (fun _ => true) l = l) by (induction l as [|x l IH]; cbn; congruence).
    rewrite FT. f_equal. clear. induction deps as [|k deps IH]; cbn; [reflexivity|].
    rewrite map_app, IH, map_map. reflexivity.
  - intros d I. rewrite (C d I). split.
    + intros [(y & [] & _)|(d' & I' & P)]. apply in_flat_map in I'. destruct I' as (k & Ik & I').
      apply in_map_iff in I'. destruct I' as (d2 & Q & I2). inversion Q; subst.
      exists k. split; [exact Ik|]. split; [now apply sel_spec|]. rewrite <- P. now apply in_map.
    + intros (k & Ik & S & I'). right. apply in_map_iff in I'. destruct I' as (d' & P & I').
      exists d'. split; [|exact P]. apply in_flat_map. exists k. split; [exact Ik|].
      apply in_map_iff. exists d'. split; [|exact I']. apply sel_spec in S. now rewrite S.
Qed.
Print Assumptions C66_include_path.

(** Configuration entries that select nothing are always reported … *)
Lemma used_links g deps : forall st l, In l (ds_used_links (fold_left (add_dependency g) deps st)) <->
  In l (ds_used_links st) \/ (exists k, In k deps /\ link_match g k = Some l).
Proof.
  induction deps as [|k deps IH]; intros st l; cbn.
  - split; [auto|]. intros [I|(k & [] & _)]. exact I.
  - rewrite IH. unfold add_dependency. destruct (link_match g k) as [x|] eqn:L; [|destruct (prefix_match g k)]; cbn;
      rewrite ?in_app_iff; cbn.
    + split.
      * intros [[I|[->|[]]]|(k' & I & E)]; eauto 6.
      * intros [I|(k' & [->|I] & E)]; eauto 6. rewrite L in E. inversion E. auto.
    + split; [intros [I|(k' & I & E)]; eauto 6|]. intros [I|(k' & [->|I] & E)]; [auto|congruence|eauto].
    + split; [intros [I|(k' & I & E)]; eauto 6|]. intros [I|(k' & [->|I] & E)]; [auto|congruence|eauto].
Qed.
Lemma used_prefixes g deps : forall st l, In l (ds_used_prefixes (fold_left (add_dependency g) deps st)) <->
  In l (ds_used_prefixes st) \/ (exists k, In k deps /\ link_match g k = None /\ prefix_match g k = Some l).
Proof.
  induction deps as [|k deps IH]; intros st l; cbn.
  - split; [auto|]. intros [I|(k & [] & _)]. exact I.
  - rewrite IH. unfold add_dependency. destruct (link_match g k) as [x|] eqn:L; [|destruct (prefix_match g k) as [y|] eqn:P]; cbn;
      rewrite ?in_app_iff; cbn.
    + split; [intros [I|(k' & I & E)]; eauto 6|]. intros [I|(k' & [->|I] & E & E')]; [auto|congruence|eauto].
    + split.
      * intros [[I|[->|[]]]|(k' & I & E)]; eauto 8.
      * intros [I|(k' & [->|I] & E & E')]; eauto 8. rewrite P in E'. inversion E'. auto.
    + split; [intros [I|(k' & I & E)]; eauto 6|]. intros [I|(k' & [->|I] & E & E')]; [auto|congruence|eauto].
Qed.
Lemma find_unused l used x : find (fun y => negb (existsb (String.eqb y) used)) l = Some x -> In x l /\ ~ In x used.
Proof.
  intros E. apply find_some in E. destruct E as [I E]. split; [exact I|]. intros U.
  apply negb_true_iff in E. apply not_true_iff_false in E. apply E.
  apply existsb_exists. exists x. split; [exact U|apply String.eqb_refl].
Qed.
Lemma find_all_used l used : find (fun y => negb (existsb (String.eqb y) used)) l = None -> forall x, In x l -> In x used.
Proof.
  intros N x I. apply (find_none _ _ N) in I. apply negb_false_iff in I. apply existsb_exists in I.
  destruct I as (y & U & E). apply String.eqb_eq in E. now subst.
Qed.

Theorem C66_unused_reported : forall g prefix links include_dir crate_dir deps,
  ((exists l, In l (exported_header_links g) /\ forall k, In k deps -> ~ selected_by_link l k) \/
   (exists e, In e (exported_header_prefixes g) /\ forall k, In k deps -> ~ selected_by_prefix e k)) ->
  exists err, make_this_crate g prefix links include_dir crate_dir deps = inr err.
Proof.
  intros g prefix links include_dir crate_dir deps H. unfold make_this_crate.
  destruct (find _ (exported_header_links g)) as [x|] eqn:F; [eauto|].
  destruct (find _ (exported_header_prefixes g)) as [y|] eqn:F'; [eauto|]. exfalso.
  destruct H as [(l & I & N)|(e & I & N)].
  - apply (find_all_used _ _ F) in I. apply used_links in I. destruct I as [[]|(k & Ik & E)].
    apply link_match_spec in E. destruct E as [_ E]. exact (N k Ik E).
  - apply (find_all_used _ _ F') in I. apply used_prefixes in I. destruct I as [[]|(k & Ik & _ & E)].
    apply prefix_match_some in E. destruct E as [_ E]. exact (N k Ik E).
Qed.
Print Assumptions C66_unused_reported.

(** … and a links entry is reported only if it selects nothing.  The same would be expected of
    prefixes, but is false: a prefix is not looked at for a dependency that a links entry or
    an earlier prefix selects already. *)
Theorem C66_only_unused_reported_partial : forall g prefix links include_dir crate_dir deps l,
  make_this_crate g prefix links include_dir crate_dir deps = inr (UnusedExportedLinks l) ->
  In l (exported_header_links g) /\ forall k, In k deps -> ~ selected_by_link l k.
Proof.
  intros g prefix links include_dir crate_dir deps l E. unfold make_this_crate in E.
  destruct (find _ (exported_header_links g)) as [x|] eqn:F.
  - inversion E; subst. apply find_unused in F. destruct F as [I N]. split; [exact I|].
    intros k Ik S. apply N. apply used_links. right. exists k. split; [exact Ik|]. now apply link_match_spec.
  - destruct (find _ (exported_header_prefixes g)); discriminate.
Qed.
Print Assumptions C66_only_unused_reported_partial.

Theorem C66_only_unused_reported_refuted :
  (exists g prefix links include_dir crate_dir deps e k,
    make_this_crate g prefix links include_dir crate_dir deps = inr (UnusedExportedPrefix e) /\
    In e (exported_header_prefixes g) /\ exported_header_links g = [] /\ In k deps /\ selected_by_prefix e k) /\
  (exists g prefix links include_dir crate_dir deps e k,
    make_this_crate g prefix links include_dir crate_dir deps = inr (UnusedExportedPrefix e) /\
    exported_header_prefixes g = [e] /\ In k deps /\ selected_by_prefix e k).
Proof.
  split.
  - exists (Cfg [] ["foo"; "foo/bar"] []), "me", (Some "me"), "/i", "/c", [Crate (Some "foo/bar") (Some "foo") []], "foo/bar".
    eexists. repeat split; try (right; left; reflexivity); try (left; reflexivity).
    exists "foo/bar", []. split; reflexivity.
  - exists (Cfg [] ["foo/bar"] ["foo"]), "me", (Some "me"), "/i", "/c", [Crate (Some "foo/bar") (Some "foo") []], "foo/bar".
    eexists. repeat split; try (left; reflexivity).
    exists "foo/bar", []. split; reflexivity.
Qed.
Print Assumptions C66_only_unused_reported_refuted.

Example C66_nonvacuous :
  let a := Crate (Some "alpha") (Some "a") [HeaderDir true "/a/inc"; HeaderDir false "/x"; HeaderDir true "/common"] in
  let b := Crate (Some "beta") None [HeaderDir true "/common"; HeaderDir true "/b"] in
  direct_dependencies (rev (env_of (chars "A") a ++ env_of (chars "B") b ++ [(chars "PATH", "/bin")])) = [visible a; visible b] /\
  make_this_crate (Cfg ["/mine"] ["beta"] []) "me" (Some "me") "/i" "/c" [visible a; visible b] =
    inl (Crate (Some "me") (Some "me")
      [HeaderDir true "/i"; HeaderDir true "/c"; HeaderDir true "/mine";
       HeaderDir false "/a/inc"; HeaderDir true "/common"; HeaderDir true "/b"]) /\
  validate_cfg (Cfg ["mine"] [] []) (Some "me") = Some (ExportedDirNotAbsolute "mine").
Proof. repeat split. Qed.
