(** C35: generated files stay inside the output directory; C36: relative symlinks lead to
    the intended file; C65: different bridge files get different generated files. *)
From Verif Require Import Base StrLib Paths_Model Paths_Spec Paths_Proofs.
Require Import Lia.

(** * C35 *)

Definition inside_cxxbridge (out_dir p : path) : Prop := inside (out_dir ++ [Normal "cxxbridge"]) p.

Lemma inside_join dir prefix names : dir <> [] ->
  Forall good prefix -> ~ In ParentDir prefix ->
  (Forall low prefix \/ exists q, prefix = CurDir :: q /\ Forall low q) ->
  names <> [] -> Forall valid_name names ->
  exists pre, Forall valid_name pre /\ join (join dir prefix) (map Normal names) = dir ++ map Normal (pre ++ names).
Proof.
  intros D G N S NE V.
  assert (L : forall q, Forall good q -> ~ In ParentDir q -> Forall low q ->
                exists pre, Forall valid_name pre /\ q = map Normal pre).
  { clear. induction q as [|c q IH]; intros G N L; [exists []; auto|].
    inversion G; inversion L; subst. destruct IH as (pre & V & E); auto.
    - intros I. apply N. now right.
    - destruct c; try contradiction; [exfalso; apply N; now left|].
      exists (name :: pre). subst. auto. }
  assert (J : forall d, join d (map Normal names) = d ++ map Normal names).
  { intros d. destruct names; [congruence|]. reflexivity. }
  rewrite J. destruct S as [S|(q & -> & S)].
  - destruct (L prefix G N S) as (pre & Vp & ->). exists pre. split; [exact Vp|].
    assert (JP : join dir (map Normal pre) = dir ++ map Normal pre) by (destruct pre; reflexivity).
    rewrite JP, map_app, <- app_assoc. reflexivity.
  - inversion G; subst. destruct (L q) as (pre & Vp & ->); auto.
    + intros I. apply N. now right.
    + exists pre. split; [exact Vp|]. cbn. destruct dir; [congruence|].
      rewrite map_app, <- app_assoc. reflexivity.
Qed.

(** For every text given as source path and every output directory: the header, the link to
    it and the implementation are all below the cxxbridge directory in the output
    directory.  The include prefix (the package name unless set by the build script) must
    not contain [..]. *)
Theorem C35_contained : forall out_dir prefix source pre h l cc,
  include_prefix prefix = Some pre -> ~ In ParentDir pre ->
  generated_paths out_dir pre (components source) = Some (h, l, cc) ->
  inside_cxxbridge out_dir h /\ inside_cxxbridge out_dir l /\ inside_cxxbridge out_dir cc.
Proof.
  intros out_dir prefix source pre h l cc P NP E.
  unfold include_prefix in P. destruct (is_absolute (components prefix)) eqn:A; [discriminate|].
  inversion P; subst pre; clear P.
  destruct (components_shape prefix) as [G S].
  assert (S' : Forall low (components prefix) \/ exists q, components prefix = CurDir :: q /\ Forall low q).
  { destruct S as [S|(c & q & E' & [->| ->] & L)]; [now left| |right; eauto].
    rewrite E' in A. discriminate. }
  destruct (local_names source) as (names & V & R). unfold generated_paths in E. rewrite R in E.
  destruct names as [|n names] using rev_ind; [discriminate|]. clear IHnames.
  rewrite !ext_map in E. inversion E; subst; clear E.
  assert (W : forall suffix, has_char "/" suffix = false -> (1 < String.length suffix)%nat ->
              Forall valid_name (names ++ [(n ++ suffix)%string])).
  { intros suffix H L. apply Forall_app in V. destruct V as [V1 V2]. apply Forall_app. split; [exact V1|].
    inversion V2; subst. constructor; [|constructor]. now apply valid_suffix. }
  assert (K : forall x, valid_name x -> forall ns, ns <> [] -> Forall valid_name ns ->
     inside_cxxbridge out_dir
       (join (join (join (join out_dir [Normal "cxxbridge"]) [Normal x]) (components prefix)) (map Normal ns))).
  { intros x Vx ns NE Vn. unfold inside_cxxbridge, inside.
    destruct (inside_join (join (join out_dir [Normal "cxxbridge"]) [Normal x]) (components prefix) ns) as (pre & Vp & ->); auto.
    - cbn. destruct out_dir; discriminate.
    - exists (x :: pre ++ ns). split; [discriminate|]. split; [constructor; auto; now apply Forall_app|].
      cbn. now rewrite <- !app_assoc. }
  assert (VI : valid_name "include") by (repeat split; discriminate).
  assert (VS : valid_name "sources") by (repeat split; discriminate).
  assert (NE : forall x, names ++ [x] <> []) by (intros x X; now apply app_eq_nil in X as [_ X]).
  split; [|split]; apply K; auto; apply W; cbn; auto; lia.
Qed.
Print Assumptions C35_contained.

(** Paths are always found for a source path that ends in a name, as that of a readable
    file does; generating paths fails (a panic) for no other reason. *)
Theorem C35_total : forall out_dir pre source q n,
  components source = q ++ [Normal n] -> exists r, generated_paths out_dir pre (components source) = Some r.
Proof.
  intros out_dir pre source q n E.
  assert (R : exists names m, local_relative_path (components source) = map Normal (names ++ [m])).
  { destruct (components_shape source) as [G _]. rewrite E in G. apply Forall_app in G. destruct G as [G _].
    destruct (local_fold q [] G (Forall_nil _)) as (names & _ & F & _).
    exists names, n. unfold local_relative_path. rewrite E, fold_left_app. cbn [map] in F. rewrite F. cbn [fold_left].
    apply join_normal. }
  destruct R as (names & m & R). unfold generated_paths. rewrite R, !ext_map. eauto.
Qed.
Print Assumptions C35_total.

(** A plain relative path is reproduced below the output directory. *)
Theorem C35_mirrors : forall source names,
  components source = map Normal names -> local_relative_path (components source) = map Normal names.
Proof.
  intros source names E. rewrite E. unfold local_relative_path.
  assert (K : forall l acc, fold_left (fun rel c => match c with RootDir | CurDir => rel | ParentDir => pop rel | Normal _ => join rel [c] end)
             (map Normal l) (map Normal acc) = map Normal (acc ++ l)).
  { induction l as [|x l IH]; intros acc; cbn [map fold_left]; [now rewrite app_nil_r|].
    rewrite join_normal, IH, <- app_assoc. reflexivity. }
  exact (K names []).
Qed.
Print Assumptions C35_mirrors.

(** Without the restriction on the include prefix containment fails: only absolute prefixes
    are rejected. *)
Theorem C35_prefix_refuted : exists out_dir prefix source pre h l cc,
  include_prefix prefix = Some pre /\
  generated_paths out_dir pre (components source) = Some (h, l, cc) /\
  follow [] h = ["lib.rs.h"] /\ follow [] out_dir = ["target"; "out"].
Proof.
  exists [RootDir; Normal "target"; Normal "out"], "../../../..", "lib.rs".
  eexists _, _, _, _. repeat split.
Qed.
Print Assumptions C35_prefix_refuted.

Example C35_nonvacuous :
  generated_paths [RootDir; Normal "out"] [Normal "demo"] (components "/home/../../x/./src//lib.rs") =
  Some ([RootDir; Normal "out"; Normal "cxxbridge"; Normal "include"; Normal "demo"; Normal "x"; Normal "src"; Normal "lib.rs.h"],
        [RootDir; Normal "out"; Normal "cxxbridge"; Normal "include"; Normal "demo"; Normal "x"; Normal "src"; Normal "lib.rs"],
        [RootDir; Normal "out"; Normal "cxxbridge"; Normal "sources"; Normal "demo"; Normal "x"; Normal "src"; Normal "lib.rs.cc"]) /\
  include_prefix "demo" = Some [Normal "demo"] /\
  components "./a/../b" = [CurDir; Normal "a"; ParentDir; Normal "b"].
Proof. repeat split. Qed.

(** * C65 *)

(** Two source files with different locations can get the same generated files. *)
Theorem C65_distinct_refuted : exists out_dir pre source source' g,
  generated_paths out_dir pre (components source) = Some g /\
  generated_paths out_dir pre (components source') = Some g /\
  follow ["w"; "crate"] (components source) <> follow ["w"; "crate"] (components source').
Proof.
  exists [RootDir; Normal "out"], [Normal "demo"], "lib.rs", "../lib.rs".
  eexists. split; [reflexivity|]. split; [reflexivity|]. vm_compute. discriminate.
Qed.
Print Assumptions C65_distinct_refuted.

(** For relative source paths that do not climb out of the directory in which the build runs,
    equal generated files mean the same source location. *)
Fixpoint stays_below (depth : nat) (p : path) : Prop :=
  match p with
  | [] => True
  | RootDir :: _ => False
  | CurDir :: p => stays_below depth p
  | ParentDir :: p => match depth with O => False | S d => stays_below d p end
  | Normal _ :: p => stays_below (S depth) p
  end.
Lemma follow_below base p : forall l, stays_below (List.length l) p ->
  follow (base ++ l) p = base ++ fold_left (fun l c => match c with RootDir | CurDir => l | ParentDir => removelast l | Normal n => l ++ [n] end) p l.
Proof.
  induction p as [|c p IH]; intros l B; [reflexivity|].
  unfold follow in *. destruct c; cbn in B |- *.
  - destruct B.
  - now apply IH.
  - destruct l as [|x l] using rev_ind; [destruct B|]. clear IHl.
    rewrite app_assoc, !removelast_last. apply IH.
    rewrite app_length, Nat.add_comm in B. exact B.
  - rewrite <- app_assoc. apply IH. rewrite app_length, Nat.add_comm. exact B.
Qed.
Theorem C65_distinct_partial : forall out_dir pre cwd source source' g,
  stays_below 0 (components source) -> stays_below 0 (components source') ->
  generated_paths out_dir pre (components source) = Some g ->
  generated_paths out_dir pre (components source') = Some g ->
  follow cwd (components source) = follow cwd (components source').
Proof.
  intros out_dir pre cwd source source' g B B' E E'.
  destruct (local_fold (components source) [] (proj1 (components_shape source)) (Forall_nil _)) as (n & V & R & F).
  destruct (local_fold (components source') [] (proj1 (components_shape source')) (Forall_nil _)) as (n' & V' & R' & F').
  pose proof (follow_below cwd _ [] B) as X. pose proof (follow_below cwd _ [] B') as X'.
  rewrite app_nil_r in X, X'. rewrite X, X', <- F, <- F'. f_equal.
  unfold generated_paths in E, E'. unfold local_relative_path in E, E'. cbn [map] in R, R'.
  rewrite R in E. rewrite R' in E'.
  destruct n as [|x n] using rev_ind; [discriminate|]. clear IHn.
  destruct n' as [|x' n'] using rev_ind; [discriminate|]. clear IHn'.
  rewrite !ext_map in E, E'.
  assert (L : join (join (join (join out_dir [Normal "cxxbridge"]) [Normal "include"]) pre) (map Normal (n ++ [x])) =
              join (join (join (join out_dir [Normal "cxxbridge"]) [Normal "include"]) pre) (map Normal (n' ++ [x']))).
  { congruence. }
  clear E E'. revert L. generalize (join (join (join out_dir [Normal "cxxbridge"]) [Normal "include"]) pre).
  intros d L.
  assert (J : forall l y, join d (map Normal (l ++ [y])) = d ++ map Normal (l ++ [y])) by (intros [|z l] y; reflexivity).
  rewrite !J in L. apply app_inv_head in L.
  clear -L. revert L. generalize (n ++ [x]), (n' ++ [x']). intros l. induction l as [|y l IH]; intros [|y' l'] L; try discriminate; [reflexivity|].
  inversion L; subst. f_equal. now apply IH.
Qed.
Print Assumptions C65_distinct_partial.

Example C65_nonvacuous :
  stays_below 0 (components "./src/../src/lib.rs") /\ stays_below 0 (components "src//lib.rs") /\
  generated_paths [RootDir; Normal "out"] [] (components "./src/../src/lib.rs") =
  generated_paths [RootDir; Normal "out"] [] (components "src//lib.rs").
Proof. repeat split. Qed.

(** * C36 *)

(** Whenever a relative target is computed, it is relative, and following it from the
    directory of the link leads to the original. *)
Theorem C36_resolves : forall env original link r,
  abstractly_relativize_symlink env (components original) (components link) = Relative r ->
  is_absolute r = false /\
  link_leads_to (components link) r = follow [] (components original).
Proof.
  intros env original link r E.
  assert (C : env = false /\ is_absolute (components original) = true /\ is_absolute (components link) = true /\
              contains_parent_dir (components original) = false /\ contains_parent_dir (components link) = false).
  { unfold abstractly_relativize_symlink in E.
    destruct (env || negb (is_absolute (components original)) || negb (is_absolute (components link))
              || contains_parent_dir (components original) || contains_parent_dir (components link)) eqn:G; [discriminate|].
    rewrite !orb_false_iff, !negb_false_iff in G. tauto. }
  destruct C as (-> & A1 & A2 & P1 & P2).
  destruct (absolute_shape original A1 P1) as (o & Eo & Vo). destruct (absolute_shape link A2 P2) as (l & El & Vl).
  rewrite Eo, El in *. destruct (relativize_spec o l) as (a & b & c & -> & -> & _ & R). rewrite R in E.
  destruct c as [|y c]; [discriminate|]. inversion E; subst r; clear E. split.
  - destruct c as [|z c]; [|reflexivity]. cbn. destruct b; reflexivity.
  - unfold link_leads_to. cbn [follow fold_left step].
    change (fold_left step ?p ?s) with (follow s p). rewrite !follow_normal. cbn [app].
    rewrite removelast_app by discriminate. rewrite follow_app, follow_up, follow_normal. reflexivity.
Qed.
Print Assumptions C36_resolves.

(** When there is a panic: exactly if the link is the original or one of its ancestors.  The
    property asks for no panic at all, so it is refuted … *)
Theorem C36_no_panic_refuted : exists original link,
  is_absolute (components original) = true /\ is_absolute (components link) = true /\
  abstractly_relativize_symlink false (components original) (components link) = Panic.
Proof. exists "/work/crate/src", "/work/crate". repeat split. Qed.
Print Assumptions C36_no_panic_refuted.
(** … and holds otherwise. *)
Theorem C36_no_panic_partial : forall env original link,
  abstractly_relativize_symlink env (components original) (components link) = Panic ->
  prefix_of (follow [] (components link)) (follow [] (components original)).
Proof.
  intros env original link E.
  assert (C : env = false /\ is_absolute (components original) = true /\ is_absolute (components link) = true /\
              contains_parent_dir (components original) = false /\ contains_parent_dir (components link) = false).
  { unfold abstractly_relativize_symlink in E.
    destruct (env || negb (is_absolute (components original)) || negb (is_absolute (components link))
              || contains_parent_dir (components original) || contains_parent_dir (components link)) eqn:G; [discriminate|].
    rewrite !orb_false_iff, !negb_false_iff in G. tauto. }
  destruct C as (-> & A1 & A2 & P1 & P2).
  destruct (absolute_shape original A1 P1) as (o & Eo & Vo). destruct (absolute_shape link A2 P2) as (l & El & Vl).
  rewrite Eo, El in *. destruct (relativize_spec o l) as (a & b & c & -> & -> & _ & R). rewrite R in E.
  destruct c; [|discriminate]. cbn [follow fold_left step].
  change (fold_left step ?p ?s) with (follow s p). rewrite !follow_normal. exists b. now rewrite app_nil_r.
Qed.
Print Assumptions C36_no_panic_partial.

(** A relative target is computed for all absolute paths without [..], unless
    CARGO_TARGET_DIR is set or there is a panic. *)
Theorem C36_relative_when_possible : forall original link,
  is_absolute (components original) = true -> is_absolute (components link) = true ->
  ~ In ParentDir (components original) -> ~ In ParentDir (components link) ->
  ~ prefix_of (follow [] (components link)) (follow [] (components original)) ->
  exists r, abstractly_relativize_symlink false (components original) (components link) = Relative r.
Proof.
  intros original link A1 A2 N1 N2 NP.
  assert (C : forall p, ~ In ParentDir p -> contains_parent_dir p = false).
  { intros p N. unfold contains_parent_dir. apply not_true_is_false. intros X. apply existsb_exists in X.
    destruct X as (c & I & X). apply component_eqb_eq in X. subst. auto. }
  destruct (absolute_shape original A1 (C _ N1)) as (o & Eo & Vo). destruct (absolute_shape link A2 (C _ N2)) as (l & El & Vl).
  rewrite Eo, El in *. destruct (relativize_spec o l) as (a & b & c & -> & -> & _ & R). rewrite R.
  destruct c as [|y c]; [|eauto]. exfalso. apply NP. cbn [follow fold_left step].
  change (fold_left step ?p ?s) with (follow s p). rewrite !follow_normal. exists b. now rewrite app_nil_r.
Qed.
Print Assumptions C36_relative_when_possible.

(** On a real file system, with symbolic links: whatever canonicalize answers, the path put
    into the link is either the original path or one that, from the link's directory, has the
    same canonical location as the original. *)
Theorem C36_canonical : forall (F : Type) (F_eqb : F -> F -> bool) (canon : path -> option F) env original link t,
  (forall a b, F_eqb a b = true -> a = b) ->
  best_effort_relativize_symlink F_eqb canon env original link = Some t ->
  t = original \/
  exists d loc, parent link = Some d /\ canon (join d t) = Some loc /\ canon original = Some loc.
Proof.
  intros F F_eqb canon env original link t HF E. unfold best_effort_relativize_symlink in E.
  destruct (abstractly_relativize_symlink env original link) as [r| |]; try discriminate.
  - destruct (canon original) as [a|] eqn:C; [|inversion E; auto].
    destruct (parent link) as [d|] eqn:P; [|discriminate].
    destruct (canon (join d r)) as [b|] eqn:C'; [|inversion E; auto].
    destruct (F_eqb a b) eqn:Q; inversion E; subst; auto. apply HF in Q. subst b.
    right. exists d, a. auto.
  - inversion E; auto.
Qed.
Print Assumptions C36_canonical.

(** The fallback to the original path is only right for an absolute original: a relative one
    is put into the link as it is, and leads elsewhere. *)
Theorem C36_relative_original_refuted : exists F F_eqb (canon : path -> option F) original link t,
  best_effort_relativize_symlink F_eqb canon false (components original) (components link) = Some t /\
  t = components original /\
  link_leads_to ([Normal "work"] ++ components link) t <> follow ["work"] (components original).
Proof.
  exists unit, (fun _ _ => true), (fun _ => Some tt), "out/cxxbridge/include/lib.rs.h", "out/cxxbridge/include/lib.rs".
  eexists. split; [reflexivity|]. split; [reflexivity|]. vm_compute. discriminate.
Qed.
Print Assumptions C36_relative_original_refuted.

(** A link placed directly inside the original directory gets the empty path as its content,
    which no file system accepts for a symbolic link. *)
Theorem C36_empty_target_refuted : exists original link,
  abstractly_relativize_symlink false (components original) (components link) = Relative [].
Proof. exists "/work/crate", "/work/crate/link". reflexivity. Qed.
Print Assumptions C36_empty_target_refuted.

Example C36_nonvacuous :
  abstractly_relativize_symlink false (components "/foo/bar/baz") (components "/foo/spam/./x/eggs") =
    Relative [ParentDir; ParentDir; Normal "bar"; Normal "baz"] /\
  abstractly_relativize_symlink true (components "/foo/bar/baz") (components "/foo/spam/eggs") = NotRelative /\
  abstractly_relativize_symlink false (components "/foo/../baz") (components "/foo/spam/eggs") = NotRelative /\
  link_leads_to (components "/foo/spam/x/eggs") [ParentDir; ParentDir; Normal "bar"] = ["foo"; "bar"].
Proof. repeat split. Qed.
