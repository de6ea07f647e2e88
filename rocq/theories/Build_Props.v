(** C93: what a build leaves for the compiler; C94: where the target directory is. *)
From Verif Require Import Base StrLib Paths_Model Fs_Model Fs_Spec Fs_Proofs Fs_Proofs2 Fs_Proofs3 Fs_Props Build_Model Build_Spec Build_Proofs.
From Coq Require Import Lia.

(** * C93 *)
Lemma reading_file s q c : wf s -> contains s q c -> reading_gives s (absolute q) c.
Proof.
  intros W (i & T & <-) n. destruct q as [|x q _] using rev_ind; [rewrite (wf_root s W) in T; discriminate|].
  apply contains_reading; [exact W|eapply wf_parent; [exact W|exact T]|exists i; auto].
Qed.
Lemma reading_link env s o l t c : wf s -> l <> [] -> tree s l = Some (Link t) -> stands_for env o l t -> contains s o c -> reading_gives s (absolute l) c.
Proof.
  intros W N T St (i & To & <-) n. destruct l as [|x d _] using rev_ind; [congruence|]. cbn [sys]. rewrite <- (app_nil_r (absolute (d ++ [x]))).
  rewrite (link_walk env s o d x t (File i) [] W T St To); [|discriminate|left; reflexivity]. rewrite walk_nil, To. reflexivity.
Qed.
Lemma absolute_app a b : absolute a ++ map Normal b = absolute (a ++ b).
Proof. unfold absolute. rewrite map_app. reflexivity. Qed.

(** At every moment of a build without failures, only outputs have been touched, and it could be started anew.
    It ends in success, with the implementation files and the include path. *)
Theorem C93_run : forall p prj embedded others l s s' m,
  located p prj -> clear p (sources l) -> (forall b, In b l -> landing (br_source b) <> []) -> ready p (sources l) s ->
  steps false (s, build prj embedded others l) (s', m) ->
  ready p (sources l) s' /\ only_outputs p (sources l) s s' /\
  forall r, m = Ret r -> r = inr (map (fun b => absolute (code_at p (landing (br_source b)))) l, absolute (include_dir p) :: absolute (crate_dir p) :: others).
Proof.
  intros p prj e others l s s' m Loc C N R St. pose proof (seq_sound false _ _ _ s (build_ok p prj e others l s Loc C N R) s' m St) as H.
  pose proof (seq_phi _ _ _ _ _ H) as ((W & P & L) & T). split; [split; assumption|]. split; [exact T|]. intros r ->. exact (proj1 (proj2 H)).
Qed.
Print Assumptions C93_run.

Lemma build_done p prj embedded others l s s' r : located p prj -> clear p (sources l) -> (forall b, In b l -> landing (br_source b) <> []) -> ready p (sources l) s ->
  steps false (s, build prj embedded others l) (s', Ret r) -> wf s' /\ forall t, In t (tasks p embedded l) -> done_in (pr_target_set prj) s' t.
Proof.
  intros Loc C N R St. pose proof (seq_sound false _ _ _ s (build_ok p prj embedded others l s Loc C N R) s' (Ret r) St) as H. split; [exact (proj1 (proj1 (proj1 H)))|exact (proj2 (proj2 H))].
Qed.
Lemma bridge_task p embedded l b t : In b l -> In t (bridge_tasks p b) -> In t (tasks p embedded l).
Proof. intros I It. unfold tasks. apply in_or_app. right. apply in_or_app. right. apply in_flat_map. eauto. Qed.

(** The compiler finds the header generated from a source file both as `prefix/source.rs.h` and as
    `prefix/source.rs`, and it is given the implementations; the copies in the shared directory are the same. *)
Theorem C93_found : forall p prj embedded others l s s' files dirs,
  located p prj -> clear p (sources l) -> (forall b, In b l -> landing (br_source b) <> []) -> ready p (sources l) s ->
  steps false (s, build prj embedded others l) (s', Ret (inr (files, dirs))) ->
  Forall2 (fun f b => reading_gives s' f (br_implementation b)) files l /\
  forall b, In b l ->
    let r := landing (br_source b) in
    found s' (map Normal (at_prefix p ++ dotted r ".h")) (br_header b) dirs /\
    found s' (map Normal (at_prefix p ++ r)) (br_header b) dirs /\
    reading_gives s' (absolute (at_shared p ++ at_prefix p ++ dotted r ".h")) (br_header b) /\
    reading_gives s' (absolute (at_shared p ++ at_prefix p ++ dotted r ".cc")) (br_implementation b).
Proof.
  intros p prj e others l s s' files dirs Loc C N R St. destruct (C93_run p prj e others l s s' _ Loc C N R St) as (_ & _ & Hr). specialize (Hr _ eq_refl). injection Hr as -> ->.
  destruct (build_done p prj e others l s s' _ Loc C N R St) as [W D].
  assert (Hc : forall b, In b l -> contains s' (code_at p (landing (br_source b))) (br_implementation b)) by (intros b I; apply (D (_, AWrite _)), (bridge_task p e l b); [exact I|cbn; auto]).
  split.
  - clear -Hc W. induction l as [|b l IH]; [constructor|]. cbn [map]. constructor; [apply reading_file; [exact W|apply Hc; left; reflexivity]|apply IH; intros b' I; apply Hc; right; exact I].
  - intros b I r. assert (Hh : contains s' (header_at p r) (br_header b)) by (apply (D (_, AWrite _)), (bridge_task p e l b); [exact I|cbn; auto]).
    assert (Hk : forall q o c, In (q, ARelative o) (bridge_tasks p b) -> q <> [] -> contains s' o c -> reading_gives s' (absolute q) c).
    { intros q o c It Nq Ho. destruct (D (q, ARelative o) (bridge_task p e l b _ I It)) as (t & T & St'). eapply reading_link; eassumption. }
    assert (Nd : forall a c x, a ++ c ++ dotted r x <> []) by (intros a c x E; apply app_eq_nil in E as [_ E]; apply app_eq_nil in E as [_ E]; unfold dotted in E; destruct (removelast r); discriminate).
    split; [|split; [|split]].
    + apply found_here. rewrite absolute_app. apply reading_file; [exact W|exact Hh].
    + apply found_here. rewrite absolute_app. apply (Hk _ (header_at p r)); [cbn; auto| |exact Hh]. unfold include_dir. destruct (at_out p); discriminate.
    + apply (Hk _ (header_at p r)); [cbn; auto|apply Nd|exact Hh].
    + apply (Hk _ (code_at p r)); [cbn; auto 6|apply Nd|apply Hc, I].
Qed.
Print Assumptions C93_found.

(** what was there and is no output is still there *)
Lemma kept_file p l s s' q c : wf s -> only_outputs p l s s' -> elsewhere p l q -> contains s q c -> contains s' q c.
Proof.
  intros W (T & D & _) E (i & Ti & Di). exists i. split; [destruct (T q E) as [H|(H & _)]; congruence|]. rewrite D; [exact Di|]. exact (wf_fresh s W _ _ Ti).
Qed.

(** `rust/cxx.h` is the one in the library, or the one that the cxx crate has announced. *)
Theorem C93_cxx_h : forall p prj embedded others l s s' files dirs content,
  located p prj -> clear p (sources l) -> (forall b, In b l -> landing (br_source b) <> []) -> ready p (sources l) s ->
  steps false (s, build prj embedded others l) (s', Ret (inr (files, dirs))) ->
  match at_header p with None => content = embedded | Some h => contains s h content /\ elsewhere p (sources l) h end ->
  found s' [Normal "rust"; Normal "cxx.h"] content dirs.
Proof.
  intros p prj e others l s s' files dirs c Loc C N R St H. destruct (C93_run p prj e others l s s' _ Loc C N R St) as (_ & Oo & Hr). specialize (Hr _ eq_refl). injection Hr as -> ->.
  destruct (build_done p prj e others l s s' _ Loc C N R St) as [W D]. apply found_here. change [Normal "rust"; Normal "cxx.h"] with (map Normal ["rust"; "cxx.h"]). rewrite absolute_app. change (include_dir p ++ ["rust"; "cxx.h"]) with (cxx_h_at p).
  assert (Nc : cxx_h_at p <> []) by (unfold cxx_h_at, include_dir; destruct (at_out p); discriminate).
  assert (Ht : forall t, In t (match at_header p with None => [(shared_cxx_h_at p, AWrite e); (cxx_h_at p, ARelative (shared_cxx_h_at p))] | Some h => [(cxx_h_at p, AAbsolute (absolute h)); (shared_cxx_h_at p, AAbsolute (absolute h))] end) -> done_in (pr_target_set prj) s' t).
  { intros t I. apply D. unfold tasks. apply in_or_app. right. apply in_or_app. left. exact I. }
  destruct (at_header p) as [h|].
  - destruct H as [Hc He]. assert (T := Ht _ (or_introl eq_refl)). unfold done_in in T; cbn in T.
    eapply (reading_link false s' h (cxx_h_at p)); [exact W|exact Nc|exact T|left; reflexivity|]. eapply kept_file; [apply R|exact Oo|exact He|exact Hc].
  - subst c. assert (T := Ht _ (or_introl eq_refl)). destruct (Ht _ (or_intror (or_introl eq_refl))) as (t & T' & St'). eapply reading_link; [exact W|exact Nc|exact T'|exact St'|exact T].
Qed.
Print Assumptions C93_cxx_h.

(** The crate's own files are found below the prefix, unless something of that name has been generated. *)
Theorem C93_crate : forall p prj embedded others l s s' files dirs f content,
  located p prj -> clear p (sources l) -> (forall b, In b l -> landing (br_source b) <> []) -> ready p (sources l) s ->
  steps false (s, build prj embedded others l) (s', Ret (inr (files, dirs))) ->
  f <> [] -> contains s (at_manifest p ++ f) content -> elsewhere p (sources l) (at_manifest p ++ f) ->
  let shadow := include_dir p ++ at_prefix p ++ f in
  tree s shadow = None -> real_parents s shadow -> (forall k o, In (k, o) (outputs p (sources l)) -> unrelated shadow o) ->
  found s' (map Normal (at_prefix p ++ f)) content dirs.
Proof.
  intros p prj e others l s s' files dirs f c Loc C N R St Nf Hc He shadow Sn Sr Su. destruct (C93_run p prj e others l s s' _ Loc C N R St) as (_ & Oo & Hr). specialize (Hr _ eq_refl). injection Hr as -> ->.
  destruct (build_done p prj e others l s s' _ Loc C N R St) as [W D]. assert (Hc' := kept_file _ _ s s' _ _ (rd_wf _ _ _ R) Oo He Hc).
  apply found_later; [|apply found_here].
  - rewrite absolute_app. fold shadow. intros n.
    assert (P' : real_parents s' shadow).
    { intros q y r E. destruct Oo as [T _]. assert (Eq : elsewhere p (sources l) q).
      { intros k o I. destruct (is_prefix o q) eqn:Po; [|reflexivity]. apply is_prefix_spec in Po as [u ->]. destruct (Su k o I) as [_ U]. assert (is_prefix o shadow = true) by (apply is_prefix_spec; exists (u ++ y :: r); rewrite E, <- app_assoc; reflexivity). congruence. }
      destruct (T q Eq) as [H|(_ & H & _)]; [rewrite H; exact (Sr q y r E)|auto]. }
    assert (S' : tree s' shadow = None).
    { destruct Oo as [T _]. destruct (T shadow) as [H|(_ & _ & k & o & I & P)]; [intros k o I; apply (Su k o I)|congruence|]. destruct (Su k o I). congruence. }
    destruct shadow as [|y q _] using rev_ind; [rewrite (wf_root s' W) in S'; discriminate|]. cbn [sys]. destruct (parent_or s' q y P') as [H|H].
    + rewrite resolve_missing by assumption. eexists. reflexivity.
    + rewrite resolve_in; [rewrite S'; eexists; reflexivity|exact W|exact H|congruence].
  - unfold crate_dir. destruct (at_prefix p) as [|x pre] eqn:Ep.
    + cbn [app]. rewrite absolute_app. apply reading_file; [exact W|exact Hc'].
    + destruct (D (crate_at p, ADirectory (at_manifest p))) as (t & T & St'); [unfold tasks; rewrite Ep; left; reflexivity|]. cbn [fst] in T, St'.
      rewrite map_app, app_assoc, absolute_app. rewrite <- app_assoc. unfold crate_at in T, St'. rewrite Ep in T, St'. cbn [app] in T, St' |- *.
      destruct (exists_last (l := at_out p ++ "cxxbridge" :: "crate" :: x :: pre)) as (d & y & Ed); [destruct (at_out p); discriminate|]. rewrite Ed in *.
      destruct Hc' as (i & Ti & Di). intros n. cbn [sys].
      assert (Tm : tree s' (at_manifest p) = Some Dir) by (eapply wf_above; [exact W|exact Ti|exact Nf]).
      rewrite (link_walk (pr_target_set prj) s' (at_manifest p) d y t Dir _ W T St' Tm); [|discriminate|right; reflexivity].
      rewrite <- (app_nil_r (map Normal f)), (walk_names 39 s' true [] f (at_manifest p) (File i) W Ti); [|discriminate|left; reflexivity]. rewrite walk_nil, Ti, Di. reflexivity.
Qed.
Print Assumptions C93_crate.

(** A build that is killed at any moment does no harm: the next one, with the same sources (and what is generated
    from them by then), gives what it should. *)
Theorem C93_rerun : forall p prj embedded others l l' s s1 m1 s' files dirs,
  located p prj -> clear p (sources l) -> (forall b, In b l -> landing (br_source b) <> []) -> ready p (sources l) s ->
  steps false (s, build prj embedded others l) (s1, m1) ->
  map br_source l' = map br_source l ->
  steps false (s1, build prj embedded others l') (s', Ret (inr (files, dirs))) ->
  Forall2 (fun f b => reading_gives s' f (br_implementation b)) files l' /\
  forall b, In b l' -> found s' (map Normal (at_prefix p ++ dotted (landing (br_source b)) ".h")) (br_header b) dirs.
Proof.
  intros p prj e others l l' s s1 m1 s' files dirs Loc C N R St1 El St2. destruct (C93_run p prj e others l s s1 m1 Loc C N R St1) as (R1 & _).
  assert (Es : sources l' = sources l) by (unfold sources; rewrite <- (map_map br_source landing l'), <- (map_map br_source landing l), El; reflexivity).
  assert (N' : forall b, In b l' -> landing (br_source b) <> []).
  { intros b I. assert (Ib : In (br_source b) (map br_source l)) by (rewrite <- El; apply in_map, I). apply in_map_iff in Ib as (b0 & <- & I0). apply N, I0. }
  rewrite <- Es in C, R1. destruct (C93_found p prj e others l' s1 s' files dirs Loc C N' R1 St2) as [H1 H2]. split; [exact H1|]. intros b I. apply (H2 b I).
Qed.
Print Assumptions C93_rerun.

(** The usual case: the prefix is one name (that of the package), the sources are different Rust files, and the
    shared directory has nothing to do with the output directory. *)
Lemma prefix_app_l a b c : is_prefix (a ++ b) (a ++ c) = is_prefix b c.
Proof. induction a as [|x a IH]; [reflexivity|]. cbn. rewrite String.eqb_refl. exact IH. Qed.
Lemma unrelated_same a x y : unrelated x y -> unrelated (a ++ x) (a ++ y).
Proof. unfold unrelated. rewrite !prefix_app_l. auto. Qed.
Lemma prefix_cut a b x y : is_prefix (a ++ x) (b ++ y) = true -> is_prefix a b = true \/ is_prefix b a = true.
Proof.
  revert b. induction a as [|u a IH]; intros [|v b] H; cbn in *; auto. apply andb_true_iff in H as [E H]. rewrite E. apply String.eqb_eq in E as ->. rewrite String.eqb_refl. cbn. apply IH, H.
Qed.
Lemma unrelated_apart a b x y : unrelated a b -> unrelated (a ++ x) (b ++ y).
Proof.
  intros [H1 H2]. split.
  - destruct (is_prefix (a ++ x) (b ++ y)) eqn:E; [|reflexivity]. apply prefix_cut in E as [E|E]; congruence.
  - destruct (is_prefix (b ++ y) (a ++ x)) eqn:E; [|reflexivity]. apply prefix_cut in E as [E|E]; congruence.
Qed.
Lemma unrelated_sym a b : unrelated a b -> unrelated b a. Proof. intros [H1 H2]. split; assumption. Qed.
Lemma unrelated_heads x y a b : x <> y -> unrelated (x :: a) (y :: b).
Proof. intros N. split; cbn; [destruct (String.eqb_spec x y)|destruct (String.eqb_spec y x)]; solve [congruence|reflexivity]. Qed.
Lemma plain_prefix du fu dv fv : Forall (fun d => has_char "." d = false) dv -> has_char "." fu = true -> is_prefix (du ++ [fu]) (dv ++ [fv]) = true -> du ++ [fu] = dv ++ [fv].
Proof.
  intros V F P. apply is_prefix_spec in P as [r E]. destruct r as [|x r _] using rev_ind; [rewrite app_nil_r in E; symmetry; exact E|]. exfalso.
  rewrite app_assoc in E. apply app_inj_tail in E as [-> _]. rewrite !Forall_app in V. destruct V as [[_ V] _]. inversion V; subst. congruence.
Qed.
Lemma chars_app (a b : string) : list_ascii_of_string (a ++ b)%string = list_ascii_of_string a ++ list_ascii_of_string b.
Proof. induction a as [|x a IH]; cbn; [reflexivity|]. rewrite IH. reflexivity. Qed.
Lemma chars_inj a b : list_ascii_of_string a = list_ascii_of_string b -> a = b.
Proof. intros E. rewrite <- (string_of_list_ascii_of_string a), <- (string_of_list_ascii_of_string b), E. reflexivity. Qed.
Definition extension (e : string) : Prop := e = "" \/ e = ".h" \/ e = ".cc".
Lemma extension_inj f f' e e' : extension e -> extension e' -> ((f ++ ".rs") ++ e)%string = ((f' ++ ".rs") ++ e')%string -> e = e' /\ f = f'.
Proof.
  intros He He' E. apply (f_equal list_ascii_of_string) in E. rewrite !chars_app in E.
  destruct He as [-> | [-> | ->]], He' as [-> | [-> | ->]]; cbn in E; rewrite <- ?app_assoc in E; cbn in E;
    try (split; [reflexivity|]; apply chars_inj; exact (app_inv_tail _ _ _ E));
    apply (f_equal (fun x => hd "0"%char (rev x))) in E; rewrite !rev_app_distr in E; cbn in E; discriminate.
Qed.
Lemma dotted_plain d f e : dotted (d ++ [f]) e = d ++ [(f ++ e)%string].
Proof. unfold dotted. rewrite removelast_last, last_last. reflexivity. Qed.
Lemma append_nil (f : string) : (f ++ "")%string = f. Proof. induction f as [|c f IH]; cbn; [reflexivity|]. rewrite IH. reflexivity. Qed.
Lemma dotted_none r : usual r -> r = dotted r "".
Proof. intros (d & f & -> & _). rewrite dotted_plain, append_nil. reflexivity. Qed.
Lemma usual_apart r r' e e' : usual r -> usual r' -> extension e -> extension e' -> (r = r' -> e <> e') -> unrelated (dotted r e) (dotted r' e').
Proof.
  intros (d & f & -> & V) (d' & f' & -> & V') He He' N. rewrite !dotted_plain.
  assert (Dot : forall f e, has_char "." ((f ++ ".rs") ++ e)%string = true) by (intros f0 e0; rewrite !has_char_app; cbn; rewrite orb_true_r; reflexivity).
  assert (X : d ++ [((f ++ ".rs") ++ e)%string] <> d' ++ [((f' ++ ".rs") ++ e')%string]).
  { intros E. apply app_inj_tail in E as [-> E]. destruct (extension_inj _ _ _ _ He He' E) as [-> ->]. apply N; reflexivity. }
  split; match goal with |- ?a = false => destruct a eqn:P; [|reflexivity] end; exfalso; apply plain_prefix in P; auto.
Qed.
Lemma pairs_app {A} (R : A -> A -> Prop) l1 l2 : ForallOrdPairs R l1 -> ForallOrdPairs R l2 -> (forall x y, In x l1 -> In y l2 -> R x y) -> ForallOrdPairs R (l1 ++ l2).
Proof.
  induction 1 as [|x l1 F1 F2 IH]; intros H2 H; [exact H2|]. cbn. constructor.
  - apply Forall_app. split; [exact F1|]. apply Forall_forall. intros y I. apply H; [left; reflexivity|exact I].
  - apply IH; [exact H2|]. intros y z Iy Iz. apply H; [right; exact Iy|exact Iz].
Qed.
Theorem C93_usual : forall p l pkg, at_prefix p = [pkg] -> pkg <> "rust" -> unrelated (at_shared p) (at_out p ++ ["cxxbridge"]) ->
  NoDup l -> Forall usual l -> clear p l.
Proof.
  intros p l pkg Ep Np U Nd Us.
  set (cr := at_out p ++ ["cxxbridge"; "crate"]). set (inc := at_out p ++ ["cxxbridge"; "include"]). set (src := at_out p ++ ["cxxbridge"; "sources"]). set (sh := at_shared p).
  assert (B : forall x y, x <> y -> unrelated (at_out p ++ ["cxxbridge"; x]) (at_out p ++ ["cxxbridge"; y])).
  { intros x y N. change ["cxxbridge"; x] with (["cxxbridge"] ++ [x]). change ["cxxbridge"; y] with (["cxxbridge"] ++ [y]). do 2 apply unrelated_same. apply unrelated_heads, N. }
  assert (Bs : forall x, unrelated sh (at_out p ++ ["cxxbridge"; x])).
  { intros x. rewrite <- (app_nil_r sh). change ["cxxbridge"; x] with (["cxxbridge"] ++ [x]). rewrite (app_assoc (at_out p)). apply unrelated_apart, U. }
  assert (B1 : unrelated cr inc) by (apply B; discriminate). assert (B2 : unrelated cr src) by (apply B; discriminate). assert (B3 : unrelated inc src) by (apply B; discriminate).
  assert (B4 : unrelated sh cr) by apply Bs. assert (B5 : unrelated sh inc) by apply Bs. assert (B6 : unrelated sh src) by apply Bs.
  assert (Bk : forall a b, In a [cr; inc; src; sh] -> In b [cr; inc; src; sh] -> a = b \/ unrelated a b).
  { intros a b [<-|[<-|[<-|[<-|[]]]]] [<-|[<-|[<-|[<-|[]]]]]; first [left; reflexivity|right; first [assumption|apply unrelated_sym; assumption]]. }
  (* every output is one of these *)
  assert (Hb : forall a b x y, In a [cr; inc; src; sh] -> In b [cr; inc; src; sh] -> (a = b -> unrelated x y) -> unrelated (a ++ x) (b ++ y)).
  { intros a b x y Ia Ib H. destruct (Bk a b Ia Ib) as [<-|Ub]; [apply unrelated_same, H; reflexivity|apply unrelated_apart, Ub]. }
  assert (I1 : In cr [cr; inc; src; sh]) by (cbn; auto). assert (I2 : In inc [cr; inc; src; sh]) by (cbn; auto). assert (I3 : In src [cr; inc; src; sh]) by (cbn; auto). assert (I4 : In sh [cr; inc; src; sh]) by (cbn; auto).
  assert (Nb : forall a b, unrelated a b -> a <> b) by (intros a b [H _] ->; rewrite is_prefix_refl in H; discriminate).
  assert (E0 : crate_at p = cr ++ [pkg]) by (unfold crate_at, cr; rewrite Ep, <- app_assoc; reflexivity).
  assert (Eg : forall r, usual r -> [(AFile, header_at p r); (ALink, magic_at p r); (AFile, code_at p r); (ALink, shared_header_at p r); (ALink, shared_code_at p r)] =
    map (fun v : sort * name * string => let '(k, b, e) := v in (k, b ++ pkg :: dotted r e)) [(AFile, inc, ".h"); (ALink, inc, ""); (AFile, src, ".cc"); (ALink, sh, ".h"); (ALink, sh, ".cc")]).
  { intros r Ur. unfold header_at, magic_at, code_at, shared_header_at, shared_code_at. rewrite Ep. cbn [map app]. rewrite <- (dotted_none r Ur). unfold src. rewrite <- !app_assoc. cbn [app]. reflexivity. }
  unfold clear, outputs. rewrite Ep. rewrite map_app. cbn [map app snd]. rewrite E0.
  set (vs := [(AFile, inc, ".h"); (ALink, inc, ""); (AFile, src, ".cc"); (ALink, sh, ".h"); (ALink, sh, ".cc")]) in *.
  assert (Hv : forall k b e, In (k, b, e) vs -> In b [inc; src; sh] /\ extension e).
  { intros k b e [E|[E|[E|[E|[E|[]]]]]]; injection E as <- <- <-; unfold extension; cbn; auto 10. }
  assert (Hin : forall b, In b [inc; src; sh] -> In b [cr; inc; src; sh]) by (intros b H; right; exact H).
  set (F := fun r : name => [(AFile, header_at p r); (ALink, magic_at p r); (AFile, code_at p r); (ALink, shared_header_at p r); (ALink, shared_code_at p r)]) in *.
  (* within and between bridges *)
  assert (HF : ForallOrdPairs unrelated (map snd (flat_map F l))).
  { induction l as [|r l IH]; [constructor|]. inversion Nd as [|? ? Nr Nd']; subst. inversion Us as [|? ? Ur Us']; subst. cbn [flat_map]. rewrite map_app. apply pairs_app.
    - unfold F. rewrite (Eg r Ur). rewrite map_map.
      assert (Hp : forall v v', v <> v' -> In v vs -> In v' vs -> unrelated (snd (let '(k, b, e) := v in (k, b ++ pkg :: dotted r e))) (snd (let '(k, b, e) := v' in (k, b ++ pkg :: dotted r e)))).
      { intros [[k b] e] [[k' b'] e'] Nv Iv Iv'. cbn [snd]. destruct (Hv _ _ _ Iv) as [Ib He], (Hv _ _ _ Iv') as [Ib' He']. apply Hb; [apply Hin, Ib|apply Hin, Ib'|]. intros <-. apply (unrelated_same [pkg]). apply usual_apart; try assumption. intros _ <-. apply Nv. f_equal. f_equal.
        clear -Iv Iv' B3 B5 B6 Nb. assert (X1 := Nb _ _ B3). assert (X2 := Nb _ _ B5). assert (X3 := Nb _ _ B6).
        destruct Iv as [E|[E|[E|[E|[E|[]]]]]], Iv' as [E'|[E'|[E'|[E'|[E'|[]]]]]]; injection E as <- <- <-; injection E'; intros; subst; congruence. }
      assert (Nv : NoDup vs).
      { unfold vs. assert (X1 := Nb _ _ B3). assert (X2 := Nb _ _ B5). assert (X3 := Nb _ _ B6).
        repeat (constructor; [cbn; intros H; repeat (destruct H as [H|H]; [injection H; intros; congruence|]); exact H|]). constructor. }
      clear -Hp Nv. induction vs as [|v vs IHv]; [constructor|]. inversion Nv as [|? ? Nv1 Nv2]; subst. cbn [map]. constructor.
      + apply Forall_forall. intros q I. apply in_map_iff in I as (v' & <- & I). apply Hp; [intros ->; contradiction|left; reflexivity|right; exact I].
      + apply IHv; [|exact Nv2]. intros v1 v2 N I1 I2. apply Hp; [exact N|right; exact I1|right; exact I2].
    - apply IH; assumption.
    - intros x y Ix Iy. apply in_map_iff in Ix as ([k q] & <- & Ix). apply in_map_iff in Iy as ([k' q'] & <- & Iy). apply in_flat_map in Iy as (r' & Ir' & Iy).
      assert (Ur' : usual r') by (rewrite Forall_forall in Us'; apply Us', Ir'). unfold F in Ix, Iy. rewrite (Eg r Ur) in Ix. rewrite (Eg r' Ur') in Iy.
      apply in_map_iff in Ix as ([[k1 b] e] & E1 & Iv). apply in_map_iff in Iy as ([[k2 b'] e'] & E2 & Iv'). injection E1 as _ <-. injection E2 as _ <-. cbn [snd].
      destruct (Hv _ _ _ Iv) as [Ib He], (Hv _ _ _ Iv') as [Ib' He']. apply Hb; [apply Hin, Ib|apply Hin, Ib'|]. intros _. apply (unrelated_same [pkg]). apply usual_apart; try assumption. intros ->. contradiction. }
  assert (Hc : forall q, In q (map snd (flat_map F l)) -> unrelated (cr ++ [pkg]) q /\ unrelated (cxx_h_at p) q /\ unrelated (shared_cxx_h_at p) q).
  { intros q Iq. apply in_map_iff in Iq as ([k q'] & <- & Iq). apply in_flat_map in Iq as (r & Ir & Iq). assert (Ur : usual r) by (rewrite Forall_forall in Us; apply Us, Ir). unfold F in Iq. rewrite (Eg r Ur) in Iq.
    apply in_map_iff in Iq as ([[k1 b] e] & E1 & Iv). injection E1 as _ <-. cbn [snd]. destruct (Hv _ _ _ Iv) as [Ib He]. split; [|split].
    - apply Hb; [exact I1|apply Hin, Ib|]. intros <-. exfalso. destruct Ib as [E|[E|[E|[]]]]; [apply (Nb _ _ B1)|apply (Nb _ _ B2)|apply (Nb _ _ B4)]; congruence.
    - apply (Hb inc b ["rust"; "cxx.h"]); [exact I2|apply Hin, Ib|]. intros _. apply unrelated_heads. congruence.
    - apply (Hb sh b ["rust"; "cxx.h"]); [exact I4|apply Hin, Ib|]. intros _. apply unrelated_heads. congruence. }
  assert (C1 : unrelated (cr ++ [pkg]) (cxx_h_at p)) by (apply (unrelated_apart cr inc), B1).
  assert (C2 : unrelated (cr ++ [pkg]) (shared_cxx_h_at p)) by (apply (unrelated_apart cr sh), unrelated_sym, B4).
  assert (C3 : unrelated (cxx_h_at p) (shared_cxx_h_at p)) by (apply (unrelated_apart inc sh), unrelated_sym, B5).
  destruct (at_header p); cbn [map app snd].
  - constructor; [constructor; [exact C1|constructor; [exact C2|apply Forall_forall; intros q Iq; apply Hc, Iq]]|]. constructor; [constructor; [exact C3|apply Forall_forall; intros q Iq; apply Hc, Iq]|].
    constructor; [apply Forall_forall; intros q Iq; apply Hc, Iq|exact HF].
  - constructor; [constructor; [exact C2|constructor; [exact C1|apply Forall_forall; intros q Iq; apply Hc, Iq]]|]. constructor; [constructor; [apply unrelated_sym; exact C3|apply Forall_forall; intros q Iq; apply Hc, Iq]|].
    constructor; [apply Forall_forall; intros q Iq; apply Hc, Iq|exact HF].
Qed.
Print Assumptions C93_usual.

(** ** What does not hold *)
Definition demo : place := Place ["demo"] ["w"] ["w"; "target"; "out"] ["w"; "target"; "cxxbridge"] None.
Definition demo_prj : project := Project [Normal "demo"] (absolute ["w"]) (absolute ["w"; "target"; "out"]) (absolute ["w"; "target"; "cxxbridge"]) false None.
Definition world : fs := listing
  [(["w"], Dir); (["w"; "lib.rs"], File 0); (["w"; "mine.h"], File 1); (["w"; "a.rs.h"], File 2); (["w"; "target"], Dir); (["w"; "target"; "out"], Dir)]
  [chars "mod"; chars "mine"; chars "own"].
Lemma demo_located : located demo demo_prj. Proof. repeat split. Qed.
Lemma world_ready : ready demo [["lib.rs"]; ["src"; "a.rs"]] world.
Proof.
  split.
  - apply listing_wf. reflexivity.
  - intros k q I. apply listing_parents. cbn in I. repeat (destruct I as [I|I]; [injection I as <- <-; reflexivity|]). destruct I.
  - intros q t I. cbn in I. repeat (destruct I as [I|I]; [discriminate I || (injection I as <-; discriminate)|]). destruct I.
Qed.
Lemma not_found s rest c c' d dirs : reading_gives s (d ++ rest) c -> c <> c' -> ~ found s rest c' (d :: dirs).
Proof.
  intros R N H. inversion H as [d0 dirs0 R'|d0 dirs0 E _]; subst.
  - specialize (R 0%nat). specialize (R' 0%nat). rewrite R in R'. congruence.
  - specialize (R 0%nat). destruct (E 0%nat) as [e E']. cbn [sys] in R, E'. destruct (resolve s true (d ++ rest)) as [q|q|]; try discriminate. destruct (tree s q) as [[| |]|]; discriminate.
Qed.

Lemma exec_result {A} n (c : fs * prog A) a : snd (exec c (repeat true n)) = Ret a -> steps false c (fst (exec c (repeat true n)), Ret a).
Proof. intros <-. rewrite <- surjective_pairing. apply exec_steps_ok. Qed.
Lemma read_result s p c : snd (sys 0 s (Read p)) = RBytes c -> reading_gives s p c.
Proof. intros E n. change ((s, snd (sys 0 s (Read p))) = (s, RBytes c)). rewrite E. reflexivity. Qed.

(** Sources that land in the same place: the build is a success, but the header of one of them is not to be had. *)
Theorem C93_collision_refuted : exists p prj embedded l s s' files dirs b,
  located p prj /\ (forall b, In b l -> landing (br_source b) <> []) /\ NoDup (map br_source l) /\ ready p (sources l) s /\
  steps false (s, build prj embedded [] l) (s', Ret (inr (files, dirs))) /\ In b l /\
  ~ found s' (map Normal (at_prefix p ++ dotted (landing (br_source b)) ".h")) (br_header b) dirs.
Proof.
  pose (b1 := Bridge (components "lib.rs") (chars "one") (chars "1")). pose (b2 := Bridge (components "../lib.rs") (chars "two") (chars "2")).
  pose (files := repeat (absolute ["w"; "target"; "out"; "cxxbridge"; "sources"; "demo"; "lib.rs.cc"]) 2). pose (dirs := [absolute ["w"; "target"; "out"; "cxxbridge"; "include"]; absolute ["w"; "target"; "out"; "cxxbridge"; "crate"]]).
  exists demo, demo_prj, (chars "cxx"), [b1; b2], world, (fst (exec (world, build demo_prj (chars "cxx") [] [b1; b2]) (repeat true 120))), files, dirs, b1.
  split; [exact demo_located|]. split; [intros b [<-|[<-|[]]]; discriminate|]. split; [constructor; [intros [I|[]]; discriminate|constructor; [intros []|constructor]]|].
  split; [destruct world_ready as [W P L]; split; [exact W| |]; [intros k q I; apply (P k q)|intros q t I; apply (L q t)]; clear -I; cbn in I |- *; tauto|].
  split; [apply exec_result; vm_compute; reflexivity|]. split; [left; reflexivity|]. apply (not_found _ _ (chars "two")); [|discriminate]. apply read_result. vm_compute. reflexivity.
Qed.
Print Assumptions C93_collision_refuted.

(** The output directory is not cleaned: the header of a bridge that is no more is still found, even in front of
    a file of the crate itself. *)
Theorem C93_stale_refuted : exists p prj embedded l l' s s1 r1 s' files dirs f content,
  located p prj /\ clear p (sources l) /\ clear p (sources l') /\ (forall b, In b (l ++ l') -> landing (br_source b) <> []) /\ ready p (sources (l ++ l')) s /\
  steps false (s, build prj embedded [] l) (s1, Ret r1) /\
  steps false (s1, build prj embedded [] l') (s', Ret (inr (files, dirs))) /\
  contains s (at_manifest p ++ f) content /\ (forall b, In b l' -> f <> dotted (landing (br_source b)) ".h" /\ f <> landing (br_source b)) /\
  ~ found s' (map Normal (at_prefix p ++ f)) content dirs.
Proof.
  pose (b1 := Bridge (components "a.rs") (chars "old") (chars "1")). pose (b2 := Bridge (components "lib.rs") (chars "new") (chars "2")).
  pose (file := fun x => absolute ["w"; "target"; "out"; "cxxbridge"; "sources"; "demo"; x]). pose (dirs := [absolute ["w"; "target"; "out"; "cxxbridge"; "include"]; absolute ["w"; "target"; "out"; "cxxbridge"; "crate"]]).
  pose (s1 := fst (exec (world, build demo_prj (chars "cxx") [] [b1]) (repeat true 120))).
  exists demo, demo_prj, (chars "cxx"), [b1], [b2], world, s1, (inr ([file "a.rs.cc"], dirs)), (fst (exec (s1, build demo_prj (chars "cxx") [] [b2]) (repeat true 120))), [file "lib.rs.cc"], dirs, ["a.rs.h"], (chars "own").
  split; [exact demo_located|].
  assert (U : forall r, r = ["a.rs"] \/ r = ["lib.rs"] -> clear demo [r]).
  { intros r Hr. apply (C93_usual demo [r] "demo"); [reflexivity|discriminate|split; reflexivity|constructor; [intros []|constructor]|constructor; [|constructor]].
    destruct Hr as [-> | ->]; [exists [], "a"|exists [], "lib"]; repeat constructor. }
  split; [apply U; left; reflexivity|]. split; [apply U; right; reflexivity|]. split; [intros b [<-|[<-|[]]]; discriminate|]. split.
  { split.
    - apply listing_wf. reflexivity.
    - intros k q I. apply listing_parents. cbn in I. repeat (destruct I as [I|I]; [injection I as <- <-; reflexivity|]). destruct I.
    - intros q t I. cbn in I. repeat (destruct I as [I|I]; [discriminate I || (injection I as <-; discriminate)|]). destruct I. }
  split; [unfold s1; apply exec_result; vm_compute; reflexivity|]. split; [apply exec_result; vm_compute; reflexivity|].
  split; [exists 2%nat; split; reflexivity|]. split; [intros b [<-|[]]; split; discriminate|].
  apply (not_found _ _ (chars "old")); [|discriminate]. apply read_result. vm_compute. reflexivity.
Qed.
Print Assumptions C93_stale_refuted.

Example C93_nonvacuous :
  let l := [Bridge (components "lib.rs") (chars "H") (chars "C"); Bridge (components "./src/../src/a.rs") (chars "h") (chars "c")] in
  let r := exec (world, build demo_prj (chars "cxx") [] l) (repeat true 200) in
  located demo demo_prj /\ clear demo (sources l) /\ ready demo (sources l) world /\ steps false (world, build demo_prj (chars "cxx") [] l) r /\
  (exists s' files dirs, r = (s', Ret (inr (files, dirs)))) /\
  tree (fst r) ["w"; "target"; "out"; "cxxbridge"; "include"; "demo"; "src"; "a.rs"] = Some (Link [Normal "a.rs.h"]) /\
  tree (fst r) ["w"; "target"; "out"; "cxxbridge"; "crate"; "demo"] = Some (Link [ParentDir; ParentDir; ParentDir; ParentDir]) /\
  contains world (at_manifest demo ++ ["mine.h"]) (chars "mine") /\ elsewhere demo (sources l) (at_manifest demo ++ ["mine.h"]).
Proof.
  intros l r. split; [exact demo_located|]. split.
  { apply (C93_usual demo (sources l) "demo"); [reflexivity|discriminate|split; reflexivity| |].
    - constructor; [intros [I|[]]; discriminate|constructor; [intros []|constructor]].
    - constructor; [exists [], "lib"; repeat constructor|]. constructor; [exists ["src"], "a"; repeat constructor|constructor]. }
  split; [exact world_ready|]. split; [apply exec_steps_ok|]. split; [vm_compute; eexists _, _, _; reflexivity|]. split; [vm_compute; reflexivity|]. split; [vm_compute; reflexivity|].
  split; [exists 1%nat; split; reflexivity|]. intros k o I. cbn in I. repeat (destruct I as [I|I]; [injection I as <- <-; reflexivity|]). destruct I.
Qed.

(** * C94 *)
Definition asks {A} (s : fs) (Post : A -> Prop) (m : prog A) : Prop := seq false (fun s' => s' = s) (fun _ a => Post a) m s.
Lemma asks_bind {A B} s (P : A -> Prop) (Q : B -> Prop) m f : asks s P m -> (forall a, P a -> asks s Q (f a)) -> asks s Q (bind m f).
Proof. intros H K. unfold asks. apply seq_bind. eapply seq_weaken; [intros s' E; exact E| |exact H]. cbn beta. intros s' a -> Pa. apply K, Pa. Qed.
Lemma asks_ret {A} s (P : A -> Prop) a : P a -> asks s P (Ret a). Proof. intros H. split; [reflexivity|exact H]. Qed.
Lemma asks_exists s p : asks s (fun b => b = true <-> exists_at s p) (path_exists p).
Proof.
  split; [reflexivity|]. split; [|discriminate]. intros n s' r E. assert (En : forall n', sys n' s (Stat p) = (s', r)) by (intros n'; exact E). assert (s' = s) by (cbn [sys] in E; congruence). subst s'.
  split; [reflexivity|]. split.
  - intros H n'. rewrite En. destruct r; try discriminate. eexists. reflexivity.
  - intros H. destruct (H 0%nat) as [k H']. rewrite En in H'. injection H' as ->. reflexivity.
Qed.
Lemma join_one d x : join (absolute d) [Normal x] = absolute (d ++ [x]). Proof. apply (join_absolute d [x]). Qed.
Lemma asks_marked s d : asks s (fun b => b = true <-> marked s d) (is_target_dir (absolute d)).
Proof.
  unfold is_target_dir. rewrite !join_one. eapply asks_bind; [apply asks_exists|]. intros [|] H1; [apply asks_ret; split; [intros _; left; apply H1; reflexivity|reflexivity]|].
  eapply asks_bind; [apply asks_exists|]. intros [|] H2; [apply asks_ret; split; [intros _; right; left; apply H2; reflexivity|reflexivity]|].
  assert (N1 : ~ exists_at s (absolute (d ++ [".rustc_info.json"]))) by (intros H; apply H1 in H; discriminate). assert (N2 : ~ exists_at s (absolute (d ++ ["CACHEDIR.TAG"]))) by (intros H; apply H2 in H; discriminate).
  destruct d as [|x d _] using rev_ind.
  - cbn. apply asks_ret. split; [discriminate|]. intros [H|[H|(q & E & _)]]; [contradiction|contradiction|destruct q; discriminate].
  - assert (En : file_name (absolute (d ++ [x])) = Some x) by (unfold file_name, absolute; cbn [rev map]; rewrite map_app, rev_app_distr; reflexivity). rewrite En, parent_absolute.
    destruct (String.eqb_spec x "target") as [->|Nx].
    + rewrite join_one. eapply seq_weaken; [intros s' E; exact E| |apply asks_exists]. cbn beta. intros _ b _ H. rewrite H. split; [intros Hx; right; right; eauto|].
      intros [Hx|[Hx|(q & E & Hx)]]; [contradiction|contradiction|]. apply app_inj_tail in E as [-> _]. exact Hx.
    + apply asks_ret. split; [discriminate|]. intros [H|[H|(q & E & _)]]; [contradiction|contradiction|]. apply app_inj_tail in E as [_ E]. congruence.
Qed.
(** [a] is the first marked directory on the way up from [d] *)
Definition nearest (s : fs) (d a : name) : Prop := is_prefix a d = true /\ marked s a /\ forall b, is_prefix a b = true -> is_prefix b d = true -> marked s b -> b = a.
Definition unmarked (s : fs) (d : name) : Prop := forall a, is_prefix a d = true -> ~ marked s a.
Lemma prefix_snoc a d x : is_prefix a (d ++ [x]) = true <-> a = d ++ [x] \/ is_prefix a d = true.
Proof.
  rewrite !is_prefix_spec. split.
  - intros [r E]. destruct r as [|y r _] using rev_ind; [left; rewrite app_nil_r in E; auto|]. right. rewrite app_assoc in E. apply app_inj_tail in E as [-> _]. eauto.
  - intros [->|[r ->]]; [exists []; rewrite app_nil_r; reflexivity|exists (r ++ [x]); rewrite <- app_assoc; reflexivity].
Qed.
Lemma asks_climb s : forall n d, (List.length d <= n)%nat ->
  asks s (fun r => match r with Some e => exists a, e = absolute a /\ nearest s d a | None => unmarked s d end) (climb n (absolute d)).
Proof.
  assert (S1 : forall d, marked s d -> exists a, absolute d = absolute a /\ nearest s d a).
  { intros d H. exists d. split; [reflexivity|]. split; [apply is_prefix_refl|]. split; [exact H|]. intros b P1 P2 _. apply prefix_antisym; assumption. }
  assert (S0 : ~ marked s [] -> unmarked s []) by (intros H a P; destruct a; [exact H|discriminate]).
  induction n as [|n IH]; intros d L; cbn [climb]; (eapply asks_bind; [apply asks_marked|]); intros [|] H; try (apply asks_ret; apply S1, H; reflexivity);
    assert (Nm : ~ marked s d) by (intros M; apply H in M; discriminate).
  - destruct d; [|cbn in L; lia]. apply asks_ret. apply S0, Nm.
  - destruct d as [|x d _] using rev_ind; [apply asks_ret, S0, Nm|]. rewrite parent_absolute. rewrite app_length in L. cbn in L. eapply seq_weaken; [intros s' E; exact E| |apply (IH d); lia]. cbn beta.
    intros _ [e|] _.
    + intros (a & -> & P & M & F). exists a. split; [reflexivity|]. split; [apply prefix_snoc; auto|]. split; [exact M|]. intros b P1 P2 Mb. apply prefix_snoc in P2 as [->|P2]; [contradiction|]. apply F; assumption.
    + intros U a P. apply prefix_snoc in P as [->|P]; [exact Nm|apply U, P].
Qed.

(** Without CARGO_TARGET_DIR, the target directory is the nearest marked directory above OUT_DIR as it is spelled;
    if there is none, the nearest above its real location; and there is none only if neither has one.  Looking for
    it changes nothing. *)
Theorem C94_nearest : forall o s s' r, steps false (s, find_target_dir None (absolute o)) (s', Ret r) ->
  s' = s /\
  match r with
  | Some e => exists a, e = absolute a /\ (nearest s o a \/ unmarked s o /\ exists q, (forall n, sys n s (Realpath (absolute o)) = (s, RName q)) /\ nearest s q a)
  | None => unmarked s o /\ forall q, (forall n, sys n s (Realpath (absolute o)) = (s, RName q)) -> unmarked s q
  end.
Proof.
  intros o s s' r St.
  assert (H : asks s (fun r => match r with
    | Some e => exists a, e = absolute a /\ (nearest s o a \/ unmarked s o /\ exists q, (forall n, sys n s (Realpath (absolute o)) = (s, RName q)) /\ nearest s q a)
    | None => unmarked s o /\ forall q, (forall n, sys n s (Realpath (absolute o)) = (s, RName q)) -> unmarked s q end) (find_target_dir None (absolute o))).
  { unfold find_target_dir. eapply asks_bind; [apply asks_climb; unfold absolute; cbn; rewrite map_length; lia|]. intros [e|].
    - intros (a & -> & N). apply asks_ret. exists a. auto.
    - intros U. split; [reflexivity|]. split; [|discriminate]. intros n s1 r1 E. assert (En : forall n', sys n' s (Realpath (absolute o)) = (s1, r1)) by (intros n'; exact E). assert (s1 = s) by (cbn [sys] in E; congruence). subst s1.
      destruct r1 as [|e1|k1|b1|q|i1|n1]; try (apply asks_ret; split; [exact U|]; intros q Hq; specialize (Hq 0%nat); rewrite En in Hq; discriminate).
      change (RootDir :: map Normal q) with (absolute q). eapply seq_weaken; [intros s2 E2; exact E2| |apply (asks_climb s _ q); unfold absolute; cbn; rewrite map_length; lia]. cbn beta. intros _ [e|] _.
      + intros (a & -> & N). exists a. split; [reflexivity|]. right. split; [exact U|]. exists q. auto.
      + intros Uq. split; [exact U|]. intros q' Hq. specialize (Hq 0%nat). rewrite En in Hq. injection Hq as <-. exact Uq. }
  pose proof (seq_sound false _ _ _ s H s' (Ret r) St) as [E Hr]. split; [exact E|exact Hr].
Qed.
Print Assumptions C94_nearest.

(** CARGO_TARGET_DIR decides if it is absolute; a relative one is not used, and nothing is searched then *)
Theorem C94_given : forall t o s s' r, steps false (s, find_target_dir (Some t) o) (s', Ret r) -> s' = s /\ r = if is_absolute t then Some t else None.
Proof. intros t o s s' r St. inversion St as [x|x y z S R]; subst; [split; reflexivity|]. inversion S. Qed.
Print Assumptions C94_given.

(** The shared directory that follows from it does not get in the way of the output directory, as C93_usual asks,
    unless the two are the same or the path between them starts with cxxbridge. *)
Theorem C94_separate : forall o a x r prefix manifest header scratch s s' prj,
  o = a ++ x :: r -> x <> "cxxbridge" -> nearest s o a ->
  steps false (s, init prefix manifest (absolute o) None header scratch) (s', Ret prj) ->
  pr_shared prj = absolute (a ++ ["cxxbridge"]) /\ unrelated (a ++ ["cxxbridge"]) (o ++ ["cxxbridge"]).
Proof.
  intros o a x r prefix manifest header scratch s s' prj -> Nx Na St. split.
  - assert (H : asks s (fun prj => pr_shared prj = absolute (a ++ ["cxxbridge"])) (init prefix manifest (absolute (a ++ x :: r)) None header scratch)).
    { unfold init, find_target_dir. eapply asks_bind with (P := fun t => t = Some (absolute a)).
      - eapply asks_bind; [apply asks_climb; unfold absolute; cbn; rewrite map_length; lia|]. intros [e|].
        + intros (a' & -> & P' & M' & F'). apply asks_ret. destruct Na as (P & M & F). f_equal. f_equal.
          destruct (is_prefix a a') eqn:C; [symmetry; symmetry; apply F; assumption|]. destruct (is_prefix a' a) eqn:C'; [symmetry; apply F'; assumption|].
          exfalso. apply is_prefix_spec in P' as [u E]. assert (X : is_prefix (a' ++ u) (a ++ x :: r) = true) by (rewrite <- E; apply is_prefix_refl). apply prefix_cut in X as [X|X]; congruence.
        + intros U. exfalso. destruct Na as (P & M & _). exact (U a P M).
      - intros t ->. apply asks_ret. cbn [pr_shared]. apply join_one. }
    exact (proj2 (seq_sound false _ _ _ s H s' (Ret prj) St)).
  - rewrite <- app_assoc. apply unrelated_same. cbn [app]. apply unrelated_heads. congruence.
Qed.
Print Assumptions C94_separate.

Example C94_nonvacuous :
  let s := listing [(["w"], Dir); (["w"; "Cargo.toml"], File 0); (["w"; "target"], Dir); (["w"; "target"; "debug"], Dir); (["w"; "target"; "debug"; "out"], Dir)] [[]] in
  let c := (s, find_target_dir None (absolute ["w"; "target"; "debug"; "out"])) in
  snd (exec c (repeat true 50)) = Ret (Some (absolute ["w"; "target"])) /\ marked s ["w"; "target"].
Proof. split; [vm_compute; reflexivity|]. right. right. exists ["w"]. split; [reflexivity|]. intros n. eexists. reflexivity. Qed.
