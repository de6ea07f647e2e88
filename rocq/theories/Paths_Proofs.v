From Verif Require Import Base StrLib Paths_Model Paths_Spec.
Require Import Lia.

Lemma split_on_pieces c s : Forall (fun p => has_char c p = false) (split_on c s).
Proof.
  induction s as [|a s IH]; cbn; [constructor; auto|].
  destruct (Ascii.eqb a c) eqn:E; [constructor; auto|].
  destruct (split_on c s) as [|p ps]; inversion IH; subst; repeat constructor; cbn; rewrite ?E; auto.
Qed.

Definition good (c : component) : Prop := match c with Normal n => valid_name n | _ => True end.
Definition low (c : component) : Prop := match c with RootDir | CurDir => False | _ => True end.

Lemma part_good p : has_char slash p = false -> Forall good (part p) /\ Forall low (part p).
Proof.
  intros H. unfold part.
  destruct (String.eqb_spec p ""); [split; constructor|].
  destruct (String.eqb_spec p "."); [split; constructor|].
  destruct (String.eqb_spec p ".."); [split; repeat constructor|].
  split; repeat constructor; auto.
Qed.
Lemma parts_good l : Forall (fun p => has_char slash p = false) l ->
  Forall good (flat_map part l) /\ Forall low (flat_map part l).
Proof.
  induction 1 as [|p l P _ [IH1 IH2]]; cbn; [split; constructor|].
  destruct (part_good p P). split; apply Forall_app; auto.
Qed.

(** [.] and [/] only occur at the start. *)
Lemma components_shape s : Forall good (components s) /\
  (Forall low (components s) \/ exists c q, components s = c :: q /\ (c = RootDir \/ c = CurDir) /\ Forall low q).
Proof.
  unfold components. pose proof (split_on_pieces slash s) as P.
  destruct (split_on slash s) as [|f r]; [split; [constructor|left; constructor]|].
  inversion P as [|? ? Pf Pr]; subst. destruct (part_good f Pf) as [G1 L1]. destruct (parts_good r Pr) as [G2 L2].
  destruct r as [|x r].
  - destruct (String.eqb f "."); [split; [repeat constructor|]|auto].
    right. exists CurDir, []. repeat split; auto.
  - destruct (String.eqb f ""); [|destruct (String.eqb f ".")].
    + split; [constructor; auto; exact I|]. right. eexists _, _. split; [reflexivity|]. auto.
    + split; [constructor; auto; exact I|]. right. eexists _, _. split; [reflexivity|]. auto.
    + split; [now apply Forall_app|]. left. now apply Forall_app.
Qed.

Lemma pop_normal l : pop (map Normal l) = map Normal (removelast l).
Proof.
  unfold pop, parent. destruct l as [|x l] using rev_ind; [reflexivity|].
  rewrite map_app, rev_app_distr, removelast_last. cbn. now rewrite rev_involutive.
Qed.
Lemma join_normal l n : join (map Normal l) [Normal n] = map Normal (l ++ [n]).
Proof. cbn. now rewrite map_app. Qed.

Lemma local_fold p : forall acc, Forall good p -> Forall valid_name acc ->
  exists names, Forall valid_name names /\
  fold_left (fun rel c => match c with RootDir | CurDir => rel | ParentDir => pop rel | Normal _ => join rel [c] end)
            p (map Normal acc) = map Normal names /\
  names = fold_left (fun l c => match c with RootDir | CurDir => l | ParentDir => removelast l | Normal n => l ++ [n] end) p acc.
Proof.
  induction p as [|c p IH]; intros acc G A; cbn [fold_left]; [eauto|].
  inversion G as [|? ? Gc Gp]; subst.
  destruct c; [now apply IH|now apply IH| |].
  - rewrite pop_normal. apply IH; auto.
    clear -A. destruct acc as [|x l] using rev_ind; [constructor|].
    rewrite removelast_last. apply Forall_app in A. apply A.
  - rewrite join_normal. apply IH; auto. apply Forall_app. auto.
Qed.
Lemma local_names s : exists names, Forall valid_name names /\
  local_relative_path (components s) = map Normal names.
Proof.
  destruct (local_fold (components s) [] (proj1 (components_shape s)) (Forall_nil _)) as (names & V & E & _).
  exists names. split; [exact V|]. exact E.
Qed.

Lemma file_name_map l n : file_name (map Normal (l ++ [n])) = Some n.
Proof. unfold file_name. rewrite map_app, rev_app_distr. reflexivity. Qed.
Lemma ext_map l n suffix :
  with_appended_extension (map Normal (l ++ [n])) suffix = Some (map Normal (l ++ [(n ++ suffix)%string])).
Proof.
  unfold with_appended_extension. rewrite file_name_map, !map_app. cbn [map].
  now rewrite removelast_last.
Qed.
Lemma ext_nil suffix : with_appended_extension [] suffix = None.
Proof. reflexivity. Qed.

Lemma valid_suffix n suffix : valid_name n -> has_char "/" suffix = false -> (1 < String.length suffix)%nat ->
  valid_name (n ++ suffix)%string.
Proof.
  intros (A & B & C & D) H L. destruct n as [|a n]; [congruence|].
  assert (LEN : (2 < String.length (String a n ++ suffix))%nat).
  { cbn. assert (X : forall s t, String.length (s ++ t)%string = (String.length s + String.length t)%nat)
      by (induction s; cbn; auto). rewrite X. lia. }
  repeat split.
  - discriminate.
  - intros E. rewrite E in LEN. cbn in LEN. lia.
  - intros E. rewrite E in LEN. cbn in LEN. lia.
  - rewrite has_char_app, D. exact H.
Qed.

Lemma join_below dir p names : Forall (fun c => c <> RootDir) p -> names <> [] ->
  exists q, join (join dir p) (map Normal names) = q ++ map Normal names.
Proof. intros _ N. destruct names; [congruence|]. cbn. eauto. Qed.

(** * relativization *)
Lemma component_eqb_eq a b : component_eqb a b = true <-> a = b.
Proof.
  destruct a, b; cbn; try (split; [discriminate|intros E; discriminate]); try tauto.
  rewrite String.eqb_eq. split; [now intros ->|]. intros E. now inversion E.
Qed.
Lemma component_eqb_refl a : component_eqb a a = true.
Proof. now apply component_eqb_eq. Qed.

Lemma parent_app p c : c <> RootDir -> parent (p ++ [c]) = Some p.
Proof. intros N. unfold parent. rewrite rev_app_distr. cbn. rewrite rev_involutive. now destruct c. Qed.

Lemma take_parents_app {A} (rest : list A) : forall p q, List.length q = List.length rest ->
  Forall (fun c => c <> RootDir) q -> take_parents rest (p ++ q) = p.
Proof.
  induction rest as [|x rest IH]; intros p q L F.
  - destruct q; [|discriminate]. now rewrite app_nil_r.
  - destruct q as [|c q] using rev_ind; [discriminate|]. clear IHq.
    apply Forall_app in F. destruct F as [F Fc]. inversion Fc; subst.
    rewrite app_assoc. cbn [take_parents]. rewrite parent_app by assumption.
    apply IH; auto. rewrite app_length in L. cbn in L. lia.
Qed.

Lemma split_spec entire : forall first second pre common r1 r2,
  entire = pre ++ first -> Forall (fun c => c <> RootDir) first ->
  split_loop entire first second = (common, r1, r2) ->
  exists m, common = pre ++ m /\ first = m ++ r1 /\ second = m ++ r2 /\
    match r1, r2 with a :: _, b :: _ => a <> b | _, _ => True end.
Proof.
  induction first as [|a first IH]; intros second pre common r1 r2 E N S.
  - cbn in S. inversion S; subst. exists []. rewrite !app_nil_r. repeat split; auto.
  - cbn [split_loop] in S. destruct second as [|b second].
    + inversion S; subst. exists []. rewrite !app_nil_r. repeat split; auto.
      change (match parent (pre ++ a :: first) with Some q => take_parents first q | None => [] end)
        with (take_parents (a :: first) (pre ++ a :: first)).
      now apply take_parents_app.
    + destruct (component_eqb a b) eqn:Q.
      * apply component_eqb_eq in Q. subst b. inversion N; subst.
        destruct (IH second (pre ++ [a]) common r1 r2) as (m & C & F1 & F2 & D); auto.
        -- now rewrite <- app_assoc.
        -- exists (a :: m). rewrite C, F1, F2. repeat split; auto. now rewrite <- app_assoc.
      * inversion S; subst. exists []. rewrite !app_nil_r. repeat split; auto.
        -- change (match parent (pre ++ a :: first) with Some q => take_parents first q | None => [] end)
             with (take_parents (a :: first) (pre ++ a :: first)).
           now apply take_parents_app.
        -- intros ->. rewrite component_eqb_refl in Q. discriminate.
Qed.

(** Absolute paths without [..] are the root followed by names. *)
Lemma absolute_shape s : is_absolute (components s) = true -> contains_parent_dir (components s) = false ->
  exists names, components s = RootDir :: map Normal names /\ Forall valid_name names.
Proof.
  intros A P. destruct (components_shape s) as [G [L|(c & q & E & K & L)]].
  - exfalso. destruct (components s) as [|[] ?]; try discriminate. inversion L; subst. assumption.
  - rewrite E in *. destruct K as [->| ->]; [|discriminate].
    cbn in P. inversion G as [|? ? _ G']; subst.
    exists (map (fun c => match c with Normal n => n | _ => "" end) q).
    clear -P G' L. rewrite map_map.
    induction q as [|x q IH]; [split; [reflexivity|constructor]|].
    inversion G'; inversion L; subst. cbn in P. apply orb_false_iff in P. destruct P as [P1 P2].
    destruct IH as [E V]; auto. assert (E' := f_equal (@tl _) E). cbn [tl] in E'. clear E. cbn [map].
    destruct x; try contradiction; try discriminate. cbn.
    split; [do 2 f_equal; exact E'|]. constructor; auto.
Qed.

Lemma follow_app at_ p q : follow at_ (p ++ q) = follow (follow at_ p) q.
Proof. unfold follow. now rewrite fold_left_app. Qed.
Lemma follow_normal names : forall at_, follow at_ (map Normal names) = at_ ++ names.
Proof.
  induction names as [|n names IH]; intros at_; cbn; [now rewrite app_nil_r|].
  unfold follow in IH. rewrite IH, <- app_assoc. reflexivity.
Qed.
Lemma follow_up (l : list string) : forall at_, follow (at_ ++ l) (map (fun _ => ParentDir) l) = at_.
Proof.
  induction l as [|x l IH] using rev_ind; intros at_; cbn; [now rewrite app_nil_r|].
  rewrite map_app. cbn.
  assert (C : forall k : list string, map (fun _ => ParentDir) k ++ [ParentDir] = ParentDir :: map (fun _ => ParentDir) k).
  { induction k; cbn; [reflexivity|]. now rewrite IHk. }
  rewrite C. cbn. rewrite app_assoc, removelast_last. apply IH.
Qed.

Lemma normal_no_root names : Forall (fun c => c <> RootDir) (map Normal names).
Proof. apply Forall_forall. intros c I. apply in_map_iff in I. destruct I as (n & <- & _). discriminate. Qed.

Lemma map_normal_app names m r : map Normal names = m ++ r ->
  exists a b, names = a ++ b /\ m = map Normal a /\ r = map Normal b.
Proof.
  revert m. induction names as [|n names IH]; intros m E.
  - destruct m; [|discriminate]. destruct r; [|discriminate]. exists [], []. auto.
  - destruct m as [|c m].
    + exists [], (n :: names). cbn in E. subst r. auto.
    + inversion E; subst. destruct (IH m H1) as (a & b & -> & -> & ->). exists (n :: a), b. auto.
Qed.

(** The computation on absolute paths without [..] *)
Lemma relativize_spec o l :
  exists a b c, 
  o = a ++ b /\ l = a ++ c /\
  match b, c with x :: _, y :: _ => x <> y | _, _ => True end /\
  abstractly_relativize_symlink false (RootDir :: map Normal o) (RootDir :: map Normal l) =
  match c with
  | [] => Panic
  | _ => Relative (map (fun _ => ParentDir) (removelast c) ++ map Normal b)
  end.
Proof.
  unfold abstractly_relativize_symlink.
  assert (NP : forall names, contains_parent_dir (RootDir :: map Normal names) = false).
  { intros names. unfold contains_parent_dir. cbn. induction names; cbn; auto. }
  rewrite !NP. cbn [orb negb is_absolute].
  unfold split_after_common_prefix. cbn [split_loop component_eqb].
  destruct (split_loop (RootDir :: map Normal o) (map Normal o) (map Normal l)) as [[common r1] r2] eqn:S.
  destruct (split_spec (RootDir :: map Normal o) (map Normal o) (map Normal l) [RootDir] common r1 r2 eq_refl (normal_no_root _) S)
    as (m & C & E1 & E2 & D).
  apply map_normal_app in E1. destruct E1 as (a & b & -> & -> & ->).
  apply map_normal_app in E2. destruct E2 as (a' & c & -> & E & ->).
  assert (a = a').
  { clear -E. revert a' E. induction a as [|x a IH]; intros [|y a'] E; try discriminate; [reflexivity|].
    inversion E; subst. f_equal. now apply IH. }
  subst a'. exists a, b, c. repeat split; auto.
  - destruct b as [|x b], c as [|y c]; auto. intros ->. now apply D.
  - subst common. destruct c as [|y c]; [reflexivity|]. cbn [app map].
    assert (RL : forall k, removelast (map Normal k) = map Normal (removelast k)).
    { induction k as [|u [|v k] IH]; cbn in *; auto. now rewrite IH. }
    change (Normal y :: map Normal c) with (map Normal (y :: c)). rewrite RL, map_map.
    f_equal. unfold join. destruct b; cbn; reflexivity.
Qed.
