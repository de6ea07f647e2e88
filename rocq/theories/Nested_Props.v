(** C30: forward declarations by namespace.  Specification: Nested_Spec.v. *)
From Verif Require Import Base Syntax_Model Toposort_Model Types_Model Nested_Model Nested_Spec.

Local Arguments list_eq_dec : simpl never.

(** * Grouping *)
Definition at_depth (depth : nat) (x : string) (a : api) : bool :=
  match nth_error (api_namespace a) depth with Some y => String.eqb x y | None => false end.
Definition direct_at (depth : nat) (a : api) : bool :=
  match nth_error (api_namespace a) depth with Some _ => false | None => true end.

Definition grouped (depth : nat) (apis : list api) (s : list api * list (string * list api)) : Prop :=
  fst s = filter (direct_at depth) apis /\ NoDup (map fst (snd s)) /\
  (forall x m, In (x, m) (snd s) -> m = filter (at_depth depth x) apis) /\
  (forall x a, In a apis -> nth_error (api_namespace a) depth = Some x -> In x (map fst (snd s))).

Lemma add_nested_keys x a l : forall y, In y (map fst (add_nested x a l)) <-> y = x \/ In y (map fst l).
Proof.
  induction l as [|[z m] l IH]; intros y; cbn; [intuition|]. destruct (String.eqb_spec x z) as [->|N]; cbn; [intuition|]. rewrite IH. intuition.
Qed.
Lemma add_nested_nodup x a l : NoDup (map fst l) -> NoDup (map fst (add_nested x a l)).
Proof.
  induction l as [|[z m] l IH]; cbn; intros H; [constructor; [intros []|constructor]|]. inversion H as [|? ? H1 H2]; subst.
  destruct (String.eqb_spec x z) as [->|N]; cbn; constructor; auto. rewrite add_nested_keys. intros [->|I]; [congruence|auto].
Qed.
Lemma add_nested_in x a l y m : NoDup (map fst l) -> In (y, m) (add_nested x a l) ->
  (y <> x /\ In (y, m) l) \/ (y = x /\ ((exists m', In (x, m') l /\ m = m' ++ [a]) \/ (~ In x (map fst l) /\ m = [a]))).
Proof.
  induction l as [|[z n] l IH]; cbn; intros H I.
  - destruct I as [[= <- <-]|[]]. right. split; [reflexivity|]. right. auto.
  - inversion H as [|? ? H1 H2]; subst. destruct (String.eqb_spec x z) as [->|N].
    + destruct I as [[= <- <-]|I].
      * right. split; [reflexivity|]. left. exists n. auto.
      * left. split; [|auto]. intros ->. apply H1. apply in_map_iff. exists (z, m). auto.
    + destruct I as [[= <- <-]|I]; [left; auto|]. destruct (IH H2 I) as [[A B]|[A [(m' & B & C)|[B C]]]].
      * left. auto.
      * right. split; [exact A|]. left. exists m'. auto.
      * right. split; [exact A|]. right. split; [intros [<-|J]; auto|exact C].
Qed.

Lemma filter_none {A} (p : A -> bool) l : (forall a, In a l -> p a = false) -> filter p l = [].
Proof. induction l as [|a l IH]; intros H; cbn; [reflexivity|]. rewrite (H a (or_introl eq_refl)). apply IH. intros b I. apply H. right. exact I. Qed.
Lemma group_ok depth apis : grouped depth apis (group depth apis).
Proof.
  unfold group. induction apis as [|a apis IH] using rev_ind; [repeat split; cbn; try constructor; intros ? ? []|].
  rewrite fold_left_app. cbn [fold_left]. set (s := fold_left _ apis _) in *. destruct IH as (D & N & M & K). unfold group_step.
  destruct (nth_error (api_namespace a) depth) as [x|] eqn:E.
  - unfold grouped. cbn [fst snd]. repeat split.
    + rewrite filter_app, D. cbn. unfold direct_at at 3. rewrite E, app_nil_r. reflexivity.
    + apply add_nested_nodup, N.
    + intros y m I. rewrite filter_app. cbn. unfold at_depth at 2. rewrite E.
      destruct (add_nested_in _ _ _ _ _ N I) as [[A B]|[-> [(m' & B & ->)|[B ->]]]].
      * destruct (String.eqb_spec y x); [congruence|]. rewrite app_nil_r. apply M, B.
      * rewrite String.eqb_refl, (M _ _ B). reflexivity.
      * rewrite String.eqb_refl. replace (filter (at_depth depth x) apis) with (@nil api); [reflexivity|]. symmetry.
        clear - B K. assert (G : forall b, In b apis -> at_depth depth x b = false).
        { intros b I. unfold at_depth. destruct (nth_error (api_namespace b) depth) as [y|] eqn:E; [|reflexivity].
          destruct (String.eqb_spec x y) as [->|]; [|reflexivity]. destruct (B (K _ _ I E)). }
        apply filter_none, G.
    + intros y b I Eb. apply add_nested_keys. apply in_app_iff in I. destruct I as [I|[<-|[]]]; [right; apply (K _ _ I Eb)|left; congruence].
  - unfold grouped. cbn [fst snd]. repeat split.
    + rewrite filter_app, D. cbn. unfold direct_at at 3. rewrite E. reflexivity.
    + exact N.
    + intros y m I. rewrite filter_app. cbn. unfold at_depth at 2. rewrite E, app_nil_r. apply M, I.
    + intros y b I Eb. apply in_app_iff in I. destruct I as [I|[<-|[]]]; [apply (K _ _ I Eb)|congruence].
Qed.

(** * The tree *)
Definition locs (st : list string) (l : list ftok) (r : list (list string * api)) (o : list (list string)) : Prop :=
  forall l' r' o', located st l' r' o' -> located st (l ++ l') (r ++ r') (o ++ o').
Lemma locs_app st l1 r1 o1 l2 r2 o2 : locs st l1 r1 o1 -> locs st l2 r2 o2 -> locs st (l1 ++ l2) (r1 ++ r2) (o1 ++ o2).
Proof. intros H1 H2 l r o H. rewrite <- !app_assoc. apply H1, H2, H. Qed.
Lemma locs_direct st l : locs st (map FDecl l) (map (pair (rev st)) l) [].
Proof. induction l as [|a l IH]; intros l' r o H; cbn; [exact H|]. constructor. exact (IH _ _ _ H). Qed.
Lemma locs_open st x l r o : locs (x :: st) l r o -> locs st (FOpen x :: l ++ [FClose]) r (rev (x :: st) :: o).
Proof. intros H l' r' o' H'. cbn [app]. constructor. rewrite <- app_assoc. apply H. cbn. constructor. exact H'. Qed.

Lemma declared_in_app r1 r2 ns : declared_in (r1 ++ r2) ns = declared_in r1 ns ++ declared_in r2 ns.
Proof. apply flat_map_app. Qed.

Definition ns_is (ns : list string) (a : api) : bool := if list_eq_dec string_dec (api_namespace a) ns then true else false.
Lemma ns_is_iff ns a : ns_is ns a = true <-> api_namespace a = ns.
Proof. unfold ns_is. destruct (list_eq_dec string_dec (api_namespace a) ns); split; congruence. Qed.
Lemma filter_filter {A} (p q : A -> bool) l : filter p (filter q l) = filter (fun a => q a && p a)%bool l.
Proof. induction l as [|a l IH]; cbn; [reflexivity|]. destruct (q a) eqn:E; cbn; rewrite ?E; cbn; [destruct (p a)|]; congruence. Qed.
Lemma filter_same {A} (p q : A -> bool) l : (forall a, In a l -> p a = q a) -> filter p l = filter q l.
Proof. induction l as [|a l IH]; intros H; cbn; [reflexivity|]. rewrite (H a (or_introl eq_refl)), IH; [reflexivity|]. intros b I. apply H. right. exact I. Qed.

Lemma buckets depth apis path ns s : (forall a, In a apis -> firstn depth (api_namespace a) = path) -> List.length path = depth -> grouped depth apis s ->
  declared_in (map (pair path) (fst s)) ns ++ flat_map (fun g => belonging_to (snd g) ns) (snd s) = belonging_to apis ns.
Proof.
  intros Hp Hl (D & N & M & K).
  assert (E1 : declared_in (map (pair path) (fst s)) ns = filter (ns_is ns) (fst s)).
  { rewrite D. clear - Hp. induction apis as [|a apis IH]; [reflexivity|]. cbn. specialize (IH (fun b I => Hp b (or_intror I))).
    destruct (direct_at depth a) eqn:E0; [|exact IH]. cbn. fold (declared_in (map (pair path) (filter (direct_at depth) apis)) ns). rewrite IH.
    unfold direct_at in E0. destruct (nth_error (api_namespace a) depth) eqn:E; [discriminate|].
    specialize (Hp a (or_introl eq_refl)). apply nth_error_None in E. rewrite firstn_all2 in Hp by exact E. unfold ns_is at 2. rewrite Hp. cbn [fst snd].
    destruct (list_eq_dec string_dec path ns); reflexivity. }
  rewrite E1, D. unfold belonging_to. fold (ns_is ns). rewrite filter_filter.
  destruct (nth_error ns depth) as [x|] eqn:En.
  - rewrite filter_none; [cbn [app]|].
    2: { intros a I. unfold direct_at. destruct (ns_is ns a) eqn:Ea; [|apply andb_false_r]. apply ns_is_iff in Ea. rewrite Ea, En. reflexivity. }
    assert (G : forall l, (forall y m, In (y, m) l -> m = filter (at_depth depth y) apis) -> NoDup (map fst l) ->
        flat_map (fun g => filter (ns_is ns) (snd g)) l = if in_dec string_dec x (map fst l) then filter (ns_is ns) apis else []).
    { induction l as [|[y m] l IH]; intros Hm Hn; [reflexivity|]. cbn [flat_map map fst snd]. inversion Hn as [|? ? Hn1 Hn2]; subst.
      rewrite (IH (fun z k I => Hm z k (or_intror I)) Hn2), (Hm y m (or_introl eq_refl)), filter_filter.
      destruct (string_dec y x) as [->|Nx].
      - rewrite (filter_same _ (ns_is ns)).
        + destruct (in_dec string_dec x (map fst l)); [contradiction|]. destruct (in_dec string_dec x (x :: map fst l)) as [|F]; [apply app_nil_r|destruct F; left; reflexivity].
        + intros a I. unfold at_depth. destruct (ns_is ns a) eqn:Ea; [|apply andb_false_r]. apply ns_is_iff in Ea. rewrite Ea, En, String.eqb_refl. reflexivity.
      - rewrite filter_none.
        + cbn [app]. destruct (in_dec string_dec x (map fst l)) as [i|n], (in_dec string_dec x (y :: map fst l)) as [i'|n']; try reflexivity.
          * destruct n'. right. exact i.
          * destruct i' as [<-|i']; [congruence|contradiction].
        + intros a I. unfold at_depth. destruct (ns_is ns a) eqn:Ea; [|apply andb_false_r]. apply ns_is_iff in Ea. rewrite Ea, En.
          destruct (String.eqb_spec y x); [congruence|reflexivity]. }
    rewrite (G _ M N). destruct (in_dec string_dec x (map fst (snd s))) as [I|I]; [reflexivity|]. symmetry. apply filter_none. intros a Ia.
    destruct (ns_is ns a) eqn:Ea; [|reflexivity]. apply ns_is_iff in Ea. destruct I. apply (K x a Ia). rewrite Ea. exact En.
  - rewrite (filter_same (fun a => direct_at depth a && ns_is ns a)%bool (ns_is ns)).
    2: { intros a I. unfold direct_at. destruct (ns_is ns a) eqn:Ea; [|apply andb_false_r]. apply ns_is_iff in Ea. rewrite Ea, En. reflexivity. }
    replace (flat_map _ _) with (@nil api); [apply app_nil_r|]. symmetry.
    assert (G : forall l, (forall y m, In (y, m) l -> m = filter (at_depth depth y) apis) -> flat_map (fun g => filter (ns_is ns) (snd g)) l = []).
    { induction l as [|[y m] l IH]; intros Hm; [reflexivity|]. cbn [flat_map snd]. rewrite (IH (fun z k I => Hm z k (or_intror I))), app_nil_r, (Hm y m (or_introl eq_refl)), filter_filter.
      apply filter_none. intros a I. unfold at_depth. destruct (ns_is ns a) eqn:Ea; [|apply andb_false_r]. apply ns_is_iff in Ea. rewrite Ea, En. reflexivity. }
    apply (G _ M).
Qed.

Lemma NoDup_app_intro {A} (l1 l2 : list A) : NoDup l1 -> NoDup l2 -> (forall x, In x l1 -> ~ In x l2) -> NoDup (l1 ++ l2).
Proof.
  induction l1 as [|a l1 IH]; intros H1 H2 D; [exact H2|]. inversion H1; subst. cbn. constructor.
  - rewrite in_app_iff. intros [I|I]; [contradiction|]. exact (D a (or_introl eq_refl) I).
  - apply IH; auto. intros x I. apply D. right. exact I.
Qed.

Lemma firstn_succ {A} (l : list A) n x : nth_error l n = Some x -> firstn (S n) l = firstn n l ++ [x].
Proof. revert n. induction l as [|a l IH]; intros [|n] H; cbn in *; try discriminate; [congruence|]. rewrite <- IH by exact H. reflexivity. Qed.

Lemma sort_ok fuel : forall apis depth path, (forall a, In a apis -> firstn depth (api_namespace a) = path) -> List.length path = depth ->
  (forall a, In a apis -> List.length (api_namespace a) < depth + fuel) -> fuel <> 0 ->
  exists e r o, sort_by_inner_namespace fuel apis depth = Some e /\ locs (rev path) (write_entries e) r o /\
    (forall ns, declared_in r ns = belonging_to apis ns) /\ NoDup o /\ forall p, In p o -> exists x q, p = path ++ x :: q.
Proof.
  induction fuel as [|fuel IH]; intros apis depth path Hp Hl Hf Hz; [congruence|]. clear Hz.
  pose proof (group_ok depth apis) as G. cbn [sort_by_inner_namespace]. destruct (group depth apis) as [direct groups] eqn:Eg.
  pose proof (fun ns => buckets depth apis path ns _ Hp Hl G) as B. destruct G as (D & N & M & K). cbn [fst snd] in *.
  assert (L : forall gs, (forall x m, In (x, m) gs -> m = filter (at_depth depth x) apis /\ m <> []) -> NoDup (map fst gs) ->
    exists es r o,
      (fix go l := match l with
                      | [] => Some []
                      | (x, m) :: l =>
                          match sort_by_inner_namespace fuel m (S depth), go l with
                          | Some e, Some es => Some ((x, e) :: es)
                          | _, _ => None
                          end
                      end) gs = Some es /\
      locs (rev path) ((fix go l := match l with [] => [] | (x, e) :: l => FOpen x :: write_entries e ++ FClose :: go l end) es) r o /\
      (forall ns, declared_in r ns = flat_map (fun g => belonging_to (snd g) ns) gs) /\ NoDup o /\
      forall p, In p o -> exists x q, In x (map fst gs) /\ p = path ++ x :: q).
  { induction gs as [|[x m] gs IHg]; intros Hm Hn.
    - exists [], [], []. repeat split; [intros l r o H; exact H|constructor|intros p []].
    - inversion Hn as [|? ? Hn1 Hn2]; subst. destruct (IHg (fun y k I => Hm y k (or_intror I)) Hn2) as (es & r & o & E & Lo & Dc & No & Po).
      destruct (Hm x m (or_introl eq_refl)) as [Em Nm].
      assert (Hin : forall a, In a m -> In a apis /\ nth_error (api_namespace a) (List.length path) = Some x).
      { intros a I. rewrite Em in I. apply filter_In in I. destruct I as [I A]. split; [exact I|]. unfold at_depth in A.
        destruct (nth_error (api_namespace a) (List.length path)) as [y|]; [|discriminate]. apply String.eqb_eq in A. congruence. }
      destruct (IH m (S (List.length path)) (path ++ [x])) as (e & r1 & o1 & E1 & Lo1 & Dc1 & No1 & Po1).
      + intros a I. destruct (Hin a I) as [Ia Na]. rewrite (firstn_succ _ _ _ Na), (Hp a Ia). reflexivity.
      + rewrite app_length. cbn. lia.
      + intros a I. destruct (Hin a I) as [Ia _]. specialize (Hf a Ia). lia.
      + destruct m as [|a m]; [congruence|]. destruct (Hin a (or_introl eq_refl)) as [Ia Na]. specialize (Hf a Ia).
        assert (nth_error (api_namespace a) (List.length path) <> None) as Q by congruence. apply nth_error_Some in Q. lia.
      + exists ((x, e) :: es), (r1 ++ r), ((rev (x :: rev path) :: o1) ++ o). rewrite E1, E. split; [reflexivity|].
        rewrite rev_app_distr in Lo1. cbn [rev app] in Lo1. repeat split.
        * pose proof (locs_app _ _ _ _ _ _ _ (locs_open _ _ _ _ _ Lo1) Lo) as Z. cbn [app] in Z. rewrite <- app_assoc in Z. exact Z.
        * intros ns. rewrite declared_in_app, Dc, Dc1. reflexivity.
        * cbn [rev]. rewrite rev_involutive. apply NoDup_app_intro.
          -- constructor; [|exact No1]. intros I. destruct (Po1 _ I) as (y & q & F). rewrite <- app_assoc in F. apply app_inv_head in F. discriminate.
          -- exact No.
          -- intros p [<-|I] I2.
             ++ destruct (Po _ I2) as (y & q & Iy & F). apply app_inv_head in F. injection F as <- <-. contradiction.
             ++ destruct (Po1 _ I) as (z & q' & ->). destruct (Po _ I2) as (y & q & Iy & F). rewrite <- app_assoc in F. apply app_inv_head in F. injection F as <- F. contradiction.
        * intros p I. cbn [rev] in I. rewrite rev_involutive in I. apply in_app_iff in I. destruct I as [[<-|I]|I].
          -- exists x, []. split; [left; reflexivity|reflexivity].
          -- destruct (Po1 _ I) as (z & q' & ->). exists x, (z :: q'). split; [left; reflexivity|]. rewrite <- app_assoc. reflexivity.
          -- destruct (Po _ I) as (y & q & Iy & ->). exists y, q. split; [right; exact Iy|reflexivity]. }
  assert (Hg : forall x m, In (x, m) groups -> m = filter (at_depth depth x) apis /\ m <> []).
  { intros x m I. split; [apply M, I|]. clear - I Eg. unfold group in Eg.
    assert (P : forall l s, (forall x m, In (x, m) (snd s) -> m <> []) -> forall x m, In (x, m) (snd (fold_left (group_step depth) l s)) -> m <> []).
    { induction l as [|a l IH]; intros s Hs; [exact Hs|]. cbn. apply IH. unfold group_step. destruct (nth_error (api_namespace a) depth) as [y|]; [|exact Hs].
      cbn [snd]. clear IH l. induction (snd s) as [|[z k] t IHt]; cbn; intros x0 m0 I0; [destruct I0 as [[= <- <-]|[]]; discriminate|].
      destruct (String.eqb y z).
      - destruct I0 as [[= <- <-]|I0]; [destruct k; discriminate|]. apply (Hs x0). right. exact I0.
      - destruct I0 as [[= <- <-]|I0]; [apply (Hs z); left; reflexivity|]. eapply IHt; [|exact I0]. intros x1 m1 I1. apply (Hs x1). right. exact I1. }
    specialize (P apis ([], [])). rewrite Eg in P. apply (P (fun _ _ F => match F with end) x m I). }
  destruct (L groups Hg N) as (es & r & o & E & Lo & Dc & No & Po). rewrite E. exists (Entries direct es). do 2 eexists. split; [reflexivity|]. split.
  - cbn [write_entries]. eapply locs_app; [apply locs_direct|exact Lo].
  - rewrite rev_involutive. repeat split.
    + intros ns. rewrite declared_in_app, Dc. apply B.
    + exact No.
    + intros p I. destruct (Po p I) as (x & q & _ & ->). eauto.
Qed.

Lemma belonging_type_items T apis ns : belonging_to (filter (needs_forward T) apis) ns = type_items (fun x => smem x (t_cxx T)) apis ns.
Proof.
  unfold belonging_to, type_items. rewrite filter_filter. apply filter_same. intros [] _; cbn [needs_forward api_namespace andb]; reflexivity.
Qed.

(** * C30 *)
(** Each item that needs a forward declaration is declared exactly in its own namespace,
    in the order of the bridge; the namespaces are balanced, and none is opened twice. *)
Theorem C30_forward_declarations : forall T apis fuel,
  (forall a, In a apis -> List.length (api_namespace a) < fuel) -> fuel <> 0 ->
  exists toks r opened, forward_declarations fuel T apis = Some toks /\ located [] toks r opened /\ NoDup opened /\
    forall ns, declared_in r ns = type_items (fun x => smem x (t_cxx T)) apis ns.
Proof.
  intros T apis fuel Hf Hz. unfold forward_declarations.
  destruct (sort_ok fuel (filter (needs_forward T) apis) 0 []) as (e & r & o & E & Lo & Dc & No & _).
  - intros a _. reflexivity.
  - reflexivity.
  - intros a I. apply Hf. apply filter_In in I. apply I.
  - exact Hz.
  - rewrite E. exists (write_entries e), r, o. split; [reflexivity|]. specialize (Lo [] [] [] lo_done). rewrite !app_nil_r in Lo. repeat split; auto.
    intros ns. rewrite Dc. apply belonging_type_items.
Qed.
Print Assumptions C30_forward_declarations.

(** The items of nested.rs 66-77. *)
Example C30_nonvacuous :
  let mk ns a := ACxxType (ExternType CUnconditional LCxx [] (Pair ns a a) [] [] true) in
  let apis := [mk [] "C"; mk ["G"] "E"; mk ["D"] "F"; mk ["G"] "H"; mk ["D"; "K"] "L"; mk [] "B"; mk ["D"; "K"] "M"; mk ["D"] "I"] in
  exists T errs toks, collect (fun _ l => l) apis = Some (T, errs) /\ forward_declarations 3 T apis = Some toks /\
    map (fun t => match t with FDecl (ACxxType x) => p_rust (et_name x) | FOpen x => x | _ => "}" end) toks =
      ["C"; "B"; "G"; "E"; "H"; "}"; "D"; "F"; "I"; "K"; "L"; "M"; "}"; "}"].
Proof. cbv zeta. do 3 eexists. split; [vm_compute; reflexivity|]. split; vm_compute; reflexivity. Qed.
