(** C29: balanced blocks.  Specification: Out_Spec.v. *)
From Verif Require Import Base Syntax_Model Toposort_Model Types_Model Mangle_Model Out_Model Out_Spec.

Lemma block_eqb_eq a b : block_eqb a b = true <-> a = b.
Proof. destruct a, b; cbn; try rewrite String.eqb_eq; split; congruence. Qed.
Lemma boundary_eqb_eq x y : boundary_eqb x y = true <-> x = y.
Proof. destruct x, y; cbn; try rewrite block_eqb_eq; split; congruence. Qed.

(** Applying boundaries, oldest first, to the open blocks. *)
Fixpoint applies (l : list boundary) (st : list block) : option (list block) :=
  match l with
  | [] => Some st
  | Begin b :: l => applies l (b :: st)
  | End b :: l => match st with b' :: st => if block_eqb b' b then applies l st else None | [] => None end
  end.
Lemma applies_app l1 : forall l2 st, applies (l1 ++ l2) st = match applies l1 st with Some st' => applies l2 st' | None => None end.
Proof.
  induction l1 as [|[b|b] l1 IH]; intros l2 st; cbn; [reflexivity|apply IH|].
  destruct st as [|b' st]; [reflexivity|]. destruct (block_eqb b' b); [apply IH|reflexivity].
Qed.

Definition apply1 (x : boundary) (st : list block) : option (list block) := applies [x] st.

(** Neighbours do not cancel. *)
Fixpoint reduced (l : list boundary) : Prop :=
  match l with
  | x :: ((y :: _) as l') => x <> boundary_rev y /\ reduced l'
  | _ => True
  end.
Lemma reduced_tail x l : reduced (x :: l) -> reduced l.
Proof. destruct l; cbn; tauto. Qed.

(** Reading a prefix of the output. *)
Fixpoint reading (l : list tok) (st : list block) : option (list block * list (list block * string)) :=
  match l with
  | [] => Some (st, [])
  | KNewline :: l => reading l st
  | KText s :: l => match reading l st with Some (st', r) => Some (st', (st, s) :: r) | None => None end
  | KBegin b :: l => reading l (b :: st)
  | KEnd b :: l => match st with b' :: st => if block_eqb b' b then reading l st else None | [] => None end
  end.
Lemma reading_app l1 : forall l2 st st1 r1, reading l1 st = Some (st1, r1) ->
  reading (l1 ++ l2) st = match reading l2 st1 with Some (st', r) => Some (st', r1 ++ r) | None => None end.
Proof.
  induction l1 as [|[|s|b|b] l1 IH]; intros l2 st st1 r1 H; cbn in *.
  - injection H as -> <-. destruct (reading l2 st1) as [[? ?]|]; reflexivity.
  - apply IH, H.
  - destruct (reading l1 st) as [[st' r]|] eqn:E; [|discriminate]. injection H as -> <-. rewrite (IH _ _ _ _ E).
    destruct (reading l2 st1) as [[? ?]|]; reflexivity.
  - apply IH, H.
  - destruct st as [|b' st]; [discriminate|]. destruct (block_eqb b' b); [apply IH, H|discriminate].
Qed.
Lemma reading_encloses l : forall st r, reading l st = Some ([], r) -> encloses st l r.
Proof.
  induction l as [|[|s|b|b] l IH]; intros st r H; cbn in H.
  - injection H as -> <-. constructor.
  - constructor. apply IH, H.
  - destruct (reading l st) as [[st' r']|] eqn:E; [|discriminate]. injection H as -> <-. constructor. apply IH, E.
  - constructor. apply IH, H.
  - destruct st as [|b' st]; [discriminate|]. destruct (block_eqb b' b) eqn:Eb; [|discriminate].
    apply block_eqb_eq in Eb. subst b'. constructor. apply IH, H.
Qed.

(** The tokens that count for [no_empty_blocks]. *)
Definition solid (l : list tok) : list tok := filter (fun k => match k with KNewline => false | _ => true end) l.
Lemma solid_app a b : solid (a ++ b) = solid a ++ solid b. Proof. apply filter_app. Qed.
Definition tok_of (x : boundary) : tok := match x with Begin b => KBegin b | End b => KEnd b end.

(** The loop of flush_blocks writes the boundaries. *)
Lemma flush_loop_ok l : forall bytes open section st, applies l open = Some st ->
  exists more section', flush_loop l bytes open section = Some (bytes ++ more, st, section') /\ solid more = map tok_of l.
Proof.
  induction l as [|[b|b] l IH]; intros bytes open section st H; cbn in H |- *.
  - injection H as ->. exists [], section. rewrite app_nil_r. auto.
  - destruct (IH (bytes ++ (if section then [KNewline] else []) ++ [KBegin b]) _ false _ H) as (more & s' & E & S).
    rewrite E. exists ((if section then [KNewline] else []) ++ [KBegin b] ++ more), s'. rewrite <- !app_assoc. split; [reflexivity|].
    destruct section; cbn; f_equal; exact S.
  - destruct open as [|b' open]; [discriminate|]. destruct (block_eqb b' b); [|discriminate].
    destruct (IH (bytes ++ [KEnd b]) _ true _ H) as (more & s' & E & S). rewrite E. exists (KEnd b :: more), s'.
    rewrite <- app_assoc. split; [reflexivity|]. cbn. f_equal. exact S.
Qed.
(** Newlines do not change what is read. *)
Lemma reading_solid l : forall st, reading l st = reading (solid l) st.
Proof.
  induction l as [|[|s|b|b] l IH]; intros st; cbn; auto; [rewrite IH; reflexivity|].
  destruct st; [reflexivity|]. destruct (block_eqb b0 b); auto.
Qed.
Lemma reading_boundaries l : forall st st', applies l st = Some st' -> reading (map tok_of l) st = Some (st', []).
Proof.
  induction l as [|[b|b] l IH]; intros st st' H; cbn in *; [congruence|auto|].
  destruct st as [|b' st]; [discriminate|]. destruct (block_eqb b' b); [auto|discriminate].
Qed.

(** No cancelling neighbours in the output. *)
Fixpoint tidy (l : list tok) : Prop :=
  match l with
  | KBegin b :: ((KEnd b' :: _) as l') => b <> b' /\ tidy l'
  | KEnd b :: ((KBegin b' :: _) as l') => b <> b' /\ tidy l'
  | _ :: l' => tidy l'
  | [] => True
  end.
Lemma tidy_tail x l : tidy (x :: l) -> tidy l.
Proof. destruct x, l as [|[] l]; cbn; tauto. Qed.
Lemma tidy_no_empty l : tidy (solid l) -> no_empty_blocks l.
Proof.
  intros H pre b post. change (tidy (solid l)) in H. unfold no_empty_blocks. fold (solid l).
  assert (G : forall pre l, tidy l -> l <> pre ++ KBegin b :: KEnd b :: post /\ l <> pre ++ KEnd b :: KBegin b :: post).
  { clear. induction pre as [|x pre IH]; intros l H; split; intros ->; cbn [app] in H.
    - cbn in H. tauto.
    - cbn in H. tauto.
    - apply tidy_tail in H. exact (proj1 (IH _ H) eq_refl).
    - apply tidy_tail in H. exact (proj2 (IH _ H) eq_refl). }
  exact (G pre _ H).
Qed.
Definition ends_in_text (l : list tok) : Prop := l = [] \/ exists pre s, l = pre ++ [KText s].
Lemma tidy_text a s b : tidy a -> tidy b -> tidy (a ++ KText s :: b).
Proof.
  intros Ha Hb. induction a as [|x a IH]; [exact Hb|]. pose proof (tidy_tail _ _ Ha) as Ha'. specialize (IH Ha').
  destruct x, a as [|[] a]; cbn in *; tauto.
Qed.
Lemma reduced_tidy l : reduced l -> tidy (map tok_of l).
Proof.
  induction l as [|x l IH]; [exact (fun _ => I)|]. intros H. pose proof (reduced_tail _ _ H) as H'. specialize (IH H').
  destruct l as [|y l]; [destruct x; exact I|]. destruct H as [H _]. destruct x, y; cbn in *; try exact IH; (split; [congruence|exact IH]).
Qed.
Lemma reduced_app l1 : forall l2, reduced (l1 ++ l2) -> reduced l1 /\ reduced l2.
Proof.
  induction l1 as [|x l1 IH]; intros l2 H; [split; [exact I|exact H]|]. cbn [app] in H.
  pose proof (reduced_tail _ _ H) as H'. destruct (IH _ H') as [H1 H2]. split; [|exact H2].
  destruct l1 as [|y l1]; [exact I|]. cbn in *. tauto.
Qed.
Lemma reduced_snoc l x y : reduced (l ++ [y]) -> y <> boundary_rev x -> reduced (l ++ [y; x]).
Proof.
  induction l as [|z l IH]; cbn [app]; intros H N; [cbn; auto|].
  pose proof (reduced_tail _ _ H) as H'. specialize (IH H' N). destruct l as [|w l]; cbn [app] in *; cbn in *; tauto.
Qed.
Lemma rev_involutive_boundary x : boundary_rev (boundary_rev x) = x. Proof. destruct x; reflexivity. Qed.
Lemma reduced_rev l : reduced l -> reduced (rev l).
Proof.
  induction l as [|x l IH]; [auto|]. intros H. cbn [rev]. pose proof (reduced_tail _ _ H) as H'. specialize (IH H').
  destruct l as [|y l]; [exact I|]. cbn [rev] in *. rewrite <- app_assoc. cbn [app]. apply reduced_snoc; [exact IH|].
  destruct H as [H _]. intros E. apply H. rewrite E, rev_involutive_boundary. reflexivity.
Qed.

(** The invariant: what has been written reads as [r] with [c_open] open; the pending
    boundaries lead from there to the requested blocks [S]. *)
Record inv (c : buffer) (S : list block) (r : list (list block * string)) : Prop := Inv
  { i_read : reading (c_bytes c) [] = Some (c_open c, r);
    i_pend : applies (rev (c_pending c)) (c_open c) = Some S;
    i_red : reduced (c_pending c);
    i_tidy : tidy (solid (c_bytes c));
    i_end : ends_in_text (solid (c_bytes c)) }.

Lemma inv_push c S r x S' : inv c S r -> apply1 x S = Some S' -> inv (push_boundary x c) S' r /\ c_namespace (push_boundary x c) = c_namespace c.
Proof.
  intros [R P D Y N] A. split; [|reflexivity]. split; cbn; try assumption.
  - destruct (c_pending c) as [|y rest] eqn:E.
    + cbn in *. injection P as ->. exact A.
    + destruct (boundary_eqb x (boundary_rev y)) eqn:Ex.
      * apply boundary_eqb_eq in Ex. subst x. cbn [rev] in P. rewrite applies_app in P. destruct (applies (rev rest) (c_open c)) as [S0|]; [|discriminate].
        f_equal. destruct y as [b|b]; cbn in P, A.
        -- injection P as <-. replace (block_eqb b b) with true in A by (symmetry; apply block_eqb_eq; reflexivity). congruence.
        -- destruct S0 as [|b' S0]; [discriminate|]. destruct (block_eqb b' b) eqn:Eb; [|discriminate]. apply block_eqb_eq in Eb. congruence.
      * cbn [rev] in *. rewrite applies_app, P. exact A.
  - destruct (c_pending c) as [|y rest] eqn:E; [exact I|]. destruct (boundary_eqb x (boundary_rev y)) eqn:Ex; [apply (reduced_tail _ _ D)|].
    cbn. split; [|exact D]. intros ->. rewrite (proj2 (boundary_eqb_eq _ _) eq_refl) in Ex. discriminate.
Qed.

Lemma inv_ends l : forall c S r, inv c (map BUser l ++ S) r ->
  let c' := fold_left (fun c x => end_block (BUser x) c) l c in inv c' S r /\ c_namespace c' = c_namespace c.
Proof.
  induction l as [|x l IH]; intros c S r H; cbn -[end_block] in *; [auto|].
  destruct (inv_push c _ r (End (BUser x)) (map BUser l ++ S) H) as [H' N].
  - cbn. rewrite String.eqb_refl. reflexivity.
  - destruct (IH _ _ _ H') as [G1 G2]. split; [exact G1|]. etransitivity; [exact G2|exact N].
Qed.
Lemma inv_begins l : forall c S r, inv c S r ->
  let c' := fold_left (fun c x => begin_block (BUser x) c) l c in inv c' (rev (map BUser l) ++ S) r.
Proof.
  induction l as [|x l IH]; intros c S r H; cbn -[begin_block] in *; [exact H|].
  destruct (inv_push c _ r (Begin (BUser x)) (BUser x :: S) H eq_refl) as [H' N]. rewrite <- app_assoc. exact (IH _ _ _ H').
Qed.
Lemma inv_namespace c S r ns : inv c (rev (map BUser (c_namespace c)) ++ S) r ->
  inv (set_namespace ns c) (rev (map BUser ns) ++ S) r /\ c_namespace (set_namespace ns c) = ns.
Proof.
  intros H. split; [|reflexivity]. rewrite <- map_rev in H. destruct (inv_ends _ _ _ _ H) as [H' _].
  pose proof (inv_begins ns _ _ _ H') as [R P D Y N]. split; assumption.
Qed.

Lemma inv_flush c S r : inv c S r -> exists c' s, (if is_nil (c_pending c) then Some c else flush_blocks c) = Some c' /\
  c_open c' = S /\ c_pending c' = [] /\ c_namespace c' = c_namespace c /\ c_section c' = s /\
  reading (c_bytes c') [] = Some (S, r) /\ tidy (solid (c_bytes c')).
Proof.
  intros [R P D Y N]. destruct (is_nil (c_pending c)) eqn:E.
  - destruct (c_pending c) eqn:Ep; [|discriminate]. cbn in P. injection P as <-. exists c, (c_section c). auto 8.
  - unfold flush_blocks. destruct (flush_loop_ok _ (c_bytes c) _ (negb (is_nil (c_bytes c))) _ P) as (more & s' & -> & So).
    eexists. exists s'. split; [reflexivity|]. cbn. repeat split.
    + rewrite (reading_app _ _ _ _ _ R), reading_solid, So, (reading_boundaries _ _ _ P), app_nil_r. reflexivity.
    + rewrite solid_app, So. pose proof (reduced_tidy _ (reduced_rev _ D)) as T. destruct N as [N|(pre & t & N)].
      * rewrite N. exact T.
      * rewrite N in *. rewrite <- app_assoc. cbn [app]. apply tidy_text; [|exact T]. clear - Y. induction pre as [|x pre IH]; [exact I|].
        cbn [app] in Y. pose proof (tidy_tail _ _ Y) as Y'. specialize (IH Y'). destruct x, pre as [|[] pre]; cbn in *; tauto.
Qed.

Lemma run_requests ops : forall c ns st r0 r, requests ns st ops r -> c_namespace c = ns -> inv c (st ++ rev (map BUser ns)) r0 ->
  exists c', run_ops ops c = Some c' /\ inv c' (rev (map BUser (c_namespace c'))) (r0 ++ r).
Proof.
  induction ops as [|o ops IH]; intros c ns st r0 r H Hn Hi.
  - inversion H; subst. exists c. rewrite app_nil_r. split; [reflexivity|exact Hi].
  - inversion H as [|? ? ? ? H'|? ? ? ? H'|? ? ? ? ? H'|? ? ? ? ? H'|? ? ? ? ? Hs H'|? ? ? ? H']; subst; cbn [run_ops step].
    + apply (IH _ _ _ _ _ H'); [reflexivity|]. destruct Hi as [R P D Y N]. split; assumption.
    + cbn [app] in Hi. rewrite <- (app_nil_r (rev _)) in Hi. destruct (inv_namespace _ _ _ ns' Hi) as [Hi' En].
      rewrite app_nil_r in Hi'. apply (IH _ _ _ _ _ H'); [exact En|exact Hi'].
    + destruct (inv_push _ _ _ (Begin b) (b :: st ++ rev (map BUser (c_namespace c))) Hi eq_refl) as [Hi' En]. apply (IH _ _ _ _ _ H'); [exact En|exact Hi'].
    + destruct (inv_push _ _ _ (End b) (st0 ++ rev (map BUser (c_namespace c))) Hi) as [Hi' En].
      { cbn. rewrite (proj2 (block_eqb_eq b b) eq_refl). reflexivity. }
      apply (IH _ _ _ _ _ H'); [exact En|exact Hi'].
    + unfold write. destruct (String.eqb_spec s ""); [congruence|]. destruct (inv_flush _ _ _ Hi) as (c' & s' & -> & Eo & Ep & En & Es & R & Y).
      set (nl := if (c_section c' && negb (is_nil (c_bytes c')))%bool then [KNewline] else []).
      assert (Sn : solid nl = []) by (subst nl; destruct (_ && _)%bool; reflexivity).
      match goal with |- context [run_ops ops ?c0] => destruct (IH c0 (c_namespace c) st (r0 ++ [(st ++ rev (map BUser (c_namespace c)), s)]) r1 H') as (c2 & E & Hi') end.
      * exact En.
      * split; cbn.
        -- rewrite (reading_app _ _ _ _ _ R), reading_solid, solid_app, Sn. cbn. rewrite Eo. reflexivity.
        -- rewrite Ep, Eo. reflexivity.
        -- rewrite Ep. exact I.
        -- rewrite !solid_app, Sn. cbn. apply tidy_text; [exact Y|exact I].
        -- right. rewrite !solid_app, Sn. cbn. eauto.
      * exists c2. split; [exact E|]. rewrite <- app_assoc in Hi'. exact Hi'.
    + apply (IH _ _ _ _ _ H'); [reflexivity|exact Hi].
Qed.

(** * C29 *)
(** For every well-nested sequence of calls the buffer does not panic, its contents are
    balanced, every text is inside exactly the requested blocks, and no block is empty. *)
Theorem C29_buffer : forall ops r, requests [] [] ops r ->
  exists toks, render_buffer ops = Some toks /\ encloses [] toks r /\ no_empty_blocks toks.
Proof.
  intros ops r H. assert (H0 : inv empty_buffer [] []) by (split; cbn; auto; left; reflexivity).
  destruct (run_requests ops empty_buffer [] [] [] r H eq_refl H0) as (c & E & Hi). unfold render_buffer. rewrite E.
  cbn [app] in Hi. rewrite <- (app_nil_r (rev _)) in Hi. destruct (inv_namespace _ _ _ [] Hi) as [Hi' En]. cbn [map rev app] in Hi'.
  unfold flush. destruct (inv_flush _ _ _ Hi') as (c' & s & -> & Eo & Ep & _ & _ & R & Y). exists (c_bytes c'). split; [reflexivity|].
  split; [apply reading_encloses, R|apply tidy_no_empty, Y].
Qed.
Print Assumptions C29_buffer.

(** Composing sequences of calls. *)
Definition writes (ns : list string) (st : list block) (ops : list op) (r : list (list block * string)) (ns' : list string) : Prop :=
  forall l r', requests ns' st l r' -> requests ns st (ops ++ l) (r ++ r').
Lemma writes_nil ns st : writes ns st [] [] ns. Proof. intros l r H. exact H. Qed.
Lemma writes_app ns st o1 r1 ns1 o2 r2 ns2 : writes ns st o1 r1 ns1 -> writes ns1 st o2 r2 ns2 -> writes ns st (o1 ++ o2) (r1 ++ r2) ns2.
Proof. intros H1 H2 l r H. rewrite <- !app_assoc. apply H1, H2, H. Qed.
Lemma writes_section ns st o r ns' : writes ns st o r ns' -> writes ns st (OSection :: o) r ns'.
Proof. intros H l r' H'. cbn. constructor. apply H, H'. Qed.
Lemma writes_body ns st b : writes ns st (body b) (map (pair (st ++ rev (map BUser ns))) (texts b)) ns.
Proof.
  induction b as [|[|s] b IH]; intros l r H; cbn; [exact H|constructor; apply IH, H|].
  destruct (String.eqb_spec s "") as [->|N]; cbn; [apply rq_nothing|apply rq_text; [exact N|]]; apply IH, H.
Qed.
Lemma writes_namespace ns ns1 o r ns2 : writes ns1 [] o r ns2 -> writes ns [] (ONamespace ns1 :: o) r ns2.
Proof. intros H l r' H'. cbn. constructor. apply H, H'. Qed.
Lemma writes_block ns st b o r : writes ns (b :: st) o r ns -> writes ns st (OBegin b :: o ++ [OEnd b]) r ns.
Proof. intros H l r' H'. cbn. rewrite <- app_assoc. constructor. apply H. cbn. constructor. exact H'. Qed.
Lemma writes_flat_map {A} (f : A -> list op) (g : A -> list (list block * string)) (l : list A) :
  (forall a, In a l -> forall ns, exists ns', writes ns [] (f a) (g a) ns') -> forall ns, exists ns', writes ns [] (flat_map f l) (flat_map g l) ns'.
Proof.
  induction l as [|a l IH]; intros H ns; cbn; [exists ns; apply writes_nil|].
  destruct (H a (or_introl eq_refl) ns) as [ns1 H1]. destruct (IH (fun b I => H b (or_intror I)) ns1) as [ns2 H2].
  exists ns2. eapply writes_app; eassumption.
Qed.
Lemma writes_flat_map_in {A} (f : A -> list op) (g : A -> list (list block * string)) (l : list A) ns st :
  (forall a, In a l -> writes ns st (f a) (g a) ns) -> writes ns st (flat_map f l) (flat_map g l) ns.
Proof.
  induction l as [|a l IH]; intros H; cbn; [apply writes_nil|].
  eapply writes_app; [apply H; left; reflexivity|apply IH]. intros b I. apply H. right. exact I.
Qed.
Lemma flat_map_map {A B C} (f : A -> B) (g : B -> list C) l : flat_map g (map f l) = flat_map (fun a => g (f a)) l.
Proof. induction l; cbn; congruence. Qed.
Lemma flat_map_flat_map {A B C} (f : A -> list B) (g : B -> list C) l : flat_map g (flat_map f l) = flat_map (fun a => flat_map g (f a)) l.
Proof. induction l; cbn; [reflexivity|]. rewrite flat_map_app. congruence. Qed.

Section Generated.
  Context (text : piece -> list body_op) (header : bool) (T : types).
  Let pl := placed text.

  Lemma piece_in ns p o : o = body (text p) -> place p = rev (map BUser ns) -> forall ns0, writes ns0 [] (ONamespace ns :: o) (pl p) ns.
  Proof. intros -> E ns0. apply writes_namespace. unfold pl, placed. rewrite E. apply (writes_body ns []). Qed.
  Lemma piece_extern ns p o : o = body (text p) -> place p = BExternC :: rev (map BUser ns) ->
    forall ns0, writes ns0 [] (ONamespace ns :: OBegin BExternC :: o ++ [OEnd BExternC]) (pl p) ns.
  Proof. intros -> E ns0. apply writes_namespace. apply (writes_block ns [] BExternC). unfold pl, placed. rewrite E. apply (writes_body ns [BExternC]). Qed.

  Lemma definition_ok d ns : exists ns', writes ns [] (op_definition text d) (flat_map pl [definition_piece d]) ns'.
  Proof.
    destruct d; eexists; cbn [flat_map definition_piece op_definition]; rewrite app_nil_r; apply writes_section, piece_in; reflexivity.
  Qed.
  Lemma gen_ok apis : exists ns, writes [] [] (op_gen text header T apis) (flat_map pl (pieces header T apis)) ns.
  Proof.
    unfold op_gen, pieces. cbn [app flat_map].
    assert (M : writes [] [] (OSection :: body (text PMacros)) (pl PMacros) []) by (apply writes_section; apply (writes_body [] [])).
    assert (F : writes [] [] (OSection :: body (text PForward)) (pl PForward) []) by (apply writes_section; apply (writes_body [] [])).
    (* the definitions *)
    set (defs := write_loop (fun x => smem x (t_cxx T)) apis [] (t_toposorted T)).
    destruct (writes_flat_map (op_definition text) (fun d => flat_map pl [definition_piece d]) defs (fun d _ ns => definition_ok d ns) []) as [ns1 D].
    rewrite <- flat_map_flat_map in D. replace (flat_map (fun a => [definition_piece a]) defs) with (map definition_piece defs) in D by (clear; induction defs; cbn; congruence).
    (* the trivial assertions *)
    assert (V : writes [] [] (flat_map (op_trivial text T) apis)
      (flat_map pl (flat_map (fun a => match a with ATypeAlias a => when (has (p_rust (ta_name a)) (t_required_trivial T)) [PTrivial a] | _ => [] end) apis)) []).
    { rewrite flat_map_flat_map. apply writes_flat_map_in. intros [| | | | | | |a|] _; cbn; try apply writes_nil.
      destruct (has (p_rust (ta_name a)) (t_required_trivial T)); cbn; [|apply writes_nil]. rewrite app_nil_r. apply (writes_body [] []). }
    (* declarations *)
    destruct (writes_flat_map (op_declarations text) (fun a => flat_map pl (match a with
                              | AStruct s => [POperatorDecls s] | ARustType t => [PLayoutDecls t]
                              | ACxxFunction f => [PCxxShim f] | ARustFunction f => [PRustDecl f] | _ => [] end)) apis) with (ns := @nil string) as [ns2 L].
    { intros a _ ns. destruct a; cbn; try (exists ns; apply writes_nil); eexists; rewrite app_nil_r; try apply writes_section; apply piece_extern; reflexivity. }
    rewrite <- flat_map_flat_map in L.
    (* std *)
    assert (S : writes ns2 [] (op_std text apis)
      (flat_map pl (flat_map (fun a => match a with AStruct s => when (derives DHash (st_derives s)) [PHash s] | _ => [] end) apis)) []).
    { unfold op_std. apply writes_namespace. apply (writes_block [] [] (BNamespace "std")). rewrite flat_map_flat_map. apply writes_flat_map_in.
      intros a _. destruct a; cbn; try apply writes_nil. destruct (derives DHash (st_derives s)); cbn; [|apply writes_nil].
      rewrite app_nil_r. apply writes_section, (writes_body [] [BNamespace "std"]). }
    (* definitions of functions *)
    assert (G : forall ns, exists ns', writes ns [] (flat_map (op_definitions text header) apis)
       (flat_map pl (flat_map (fun a => match a with
                        | AStruct s => when (negb header) [POperators s] | ARustType t => when (negb header) [PLayout t]
                        | ARustFunction f => [PRustShim f] | _ => [] end) apis)) ns').
    { rewrite flat_map_flat_map. apply writes_flat_map. intros a _ ns. destruct a; cbn; try (exists ns; apply writes_nil);
        destruct header; cbn; try (exists ns; apply writes_nil); eexists; rewrite app_nil_r; try apply writes_section; apply piece_in; reflexivity. }
    (* instantiations *)
    assert (E : forall ns, writes ns [] ([OSection; ONamespace []; OBegin BExternC]
       ++ flat_map (fun k => OSection :: body (text (PImplExtern (fst k)))) (t_impls T)
       ++ [OEnd BExternC; OBegin (BNamespace "rust"); OBegin (BInline "cxxbridge1")]
       ++ flat_map (fun k => match fst (fst k) with KBox | KVec => body (text (PImplMember (fst k))) | _ => [] end) (t_impls T)
       ++ [OEnd (BInline "cxxbridge1"); OEnd (BNamespace "rust")])
       (flat_map pl (map (fun k => PImplExtern (fst k)) (t_impls T)
        ++ flat_map (fun k => match fst (fst k) with KBox | KVec => [PImplMember (fst k)] | _ => [] end) (t_impls T))) []).
    { intros ns. rewrite flat_map_app. apply writes_section, writes_namespace.
      set (E1 := flat_map (fun k => OSection :: body (text (PImplExtern (fst k)))) (t_impls T)).
      set (E2 := flat_map (fun k => match fst (fst k) with KBox | KVec => body (text (PImplMember (fst k))) | _ => [] end) (t_impls T)).
      match goal with |- writes _ _ ?o _ _ => replace o with ((OBegin BExternC :: E1 ++ [OEnd BExternC]) ++
        (OBegin (BNamespace "rust") :: (OBegin (BInline "cxxbridge1") :: E2 ++ [OEnd (BInline "cxxbridge1")]) ++ [OEnd (BNamespace "rust")])) end.
      2: { clearbody E1 E2. cbn. rewrite <- !app_assoc. reflexivity. }
      eapply writes_app.
      - apply writes_block. subst E1. rewrite flat_map_map. apply writes_flat_map_in. intros k _. apply writes_section, (writes_body [] [BExternC]).
      - apply writes_block, writes_block. subst E2. rewrite flat_map_flat_map. apply writes_flat_map_in. intros k _.
        destruct (fst (fst k)); cbn; rewrite ?app_nil_r; try apply writes_nil; apply (writes_body [] [BInline "cxxbridge1"; BNamespace "rust"]). }
    rewrite !flat_map_app.
    unfold op_data_structures, op_functions, op_instantiations.
    destruct (header); cbn [negb when] in *.
    - destruct (G ns1) as [ns3 G']. exists ns3. cbn [flat_map app]. rewrite !app_nil_r.
      refine (writes_app _ _ (OSection :: _) _ _ _ _ _ M _). refine (writes_app _ _ (OSection :: _) _ _ _ _ _ F _). eapply writes_app; [exact D|]. exact G'.
    - destruct (G []) as [ns3 G']. exists [].
      refine (writes_app _ _ (OSection :: _) _ _ _ _ _ M _). refine (writes_app _ _ (OSection :: _) _ _ _ _ _ F _). rewrite <- !app_assoc. eapply writes_app; [exact D|].
      rewrite !flat_map_app in *. rewrite <- !app_assoc. apply writes_namespace, writes_section.
      eapply writes_app; [exact V|]. eapply writes_app; [exact L|]. eapply writes_app; [exact S|]. eapply writes_app; [exact G'|]. apply E.
  Qed.
End Generated.

(** The C++ code generated for any bridge: every part is inside exactly the namespaces
    and the extern "C" block it belongs to, for any text of the parts. *)
Theorem C29_generated : forall text header T apis,
  exists toks, render_buffer (op_gen text header T apis) = Some toks /\
    encloses [] toks (flat_map (placed text) (pieces header T apis)) /\ no_empty_blocks toks.
Proof.
  intros text header T apis. apply C29_buffer. destruct (gen_ok text header T apis) as [ns H].
  specialize (H [] [] (rq_done ns)). rewrite !app_nil_r in H. exact H.
Qed.
Print Assumptions C29_generated.

(** The built-in support code, likewise. *)
Theorem C29_builtin : forall text friend_impl trycatch,
  exists toks r, render_buffer (op_builtin text friend_impl trycatch) = Some toks /\ encloses [] toks r /\ no_empty_blocks toks /\
    forall st s, In (st, s) r -> exists p, st = builtin_place p /\ In (TText s) (text p).
Proof.
  intros text friend_impl trycatch.
  assert (B : forall st p, builtin_place p = st -> writes [] st (body (text p)) (map (pair (builtin_place p)) (texts (text p))) []).
  { intros st p <-. pose proof (writes_body [] (builtin_place p) (text p)) as H. cbn in H. rewrite app_nil_r in H. exact H. }
  pose (sh p := map (pair (builtin_place p)) (texts (text p))).
  assert (W : writes [] [] (op_builtin text friend_impl trycatch)
    (((sh UHeader1 ++ when friend_impl (sh UFriendImpl) ++ sh UHeader2 ++ sh URepr ++ sh UDetail ++ sh UUnions ++ sh UAnonymous) ++ when trycatch (sh UTrycatch)) ++ []) []).
  { unfold op_builtin. set (rust := BNamespace "rust"). set (inl := BInline "cxxbridge1").
    match goal with |- writes _ _ ?o _ _ => replace o with
      ((OBegin rust :: ((OBegin inl :: (body (text UHeader1)
         ++ when friend_impl (OBegin BAnonymous :: body (text UFriendImpl) ++ [OEnd BAnonymous])
         ++ body (text UHeader2)
         ++ (OBegin (BNamespace "repr") :: body (text URepr) ++ [OEnd (BNamespace "repr")])
         ++ (OBegin (BNamespace "detail") :: body (text UDetail) ++ [OEnd (BNamespace "detail")])
         ++ body (text UUnions)
         ++ (OBegin BAnonymous :: body (text UAnonymous) ++ [OEnd BAnonymous])) ++ [OEnd inl])
         ++ when trycatch (OBegin (BNamespace "behavior") :: body (text UTrycatch) ++ [OEnd (BNamespace "behavior")])) ++ [OEnd rust]) ++ []) end.
    2: { cbn. rewrite <- !app_assoc. cbn. rewrite <- !app_assoc. cbn. rewrite <- !app_assoc. cbn. rewrite <- !app_assoc. cbn. rewrite <- !app_assoc. reflexivity. }
    eapply writes_app; [|apply writes_nil]. apply writes_block. eapply writes_app; [apply writes_block|].
    - eapply writes_app; [apply B; reflexivity|]. eapply writes_app; [destruct friend_impl; [apply writes_block, B; reflexivity|apply writes_nil]|].
      eapply writes_app; [apply B; reflexivity|]. eapply writes_app; [apply writes_block, B; reflexivity|]. eapply writes_app; [apply writes_block, B; reflexivity|].
      eapply writes_app; [apply B; reflexivity|]. apply writes_block, B; reflexivity.
    - destruct trycatch; [apply writes_block, B; reflexivity|apply writes_nil]. }
  specialize (W [] [] (rq_done [])). rewrite !app_nil_r in W. destruct (C29_buffer _ _ W) as (toks & R & En & Ne).
  exists toks. eexists. split; [exact R|]. split; [exact En|]. split; [exact Ne|]. intros st s I.
  assert (K : forall p, In (st, s) (sh p) -> exists p, st = builtin_place p /\ In (TText s) (text p)).
  { intros p. unfold sh. rewrite in_map_iff. intros (x & [= <- <-] & Ix). exists p. split; [reflexivity|]. unfold texts in Ix. apply in_flat_map in Ix.
    destruct Ix as ([|y] & Iy & Ix); [destruct Ix|]. destruct (String.eqb y ""); [destruct Ix|]. destruct Ix as [<-|[]]. exact Iy. }
  repeat (apply in_app_iff in I; destruct I as [I|I]); try (eapply K; exact I).
  all: try (destruct friend_impl; [eapply K; exact I|destruct I]).
  all: try (destruct trycatch; [eapply K; exact I|destruct I]).
  all: repeat (apply in_app_iff in I; destruct I as [I|I]); try (eapply K; exact I).
Qed.
Print Assumptions C29_builtin.

Example C29_nonvacuous :
  let nm ns a := Pair ns a a in
  let f a ns := ARustFunction (ExternFn CUnconditional LRust (nm ns a) false false [] None [] None false true) in
  let apis := [f "g" ["a"; "b"]; f "h" ["a"; "b"]; f "k" ["a"]] in
  exists T errs toks, collect (fun _ l => l) apis = Some (T, errs) /\
    render_buffer (op_gen (fun p => match p with PRustDecl f => [TText (p_rust (fn_name f))] | _ => [] end) false T apis) = Some toks /\
    filter (fun k => match k with KNewline => false | _ => true end) toks =
      [KBegin (BUser "a"); KBegin (BUser "b"); KBegin BExternC; KText "g"; KText "h"; KEnd BExternC; KEnd (BUser "b"); KBegin BExternC; KText "k"; KEnd BExternC; KEnd (BUser "a")].
Proof. cbv zeta. do 3 eexists. split; [vm_compute; reflexivity|]. split; vm_compute; reflexivity. Qed.
