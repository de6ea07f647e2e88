(** Proofs about the built-in code. *)
From Verif Require Import Base StrLib Header_Text Ifndef_Model Builtin_Model Builtin_Spec.
From Coq Require Import Lia.

Definition HEADER_tokens : list string := Eval vm_compute in tokens_of (lines HEADER).
Lemma HEADER_tokens_eq : tokens_of (lines HEADER) = HEADER_tokens.
Proof. vm_compute. reflexivity. Qed.

(** * propagate *)
Lemma rule_step_incr s r w : s w = true -> rule_step s r w = true.
Proof. unfold rule_step. intros ->. destruct (want_mem _ _); [apply orb_true_r|reflexivity]. Qed.
Lemma fold_rules_incr l : forall s w, s w = true -> fold_left rule_step l s w = true.
Proof. induction l as [|r l IH]; intros s w H; [exact H|]. cbn. apply IH, rule_step_incr, H. Qed.
Lemma propagate_incr s w : s w = true -> propagate s w = true.
Proof. apply fold_rules_incr. Qed.

Lemma fold_rules_inv (P : want -> Prop) l : (forall r, In r l -> P (WFlag (fst r)) -> forall w, In w (snd r) -> P w) ->
  forall s, (forall w, s w = true -> P w) -> forall w, fold_left rule_step l s w = true -> P w.
Proof.
  intros Hl. induction l as [|r l IH]; intros s Hs w H; [auto|]. cbn in H. revert w H. apply IH.
  - intros r' I. apply Hl. right. exact I.
  - intros w. unfold rule_step, want_mem. destruct (in_dec want_eq_dec w (snd r)) as [I|_]; [|apply Hs].
    intros H. apply orb_true_iff in H. destruct H as [H|H]; [|auto]. apply (Hl r); [left; reflexivity| |exact I]. apply Hs, H.
Qed.
Lemma propagate_inv (P : want -> Prop) s : (forall r, In r rules -> P (WFlag (fst r)) -> forall w, In w (snd r) -> P w) ->
  (forall w, s w = true -> P w) -> forall w, propagate s w = true -> P w.
Proof. intros. eapply fold_rules_inv; eauto. Qed.

(** All rules hold of the result. *)
Lemma propagate_closed s : forall r, In r rules -> propagate s (WFlag (fst r)) = true -> forall w, In w (snd r) -> propagate s w = true.
Proof.
  assert (E : Forall (fun r => Forall (fun w => propagate s (WFlag (fst r)) = true -> propagate s w = true) (snd r)) rules).
  { unfold rules. repeat apply Forall_cons; try apply Forall_nil; cbn [fst snd]; repeat apply Forall_cons; try apply Forall_nil.
    all: cbv -[orb]; intros H; repeat rewrite orb_true_iff in *; tauto. }
  intros r I H w Iw. rewrite Forall_forall in E. specialize (E r I). rewrite Forall_forall in E. auto.
Qed.

(** * Where the parts are *)
Definition part_eq_dec (a b : part) : {a = b} + {a <> b}. Proof. decide equality. Defined.
Lemma parts_all p : In p parts.
Proof. destruct p; cbn; tauto. Qed.
Lemma parts_nodup : NoDup parts.
Proof. unfold parts. repeat constructor; cbn; intros H; repeat (destruct H as [H|H]; [discriminate H|]); exact H. Qed.

Definition on (S : settings) (cxx : bool) (p : part) : bool := enabled S p && negb (from_header p && cxx).
Lemma emitted_on s cxx p : In p (emitted_parts s cxx) <-> on (propagate s) cxx p = true.
Proof. unfold emitted_parts. rewrite filter_In. unfold on. split; [tauto|]. intros H. split; [apply parts_all|exact H]. Qed.

(** The parts up to and including [p]. *)
Fixpoint upto (p : part) (l : list part) : list part :=
  match l with [] => [] | q :: l => q :: (if part_eq_dec q p then [] else upto p l) end.
Lemma upto_split p l : In p l -> exists b a, l = b ++ p :: a /\ upto p l = b ++ [p].
Proof.
  induction l as [|q l IH]; intros []; cbn.
  - subst q. exists [], l. destruct (part_eq_dec p p); [auto|congruence].
  - destruct (part_eq_dec q p) as [->|N]; [exists [], l; auto|]. destruct (IH H) as [b [a [E1 E2]]]. exists (q :: b), a. cbn. rewrite E2, <- E1. auto.
Qed.
Lemma split_unique {A} (x : A) l : NoDup l -> forall b a b' a', l = b ++ x :: a -> l = b' ++ x :: a' -> b = b'.
Proof.
  intros N b a b' a' E1 E2. rewrite E1 in E2, N. clear l E1. revert b' E2. induction b as [|y b IH]; intros [|z b'] E; cbn in *; auto.
  - injection E as -> ->. exfalso. inversion N; subst. apply H1. apply in_or_app. right. left. reflexivity.
  - injection E as <- E. exfalso. inversion N; subst. apply H1. apply in_or_app. right. left. reflexivity.
  - injection E as <- E. f_equal. apply IH; [inversion N; assumption|exact E].
Qed.
Lemma before_filter f l before p after q : NoDup l -> In p l -> filter f l = before ++ p :: after -> In q (upto p l) -> f q = true -> In q (before ++ [p]).
Proof.
  intros N Ip E I O. destruct (upto_split p l Ip) as [b [a [E1 E2]]]. rewrite E2 in I.
  assert (P : f p = true). { assert (J : In p (filter f l)) by (rewrite E; apply in_or_app; right; left; reflexivity). apply filter_In in J. apply J. }
  assert (X : filter f b = before).
  { apply (split_unique p (filter f l)) with (a := filter f a) (a' := after); [apply NoDup_filter, N| |exact E].
    rewrite E1, filter_app. cbn [filter]. rewrite P. reflexivity. }
  rewrite <- X. apply in_app_or in I. apply in_or_app. destruct I as [I|I]; [left; apply filter_In; auto|right; exact I].
Qed.
Lemma before_spec s cxx before p after q : emitted_parts s cxx = before ++ p :: after ->
  In q (upto p parts) -> on (propagate s) cxx q = true -> In q (before ++ [p]).
Proof.
  intros E. assert (E' : filter (on (propagate s) cxx) parts = before ++ p :: after) by (rewrite <- E; unfold emitted_parts, on; reflexivity).
  exact (before_filter (on (propagate s) cxx) parts before p after q parts_nodup (parts_all p) E').
Qed.

(** * Which parts define the names that a part mentions *)
Definition gives (suff : bool) (text : list string) (n : string) : bool := defines text n || suff && declares text n.
Definition text (p : part) : list string := Eval vm_compute in
  match p with
  | BPanic => text_of BPanic
  | BFwdBitcopy => text_of BFwdBitcopy
  | BFwdImpl => text_of BFwdImpl
  | BFwdString => text_of BFwdString
  | BFwdOpaque => text_of BFwdOpaque
  | BFwdSizeOf => text_of BFwdSizeOf
  | BString => text_of BString
  | BStr => text_of BStr
  | BSlice => text_of BSlice
  | BBox => text_of BBox
  | BBitcopyT => text_of BBitcopyT
  | BBitcopy => text_of BBitcopy
  | BVec => text_of BVec
  | BFn => text_of BFn
  | BError => text_of BError
  | BIsize => text_of BIsize
  | BOpaque => text_of BOpaque
  | BIsComplete => text_of BIsComplete
  | BLayout => text_of BLayout
  | BRelocatable => text_of BRelocatable
  | BStrUninit => text_of BStrUninit
  | BSliceUninit => text_of BSliceUninit
  | BFat => text_of BFat
  | BPtrLen => text_of BPtrLen
  | BOperatorNew => text_of BOperatorNew
  | BFail => text_of BFail
  | BManuallyDrop => text_of BManuallyDrop
  | BMaybeUninit => text_of BMaybeUninit
  | BImplStr => text_of BImplStr
  | BImplStrNew => text_of BImplStrNew
  | BImplStrRepr => text_of BImplStrRepr
  | BImplStrEnd => text_of BImplStrEnd
  | BImplSlice => text_of BImplSlice
  | BImplSliceNew => text_of BImplSliceNew
  | BImplSliceRepr => text_of BImplSliceRepr
  | BImplSliceEnd => text_of BImplSliceEnd
  | BImplError => text_of BImplError
  | BDestroy => text_of BDestroy
  | BDeleterIf => text_of BDeleterIf
  | BRelocatableOrArray => text_of BRelocatableOrArray
  | BTrycatch => text_of BTrycatch
  end.
Lemma text_eq p : text_of p = text p.
Proof. destruct p; vm_compute; reflexivity. Qed.
Definition providers (p : part) : list (string * (bool * list part)) :=
  map (fun n => (n, (gives (declaration_suffices p n) HEADER_tokens n,
                     filter (fun q => gives (declaration_suffices p n) (text q) n) (upto p parts))))
      (filter (fun n => smem n (text p)) helpers).
Definition table : list (part * list (string * (bool * list part))) := Eval vm_compute in map (fun p => (p, providers p)) parts.
Lemma table_eq : map (fun p => (p, providers p)) parts = table.
Proof. vm_compute. reflexivity. Qed.

(** What the generator guarantees about the fields it sets. *)
Record coherent (S : settings) : Prop :=
  { co_rules : forall r, In r rules -> S (WFlag (fst r)) = true -> forall w, In w (snd r) -> S w = true;
    co_str : S (WFlag FStrNew) = true \/ S (WFlag FStrRepr) = true -> S (WFlag FStr) = true /\ S (WFlag FFat) = true;
    co_slice : S (WFlag FSliceNew) = true \/ S (WFlag FSliceRepr) = true -> S (WFlag FSlice) = true /\ S (WFlag FFat) = true;
    co_error : S (WFlag FError) = true -> S (WFlag FPtrLen) = true }.

Lemma table_ok S cxx : coherent S ->
  Forall (fun e => on S cxx (fst e) = true -> Forall (fun x => cxx && fst (snd x) || existsb (on S cxx) (snd (snd x)) = true) (snd e)) table.
Proof.
  intros [R C1 C2 C3].
  assert (K : forall f l w, In (f, l) rules -> In w l -> S (WFlag f) = true -> S w = true) by (intros f l w I J H; exact (R (f, l) I H w J)).
  assert (K1 : S (WFlag FStr) = true -> S (WFlag FFriendImpl) = true) by (eapply K; [right; left; reflexivity|cbn; tauto]).
  assert (K2 : S (WFlag FVec) = true -> S (WFlag FPanic) = true) by (eapply K; [do 2 right; left; reflexivity|cbn; tauto]).
  assert (K3 : S (WFlag FVec) = true -> S (WFlag FSlice) = true) by (eapply K; [do 2 right; left; reflexivity|cbn; tauto]).
  assert (K4 : S (WFlag FVec) = true -> S (WFlag FBitcopyT) = true) by (eapply K; [do 2 right; left; reflexivity|cbn; tauto]).
  assert (K5 : S (WFlag FSlice) = true -> S (WFlag FFriendImpl) = true) by (eapply K; [do 3 right; left; reflexivity|cbn; tauto]).
  assert (K6 : S (WFlag FSlice) = true -> S (WFlag FLayout) = true) by (eapply K; [do 3 right; left; reflexivity|cbn; tauto]).
  assert (K7 : S (WFlag FSlice) = true -> S (WFlag FPanic) = true) by (eapply K; [do 3 right; left; reflexivity|cbn; tauto]).
  assert (K8 : S (WFlag FError) = true -> S (WFlag FFriendImpl) = true) by (eapply K; [do 6 right; left; reflexivity|cbn; tauto]).
  assert (K9 : S (WFlag FRelocatableOrArray) = true -> S (WFlag FRelocatable) = true) by (eapply K; [do 8 right; left; reflexivity|cbn; tauto]).
  assert (K10 : S (WFlag FLayout) = true -> S (WFlag FIsComplete) = true) by (eapply K; [do 10 right; left; reflexivity|cbn; tauto]).
  assert (K11 : S (WFlag FBitcopy) = true -> S (WFlag FBitcopyT) = true) by (eapply K; [do 12 right; left; reflexivity|cbn; tauto]).
  assert (K12 : S (WFlag FTrycatch) = true -> S (WFlag FPtrLen) = true) by (eapply K; [do 13 right; left; reflexivity|cbn; tauto]).
  clear R K. unfold table. repeat apply Forall_cons; try apply Forall_nil; cbn [fst snd]; unfold on; cbn [enabled from_header]; intros H;
    repeat apply Forall_cons; try apply Forall_nil; cbn [fst snd existsb]; unfold on; cbn [enabled from_header].
  all: destruct cxx; cbn [andb orb negb] in *; rewrite ?andb_true_r, ?andb_false_r, ?orb_true_r in *; try reflexivity; try discriminate H.
  all: try (rewrite H; rewrite ?orb_true_r; reflexivity).
  all: repeat match goal with |- context [negb ?b] => destruct b eqn:?; cbn [negb] in *; rewrite ?andb_true_r, ?orb_true_r end; try reflexivity.
  all: rewrite ?orb_true_iff in *; tauto.
Qed.

Lemma Forall_map_in {A B} (P : B -> Prop) (f : A -> B) l x : Forall P (map f l) -> In x l -> P (f x).
Proof. intros H I. rewrite Forall_forall in H. apply H, in_map, I. Qed.
Lemma table_ok' S cxx : coherent S ->
  Forall (fun e => on S cxx (fst e) = true -> Forall (fun x => cxx && fst (snd x) || existsb (on S cxx) (snd (snd x)) = true) (snd e)) (map (fun p => (p, providers p)) parts).
Proof. intros C. rewrite table_eq. exact (table_ok S cxx C). Qed.
Local Opaque parts text on propagate helpers HEADER_tokens text_of emitted_parts HEADER lines providers table.
Lemma providers_ok S cxx p : coherent S -> on S cxx p = true ->
  Forall (fun x => cxx && fst (snd x) || existsb (on S cxx) (snd (snd x)) = true) (providers p).
Proof.
  intros C. pose proof (table_ok' S cxx C) as K.
  pose proof (Forall_map_in _ _ _ p K (parts_all p)) as K'. cbn [fst snd] in K'. exact K'.
Qed.

Local Transparent providers.
Lemma builtin_known s cxx : coherent (propagate s) -> forall before p after n, emitted_parts s cxx = before ++ p :: after ->
  In n helpers -> In n (text_of p) -> known cxx before p n.
Proof.
  intros C before p after n E Hn Hp.
  assert (P : on (propagate s) cxx p = true). { apply emitted_on. rewrite E. apply in_or_app. right. left. reflexivity. }
  pose proof (providers_ok _ _ _ C P) as K. unfold providers in K.
  assert (Hs : smem n (text p) = true) by (apply smem_In; rewrite <- text_eq; exact Hp).
  assert (If : In n (filter (fun n => smem n (text p)) helpers)) by (apply filter_In; auto).
  apply (Forall_map_in _ _ _ n) in K; [|exact If]. cbn [fst snd] in K.
  unfold known. rewrite HEADER_tokens_eq.
  apply orb_true_iff in K. destruct K as [K|K].
  - apply andb_true_iff in K. destruct K as [K1 K2]. unfold gives in K2. rewrite orb_true_iff, andb_true_iff in K2.
    destruct K2 as [K2|[K2 K3]]; [left; split; assumption|right; right; split; [exact K2|left; split; assumption]].
  - apply existsb_exists in K. destruct K as [q [K1 K2]]. apply filter_In in K1. destruct K1 as [K1 K3].
    pose proof (before_spec _ _ _ _ _ _ E K1 K2) as I. rewrite <- text_eq in K3. unfold gives in K3. rewrite orb_true_iff, andb_true_iff in K3.
    destruct K3 as [K3|[K3 K4]]; [right; left; eauto|right; right; eauto].
Qed.
