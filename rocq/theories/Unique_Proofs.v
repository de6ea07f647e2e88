(** Simulation between UniquePtr and its specification. *)
From Verif Require Import Base Unique_Model Unique_Spec.
Require Import Permutation Lia.

Section Sim.
Context {V : Type}.
Variable veqb : V -> V -> bool.
Variable vcmp : V -> V -> comparison.

Fixpoint live_from (n : nat) (h : heap V) : list (nat * V) :=
  match h with
  | [] => []
  | Live v :: h => (n, v) :: live_from (S n) h
  | _ :: h => live_from (S n) h
  end.

Lemma live_app h h' : forall n, live_from n (h ++ h') = live_from n h ++ live_from (n + List.length h) h'.
Proof.
  induction h as [|c h IH]; intros n; cbn [app live_from List.length].
  - now rewrite Nat.add_0_r.
  - replace (n + S (List.length h)) with (S n + List.length h) by lia. destruct c; cbn; now rewrite IH.
Qed.
Lemma live_at h : forall n a v, nth_error h a = Some (Live v) ->
  exists l1 l2, live_from n h = l1 ++ (n + a, v) :: l2 /\
    (forall v', live_from n (set_cell a (Live v') h) = l1 ++ (n + a, v') :: l2) /\
    live_from n (set_cell a Freed h) = l1 ++ l2.
Proof.
  induction h as [|c h IH]; intros n a v E; [destruct a; discriminate|].
  destruct a as [|a]; cbn in E.
  - inversion E; subst. exists [], (live_from (S n) h). cbn. rewrite Nat.add_0_r. auto.
  - destruct (IH (S n) a v E) as (l1 & l2 & A & B & C).
    replace (n + S a) with (S n + a) by lia. destruct c as [|w|].
    + exists l1, l2. cbn. auto.
    + exists ((n, w) :: l1), l2. cbn. rewrite A, C. repeat split; auto. intros v'. now rewrite B.
    + exists l1, l2. cbn. auto.
Qed.
Lemma live_in h : forall n a v, In (a, v) (live_from n h) -> n <= a /\ nth_error h (a - n) = Some (Live v).
Proof.
  induction h as [|c h IH]; intros n a v I; [destruct I|].
  assert (S' : In (a, v) (live_from (S n) h) -> n <= a /\ nth_error (c :: h) (a - n) = Some (Live v)).
  { intros J. apply IH in J. destruct J as [L J]. split; [lia|]. replace (a - n) with (S (a - S n)) by lia. exact J. }
  destruct c as [|w|]; cbn in I; auto.
  destruct I as [I|I]; auto. inversion I; subst. split; [lia|]. now rewrite Nat.sub_diag.
Qed.
Lemma set_app (h : heap V) a c c' : a = List.length h -> set_cell a c (h ++ [c']) = h ++ [c].
Proof. intros ->. induction h as [|x h IH]; cbn; [reflexivity|]. now rewrite IH. Qed.
Lemma set_uninit h : forall a c, c <> Uninit -> ~ In (@Uninit V) h -> ~ In Uninit (set_cell a c h).
Proof.
  induction h as [|x h IH]; intros a c N I; [destruct a; exact I|].
  destruct a as [|a]; cbn; intros [E|J].
  - congruence.
  - apply I. now right.
  - apply I. now left.
  - apply (IH a c N) in J; [exact J|]. intros K. apply I. now right.
Qed.

Definition zvars := list (nat * (holder * option (nat * V))).
Definition zs1 (z : nat * (holder * option (nat * V))) : nat * (holder * word) :=
  (fst z, (fst (snd z), option_map fst (snd (snd z)))).
Definition zs2 (z : nat * (holder * option (nat * V))) : nat * (holder * option V) :=
  (fst z, (fst (snd z), option_map snd (snd (snd z)))).
Definition zown (z : nat * (holder * option (nat * V))) : list (nat * V) :=
  match snd (snd z) with Some p => [p] | None => [] end.
Definition pairs (z : zvars) : list (nat * V) := flat_map zown z.

Definition inv (st : state V) (z : zvars) (s : sstate) : Prop :=
  snd st = map zs1 z /\ s = map zs2 z /\ Permutation (live_from 0 (fst st)) (pairs z) /\ ~ In Uninit (fst st).

Lemma lookup1 x z : lookup x (map zs1 z) = option_map (fun p => (fst p, option_map fst (snd p))) (lookup x z).
Proof. induction z as [|[y [k o]] z IH]; cbn; [reflexivity|]. destruct (Nat.eqb x y); auto. Qed.
Lemma lookup2 x z : lookup x (map zs2 z) = option_map (fun p => (fst p, option_map snd (snd p))) (lookup x z).
Proof. induction z as [|[y [k o]] z IH]; cbn; [reflexivity|]. destruct (Nat.eqb x y); auto. Qed.
Lemma remove1 x z : remove x (map zs1 z) = map zs1 (remove x z).
Proof. induction z as [|[y [k o]] z IH]; cbn [map remove]; [reflexivity|]. unfold zs1 at 1. cbn [fst]. destruct (Nat.eqb x y); [reflexivity|]. cbn [map]. now rewrite IH. Qed.
Lemma remove2 x z : remove x (map zs2 z) = map zs2 (remove x z).
Proof. induction z as [|[y [k o]] z IH]; cbn [map remove]; [reflexivity|]. unfold zs2 at 1. cbn [fst]. destruct (Nat.eqb x y); [reflexivity|]. cbn [map]. now rewrite IH. Qed.
Lemma lookup_split x (z : zvars) k o : lookup x z = Some (k, o) ->
  exists z1 z2, z = z1 ++ (x, (k, o)) :: z2 /\ remove x z = z1 ++ z2 /\ lookup x z1 = None.
Proof.
  induction z as [|[y [k' o']] z IH]; cbn; [discriminate|].
  destruct (Nat.eqb_spec x y) as [<-|N].
  - intros E. inversion E; subst. now exists [], z.
  - intros E. destruct (IH E) as (z1 & z2 & -> & -> & L). exists ((y, (k', o')) :: z1), z2.
    repeat split. cbn. apply Nat.eqb_neq in N. now rewrite N.
Qed.
Lemma put_split x z1 z2 k (o : option V) v : lookup x z1 = None ->
  put x v (map zs2 z1 ++ (x, (k, o)) :: z2) = map zs2 z1 ++ (x, (k, Some v)) :: z2.
Proof.
  induction z1 as [|[y [k' o']] z1 IH]; cbn; intros L.
  - now rewrite Nat.eqb_refl.
  - destruct (Nat.eqb x y); [discriminate|]. now rewrite IH.
Qed.

Lemma owned_live h z x k a v : Permutation (live_from 0 h) (pairs z) -> lookup x z = Some (k, Some (a, v)) ->
  nth_error h a = Some (Live v).
Proof.
  intros P L. apply lookup_split in L. destruct L as (z1 & z2 & -> & _ & _).
  assert (I : In (a, v) (live_from 0 h)).
  { apply (Permutation_in _ (Permutation_sym P)). unfold pairs. rewrite flat_map_app. apply in_or_app. right. now left. }
  apply live_in in I. destruct I as [_ I]. now rewrite Nat.sub_0_r in I.
Qed.

(** removing the owner of an object and freeing it *)
Lemma inv_free h z x k a v : Permutation (live_from 0 h) (pairs z) -> lookup x z = Some (k, Some (a, v)) ->
  Permutation (live_from 0 (set_cell a Freed h)) (pairs (remove x z)).
Proof.
  intros P L. pose proof (owned_live _ _ _ _ _ _ P L) as N.
  apply lookup_split in L. destruct L as (z1 & z2 & -> & -> & _).
  destruct (live_at h 0 a v N) as (l1 & l2 & A & _ & C). rewrite C. rewrite A in P.
  unfold pairs in *. rewrite flat_map_app in *. cbn in P. eapply Permutation_app_inv. exact P.
Qed.
Lemma inv_assign h z x k a v v' : Permutation (live_from 0 h) (pairs z) -> lookup x z = Some (k, Some (a, v)) ->
  exists z', map zs1 z' = map zs1 z /\ map zs2 z' = put x v' (map zs2 z) /\
    Permutation (live_from 0 (set_cell a (Live v') h)) (pairs z').
Proof.
  intros P L. pose proof (owned_live _ _ _ _ _ _ P L) as N.
  apply lookup_split in L. destruct L as (z1 & z2 & -> & _ & L).
  exists (z1 ++ (x, (k, Some (a, v'))) :: z2). split; [|split].
  - now rewrite !map_app.
  - rewrite !map_app. cbn [map]. change (zs2 (x, (k, Some (a, v)))) with (x, (k, Some v)). now rewrite put_split.
  - destruct (live_at h 0 a v N) as (l1 & l2 & A & B & _). rewrite B. rewrite A in P.
    unfold pairs in *. rewrite flat_map_app in *. cbn in *.
    apply Permutation_app_inv in P. now apply Permutation_elt.
Qed.
Lemma pairs_remove x z k o : lookup x z = Some (k, o) ->
  Permutation (pairs z) (match o with Some p => [p] | None => [] end ++ pairs (remove x z)).
Proof.
  intros L. apply lookup_split in L. destruct L as (z1 & z2 & -> & -> & _). unfold pairs. rewrite !flat_map_app. cbn.
  unfold zown at 2. cbn. destruct o; cbn; [|reflexivity]. symmetry. apply Permutation_middle.
Qed.

Definition related (r : outcome V (state V)) (r' : outcome V sstate) : Prop :=
  match r, r' with
  | Illegal, Illegal => True
  | Ok st o d, Ok s o' d' => o = o' /\ d = d' /\ exists z, inv st z s
  | _, _ => False
  end.

Lemma related_eq r r' r'' : r' = r'' -> related r r'' -> related r r'.
Proof. now intros ->. Qed.
Lemma get_lookup x k z : get_var x k (map zs2 z) =
  match lookup x z, k with
  | Some (KUnique, w), KUnique | Some (KRaw, w), KRaw | Some (KCxx, w), KCxx => Some (option_map snd w)
  | _, _ => None
  end.
Proof. unfold get_var. rewrite lookup2. destruct (lookup x z) as [[[] o]|]; reflexivity. Qed.

Lemma with_related x k z (f : word -> outcome V (state V)) (g : option V -> outcome V sstate) :
  (forall o, lookup x z = Some (k, o) -> related (f (option_map fst o)) (g (option_map snd o))) ->
  related (with_var x k (map zs1 z) f)
          (match get_var x k (map zs2 z) with Some o => g o | None => Illegal end).
Proof.
  intros H. rewrite get_lookup. unfold with_var. rewrite lookup1.
  destruct (lookup x z) as [[[] o]|]; destruct k; cbn; auto.
Qed.

Lemma write_related h z x a v k (new : V) if_null :
  Permutation (live_from 0 h) (pairs z) -> ~ In Uninit h -> lookup x z = Some (k, Some (a, v)) -> k = KUnique ->
  related (write_through a new h (map zs1 z) (Wrote true)) (write x new (map zs2 z) if_null).
Proof.
  intros P U L ->. unfold write_through, write, assign_cell. rewrite (owned_live _ _ _ _ _ _ P L), get_lookup, L. cbn.
  repeat split. destruct (inv_assign _ _ _ _ _ _ new P L) as (z' & A & B & C).
  exists z'. repeat split; cbn; auto. apply set_uninit; [discriminate|exact U].
Qed.
Lemma pass_related h z x k k' (f : word -> word) : Permutation (live_from 0 h) (pairs z) -> ~ In Uninit h -> (forall w, f w = w) ->
  related (with_var x k (map zs1 z) (fun w => Ok (h, (x, (k', f w)) :: remove x (map zs1 z)) Done [])) (pass x k k' (map zs2 z)).
Proof.
  intros P U F. unfold pass. apply with_related. intros o L. rewrite F, remove1, remove2. cbn. repeat split.
  exists ((x, (k', o)) :: remove x z). repeat split; auto. cbn [fst].
  etransitivity; [exact P|]. etransitivity; [apply (pairs_remove _ _ _ _ L)|]. reflexivity.
Qed.
Lemma drop_related h z x k : Permutation (live_from 0 h) (pairs z) -> ~ In Uninit h ->
  related (with_var x k (map zs1 z) (fun w => match cxx_drop w h with Some (d, h) => Ok (h, remove x (map zs1 z)) Done d | None => UB end))
          (destroy x k (map zs2 z)).
Proof.
  intros P U. unfold destroy. apply with_related. intros o L. destruct o as [[a v]|]; cbn.
  - unfold delete_cell. rewrite (owned_live _ _ _ _ _ _ P L), remove1, remove2. cbn. repeat split.
    exists (remove x z). repeat split; cbn; auto.
    + eapply inv_free; eauto.
    + apply set_uninit; [discriminate|exact U].
  - repeat split. exists (remove x z). rewrite remove1, remove2. repeat split; auto. cbn.
    etransitivity; [exact P|]. apply (pairs_remove _ _ _ _ L).
Qed.
Lemma add_related h z x k o : (forall v, o <> Some v) \/ True ->
  Permutation (live_from 0 h) (match o with Some p => [p] | None => [] end ++ pairs z) -> ~ In Uninit h ->
  related (bind_var x k (option_map fst o) h (map zs1 z) Done []) (add x k (option_map snd o) (map zs2 z)).
Proof.
  intros _ P U. unfold bind_var, add. rewrite lookup1, lookup2. destruct (lookup x z) as [[k' o']|]; cbn; [exact I|].
  repeat split. exists ((x, (k, o)) :: z). repeat split; auto.
Qed.
Lemma new_live h v z : Permutation (live_from 0 h) (pairs z) -> ~ In (@Uninit V) h ->
  write_cell (List.length h) v (h ++ [Uninit]) = Some (h ++ [Live v]) /\
  Permutation (live_from 0 (h ++ [Live v])) ([(List.length h, v)] ++ pairs z) /\ ~ In Uninit (h ++ [Live v]).
Proof.
  intros P U. split; [|split].
  - unfold write_cell. rewrite nth_error_app2, Nat.sub_diag by lia. cbn. now rewrite set_app.
  - rewrite live_app. cbn. etransitivity; [apply Permutation_app_comm|]. cbn. now constructor.
  - intros I. apply in_app_or in I. destruct I as [I|[I|[]]]; [auto|discriminate].
Qed.

Lemma step_related o st z s : inv st z s -> related (step veqb vcmp o st) (sstep veqb vcmp o s).
Proof.
  destruct st as [h e]. intros (E & -> & P & U). cbn in E, P, U. subst e.
  assert (K : forall ob d, related (Ok (h, map zs1 z) ob d) (Ok (map zs2 z) ob d)).
  { intros ob d. repeat split. exists z. repeat split; auto. }
  assert (RD : forall x k w, lookup x z = Some (k, w) ->
    u_as_ref (option_map fst w) h = Some (option_map snd w)).
  { intros x k w L. destruct w as [[a v]|]; [|reflexivity]. unfold u_as_ref. cbn. unfold read_cell.
    now rewrite (owned_live _ _ _ _ _ _ P L). }
  assert (WR : forall x v ifn f, (forall w, f w = match w with None => Ok (h, map zs1 z) ifn [] | Some a => write_through a v h (map zs1 z) (Wrote true) end) ->
    related (with_var x KUnique (map zs1 z) f) (write x v (map zs2 z) ifn)).
  { intros x v ifn f F. assert (W : write x v (map zs2 z) ifn = match get_var x KUnique (map zs2 z) with
      | Some o => write x v (map zs2 z) ifn | None => Illegal end).
    { unfold write. now destruct (get_var x KUnique (map zs2 z)). }
    rewrite W. apply (with_related _ _ _ _ (fun _ => write x v (map zs2 z) ifn)). intros w L. rewrite F. destruct w as [[a old]|]; cbn [option_map].
    - eapply write_related; eauto.
    - unfold write. rewrite get_lookup, L. apply K. }
  destruct o; cbn [step sstep].
  - apply (add_related h z x KUnique None); auto.
  - destruct (new_live h v z P U) as (W & P' & U'). unfold u_new, t_new, cxx_uninit, new_storage. rewrite W.
    apply (add_related _ z x KUnique (Some (List.length h, v))); auto.
  - assert (X : (match get_var x KUnique (map zs2 z) with Some None => Ok (map zs2 z) (Bool true) [] | Some (Some _) => Ok (map zs2 z) (Bool false) [] | None => Illegal end) =
      match get_var x KUnique (map zs2 z) with Some o => Ok (map zs2 z) (Bool match o with None => true | _ => false end) [] | None => @Illegal V sstate end).
    { destruct (get_var _ _ _) as [[]|]; reflexivity. }
    eapply related_eq; [exact X|]. apply (with_related _ _ _ _ (fun o => Ok (map zs2 z) (Bool match o with None => true | _ => false end) [])).
    intros w L. destruct w as [[a v]|]; apply K.
  - apply (with_related _ _ _ _ (fun r => Ok (map zs2 z) (Ref r) [])). intros w L. rewrite (RD _ _ _ L). apply K.
  - apply WR. reflexivity.
  - assert (X : (match get_var x KUnique (map zs2 z) with Some (Some v) => Ok (map zs2 z) (Ref (Some v)) [] | Some None => Ok (map zs2 z) Panic [] | None => Illegal end) =
      match get_var x KUnique (map zs2 z) with Some o => Ok (map zs2 z) (match o with None => Panic | Some v => Ref (Some v) end) [] | None => @Illegal V sstate end).
    { destruct (get_var _ _ _) as [[]|]; reflexivity. }
    eapply related_eq; [exact X|]. apply (with_related _ _ _ _ (fun o => Ok (map zs2 z) (match o with None => Panic | Some v => Ref (Some v) end) [])).
    intros w L. rewrite (RD _ _ _ L). destruct w as [[a v]|]; apply K.
  - apply WR. reflexivity.
  - apply WR. reflexivity.
  - apply (with_related _ _ _ _ (fun r => Ok (map zs2 z) (Ref r) [])). intros w L. rewrite (RD _ _ _ L). apply K.
  - apply (with_related _ _ _ _ (fun a => match get_var y KUnique (map zs2 z) with Some b => Ok (map zs2 z) (Bool match a, b with None, None => true | Some v, Some w => veqb v w | _, _ => false end) [] | None => Illegal end)).
    intros w L. apply (with_related _ _ _ _ (fun b => Ok (map zs2 z) (Bool match option_map snd w, b with None, None => true | Some v, Some w => veqb v w | _, _ => false end) [])).
    intros w' L'. rewrite (RD _ _ _ L), (RD _ _ _ L'). apply K.
  - apply (with_related _ _ _ _ (fun a => match get_var y KUnique (map zs2 z) with Some b => Ok (map zs2 z) (Order match a, b with None, None => Datatypes.Eq | None, _ => Lt | _, None => Gt | Some v, Some w => vcmp v w end) [] | None => Illegal end)).
    intros w L. apply (with_related _ _ _ _ (fun b => Ok (map zs2 z) (Order match option_map snd w, b with None, None => Datatypes.Eq | None, _ => Lt | _, None => Gt | Some v, Some w => vcmp v w end) [])).
    intros w' L'. rewrite (RD _ _ _ L), (RD _ _ _ L').
    destruct w as [[a v]|], w' as [[a' v']|]; apply K.
  - apply pass_related; auto.
  - apply pass_related; auto.
  - apply (with_related _ _ _ _ (fun o => add y KUnique o (remove x (map zs2 z)))). intros w L. rewrite remove1, remove2.
    apply add_related; auto. etransitivity; [exact P|]. apply (pairs_remove _ _ _ _ L).
  - apply drop_related; auto.
  - apply pass_related; auto.
  - apply pass_related; auto.
  - destruct (new_live h v z P U) as (W & P' & U'). unfold new_storage. rewrite W.
    apply (add_related _ z x KCxx (Some (List.length h, v))); auto.
  - apply drop_related; auto.
Qed.

Lemma run_related ops : forall st z s, inv st z s ->
  related (fst (run veqb vcmp ops st)) (fst (srun veqb vcmp ops s)) /\
  snd (run veqb vcmp ops st) = snd (srun veqb vcmp ops s).
Proof.
  induction ops as [|o ops IH]; intros st z s I; cbn [run srun].
  - cbn. split; [|reflexivity]. repeat split. eauto.
  - pose proof (step_related o st z s I) as R.
    destruct (step veqb vcmp o st) as [| |st' ob d]; destruct (sstep veqb vcmp o s) as [| |s' ob' d']; cbn in R; try tauto.
    destruct R as (-> & -> & z' & I'). specialize (IH st' z' s' I'). destruct IH as [A B].
    destruct (run veqb vcmp ops st') as [r t], (srun veqb vcmp ops s') as [r' t']. cbn in *. split; [exact A|]. now rewrite B.
Qed.

Lemma live_values h : map snd (live_from 0 h) = flat_map (fun c => match c with Live v => [v] | _ => [] end) h.
Proof.
  generalize 0. induction h as [|c h IH]; intros n; [reflexivity|]. destruct c; cbn; auto. now rewrite IH.
Qed.
Lemma pairs_held z : map snd (pairs z) = held (map zs2 z).
Proof. induction z as [|[x [k [[a v]|]]] z IH]; cbn; [reflexivity|apply f_equal; exact IH|exact IH]. Qed.

(** * Conservation *)
Lemma held_remove x k (e : sstate) o : get_var x k e = Some o -> Permutation (@held V e) (drop_of o ++ held (remove x e)).
Proof.
  unfold get_var. intros G. assert (L : exists k', lookup x e = Some (k', o)).
  { destruct (lookup x e) as [[[] w]|]; destruct k; inversion G; eauto. }
  destruct L as [k' L]. clear G. revert L. induction e as [|[y [k2 o2]] e IH]; cbn; [discriminate|].
  destruct (Nat.eqb x y).
  - intros E. inversion E; subst. reflexivity.
  - intros E. cbn. rewrite (IH E). rewrite !app_assoc. apply Permutation_app_tail, Permutation_app_comm.
Qed.
Lemma held_put x k (e : sstate) old v : get_var x k e = Some (Some old) -> Permutation (@held V (put x v e)) (v :: held (remove x e)).
Proof.
  unfold get_var. intros G. assert (L : exists k', lookup x e = Some (k', Some old)).
  { destruct (lookup x e) as [[[] w]|]; destruct k; inversion G; eauto. }
  destruct L as [k' L]. clear G. revert L. induction e as [|[y [k2 o2]] e IH]; cbn; [discriminate|].
  destruct (Nat.eqb x y).
  - intros E. inversion E; subst. reflexivity.
  - intros E. cbn. rewrite (IH E). symmetry. apply Permutation_middle.
Qed.
End Sim.
