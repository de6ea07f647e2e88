(** C99: smart pointers compare, hash, print, read and write as what they point to.  Specification: Handle_Spec.v. *)
From Verif Require Import Base Handle_Model Handle_Spec.

Section Pointers.
  Context {A T H F : Type} (heap : A -> T) (write_isize : Z -> H -> H) (write_str : string -> F -> option F) (tr : traits T H F).
  Notation P := (ptr_traits heap write_isize write_str tr).
  Lemma provided c : (provided_lt c = true <-> c = Some Lt) /\ (provided_gt c = true <-> c = Some Gt) /\
    (provided_le c = true <-> c = Some Lt \/ c = Some Eq) /\ (provided_ge c = true <-> c = Some Gt \/ c = Some Eq).
  Proof. destruct c as [[]|]; cbn; intuition (congruence || discriminate). Qed.
  Lemma partial : partial_laws tr -> partial_laws P.
  Proof.
    intros L. destruct L as [Sy Tr Ne Eq_ Lt_ Gt_ Le_ Ge_ Du LT].
    assert (E : forall p q, ptr_partial_cmp heap tr p q = Some Eq <-> ptr_eq heap tr p q = true).
    { intros [a|] [b|]; unfold ptr_partial_cmp, ptr_eq; cbn; try (split; congruence). apply Eq_. }
    constructor; cbn [tr_eq tr_ne tr_partial_cmp tr_lt tr_le tr_gt tr_ge ptr_traits].
    - intros [a|] [b|]; unfold ptr_eq; cbn; try congruence. apply Sy.
    - intros [a|] [b|] [c|]; unfold ptr_eq; cbn; try congruence. apply Tr.
    - reflexivity.
    - exact E.
    - intros p q. apply (provided (ptr_partial_cmp heap tr p q)).
    - intros p q. apply (provided (ptr_partial_cmp heap tr p q)).
    - intros p q. pose proof (provided (ptr_partial_cmp heap tr p q)) as (A1 & A2 & A3 & A4). rewrite A1, A3, E. tauto.
    - intros p q. pose proof (provided (ptr_partial_cmp heap tr p q)) as (A1 & A2 & A3 & A4). rewrite A2, A4, E. tauto.
    - intros p q. rewrite (proj1 (provided _)), (proj1 (proj2 (provided _))). destruct p as [a|], q as [b|]; unfold ptr_partial_cmp; cbn; try (split; congruence).
      rewrite <- Lt_, <- Gt_. apply Du.
    - intros p q r. rewrite !(proj1 (provided _)). destruct p as [a|], q as [b|], r as [c|]; unfold ptr_partial_cmp; cbn; try congruence. rewrite <- !Lt_. apply LT.
  Qed.
End Pointers.

(** The laws of comparison hold for pointers whenever they hold for what they point to. *)
Theorem C99_laws : forall A T H F (heap : A -> T) write_isize write_str (tr : traits T H F),
  let P := ptr_traits heap write_isize write_str tr in
  (partial_laws tr -> partial_laws P) /\ (total_laws tr -> total_laws P) /\ (hash_law tr -> hash_law P).
Proof.
  intros A T H F heap wi ws tr P. split; [exact (partial heap wi ws tr)|]. split.
  - intros [L R C]. constructor; [exact (partial heap wi ws tr L)|..]; cbn [tr_eq tr_partial_cmp tr_cmp ptr_traits P].
    + intros [a|]; unfold ptr_eq; cbn; [apply R|reflexivity].
    + intros [a|] [b|]; unfold ptr_partial_cmp, ptr_cmp; cbn; try reflexivity. apply C.
  - intros L [a|] [b|] h; cbn; unfold ptr_eq, ptr_hash; cbn; intros E; try discriminate; [apply L, E|reflexivity].
Qed.
Print Assumptions C99_laws.

(** On pointers that are not null, every operator gives what it gives on the targets. *)
Theorem C99_targets : forall A T H F (heap : A -> T) write_isize write_str (tr : traits T H F) (a b : A), partial_laws tr ->
  let P := ptr_traits heap write_isize write_str tr in
  tr_eq P (Some a) (Some b) = tr_eq tr (heap a) (heap b) /\ tr_ne P (Some a) (Some b) = tr_ne tr (heap a) (heap b) /\
  tr_lt P (Some a) (Some b) = tr_lt tr (heap a) (heap b) /\ tr_le P (Some a) (Some b) = tr_le tr (heap a) (heap b) /\
  tr_gt P (Some a) (Some b) = tr_gt tr (heap a) (heap b) /\ tr_ge P (Some a) (Some b) = tr_ge tr (heap a) (heap b) /\
  tr_partial_cmp P (Some a) (Some b) = tr_partial_cmp tr (heap a) (heap b) /\ tr_cmp P (Some a) (Some b) = tr_cmp tr (heap a) (heap b) /\
  (forall f, tr_debug P (Some a) f = tr_debug tr (heap a) f) /\ (forall f, tr_display P (Some a) f = tr_display tr (heap a) f) /\
  deref heap (Some a) = Ok (heap a).
Proof.
  intros A T H F heap wi ws tr a b L P. assert (B : forall x y : bool, (x = true <-> y = true) -> x = y) by (intros [] []; intuition congruence).
  pose proof (partial heap wi ws tr L) as LP. fold P in LP.
  assert (E : tr_eq P (Some a) (Some b) = tr_eq tr (heap a) (heap b)) by reflexivity. assert (C : tr_partial_cmp P (Some a) (Some b) = tr_partial_cmp tr (heap a) (heap b)) by reflexivity.
  assert (Lt_ : tr_lt P (Some a) (Some b) = tr_lt tr (heap a) (heap b)) by (apply B; rewrite (pa_lt _ LP), (pa_lt _ L), C; reflexivity).
  assert (Gt_ : tr_gt P (Some a) (Some b) = tr_gt tr (heap a) (heap b)) by (apply B; rewrite (pa_gt _ LP), (pa_gt _ L), C; reflexivity).
  split; [exact E|]. split; [rewrite (pa_ne _ LP), (pa_ne _ L), E; reflexivity|]. split; [exact Lt_|]. split; [apply B; rewrite (pa_le _ LP), (pa_le _ L), E, Lt_; reflexivity|].
  split; [exact Gt_|]. split; [apply B; rewrite (pa_ge _ LP), (pa_ge _ L), E, Gt_; reflexivity|]. repeat split; reflexivity.
Qed.
Print Assumptions C99_targets.

(** A null pointer equals null pointers only, is less than all others, is hashed unlike them, and prints as such; to
    follow it is a panic. *)
Theorem C99_null : forall A T H F (heap : A -> T) write_isize write_str (tr : traits T H F) (q : ptr),
  let P := ptr_traits heap write_isize write_str tr in
  (tr_eq P None q = true <-> q = None) /\ (tr_eq P q None = true <-> q = None) /\
  (q <> None -> tr_lt P None q = true /\ tr_gt P q None = true /\ tr_cmp P None q = Lt /\ tr_cmp P q None = Gt) /\
  (forall f, tr_debug P None f = write_str "nullptr"%string f /\ tr_display P None f = write_str "nullptr"%string f) /\
  (forall h, exists k, tr_hash P None h = write_isize 0%Z h /\ (q <> None -> tr_hash P q h = k (write_isize 1%Z h))) /\
  exists m, deref heap None = Panic m.
Proof.
  intros A T H F heap wi ws tr q P. split; [destruct q; cbn; split; congruence|]. split; [destruct q; cbn; split; congruence|].
  split; [destruct q; cbn; [auto|congruence]|]. split; [auto|]. split; [|eexists; reflexivity].
  intros h. exists (match q with Some a => tr_hash tr (heap a) | None => fun h => h end). split; [reflexivity|]. destruct q; cbn; [reflexivity|congruence].
Qed.
Print Assumptions C99_null.

(** * Reading, writing, seeking *)
Definition vectored (c : call) : Prop := exists lens, c = ReadVectored lens.
(** Whatever a program does to an object with Read, Seek and Write through a UniquePtr has the effects and the answers that
    it has on the object itself, as long as it does not call read_vectored; … *)
Theorem C99_io_partial : forall S (target : @io S) p s, without vectored p ->
  through target p (Some s) = Ok (Some (fst (direct target p s)), snd (direct target p s)).
Proof.
  intros S target p s W. revert s. induction W as [|c k N W IH]; intros s; [reflexivity|]. cbn [through direct].
  assert (E : ptr_io target c (Some s) = Ok (Some (fst (target c s)), snd (target c s))).
  { destruct c; try (cbn; destruct (target _ s); reflexivity). elim N. eexists. reflexivity. }
  rewrite E. cbn [bind fst snd]. destruct (target c s) as [s1 a]. cbn [fst snd]. rewrite (IH a s1). cbn [bind fst snd]. destruct (direct target (k a) s1). reflexivity.
Qed.
Print Assumptions C99_io_partial.
(** … or if the object has the read_vectored that the standard library provides. *)
Theorem C99_io_provided_partial : forall S (target : @io S) p s, (forall lens s, target (ReadVectored lens) s = default_read_vectored (fun n => target (Read n)) lens s) ->
  through target p (Some s) = Ok (Some (fst (direct target p s)), snd (direct target p s)).
Proof.
  intros S target p s D. revert s. induction p as [|c k IH]; intros s; [reflexivity|]. cbn [through direct].
  assert (E : ptr_io target c (Some s) = Ok (Some (fst (target c s)), snd (target c s))).
  { destruct c as [| lens | | | | | | | | | | | |]; try (cbn; destruct (target _ s); reflexivity). rewrite D. unfold ptr_io, default_read_vectored. destruct (first_buffer lens) as [i n]. cbn [bind pin_mut]. destruct (target (Read n) s). reflexivity. }
  rewrite E. cbn [bind fst snd]. destruct (target c s) as [s1 a]. cbn [fst snd]. rewrite (IH a s1). cbn [bind fst snd]. destruct (direct target (k a) s1). reflexivity.
Qed.
Print Assumptions C99_io_provided_partial.
(** On a null pointer every call panics. *)
Theorem C99_io_null : forall S (target : @io S) c k, exists m, through target (Do c k) None = Panic m.
Proof. intros S target c k. cbn [through]. destruct c; try (eexists; reflexivity). unfold ptr_io. destruct (first_buffer lens). eexists. reflexivity. Qed.
Print Assumptions C99_io_null.

(** * An object: the text that is left to be read *)
Definition take_each (lens : list nat) (s : list ascii) : list ascii * list (list ascii) :=
  fold_left (fun r n => (skipn n (fst r), snd r ++ [firstn n (fst r)])) lens (s, []).
Definition text : @io (list ascii) := fun c s =>
  match c with
  | Read n => (skipn n s, Bytes [firstn n s])
  | ReadVectored lens => let (s, l) := take_each lens s in (s, Bytes l)
  | ReadToEnd | ReadToString => ([], Bytes [s])
  | ReadExact n => if Nat.leb n (List.length s) then (skipn n s, Bytes [firstn n s]) else ([], Error "failed to fill whole buffer")
  | Write buf | WriteAll buf => (s ++ buf, Count (N.of_nat (List.length buf)))
  | StreamPosition => (s, Count 0)
  | _ => (s, Done)
  end.
(** Such an object fills all buffers that it is given at once; through the pointer only the first is filled. *)
Theorem C99_read_vectored_refuted : exists (S : Type) (target : @io S) p s, through target p (Some s) <> Ok (Some (fst (direct target p s)), snd (direct target p s)).
Proof.
  exists (list ascii), text, (Do (ReadVectored [1; 1]) (fun _ => Stop)), ["a"; "b"]%char. vm_compute. discriminate.
Qed.
Print Assumptions C99_read_vectored_refuted.

Example C99_io_nonvacuous : let p := Do (Read 2) (fun a => match a with Bytes [["a"; "b"]]%char => Do (Write ["z"%char]) (fun _ => Do ReadToEnd (fun _ => Stop)) | _ => Stop end) in
  without vectored p /\ through text p (Some ["a"; "b"; "c"]%char) = Ok (Some [], [Bytes [["a"; "b"]]; Count 1; Bytes [["c"; "z"]]]%char).
Proof.
  cbv zeta. split; [|reflexivity]. assert (N : forall c, match c with ReadVectored _ => False | _ => True end -> ~ vectored c) by (intros c Hc (l & ->); exact Hc).
  constructor; [apply N; exact I|]. intros a. repeat match goal with |- without _ (match ?x with _ => _ end) => destruct x; try constructor end. 
  all: try (apply N; exact I). all: intros; constructor; [apply N; exact I|constructor].
Qed.
(** Numbers meet the laws, and so do pointers to them. *)
Definition numbers : traits Z (list Z) string :=
  Traits Z.eqb (fun a b => negb (Z.eqb a b)) (fun a b => Some (Z.compare a b)) Z.ltb Z.leb Z.gtb Z.geb Z.compare (fun z h => h ++ [z]) (fun _ f => Some f) (fun _ f => Some f).
Example C99_nonvacuous : total_laws numbers /\ hash_law numbers /\
  let P := ptr_traits (fun a : nat => Z.of_nat a) (fun z h => h ++ [z]) (fun s f => Some (f ++ s)%string) numbers in
  tr_lt P None (Some 3) = true /\ tr_lt P (Some 3) (Some 4) = true /\ tr_hash P (Some 3) [] = [1; 3]%Z /\ tr_debug P None "p = "%string = Some "p = nullptr"%string.
Proof.
  split; [|split; [|repeat split]].
  - constructor; [constructor|..]; cbn; intros; rewrite ?Z.eqb_eq, ?Z.ltb_lt, ?Z.leb_le, ?Z.gtb_lt, ?Z.geb_le in *; try (lia || congruence || reflexivity); try apply Z.eqb_refl.
    + destruct (Z.compare_spec a b); split; intros; (congruence || lia).
    + destruct (Z.compare_spec a b); split; intros; (congruence || lia).
    + destruct (Z.compare_spec a b); split; intros; (congruence || lia).
  - intros a b h E. cbn in E. apply Z.eqb_eq in E. subst. reflexivity.
Qed.
