(** Writing files and links from build scripts: with failures, crashes and other processes. *)
From Verif Require Import Base Paths_Model Fs_Model Fs_Spec Fs_Proofs Fs_Proofs2 Fs_Proofs3.
From Coq Require Import Lia.

(** * An executor, for the examples *)
Definition chars (s : string) : list ascii := list_ascii_of_string s.
(** each element: the system call succeeds and a write takes all its bytes, or it fails *)
Fixpoint exec {A} (c : fs * prog A) (oks : list bool) : fs * prog A :=
  match oks, c with
  | ok :: oks, (s, Call o k) => exec (if ok then (let r := sys 1000 s o in (fst r, k (snd r))) else (s, k (RErr EIO))) oks
  | _, _ => c
  end.
Lemma exec_steps {A} oks : forall c : fs * prog A, steps true c (exec c oks).
Proof.
  induction oks as [|ok oks IH]; intros [s m]; [constructor|]. destruct m as [a|o k]; [constructor|]. cbn [exec]. eapply ss_step; [|apply IH].
  destruct ok; [|apply s_fault; [reflexivity|constructor]]. destruct (sys 1000 s o) as [s' r] eqn:E. cbn. eapply s_call. exact E.
Qed.
Lemma exec_steps_ok {A} n : forall c : fs * prog A, steps false c (exec c (repeat true n)).
Proof.
  induction n as [|n IH]; intros [s m]; [constructor|]. destruct m as [a|o k]; [constructor|]. cbn [repeat exec]. eapply ss_step; [|apply IH].
  destruct (sys 1000 s o) as [s' r] eqn:E. cbn. eapply s_call. exact E.
Qed.
Definition at_process {A} (c : fs * list (prog A)) (i : nat) : fs * list (prog A) :=
  match nth_error (snd c) i with
  | Some (Call o k) => let r := sys 1000 (fst c) o in (fst r, firstn i (snd c) ++ k (snd r) :: skipn (S i) (snd c))
  | _ => c
  end.
Fixpoint exec_all {A} (c : fs * list (prog A)) (l : list nat) : fs * list (prog A) :=
  match l with [] => c | i :: l => exec_all (at_process c i) l end.
Lemma split_at {A} (l : list A) i y : nth_error l i = Some y -> l = firstn i l ++ y :: skipn (S i) l.
Proof. revert i. induction l as [|z l IH]; intros [|i] E; cbn in *; try discriminate; [congruence|]. f_equal. apply IH, E. Qed.
Lemma exec_schedule {A} l : forall c : fs * list (prog A), schedule c (exec_all c l).
Proof.
  induction l as [|i l IH]; intros c; [constructor|]. cbn [exec_all]. specialize (IH (at_process c i)). unfold at_process in *.
  destruct (nth_error (snd c) i) as [[a|o k]|] eqn:E; try exact IH. destruct c as [s ps]. cbn [fst snd] in *. rewrite (split_at ps i _ E) at 1.
  eapply sc_step; [|exact IH]. destruct (sys 1000 s o) as [s' r] eqn:Es. cbn. eapply s_call. exact Es.
Qed.
Definition listing (l : list (name * node)) (d : list (list ascii)) : fs :=
  Fs (fun q => match q with [] => Some Dir | _ => match find (fun e => name_eqb (fst e) q) l with Some (_, n) => Some n | None => None end end)
     (fun i => nth i d []) (List.length d).
Lemma listing_wf l d : forallb (fun e => match fst e with [] => false | _ => match tree (listing l d) (removelast (fst e)) with Some Dir => true | _ => false end && match snd e with File i => i <? List.length d | _ => true end end)%nat l = true -> wf (listing l d).
Proof.
  intros H. rewrite forallb_forall in H.
  assert (F : forall q n, tree (listing l d) q = Some n -> q = [] /\ n = Dir \/ In (q, n) l).
  { intros q n E. cbn in E. destruct q as [|y q]; [left; split; congruence|]. right. destruct (find _ l) as [[q' n']|] eqn:Ef; [|discriminate]. injection E as ->.
    apply find_some in Ef as [Hin Eq]. cbn in Eq. destruct (name_eqb_spec q' (y :: q)) as [->|]; [exact Hin|discriminate]. }
  split; [reflexivity| |].
  - intros q y n E. destruct (F _ _ E) as [[E2 _]|Hin]; [destruct q; discriminate|]. specialize (H _ Hin). cbn [fst snd] in H. destruct (q ++ [y]) eqn:Eq; [discriminate|]. rewrite <- Eq, removelast_last in H.
    apply andb_true_iff in H as [H _]. destruct (tree (listing l d) q) as [[| |]|]; congruence.
  - intros q i E. destruct (F _ _ E) as [[_ E2]|Hin]; [discriminate|]. specialize (H _ Hin). cbn [fst snd] in H. destruct q; [discriminate|]. apply andb_true_iff in H as [_ H]. apply Nat.ltb_lt in H. exact H.
Qed.
Fixpoint prefixes_real (s : fs) (cur rest : name) : bool :=
  match rest with [] => true | y :: rest => match tree s cur with None | Some Dir => prefixes_real s (cur ++ [y]) rest | _ => false end end.
Lemma prefixes_ok s rest : forall cur, prefixes_real s cur rest = true -> forall q y r, cur ++ rest = (cur ++ q) ++ y :: r -> tree s (cur ++ q) = None \/ tree s (cur ++ q) = Some Dir.
Proof.
  induction rest as [|z rest IH]; intros cur H q y r E.
  - exfalso. rewrite app_nil_r, <- app_assoc in E. rewrite <- (app_nil_r cur) in E at 1. apply app_inv_head in E. destruct q; discriminate.
  - cbn in H. rewrite <- app_assoc in E. apply app_inv_head in E. destruct q as [|w q].
    + rewrite app_nil_r. destruct (tree s cur) as [[| |]|]; auto; discriminate.
    + cbn in E. injection E as <- E. destruct (tree s cur) as [[| |]|]; try discriminate; (specialize (IH _ H q y r); rewrite <- !app_assoc in IH; cbn in IH; apply IH; rewrite E; reflexivity).
Qed.
Lemma listing_parents s p : prefixes_real s [] p = true -> real_parents s p.
Proof. intros H q y r E. apply (prefixes_ok s p [] H q y r). cbn. exact E. Qed.

(** * C82: one process *)
(** Whatever goes wrong along the way, Ok means that the file can be read and has the content. *)
Theorem C82_content : forall p content s s' o, steps true (s, out_write p content) (s', Ret o) -> o = None -> reading_gives s' p content.
Proof. intros p c s s' o R Eo. pose proof (seq_sound true (fun _ => True) _ _ s (out_write_ok p c s) s' (Ret o) R) as [_ H]. exact (H Eo). Qed.
Print Assumptions C82_content.

(** Without failures: at every moment, and so at every crash, all that differs is at the path itself (or below
    it), new directories above it, and new files; in the end it is Ok. *)
Theorem C82_run : forall d x content s s' m, wf s -> real_parents s (d ++ [x]) -> steps false (s, out_write (absolute (d ++ [x])) content) (s', m) ->
  only_touches (d ++ [x]) s s' /\ forall o, m = Ret o -> o = None /\ reading_gives s' (absolute (d ++ [x])) content.
Proof.
  intros d x c s s' m W R St. pose proof (seq_sound false _ _ _ s (out_write_frame d x s c W R) s' m St) as H.
  split; [exact (proj2 (proj2 (seq_phi _ _ _ _ _ H)))|]. intros o ->. destruct H as [(W' & _) (-> & H)]. split; [reflexivity|].
  destruct H as [[-> H]|H]; [exact H|]. apply contains_reading; [exact W'| |exact H]. destruct H as (i & T & _). eapply wf_parent; [exact W'|exact T].
Qed.
Print Assumptions C82_run.

(** A file that is as it should be is left alone, at every moment. *)
Theorem C82_unchanged : forall d x content s s' m, wf s -> real_parents s (d ++ [x]) -> reading_gives s (absolute (d ++ [x])) content ->
  steps false (s, out_write (absolute (d ++ [x])) content) (s', m) -> s' = s.
Proof.
  intros d x c s s' m W R Rd St.
  assert (H : seq false (fun s' => s' = s) (fun _ _ => True) (out_write (absolute (d ++ [x])) c) s).
  { unfold out_write, fs_exists, fs_read. cbn [bind]. split; [reflexivity|]. split; [|discriminate]. intros n s1 r E.
    pose proof (lstat_false d x s W R) as Ls. change (sys 0 s (Lstat (absolute (d ++ [x])))) with (sys n s (Lstat (absolute (d ++ [x])))) in Ls. rewrite Ls in E. injection E as <- <-.
    destruct (tree s (d ++ [x])) as [nd|] eqn:N.
    - split; [reflexivity|]. split; [|discriminate]. intros n2 s2 r2 E2. rewrite (Rd n2) in E2. injection E2 as <- <-.
      destruct (bytes_eqb_spec c c) as [_|Nc]; [|congruence]. split; [reflexivity|exact Logic.I].
    - exfalso. specialize (Rd 0%nat). cbn [sys] in Rd. destruct (parent_or s d x R) as [D|D].
      + rewrite resolve_missing in Rd by assumption. discriminate.
      + rewrite resolve_in in Rd; [rewrite N in Rd; discriminate|exact W|exact D|congruence]. }
  exact (seq_phi _ _ _ _ _ (seq_sound false _ _ _ s H s' m St)).
Qed.
Print Assumptions C82_unchanged.

(** After a crash or a failure, wherever it happened and whichever of the three operations it was, running again succeeds. *)
Theorem C82_recovers : forall d x content s s1 (m m1 : prog outcome) s2 o, wf s -> real_parents s (d ++ [x]) ->
  (exists content0, m = out_write (absolute (d ++ [x])) content0) \/ (exists t, m = absolute_symlink_file t (absolute (d ++ [x]))) \/ (exists env t, m = relative_symlink_file env t (absolute (d ++ [x]))) ->
  steps true (s, m) (s1, m1) ->
  steps false (s1, out_write (absolute (d ++ [x])) content) (s2, Ret o) -> o = None /\ reading_gives s2 (absolute (d ++ [x])) content.
Proof.
  intros d x c s s1 m m1 s2 o W R Hm R1 R2.
  assert (I : issues (above_or_at (d ++ [x])) m).
  { destruct Hm as [(c0 & ->)|[(t & ->)|(env & t & ->)]]; [apply out_write_issues|apply absolute_issues|apply relative_issues]. }
  destruct (issues_steps true _ (sound (d ++ [x])) (sound_kept d x) s m s1 m1 I (conj W R) R1) as [W1 R1'].
  exact (proj2 (C82_run d x c s1 s2 (Ret o) W1 R1' R2) o eq_refl).
Qed.
Print Assumptions C82_recovers.

(** A link is made to what was asked for; or, if it is made relative, to a path that leads from the directory of
    the link to the same place.  Nothing else is touched. *)
Theorem C82_link : forall d x t s s' m, wf s -> real_parents s (d ++ [x]) -> steps false (s, absolute_symlink_file t (absolute (d ++ [x]))) (s', m) ->
  only_touches (d ++ [x]) s s' /\ forall o, m = Ret o -> o = None /\ tree s' (d ++ [x]) = Some (Link t).
Proof.
  intros d x t s s' m W R St. pose proof (seq_sound false _ _ _ s (absolute_frame d x s t W R) s' m St) as H.
  split; [exact (proj2 (proj2 (seq_phi _ _ _ _ _ H)))|]. intros o ->. exact (proj2 H).
Qed.
Print Assumptions C82_link.
Theorem C82_link_relative : forall env d x t s s' m, wf s -> real_parents s (d ++ [x]) -> steps false (s, relative_symlink_file env t (absolute (d ++ [x]))) (s', m) ->
  only_touches (d ++ [x]) s s' /\ forall o, m = Ret o -> o = None /\ exists t', tree s' (d ++ [x]) = Some (Link t') /\
    (t' = t \/ exists s1 q, only_touches (d ++ [x]) s1 s' /\ tree s1 (d ++ [x]) = None /\ resolve s1 true t = At q /\ resolve s1 true (join (absolute d) t') = At q).
Proof.
  intros env d x t s s' m W R St. pose proof (seq_sound false _ _ _ s (relative_frame d x s env t W R) s' m St) as H.
  split; [exact (proj2 (proj2 (seq_phi _ _ _ _ _ H)))|]. intros o ->. destruct H as [_ (-> & t' & s1 & T & E & N & L)]. split; [reflexivity|]. exists t'. split; [exact T|].
  destruct L as [L|(q & L1 & L2)]; [left; exact L|]. right. exists s1, q. split; [|auto]. subst s'. split; [|split; [auto|cbn; lia]].
  intros a Pa. left. apply set_other. intros ->. rewrite is_prefix_refl in Pa. discriminate.
Qed.
Print Assumptions C82_link_relative.

(** Every run comes to an end. *)
Theorem C82_ends : forall (m : prog outcome) s, Acc (fun b a => step true a b) (s, m) /\ exists s' o, steps false (s, m) (s', Ret o).
Proof.
  induction m as [a|o k IH]; intros s; split.
  - constructor. intros [s' m'] St. inversion St.
  - exists s, a. constructor.
  - constructor. intros [s' m'] St. inversion St; subst; apply IH.
  - destruct (sys 0 s o) as [s1 r] eqn:E. destruct (IH r s1) as [_ (s' & o' & R)]. exists s', o'. eapply ss_step; [eapply s_call; exact E|exact R].
Qed.
Print Assumptions C82_ends.

(** With failures, other files are not safe: where the removal of a link fails, the content is written through it. *)
Definition host : fs := listing [(["out"], Dir); (["out"; "x.h"], Link [RootDir; Normal "src"; Normal "mine.h"]); (["src"], Dir); (["src"; "mine.h"], File 0)] [chars "mine"].
Theorem C82_failures_refuted : exists d x content s s' o, wf s /\ real_parents s (d ++ [x]) /\ steps true (s, out_write (absolute (d ++ [x])) content) (s', Ret o) /\ ~ only_touches (d ++ [x]) s s'.
Proof.
  assert (St := exec_steps [true; true; true; false; true; true] (host, out_write (absolute ["out"; "x.h"]) (chars "generated"))).
  destruct (exec (host, out_write (absolute ["out"; "x.h"]) (chars "generated")) [true; true; true; false; true; true]) as [s' m] eqn:E.
  assert (Em : m = Ret None) by (vm_compute in E; injection E as _ <-; reflexivity). subst m.
  exists ["out"], "x.h", (chars "generated"), host, s', None.
  split; [apply listing_wf; reflexivity|]. split; [apply listing_parents; reflexivity|]. split; [exact St|].
  intros (_ & H & _). specialize (H 0%nat (Nat.lt_0_succ 0)).
  assert (D := f_equal (fun c => data (fst c) 0) E). cbn [fst] in D. rewrite <- D in H. vm_compute in H. discriminate.
Qed.
Print Assumptions C82_failures_refuted.

(** a stale file is replaced by a new one: the old inode keeps its content *)
Definition stale : fs := listing [(["out"], Dir); (["out"; "x.h"], File 0)] [chars "old"].
Example C82_nonvacuous :
  let p := ["out"; "x.h"] in let r := exec (stale, out_write (absolute p) (chars "new")) (repeat true 10) in
  wf stale /\ real_parents stale p /\ steps false (stale, out_write (absolute p) (chars "new")) r /\ (exists s', r = (s', Ret None)) /\
  data (fst r) 0 = chars "old" /\ tree (fst r) p = Some (File 1) /\ data (fst r) 1 = chars "new" /\
  let q := ["out"; "a"; "b"; "y.h"] in let r' := exec (stale, out_write (absolute q) (chars "new")) (repeat true 20) in
  (exists s', r' = (s', Ret None)) /\ tree (fst r') ["out"; "a"; "b"] = Some Dir /\ tree (fst r') q = Some (File 1).
Proof.
  intros p r. split; [apply listing_wf; reflexivity|]. split; [apply listing_parents; reflexivity|]. split; [apply exec_steps_ok|].
  split; [vm_compute; eexists; reflexivity|]. split; [vm_compute; reflexivity|]. split; [vm_compute; reflexivity|]. split; [vm_compute; reflexivity|].
  intros q r'. split; [vm_compute; eexists; reflexivity|]. split; vm_compute; reflexivity.
Qed.

(** * C83: several processes *)
(** Any number of processes write the same content to the same path, in any order of their system calls.
    At every moment nothing else is touched; when all have come to an end, all of them report Ok and the file is there. *)
Theorem C83_write : forall d x content s ps s' ps', wf s -> real_parents s (d ++ [x]) -> ps <> [] -> (forall m, In m ps -> m = out_write (absolute (d ++ [x])) content) ->
  schedule (s, ps) (s', ps') ->
  only_touches (d ++ [x]) s s' /\
  ((forall m, In m ps' -> exists o, m = Ret o) -> (forall m, In m ps' -> m = Ret None) /\ reading_gives s' (absolute (d ++ [x])) content).
Proof.
  intros d x c s ps s' ps' W R N H Sc. assert (I := inv_schedule d x s c s ps s' ps' (inv_start d x s c ps W R N H) Sc).
  split; [exact (proj2 (proj2 (proj1 (proj1 I))))|]. apply (inv_end d x s c); exact I.
Qed.
Print Assumptions C83_write.

(** The same for links: it is the link of one of them. *)
Theorem C83_link : forall d x (targets : path -> Prop) s ps s' ps', wf s -> real_parents s (d ++ [x]) -> ps <> [] ->
  (forall m, In m ps -> (exists t, targets t /\ m = absolute_symlink_file t (absolute (d ++ [x]))) \/
     exists env t, targets t /\ (forall r, abstractly_relativize_symlink env t (absolute (d ++ [x])) = Relative r -> targets r) /\ m = relative_symlink_file env t (absolute (d ++ [x]))) ->
  schedule (s, ps) (s', ps') ->
  only_touches (d ++ [x]) s s' /\
  ((forall m, In m ps' -> exists o, m = Ret o) -> (forall m, In m ps' -> m = Ret None) /\ exists t, targets t /\ tree s' (d ++ [x]) = Some (Link t)).
Proof.
  intros d x T s ps s' ps' W R N H Sc. assert (I := invl_schedule d x s T s ps s' ps' (invl_start d x s T ps W R N H) Sc).
  split; [exact (proj2 (proj2 (proj1 (proj1 I))))|]. apply (invl_end d x s T); exact I.
Qed.
Print Assumptions C83_link.

(** and they can all come to an end, from wherever they are *)
Theorem C83_ends : forall (ps : list (prog outcome)) s, exists s' ps', schedule (s, ps) (s', ps') /\ List.length ps' = List.length ps /\ forall m, In m ps' -> exists o, m = Ret o.
Proof.
  assert (L : forall (m : prog outcome) pre post s, exists s' o, schedule (s, pre ++ m :: post) (s', pre ++ Ret o :: post)).
  { induction m as [a|o k IH]; intros pre post s; [exists s, a; constructor|]. destruct (sys 0 s o) as [s1 r] eqn:E. destruct (IH r pre post s1) as (s' & o' & R). exists s', o'. eapply sc_step; [eapply s_call; exact E|exact R]. }
  assert (Tr : forall (a b c : fs * list (prog outcome)), schedule a b -> schedule b c -> schedule a c).
  { intros a b c R1 R2. induction R1 as [|s pre m post s' m' z S R IH]; [exact R2|]. eapply sc_step; [exact S|apply IH, R2]. }
  assert (H : forall (ps : list (prog outcome)) done s, exists s' ps', schedule (s, done ++ ps) (s', done ++ ps') /\ List.length ps' = List.length ps /\ forall m, In m ps' -> exists o, m = Ret o).
  { induction ps as [|m ps IH]; intros done s; [exists s, []; split; [constructor|]; split; [reflexivity|intros m []]|].
    destruct (L m done ps s) as (s1 & o & R1). destruct (IH (done ++ [Ret o]) s1) as (s' & ps' & R2 & Len & Hr). rewrite <- !app_assoc in R2. cbn in R2.
    exists s', (Ret o :: ps'). split; [eapply Tr; eassumption|]. split; [cbn; congruence|]. intros m' [<-|Hm]; [exists o; reflexivity|apply Hr, Hm]. }
  intros ps s. exact (H ps [] s).
Qed.
Print Assumptions C83_ends.

(** Ok is no promise while another process is still at it: the file may be gone again. *)
Theorem C83_stable_refuted : exists d x content s ps s' ps', wf s /\ real_parents s (d ++ [x]) /\ (forall m, In m ps -> m = out_write (absolute (d ++ [x])) content) /\
  schedule (s, ps) (s', ps') /\ In (Ret None) ps' /\ tree s' (d ++ [x]) = None.
Proof.
  pose (p := ["out"; "x.h"]). pose (m := out_write (absolute p) (chars "new")).
  (* the second has just seen the stale file when the first replaces it *)
  pose (l := [1; 1; 1; 0; 0; 0; 0; 0; 0; 1]%nat).
  assert (Sc := exec_schedule l (stale, [m; m])). destruct (exec_all (stale, [m; m]) l) as [s' ps'] eqn:E.
  exists ["out"], "x.h", (chars "new"), stale, [m; m], s', ps'.
  split; [apply listing_wf; reflexivity|]. split; [apply listing_parents; reflexivity|]. split; [intros m' [<-|[<-|[]]]; reflexivity|]. split; [exact Sc|]. split.
  - assert (D := f_equal snd E). cbn [snd] in D. rewrite <- D. vm_compute. left. reflexivity.
  - assert (D := f_equal (fun c => tree (fst c) p) E). cbn [fst] in D. change (tree s' p = None). rewrite <- D. vm_compute. reflexivity.
Qed.
Print Assumptions C83_stable_refuted.

(** One build script writes cxx.h into the shared directory and another puts a link to an existing cxx.h there
    (gen/build/src/lib.rs 380-392; whether DEP_CXXBRIDGE1_HEADER is set decides): the file outside may be overwritten. *)
Definition shared_dir : fs := listing [(["target"], Dir); (["cxx"], Dir); (["cxx"; "cxx.h"], File 0)] [chars "as published"].
Theorem C83_outside_refuted : exists d x content original s ps s' ps', wf s /\ real_parents s (d ++ [x]) /\
  (forall m, In m ps -> m = out_write (absolute (d ++ [x])) content \/ m = absolute_symlink_file original (absolute (d ++ [x]))) /\
  schedule (s, ps) (s', ps') /\ ~ only_touches (d ++ [x]) s s'.
Proof.
  pose (p := ["target"; "cxx.h"]). pose (original := absolute ["cxx"; "cxx.h"]).
  pose (m1 := out_write (absolute p) (chars "embedded")). pose (m2 := absolute_symlink_file original (absolute p)).
  (* the first finds nothing and makes the directory; the second does all its work; the first opens the file *)
  pose (l := [0; 0; 0; 1; 1; 1; 1; 0; 0]%nat).
  assert (Sc := exec_schedule l (shared_dir, [m1; m2])). destruct (exec_all (shared_dir, [m1; m2]) l) as [s' ps'] eqn:E.
  exists ["target"], "cxx.h", (chars "embedded"), original, shared_dir, [m1; m2], s', ps'.
  split; [apply listing_wf; reflexivity|]. split; [apply listing_parents; reflexivity|]. split; [intros m [<-|[<-|[]]]; auto|]. split; [exact Sc|].
  intros (_ & H & _). specialize (H 0%nat (Nat.lt_0_succ 0)). assert (D := f_equal (fun c => data (fst c) 0) E). cbn [fst] in D. rewrite <- D in H. vm_compute in H. discriminate.
Qed.
Print Assumptions C83_outside_refuted.

(** two processes in lockstep, on a stale file *)
Example C83_nonvacuous :
  let p := ["out"; "x.h"] in let m := out_write (absolute p) (chars "new") in
  let r := exec_all (stale, [m; m]) [0; 1; 0; 1; 0; 1; 0; 1; 0; 1; 0; 1; 0; 1]%nat in
  wf stale /\ real_parents stale p /\ schedule (stale, [m; m]) r /\ (exists s', r = (s', [Ret None; Ret None])) /\ contains (fst r) p (chars "new").
Proof.
  intros p m r. split; [apply listing_wf; reflexivity|]. split; [apply listing_parents; reflexivity|]. split; [apply exec_schedule|]. split; [vm_compute; eexists; reflexivity|].
  eexists. split; vm_compute; reflexivity.
Qed.
