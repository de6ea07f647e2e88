(** Lemmas about the directory that the compiler is told to look in, where links cannot be made. *)
From Verif Require Import Base Copy_Model Copy_Spec Copy_Proofs.

Lemma sane_up s q c n : sane s -> get s (q ++ c) = Some n -> c <> [] -> q <> [] -> get s q = Some Dir.
Proof.
  intros Sa. revert n. induction c as [|x c IH] using rev_ind; intros n G N Q; [congruence|].
  rewrite app_assoc in G. destruct (Sa _ _ _ G) as [E|E].
  - apply app_eq_nil in E as [E _]. congruence.
  - destruct c as [|y c]; [rewrite app_nil_r in E; exact E|]. eapply IH; eauto. discriminate.
Qed.
Lemma after_refl a : after a a = Some [].
Proof. apply after_spec. rewrite app_nil_r. reflexivity. Qed.
Lemma after_up a b x : after a (b ++ [x]) = None -> after a b = None.
Proof. rewrite !after_none. intros H r E. eapply (H (r ++ [x])). rewrite E, app_assoc. reflexivity. Qed.
Lemma after_snoc a b x : after a b = None -> b ++ [x] <> a -> after a (b ++ [x]) = None.
Proof.
  rewrite !after_none. intros H N r E. destruct r as [|y r].
  - rewrite app_nil_r in E. congruence.
  - destruct (exists_last (l := y :: r) ltac:(discriminate)) as (r' & z & R). rewrite R, app_assoc in E.
    apply app_inj_tail in E as [E _]. eapply H; eauto.
Qed.
Lemma after_trans a b c : after (a ++ b) c = None \/ exists r, after a c = Some (b ++ r).
Proof.
  destruct (after (a ++ b) c) as [r|] eqn:E; auto. right. exists r. apply after_spec in E as ->.
  rewrite <- app_assoc. apply after_app.
Qed.

Section Make.
  Variable faults : nat -> nat.
  Variable order : name -> list string -> list string.
  Hypothesis fine : forall n, faults n = O.
  Hypothesis listed : lists order.
  Variables (s0 : fs) (out pre src : name) (tag : list ascii).
  Hypothesis sane0 : sane s0.
  Hypothesis out_some : out <> [].
  Hypothesis pre_some : pre <> [].
  Hypothesis pre_tag : forall r, pre <> "CACHEDIR.TAG" :: r.
  Hypothesis free : free_way s0 out (["cxxbridge"; "crate"] ++ pre).
  Let C := out ++ ["cxxbridge"; "crate"].
  Let L := C ++ pre.
  Hypothesis src_dir : get s0 src = Some Dir.
  Hypothesis src_out : after C src = None.

  (** [q] is a directory that was made on the way to [L] *)
  Definition fresh_way (q : name) : Prop := exists b, L = q ++ b /\ b <> [] /\ q <> [].

  Lemma way_free0 a b : L = a ++ b -> b <> [] -> a <> [] -> get s0 a = None \/ get s0 a = Some Dir.
  Proof.
    intros E B A. destruct free as [O W]. unfold L, C in E. rewrite <- app_assoc in E.
    destruct (prefix_cases _ _ _ _ E) as [(e & E1 & E2)|(e & E1 & E2)].
    - right. destruct e as [|x e]; [rewrite app_nil_r in E1; congruence|].
      eapply sane_up; [exact sane0|rewrite <- E1; exact O|discriminate|exact A].
    - rewrite E1. apply (W e b); auto.
  Qed.
  Lemma removelast_L a b : removelast L = a ++ b -> exists c, L = a ++ c /\ c <> [].
  Proof.
    intros E. assert (LN : L <> []) by (unfold L; intros F; apply app_eq_nil in F as [_ F]; congruence).
    exists (b ++ [last L ""]). split; [|destruct b; discriminate].
    rewrite app_assoc, <- E. apply app_removelast_last. exact LN.
  Qed.
  Lemma below_L_none r : get s0 L = None -> get s0 (L ++ r) = None.
  Proof.
    intros E. destruct r as [|x r]; [rewrite app_nil_r; exact E|].
    destruct (get s0 (L ++ x :: r)) as [n|] eqn:G; auto. exfalso.
    assert (LN : L <> []) by (unfold L; intros F; apply app_eq_nil in F as [_ F]; congruence).
    rewrite (sane_up s0 L (x :: r) n sane0 G ltac:(discriminate) LN) in E. discriminate.
  Qed.

  Record prepared (s1 : fs) : Prop :=
    { p_way : forall a b, L = a ++ b -> b <> [] -> a <> [] -> get s1 a = Some Dir;
      p_gone : forall r, get s1 (L ++ r) = None;
      p_rest : forall q, after L q = None -> get s1 q = get s0 q \/ get s0 q = None /\ fresh_way q }.

  Lemma prepare_ok c : prepared (files (prepare_parent faults (World s0 c) L)).
  Proof.
    unfold prepare_parent, there, fault. rewrite fine. cbn [files].
    assert (LN : L <> []) by (unfold L; intros F; apply app_eq_nil in F as [_ F]; congruence).
    destruct (get s0 L) as [n|] eqn:G.
    - unfold best_effort_remove, after_call, fault. cbn [files clock]. rewrite G, fine.
      assert (Up : forall a b, L = a ++ b -> b <> [] -> a <> [] -> get s0 a = Some Dir).
      { intros a b E B A. eapply sane_up; [exact sane0|rewrite <- E; exact G|exact B|exact A]. }
      destruct n as [bs| |l]; split; cbn.
      + intros a b E B A. rewrite get_del. replace (name_eqb L a) with false; [eapply Up; eauto|].
        symmetry. destruct (name_eqb L a) eqn:X; auto. apply name_eqb_spec in X as <-.
        rewrite <- (app_nil_r L) in E at 1. apply app_inv_head in E. congruence.
      + intros r. rewrite get_del. destruct (name_eqb L (L ++ r)) eqn:X; auto.
        destruct r as [|x r]; [rewrite app_nil_r, name_eqb_refl in X; discriminate|].
        destruct (get s0 (L ++ x :: r)) as [n|] eqn:G2; auto.
        rewrite (sane_up s0 L (x :: r) n sane0 G2 ltac:(discriminate) LN) in G. discriminate.
      + intros q Q. left. rewrite get_del. destruct (name_eqb L q) eqn:X; auto. apply name_eqb_spec in X as <-.
        rewrite after_refl in Q. discriminate.
      + intros a b E B A. rewrite get_del. replace (after L a) with (@None name); [eapply Up; eauto|].
        symmetry. apply after_none. intros r ->. rewrite <- app_assoc in E. rewrite <- (app_nil_r L) in E at 1.
        apply app_inv_head in E. symmetry in E. apply app_eq_nil in E as [_ E]. congruence.
      + intros r. rewrite get_del, after_app. reflexivity.
      + intros q Q. left. rewrite get_del, Q. reflexivity.
      + intros a b E B A. rewrite get_del. replace (name_eqb L a) with false; [eapply Up; eauto|].
        symmetry. destruct (name_eqb L a) eqn:X; auto. apply name_eqb_spec in X as <-.
        rewrite <- (app_nil_r L) in E at 1. apply app_inv_head in E. congruence.
      + intros r. rewrite get_del. destruct (name_eqb L (L ++ r)) eqn:X; auto.
        destruct r as [|x r]; [rewrite app_nil_r, name_eqb_refl in X; discriminate|].
        destruct (get s0 (L ++ x :: r)) as [n|] eqn:G2; auto.
        rewrite (sane_up s0 L (x :: r) n sane0 G2 ltac:(discriminate) LN) in G. discriminate.
      + intros q Q. left. rewrite get_del. destruct (name_eqb L q) eqn:X; auto. apply name_eqb_spec in X as <-.
        rewrite after_refl in Q. discriminate.
    - destruct (create_dir_all_ok faults fine (after_call (World s0 c) s0) (removelast L)) as (w' & E & D & K).
      { intros a b E A. apply removelast_L in E as (d & E & N). cbn. eapply way_free0; eauto. }
      cbn [files] in K. rewrite E. cbn [snd]. split.
      + intros a b E1 B A. apply (D a (removelast b)); [|exact A].
        rewrite E1. apply removelast_app. exact B.
      + intros r. destruct (K (L ++ r)) as [K1|(d & E1 & _)].
        * rewrite K1. apply below_L_none. exact G.
        * exfalso. apply removelast_L in E1 as (e & E1 & N). rewrite <- app_assoc in E1.
          rewrite <- (app_nil_r L) in E1 at 1. apply app_inv_head in E1. symmetry in E1. apply app_eq_nil in E1 as [_ E1]. congruence.
      + intros q Q. destruct (K q) as [K1|(d & E0 & Qn)]; [left; exact K1|].
        destruct (removelast_L _ _ E0) as (e & E1 & N).
        destruct (way_free0 _ _ E1 N Qn) as [F|F].
        * right. split; [exact F|]. exists e. auto.
        * left. rewrite F. exact (D q d E0 Qn).
  Qed.

  (** The tag *)
  Lemma tag_not_L : after (C ++ ["CACHEDIR.TAG"]) L = None.
  Proof.
    apply after_none. intros r E. unfold L in E. rewrite <- app_assoc in E. apply app_inv_head in E.
    cbn in E. eapply pre_tag; eauto.
  Qed.
  Lemma C_in_L : L = C ++ pre. Proof. reflexivity. Qed.
  Lemma C_some : C <> []. Proof. unfold C. intros E. apply app_eq_nil in E as [_ E]. discriminate. Qed.

  Lemma write_new s q b n : (get s q = None \/ exists b', get s q = Some (File b')) -> get s (removelast q) = Some Dir -> n = O ->
    write_file n s q b = put s q (File b).
  Proof.
    intros G D ->. unfold write_file. cbn [Nat.eqb]. destruct G as [G|[b' G]]; rewrite G; [rewrite D|]; reflexivity.
  Qed.

  Record with_tag (s1 s2 : fs) : Prop :=
    { t_there : get s2 (C ++ ["CACHEDIR.TAG"]) = Some (File tag);
      t_rest : forall q, after (C ++ ["CACHEDIR.TAG"]) q = None -> get s2 q = get s1 q }.

  Lemma bytes_eqb_eq a b : bytes_eqb a b = true -> a = b.
  Proof.
    revert b; induction a as [|x a IH]; destruct b as [|y b]; cbn; try discriminate; auto.
    rewrite andb_true_iff. intros [E F]. apply Ascii.eqb_eq in E as ->. rewrite (IH _ F). reflexivity.
  Qed.
  Lemma tag_ok w : prepared (files w) -> with_tag (files w) (files (out_write faults w (C ++ ["CACHEDIR.TAG"]) tag)).
  Proof.
    intros [PW PG PR]. set (T := C ++ ["CACHEDIR.TAG"]).
    assert (CD : get (files w) C = Some Dir) by (apply (PW C pre); auto using C_in_L, C_some).
    assert (RT : removelast T = C) by (unfold T; apply removelast_last).
    assert (NT : after T C = None).
    { apply after_none. intros r E. unfold T in E. rewrite <- app_assoc in E. rewrite <- (app_nil_r C) in E at 1.
      apply app_inv_head in E. discriminate. }
    assert (WR : forall s1, (forall q, after T q = None -> get s1 q = get (files w) q) ->
              (get s1 T = None \/ exists b', get s1 T = Some (File b')) -> with_tag (files w) (write_file O s1 T tag)).
    { intros s1 O G. rewrite write_new; auto.
      - split; [apply get_put_same|]. intros q Q. rewrite get_put_other; [apply O; exact Q|].
        intros X. rewrite X, after_refl in Q. discriminate.
      - rewrite RT, O; auto. }
    unfold out_write, there, fault. rewrite fine. cbn [files clock after_call].
    destruct (get (files w) T) as [n|] eqn:G.
    - rewrite fine. cbn [files clock].
      destruct n as [b| |l].
      + destruct (bytes_eqb b tag) eqn:Q.
        * cbn [files]. apply bytes_eqb_eq in Q as ->. split; auto.
        * unfold best_effort_remove, after_call, fault. cbn [files clock]. rewrite G, !fine. apply WR.
          -- intros q N. rewrite get_del. destruct (name_eqb T q) eqn:X; auto. apply name_eqb_spec in X as <-.
             rewrite after_refl in N. discriminate.
          -- left. rewrite get_del, name_eqb_refl. reflexivity.
      + unfold best_effort_remove, after_call, fault. cbn [files clock]. rewrite G, !fine. apply WR.
        * intros q N. rewrite get_del, N. reflexivity.
        * left. rewrite get_del, after_refl. reflexivity.
      + unfold best_effort_remove, after_call, fault. cbn [files clock]. rewrite G, !fine. apply WR.
        * intros q N. rewrite get_del. destruct (name_eqb T q) eqn:X; auto. apply name_eqb_spec in X as <-.
          rewrite after_refl in N. discriminate.
        * left. rewrite get_del, name_eqb_refl. reflexivity.
    - rewrite RT. change (World (files w) (S (clock w))) with (after_call w (files w)).
      destruct (create_dir_all_ok faults fine (after_call w (files w)) C) as (w' & E & D & K).
      { intros a b E A. cbn. right. apply (PW a (b ++ pre)); auto.
        - rewrite C_in_L, E, app_assoc. reflexivity.
        - intros F. apply app_eq_nil in F as [_ F]. congruence. }
      rewrite E. cbn [files after_call] in *. rewrite fine. apply WR.
      + intros q Q. destruct (K q) as [K1|(b & E1 & Qn)]; [exact K1|].
        rewrite (D q b E1 Qn). symmetry. apply (PW q (b ++ pre)); auto.
        * rewrite C_in_L, E1, app_assoc. reflexivity.
        * intros F. apply app_eq_nil in F as [_ F]. congruence.
      + left. destruct (K T) as [K1|(b & E1 & _)]; [rewrite K1; exact G|].
        exfalso. rewrite after_none in NT. eapply NT; eauto.
  Qed.

  (** What is known of the state in which copying starts *)
  Record ready (s : fs) : Prop :=
    { r_tag : holds s C "CACHEDIR.TAG";
      r_way : forall a b, L = a ++ b -> b <> [] -> a <> [] -> get s a = Some Dir;
      r_gone : forall r, get s (L ++ r) = None;
      r_same : forall q n, after C q = None -> get s0 q = Some n -> get s q = Some n;
      r_new : forall q n, after C q = None -> get s q = Some n -> get s0 q = Some n \/ n = Dir /\ q = out ++ ["cxxbridge"] }.
  Lemma L_in_C q : after C q = None -> after L q = None.
  Proof. intros H. destruct (after_trans C pre q) as [E|[r E]]; [exact E|congruence]. Qed.
  Lemma T_in_C q x : after C q = None -> after (C ++ [x]) q = None.
  Proof. intros H. destruct (after_trans C [x] q) as [E|[r E]]; [exact E|congruence]. Qed.
  Lemma fresh_out q : after C q = None -> get s0 q = None -> fresh_way q -> q = out ++ ["cxxbridge"].
  Proof.
    intros A G (b & E & B & Q). unfold L, C in E. rewrite <- app_assoc in E.
    destruct (prefix_cases _ _ _ _ E) as [(e & E1 & E2)|(e & E1 & E2)].
    - exfalso. destruct free as [O _]. destruct e as [|x e]; [rewrite app_nil_r in E1; congruence|].
      rewrite (sane_up s0 q (x :: e) Dir sane0) in G; try discriminate; auto. rewrite <- E1. exact O.
    - destruct e as [|x e].
      + exfalso. rewrite app_nil_r in E1. subst q. destruct free as [O _]. congruence.
      + cbn in E2. injection E2 as <- E2. destruct e as [|y e]; [exact E1|].
        exfalso. cbn in E2. injection E2 as <- E2. rewrite after_none in A. apply (A e). unfold C. rewrite E1, <- app_assoc. reflexivity.
  Qed.
  Lemma ready_ok c : ready (files (out_write faults (prepare_parent faults (World s0 c) L) (C ++ ["CACHEDIR.TAG"]) tag)).
  Proof.
    pose proof (prepare_ok c) as P. pose proof (tag_ok _ P) as [T1 T2]. destruct P as [PW PG PR].
    assert (TA : forall r, after (C ++ ["CACHEDIR.TAG"]) (L ++ r) = None).
    { intros r. apply after_none. intros r' E. unfold L in E. rewrite <- !app_assoc in E. apply app_inv_head in E.
      revert E. generalize pre_tag, pre_some. generalize pre. intros [|p p'] X Y E; [congruence|].
      cbn in E. injection E as -> _. eapply X; eauto. }
    split.
    - exists (File tag). split; [exact T1|discriminate].
    - intros a b E B A. rewrite T2; [eapply PW; eauto|]. apply after_none. intros r F. subst a.
      specialize (TA []). rewrite app_nil_r, E, <- app_assoc, after_app in TA. discriminate.
    - intros r. rewrite T2 by apply TA. apply PG.
    - intros q n A G. rewrite T2 by (apply T_in_C; exact A). destruct (PR q (L_in_C q A)) as [E|[E _]]; congruence.
    - intros q n A G. rewrite T2 in G by (apply T_in_C; exact A). destruct (PR q (L_in_C q A)) as [E|[E F]].
      + left. congruence.
      + right. split; [|apply fresh_out; auto]. destruct F as (b & E1 & B & Q). rewrite (PW q b E1 B Q) in G. congruence.
  Qed.

  Lemma headers_same s rel b : ready s -> header_of s 6 src [] rel b <-> header_of s0 6 src C rel b.
  Proof.
    intros [RT RW RG RS RN].
    assert (CD : get s C = Some Dir) by (apply (RW C pre); auto using C_in_L, C_some).
    (* no directory on the way is C: the whole is not below C *)
    assert (OUT : forall ds, (forall d more, ds = d ++ more -> d <> [] -> src ++ d <> C) ->
              forall d more, ds = d ++ more -> after C (src ++ d) = None).
    { intros ds H d. induction d as [|x d IH] using rev_ind; intros more E; [rewrite app_nil_r; exact src_out|].
      rewrite app_assoc. apply after_snoc.
      - apply (IH ([x] ++ more)). rewrite E, <- app_assoc. reflexivity.
      - rewrite <- app_assoc. apply (H _ _ E). destruct d; discriminate. }
    assert (FS : forall d, after C d = None -> d <> [] -> foreign s0 d -> foreign s d).
    { intros d A N. assert (forall x, x <> "crate" -> holds s0 d x -> holds s d x) as HX.
      { intros x NX (n & G & F). exists n. split; [|exact F]. apply RS; [|exact G]. apply after_snoc; [exact A|].
        unfold C. change ["cxxbridge"; "crate"] with (["cxxbridge"] ++ ["crate"]). rewrite app_assoc. intros X. apply app_inj_tail in X as [_ X]. congruence. }
      unfold foreign. intros [H|H]; [left|right]; apply HX; auto; discriminate. }
    assert (FN : forall d, after C d = None -> d <> [] -> foreign s d -> foreign s0 d).
    { intros d A N. assert (forall x, x <> "crate" -> x <> "cxxbridge" -> holds s d x -> holds s0 d x) as HX.
      { intros x NX NY (n & G & F). exists n. split; [|exact F]. destruct (RN (d ++ [x]) n) as [H|[_ H]]; auto.
        - apply after_snoc; [exact A|].
          unfold C. change ["cxxbridge"; "crate"] with (["cxxbridge"] ++ ["crate"]). rewrite app_assoc. intros X. apply app_inj_tail in X as [_ X]. congruence.
        - apply app_inj_tail in H as [_ H]. congruence. }
      unfold foreign. intros [H|H]; [left|right]; apply HX; auto; discriminate. }
    assert (SN : forall d, src ++ d = [] -> d = []).
    { intros d E. apply app_eq_nil in E. tauto. }
    split.
    - intros (ds & x & E & Le & Hn & G & Fo & Di). exists ds, x. split; [exact E|]. split; [exact Le|]. split; [exact Hn|].
      assert (NC : forall d more, ds = d ++ more -> d <> [] -> src ++ d <> C).
      { intros d more Ed N X. destruct (Di d more Ed N) as (_ & NF & _). apply NF. rewrite X. right. exact RT. }
      pose proof (OUT ds NC) as A.
      assert (Ar : after C (src ++ rel) = None).
      { rewrite E, app_assoc. apply after_snoc; [apply (A ds []); rewrite app_nil_r; reflexivity|].
        rewrite <- app_assoc, <- E. intros X. rewrite X, CD in G. discriminate. }
      assert (G0 : get s0 (src ++ rel) = Some (File b)).
      { destruct (RN _ _ Ar G) as [H|[H _]]; [exact H|discriminate]. }
      split; [exact G0|]. split; [exact Fo|].
      intros d more Ed N. assert (sd : src ++ d <> []) by (intros X; apply SN in X; congruence).
      split; [|split].
      + apply (sane_up s0 _ (more ++ [x]) (File b) sane0); [|destruct more; discriminate|exact sd].
        rewrite <- app_assoc, (app_assoc d), <- Ed, <- E. exact G0.
      + intros F. destruct (Di d more Ed N) as (_ & NF & _). apply NF. apply FS; auto. eapply A; eauto.
      + eapply NC; eauto.
    - intros (ds & x & E & Le & Hn & G & Fo & Di). exists ds, x. split; [exact E|]. split; [exact Le|]. split; [exact Hn|].
      assert (NC : forall d more, ds = d ++ more -> d <> [] -> src ++ d <> C).
      { intros d more Ed N. apply (Di d more Ed N). }
      pose proof (OUT ds NC) as A.
      assert (Ar : after C (src ++ rel) = None).
      { rewrite E, app_assoc. apply after_snoc; [apply (A ds []); rewrite app_nil_r; reflexivity|].
        rewrite <- app_assoc, <- E. intros X. rewrite X in G.
        destruct (way_free0 C pre C_in_L pre_some C_some) as [H|H]; congruence. }
      split; [apply RS; auto|]. split; [exact Fo|].
      intros d more Ed N. assert (sd : src ++ d <> []) by (intros X; apply SN in X; congruence).
      destruct (Di d more Ed N) as (D & NF & _). split; [apply RS; [eapply A; eauto|exact D]|].
      split; [|exact sd]. intros F. apply NF. apply FN; auto. eapply A; eauto.
  Qed.

  Lemma make_ok c : exists s, ready s /\
    effect (header_of s0 6 src C) L s (files (fst (make_crate_dir faults order tag src out pre (World s0 c)))) /\
    snd (make_crate_dir faults order tag src out pre (World s0 c)) = C.
  Proof.
    pose proof (ready_ok c) as R.
    remember (out_write faults (prepare_parent faults (World s0 c) L) (C ++ ["CACHEDIR.TAG"]) tag) as w eqn:Ew.
    exists (files w). split; [exact R|].
    assert (M : make_crate_dir faults order tag src out pre (World s0 c) = (copy_headers faults order 6 src L w, C)).
    { rewrite Ew. unfold make_crate_dir. revert pre_some. unfold L. generalize pre. intros [|p p'] X; [congruence|reflexivity]. }
    rewrite M. cbn [fst snd]. split; [|reflexivity].
    pose proof R as [RT RW RG RS RN].
    eapply effect_ext; [intros rel b; apply headers_same; exact R|].
    apply (copy_headers_ok faults order fine listed (files w) C pre pre_some pre_tag RT RW 6 src L w []).
    - unfold L. rewrite app_nil_r. reflexivity.
    - exact src_out.
    - apply RS; auto.
    - intros q _. reflexivity.
    - intros a b E A. destruct b as [|x b].
      + left. rewrite app_nil_r in E. subst a. rewrite <- (app_nil_r L). apply RG.
      + right. eapply RW; eauto. discriminate.
    - intros x r. apply RG.
  Qed.
End Make.

(** * With faults *)
Section Faults.
  Variable faults : nat -> nat.
  Variable order : name -> list string -> list string.
  Variables (s0 : fs) (out : name).
  Hypothesis sane0 : sane s0.
  Hypothesis out_some : out <> [].
  Hypothesis out_dir : get s0 out = Some Dir.
  Let C := out ++ ["cxxbridge"; "crate"].
  Definition kept (s : fs) : Prop :=
    forall q, after C q = None -> get s q = get s0 q \/ q = out ++ ["cxxbridge"] /\ get s0 q = None /\ get s q = Some Dir.

  Lemma make_dirs_any limit s done todo :
    forall q, get (snd (make_dirs limit s done todo)) q = get s q \/
      get s q = None /\ get (snd (make_dirs limit s done todo)) q = Some Dir /\ exists a b, todo = a ++ b /\ q = done ++ a /\ a <> [].
  Proof.
    revert limit s done; induction todo as [|x todo IH]; intros limit s done q; cbn; [auto|].
    assert (step : forall limit, get s (done ++ [x]) = None ->
      get (snd (make_dirs limit (put s (done ++ [x]) Dir) (done ++ [x]) todo)) q = get s q \/
      get s q = None /\ get (snd (make_dirs limit (put s (done ++ [x]) Dir) (done ++ [x]) todo)) q = Some Dir /\
      (exists a b, x :: todo = a ++ b /\ q = done ++ a /\ a <> [])).
    { intros l G. destruct (IH l (put s (done ++ [x]) Dir) (done ++ [x]) q) as [E|(E1 & E2 & a & b & -> & -> & N)].
      - rewrite E, get_put. destruct (name_eqb q (done ++ [x])) eqn:X; auto. apply name_eqb_spec in X as ->.
        right. split; [exact G|]. split; [reflexivity|]. exists [x], todo. repeat split; discriminate.
      - right. rewrite get_put in E1. destruct (name_eqb ((done ++ [x]) ++ a) (done ++ [x])); [discriminate|].
        split; [exact E1|]. split; [exact E2|]. exists (x :: a), b. rewrite <- app_assoc. repeat split; discriminate. }
    destruct (get s (done ++ [x])) as [[b| |l]|] eqn:G; cbn; auto.
    - destruct (IH limit s (done ++ [x]) q) as [E|(E1 & E2 & a & b & -> & -> & N)]; auto.
      right. split; [exact E1|]. split; [exact E2|]. exists (x :: a), b. rewrite <- app_assoc. repeat split; discriminate.
    - destruct limit as [[|k]|]; cbn; auto.
  Qed.
  Lemma create_kept w r a b : kept (files w) -> C ++ r = a ++ b -> kept (files (snd (create_dir_all faults w a))).
  Proof.
    intros K E. unfold create_dir_all.
    set (limit := match fault faults w with O => None | S k => Some k end).
    destruct (make_dirs limit (files w) [] a) as [ok s'] eqn:M. cbn [snd files after_call].
    intros q A. pose proof (make_dirs_any limit (files w) [] a q) as X. rewrite M in X. cbn [snd] in X.
    destruct X as [X|(G & X & a1 & b1 & -> & Eq & N)].
    - rewrite X. apply K; exact A.
    - cbn in Eq. subst a1. destruct (K q A) as [H|(_ & _ & H)]; [|congruence].
      right. rewrite <- app_assoc in E. unfold C in E. rewrite <- app_assoc in E.
      destruct (prefix_cases _ _ _ _ E) as [(e & E1 & E2)|(e & E1 & E2)].
      + exfalso. rewrite H in G. destruct e as [|x e]; [rewrite app_nil_r in E1; congruence|].
        rewrite (sane_up s0 q (x :: e) Dir sane0) in G; try discriminate; auto. rewrite <- E1; exact out_dir.
      + destruct e as [|x e].
        { exfalso. rewrite app_nil_r in E1. subst. congruence. }
        cbn in E2. injection E2 as <- E2. destruct e as [|y e].
        * split; [exact E1|]. split; [congruence|exact X].
        * exfalso. cbn in E2. injection E2 as <- E2. rewrite after_none in A. apply (A e). unfold C. rewrite E1, <- app_assoc. reflexivity.
  Qed.
  Lemma kept_in s s' r : kept s -> (forall q, get s' q = get s q \/ exists r', q = (C ++ r) ++ r') -> kept s'.
  Proof.
    intros K H q A. destruct (H q) as [E|[r' E]].
    - rewrite E. apply K; exact A.
    - exfalso. rewrite after_none in A. apply (A (r ++ r')). rewrite app_assoc. exact E.
  Qed.
  Lemma del_in (p : name -> bool) s q : (forall r, p r = true -> exists r', r = q ++ r') ->
    forall r, get (del p s) r = get s r \/ exists r', r = q ++ r'.
  Proof. intros H r. rewrite get_del. destruct (p r) eqn:P; auto. Qed.
  Lemma eqb_in q r : name_eqb q r = true -> exists r', r = q ++ r'.
  Proof. intros E. apply name_eqb_spec in E as <-. exists []. rewrite app_nil_r. reflexivity. Qed.
  Lemma write_in n s q b : forall r, get (write_file n s q b) r = get s r \/ exists r', r = q ++ r'.
  Proof.
    intros r. unfold write_file. destruct (Nat.eqb n 1); auto.
    destruct (get s q) as [[c| |l]|]; auto; [|destruct (get s (removelast q)) as [[c| |l]|]; auto].
    all: rewrite get_put; destruct (name_eqb r q) eqn:X; auto; right; rewrite name_eqb_sym in X; apply eqb_in; exact X.
  Qed.
  Lemma remove_kept w r : kept (files w) -> kept (files (best_effort_remove faults w (C ++ r))).
  Proof.
    intros K. apply (kept_in (files w) _ r K). intros q. unfold best_effort_remove. cbn [files after_call].
    destruct (get (files w) (C ++ r)) as [[b| |l]|]; auto.
    - destruct (fault faults w); auto. apply del_in. apply eqb_in.
    - destruct (fault faults w); apply del_in; intros q'; destruct (after (C ++ r) q') as [r'|] eqn:E; try discriminate;
        apply after_spec in E as ->; eauto.
    - destruct (fault faults w); auto. apply del_in. apply eqb_in.
  Qed.
  Lemma write_kept w r n b c : kept (files w) -> kept (files (World (write_file n (files w) (C ++ r) b) c)).
  Proof. intros K. apply (kept_in (files w) _ r K). cbn. apply write_in. Qed.
  Lemma out_write_kept w x b : kept (files w) -> kept (files (out_write faults w (C ++ [x]) b)).
  Proof.
    intros K. unfold out_write. destruct (there faults w (C ++ [x])) as [e w1] eqn:T.
    assert (K1 : kept (files w1)) by (unfold there in T; injection T as _ <-; exact K).
    destruct e.
    - match goal with |- kept (files (if ?c then _ else _)) => destruct c end; [exact K1|].
      apply write_kept. apply remove_kept. exact K1.
    - rewrite removelast_last. destruct (create_dir_all faults w1 C) as [ok w2] eqn:CR.
      apply write_kept. replace w2 with (snd (create_dir_all faults w1 C)) by (rewrite CR; reflexivity).
      apply (create_kept w1 [] C []); auto.
  Qed.
  Lemma prepare_kept w r : r <> [] -> kept (files w) -> kept (files (prepare_parent faults w (C ++ r))).
  Proof.
    intros N K. unfold prepare_parent. destruct (there faults w (C ++ r)) as [e w1] eqn:T.
    assert (K1 : kept (files w1)) by (unfold there in T; injection T as _ <-; exact K).
    destruct e; [apply remove_kept; exact K1|].
    apply (create_kept w1 r _ [last (C ++ r) ""]); [exact K1|].
    apply app_removelast_last. intros E. apply app_eq_nil in E as [_ E]. congruence.
  Qed.
  Lemma copy_kept depth : forall src r w, kept (files w) -> kept (files (copy_headers faults order depth src (C ++ r) w)).
  Proof.
    assert (L : forall depth, (forall d src r w, depth = S d -> kept (files w) -> kept (files (copy_headers faults order d src (C ++ r) w))) ->
      forall src r es created w, kept (files w) -> kept (files (loop faults depth (copy_headers faults order) src (C ++ r) es created w))).
    { clear depth. intros depth REC src r es. induction es as [|x es IH]; intros created w K; cbn [loop]; [exact K|].
      destruct (hidden x); [apply IH; exact K|].
      destruct (file_type faults w (src ++ [x])) as [t w1] eqn:T.
      assert (K1 : kept (files w1)) by (unfold file_type in T; injection T as _ <-; exact K).
      destruct t as [[b| |l]|]; auto.
      - destruct (is_header x); [|apply IH; exact K1].
        destruct (if created then (true, w1) else create_dir_all faults w1 (C ++ r)) as [ok w2] eqn:CR.
        assert (K2 : kept (files w2)).
        { destruct created; [injection CR as _ <-; exact K1|].
          replace w2 with (snd (create_dir_all faults w1 (C ++ r))) by (rewrite CR; reflexivity).
          apply (create_kept w1 r _ []); auto. rewrite app_nil_r. reflexivity. }
        destruct ok; [|exact K2]. apply IH.
        rewrite <- app_assoc.
        assert (K3 : kept (files (remove_file faults w2 (C ++ (r ++ [x]))))).
        { apply (kept_in (files w2) _ (r ++ [x]) K2). intros q. unfold remove_file. cbn [files after_call].
          destruct (fault faults w2); auto. destruct (get (files w2) (C ++ r ++ [x])) as [[c| |l]|]; auto; apply del_in; apply eqb_in. }
        unfold copy. cbn [files after_call].
        destruct (get (files (remove_file faults w2 (C ++ r ++ [x]))) (src ++ [x])) as [[c| |l]|]; [apply (write_kept _ _ _ _ O)|..]; exact K3.
      - destruct depth as [|d]; [apply IH; exact K1|].
        destruct (path_exists faults w1 (src ++ [x; "Cargo.toml"])) as [a w2] eqn:A.
        assert (K2 : kept (files w2)) by (unfold path_exists in A; injection A as _ <-; exact K1).
        destruct a; [apply IH; exact K2|].
        destruct (path_exists faults w2 (src ++ [x; "CACHEDIR.TAG"])) as [b w3] eqn:B.
        assert (K3 : kept (files w3)) by (unfold path_exists in B; injection B as _ <-; exact K2).
        destruct b; [apply IH; exact K3|]. apply IH. rewrite <- app_assoc. apply REC; auto. }
    induction depth as [|d IH]; intros src r w K; rewrite copy_headers_eq;
      destruct (read_dir faults order w src) as [es w1] eqn:R;
      (assert (K1 : kept (files w1)) by (unfold read_dir in R; injection R as _ <-; exact K)); apply L; auto.
    - intros d src' r' w' E. discriminate.
    - intros d0 src' r' w' E. injection E as <-. apply IH.
  Qed.
  Lemma make_kept tag src pre c : kept (files (fst (make_crate_dir faults order tag src out pre (World s0 c)))).
  Proof.
    assert (K0 : kept s0) by (intros q _; left; reflexivity).
    destruct pre as [|p pre]; [exact K0|]. cbn [make_crate_dir fst].
    apply copy_kept. apply out_write_kept. apply prepare_kept; [discriminate|]. exact K0.
  Qed.
End Faults.
