(** Lemmas about copying headers. *)
From Verif Require Import Base Copy_Model Copy_Spec.

Lemma name_eqb_spec a b : name_eqb a b = true <-> a = b.
Proof.
  revert b; induction a as [|x a IH]; destruct b as [|y b]; cbn; split; try congruence; auto.
  - rewrite andb_true_iff, String.eqb_eq, IH. intros [-> ->]. reflexivity.
  - intros E. injection E as -> ->. rewrite String.eqb_refl. apply IH. reflexivity.
Qed.
Lemma name_eqb_refl a : name_eqb a a = true.
Proof. apply name_eqb_spec; reflexivity. Qed.
Lemma name_eqb_sym a b : name_eqb a b = name_eqb b a.
Proof.
  destruct (name_eqb a b) eqn:E.
  - apply name_eqb_spec in E as ->. rewrite name_eqb_refl; reflexivity.
  - destruct (name_eqb b a) eqn:F; auto. apply name_eqb_spec in F as ->. rewrite name_eqb_refl in E. discriminate.
Qed.
Lemma after_spec a b r : after a b = Some r <-> b = a ++ r.
Proof.
  revert b; induction a as [|x a IH]; intros b; cbn.
  - split; congruence.
  - destruct b as [|y b]; [split; discriminate|]. destruct (String.eqb_spec x y) as [->|N].
    + rewrite IH. split; [intros ->; reflexivity|congruence].
    + split; [discriminate|]. intros E. injection E as -> _. congruence.
Qed.
Lemma after_app a r : after a (a ++ r) = Some r.
Proof. apply after_spec; reflexivity. Qed.
Lemma after_none a b : after a b = None <-> forall r, b <> a ++ r.
Proof.
  split.
  - intros H r E. apply after_spec in E. congruence.
  - intros H. destruct (after a b) as [r|] eqn:E; auto. apply after_spec in E. exfalso; eapply H; eauto.
Qed.

Lemma get_del p s q : get (del p s) q = if p q then None else get s q.
Proof.
  unfold del. induction s as [|[r n] s IH]; cbn.
  - destruct (p q); reflexivity.
  - destruct (p r) eqn:P; cbn.
    + rewrite IH. destruct (name_eqb q r) eqn:E; auto. apply name_eqb_spec in E as ->. rewrite P. reflexivity.
    + rewrite IH. destruct (name_eqb q r) eqn:E; auto. apply name_eqb_spec in E as ->. rewrite P. reflexivity.
Qed.
Lemma get_put s q n r : get (put s q n) r = if name_eqb r q then Some n else get s r.
Proof.
  unfold put. cbn. destruct (name_eqb r q) eqn:E; auto. rewrite get_del, name_eqb_sym, E. reflexivity.
Qed.
Lemma get_put_same s q n : get (put s q n) q = Some n.
Proof. rewrite get_put, name_eqb_refl; reflexivity. Qed.
Lemma get_put_other s q n r : r <> q -> get (put s q n) r = get s r.
Proof. intros N. rewrite get_put. destruct (name_eqb r q) eqn:E; auto. apply name_eqb_spec in E; contradiction. Qed.

Lemma in_children s d x : In x (children s d) <-> get s (d ++ [x]) <> None.
Proof.
  unfold children. induction s as [|[r n] s IH]; cbn.
  - split; [intros []|congruence].
  - rewrite in_app_iff. destruct (name_eqb (d ++ [x]) r) eqn:E.
    + apply name_eqb_spec in E as <-. rewrite after_app. cbn. split; [discriminate|]. intros _. left; left; reflexivity.
    + rewrite <- IH. split; [intros [H|H]; auto|auto]. exfalso.
      destruct (after d r) as [[|y [|? ?]]|] eqn:A; try destruct H.
      * subst. apply after_spec in A as ->. rewrite name_eqb_refl in E. discriminate.
      * destruct H.
Qed.

(** * Header names *)
Lemma last_dot_app a e : last_dot e = None -> last_dot (a ++ String "." e) = Some e.
Proof. intros H. induction a as [|c a IH]; cbn; [rewrite H; reflexivity|rewrite IH; reflexivity]. Qed.
Lemma last_dot_inv x e : last_dot x = Some e -> exists a, x = (a ++ String "." e)%string.
Proof.
  revert e; induction x as [|c x IH]; cbn; intros e; [discriminate|].
  destruct (last_dot x) as [e'|] eqn:D.
  - intros E; injection E as <-. destruct (IH _ eq_refl) as [a ->]. exists (String c a). reflexivity.
  - destruct (Ascii.eqb_spec c ".") as [->|]; [|discriminate]. intros E; injection E as <-. exists ""%string. reflexivity.
Qed.
Lemma is_header_spec x : is_header x = true <-> header_name x.
Proof.
  unfold is_header, extension, header_name. split.
  - destruct x as [|c x]; [discriminate|]. destruct (last_dot x) as [e|] eqn:D; [|discriminate].
    intros H. destruct (last_dot_inv _ _ D) as [a ->]. exists (String c a), e. split; [|split; [discriminate|reflexivity]].
    rewrite !orb_true_iff, !String.eqb_eq in H. cbn. destruct H as [[-> | ->]| ->]; auto.
  - intros (st & e & I & N & ->). destruct st as [|c st]; [congruence|]. cbn [append].
    cbn in I. destruct I as [<-|[<-|[<-|[]]]]; rewrite last_dot_app by reflexivity; reflexivity.
Qed.
Lemma hidden_spec x : hidden x = true <-> dotted x.
Proof.
  unfold dotted. split.
  - destruct x as [|c x]; cbn; [discriminate|]. destruct (Ascii.eqb_spec c ".") as [->|N]; [eauto|].
    destruct c as [[] [] [] [] [] [] [] []]; try discriminate; cbn in N; congruence.
  - intros [r ->]. reflexivity.
Qed.

(** * Making directories *)
Lemma make_dirs_ok s done todo :
  (forall a b, todo = a ++ b -> a <> [] -> get s (done ++ a) = None \/ get s (done ++ a) = Some Dir) ->
  exists s', make_dirs None s done todo = (true, s') /\
    (forall a b, todo = a ++ b -> a <> [] -> get s' (done ++ a) = Some Dir) /\
    (forall q, get s' q = get s q \/ exists a b, todo = a ++ b /\ a <> [] /\ q = done ++ a).
Proof.
  revert s done; induction todo as [|x todo IH]; intros s done W; cbn.
  - exists s. split; [reflexivity|]. split; auto. intros a b E N. destruct a; [congruence|discriminate].
  - assert (W1 : get s (done ++ [x]) = None \/ get s (done ++ [x]) = Some Dir)
      by (apply (W [x] todo); [reflexivity|discriminate]).
    assert (step : forall s1, get s1 (done ++ [x]) = Some Dir -> (forall q, q <> done ++ [x] -> get s1 q = get s q) ->
      exists s', make_dirs None s1 (done ++ [x]) todo = (true, s') /\
        (forall a b, x :: todo = a ++ b -> a <> [] -> get s' (done ++ a) = Some Dir) /\
        (forall q, get s' q = get s q \/ exists a b, x :: todo = a ++ b /\ a <> [] /\ q = done ++ a)).
    { intros s1 G O. destruct (IH s1 (done ++ [x])) as (s' & E & D & K).
      { intros a b -> N. rewrite <- app_assoc. cbn. rewrite O.
        - apply (W (x :: a) b); [reflexivity|discriminate].
        - intros F. apply app_inv_head in F. destruct a; [congruence|discriminate]. }
      exists s'. split; [exact E|]. split.
      - intros a b F N. destruct a as [|y a]; [congruence|]. cbn in F. injection F as <- ->.
        destruct a as [|z a].
        + destruct (K (done ++ [x])) as [K1|(a & c & F & N2 & K1)].
          * rewrite K1. exact G.
          * exfalso. rewrite <- app_assoc in K1. apply app_inv_head in K1. destruct a; [congruence|discriminate].
        + specialize (D (z :: a) b eq_refl ltac:(discriminate)). rewrite <- app_assoc in D. exact D.
      - intros q. destruct (K q) as [K1|(a & b & -> & N & ->)].
        + destruct (list_eq_dec string_dec q (done ++ [x])) as [->|NQ].
          * right. exists [x], todo. split; [reflexivity|]. split; [discriminate|reflexivity].
          * left. rewrite K1. apply O; exact NQ.
        + right. exists (x :: a), b. split; [reflexivity|]. split; [discriminate|]. rewrite <- app_assoc. reflexivity. }
    destruct W1 as [W1|W1]; rewrite W1.
    + apply step; [apply get_put_same|]. intros q N. apply get_put_other; exact N.
    + apply step; auto.
Qed.

(** * What a copy does *)
(** [new]: the files that come into [dst], by their names there *)
Record effect (new : name -> list ascii -> Prop) (dst : name) (s s' : fs) : Prop := Effect
  { e_file : forall rel b, new rel b -> get s' (dst ++ rel) = Some (File b);
    e_dir : forall q c rel b, new rel b -> q <> [] -> c <> [] -> dst ++ rel = q ++ c -> get s' q = Some Dir;
    e_rest : forall q, get s' q = get s q \/
      (exists rel b, q = dst ++ rel /\ new rel b) \/
      (exists c rel b, c <> [] /\ q <> [] /\ dst ++ rel = q ++ c /\ new rel b) }.

Lemma effect_none dst s : effect (fun _ _ => False) dst s s.
Proof. split; try contradiction. auto. Qed.
Lemma effect_ext new new' dst s s' :
  (forall rel b, new rel b <-> new' rel b) -> effect new dst s s' -> effect new' dst s s'.
Proof.
  intros X [F D R]. split.
  - intros rel b N. apply F, X, N.
  - intros q c rel b N. apply D with (b := b), X, N.
  - intros q. destruct (R q) as [E|[(rel & b & E & N)|(c & rel & b & E1 & E2 & E3 & N)]]; auto.
    + right; left. exists rel, b. split; auto. apply X, N.
    + right; right. exists c, rel, b. repeat split; auto. apply X, N.
Qed.
Lemma effect_sub new x dst s s' :
  effect new (dst ++ [x]) s s' -> effect (fun rel b => exists r, rel = x :: r /\ new r b) dst s s'.
Proof.
  intros [F D R]. split.
  - intros rel b (r & -> & N). specialize (F _ _ N). rewrite <- app_assoc in F. exact F.
  - intros q c rel b (r & -> & N) Q C E. apply (D q c r b N Q C). rewrite <- app_assoc. exact E.
  - intros q. destruct (R q) as [E|[(rel & b & E & N)|(c & rel & b & E1 & E2 & E3 & N)]]; auto.
    + right; left. exists (x :: rel), b. rewrite E, <- app_assoc. split; eauto.
    + right; right. exists c, (x :: rel), b. rewrite <- app_assoc in E3. repeat split; eauto.
Qed.

Lemma prefix_cases {A} (a b c d : list A) : a ++ b = c ++ d -> (exists e, a = c ++ e /\ d = e ++ b) \/ (exists e, c = a ++ e /\ b = e ++ d).
Proof.
  revert c; induction a as [|x a IH]; cbn; intros c E.
  - right. exists c. auto.
  - destruct c as [|y c]; cbn in *.
    + left. exists (x :: a). split; auto.
    + injection E as -> E. destruct (IH c E) as [(e & -> & ->)|(e & -> & ->)]; [left|right]; exists e; auto.
Qed.

Lemma effect_join new1 new2 dst s s1 s2 :
  (forall b, ~ new1 [] b) -> (forall b, ~ new2 [] b) ->
  (forall x r b y r' b', new1 (x :: r) b -> new2 (y :: r') b' -> x <> y) ->
  effect new1 dst s s1 -> effect new2 dst s1 s2 -> effect (fun rel b => new1 rel b \/ new2 rel b) dst s s2.
Proof.
  intros N1 N2 X [F1 D1 R1] [F2 D2 R2]. split.
  - intros rel b [N|N]; [|apply F2, N].
    destruct (R2 (dst ++ rel)) as [E|[(r2 & b2 & E & N')|(c & r2 & b2 & C & Q & E & N')]].
    + rewrite E. apply F1, N.
    + apply app_inv_head in E as <-. destruct rel as [|x r]; [elim (N1 _ N)|]. elim (X _ _ _ _ _ _ N N'); reflexivity.
    + rewrite <- app_assoc in E. apply app_inv_head in E. destruct rel as [|x r]; [elim (N1 _ N)|].
      cbn in E. subst r2. elim (X _ _ _ _ _ _ N N'); reflexivity.
  - intros q c rel b [N|N] Q C E; [|exact (D2 _ _ _ _ N Q C E)].
    destruct (R2 q) as [E2|[(r2 & b2 & E2 & N')|(c2 & r2 & b2 & C2 & Q2 & E2 & N')]].
    + rewrite E2. eapply D1; eauto.
    + subst q. rewrite <- app_assoc in E. apply app_inv_head in E. subst rel.
      destruct r2 as [|x r2]; [elim (N2 _ N')|]. elim (X _ _ _ _ _ _ N N'); reflexivity.
    + exact (D2 _ _ _ _ N' Q2 C2 E2).
  - intros q. destruct (R2 q) as [E2|[(r2 & b2 & E2 & N')|(c2 & r2 & b2 & C2 & Q2 & E2 & N')]].
    + rewrite E2. destruct (R1 q) as [E1|[(r1 & b1 & E1 & N')|(c1 & r1 & b1 & C1 & Q1 & E1 & N')]]; auto.
      * right; left. eauto.
      * right; right. exists c1, r1, b1. auto.
    + right; left. eauto.
    + right; right. exists c2, r2, b2. auto.
Qed.

Definition way_free (s : fs) (dst : name) : Prop :=
  forall a b, dst = a ++ b -> a <> [] -> get s a = None \/ get s a = Some Dir.

Lemma effect_way new dst s s' : (forall b, ~ new [] b) -> effect new dst s s' -> way_free s dst -> way_free s' dst.
Proof.
  intros NE [F D R] W a b E N. destruct (R a) as [X|[(rel & b2 & X & N2)|(c & rel & b2 & C & Q & X & N2)]].
  - rewrite X. eapply W; eauto.
  - exfalso. subst a. rewrite <- app_assoc in E. rewrite <- (app_nil_r dst) in E at 1. apply app_inv_head in E.
    destruct rel; [elim (NE _ N2)|discriminate].
  - right. exact (D _ _ _ _ N2 Q C X).
Qed.

Section NoFaults.
  Variable faults : nat -> nat.
  Variable order : name -> list string -> list string.
  Hypothesis fine : forall n, faults n = O.
  Hypothesis listed : lists order.

  (** The loop of copy_headers *)
  Fixpoint loop (max_depth : nat) (rec : nat -> name -> name -> world -> world) (src dst : name)
      (entries : list string) (dst_created : bool) (w : world) : world :=
    match entries with
    | [] => w
    | x :: entries =>
        if hidden x then loop max_depth rec src dst entries dst_created w else
        let '(t, w) := file_type faults w (src ++ [x]) in
        match t with
        | Some Dir =>
            match max_depth with
            | O => loop max_depth rec src dst entries dst_created w
            | S depth =>
                let '(a, w) := path_exists faults w (src ++ [x; "Cargo.toml"]) in
                if a then loop max_depth rec src dst entries dst_created w else
                let '(b, w) := path_exists faults w (src ++ [x; "CACHEDIR.TAG"]) in
                if b then loop max_depth rec src dst entries dst_created w else
                loop max_depth rec src dst entries dst_created (rec depth (src ++ [x]) (dst ++ [x]) w)
            end
        | Some (File _) =>
            if is_header x then
              let '(ok, w) := if dst_created then (true, w) else create_dir_all faults w dst in
              if ok then loop max_depth rec src dst entries true (copy faults (remove_file faults w (dst ++ [x])) (src ++ [x]) (dst ++ [x]))
              else w
            else loop max_depth rec src dst entries dst_created w
        | _ => loop max_depth rec src dst entries dst_created w
        end
    end.
  Lemma copy_headers_eq depth src dst w :
    copy_headers faults order depth src dst w =
    let '(entries, w) := read_dir faults order w src in
    loop depth (copy_headers faults order) src dst entries false w.
  Proof.
    assert (L : forall depth src dst es created w,
      (fix loop (entries : list string) (dst_created : bool) (w : world) : world :=
       match entries with
       | [] => w
       | x :: entries =>
           if hidden x then loop entries dst_created w else
           let '(t, w) := file_type faults w (src ++ [x]) in
           match t with
           | Some Dir =>
               match depth with
               | O => loop entries dst_created w
               | S depth =>
                   let '(a, w) := path_exists faults w (src ++ [x; "Cargo.toml"]) in
                   if a then loop entries dst_created w else
                   let '(b, w) := path_exists faults w (src ++ [x; "CACHEDIR.TAG"]) in
                   if b then loop entries dst_created w else
                   loop entries dst_created (copy_headers faults order depth (src ++ [x]) (dst ++ [x]) w)
               end
           | Some (File _) =>
               if is_header x then
                 let '(ok, w) := if dst_created then (true, w) else create_dir_all faults w dst in
                 if ok then loop entries true (copy faults (remove_file faults w (dst ++ [x])) (src ++ [x]) (dst ++ [x]))
                 else w
               else loop entries dst_created w
           | _ => loop entries dst_created w
           end
       end) es created w = loop depth (copy_headers faults order) src dst es created w).
    { clear. intros depth src dst es. induction es as [|x es IH]; intros created w; [reflexivity|].
      cbn [loop]. destruct (hidden x); [apply IH|]. destruct (file_type faults w (src ++ [x])) as [[[b| |l]|] w1].
      - destruct (is_header x); [|apply IH].
        destruct (if created then (true, w1) else create_dir_all faults w1 dst) as [[] w2]; [apply IH|reflexivity].
      - destruct depth; [apply IH|].
        destruct (path_exists faults w1 (src ++ [x; "Cargo.toml"])) as [[] w2]; [apply IH|].
        destruct (path_exists faults w2 (src ++ [x; "CACHEDIR.TAG"])) as [[] w3]; apply IH.
      - apply IH.
      - apply IH. }
    destruct depth as [|d]; cbn [copy_headers]; destruct (read_dir faults order w src) as [es w1].
    - exact (L O src dst es false w1).
    - exact (L (S d) src dst es false w1).
  Qed.

  Lemma create_dir_all_ok w dst : way_free (files w) dst ->
    exists w', create_dir_all faults w dst = (true, w') /\
      (forall a b, dst = a ++ b -> a <> [] -> get (files w') a = Some Dir) /\
      (forall q, get (files w') q = get (files w) q \/ exists b, dst = q ++ b /\ q <> []).
  Proof.
    intros W. unfold create_dir_all, fault. rewrite fine.
    destruct (make_dirs_ok (files w) [] dst) as (s' & E & D & K); [exact W|].
    rewrite E. eexists. split; [reflexivity|]. cbn. split; [exact D|].
    intros q. destruct (K q) as [K1|(a & b & E1 & N & E2)]; auto. right. cbn in E2. subst. eauto.
  Qed.

  Definition made (s : fs) (dst : name) : Prop := forall a c, dst = a ++ c -> a <> [] -> get s a = Some Dir.
  (** One header is copied *)
  Lemma copy_file_ok w src dst x b created :
    dst <> [] -> way_free (files w) dst -> (created = true -> made (files w) dst) ->
    (forall r, get (files w) (dst ++ x :: r) = None) ->
    get (files w) (src ++ [x]) = Some (File b) ->
    exists w1, (if created then (true, w) else create_dir_all faults w dst) = (true, w1) /\
    let w2 := copy faults (remove_file faults w1 (dst ++ [x])) (src ++ [x]) (dst ++ [x]) in
    effect (fun rel b' => rel = [x] /\ b' = b) dst (files w) (files w2) /\ made (files w2) dst.
  Proof.
    intros NN W C FR G.
    assert (M : exists w1, (if created then (true, w) else create_dir_all faults w dst) = (true, w1) /\ made (files w1) dst /\
                (forall q, get (files w1) q = get (files w) q \/ exists c, dst = q ++ c /\ q <> [])).
    { destruct created.
      - exists w. auto.
      - destruct (create_dir_all_ok w dst W) as (w' & E' & D & K). exists w'. auto. }
    destruct M as (w1 & E & D & K). exists w1. split; [exact E|]. intros w2.
    assert (NX : forall q c, dst = q ++ c -> q <> dst ++ [x]).
    { intros q c E1 E2. subst q. rewrite <- app_assoc in E1. rewrite <- (app_nil_r dst) in E1 at 1.
      apply app_inv_head in E1. discriminate. }
    assert (Gx : get (files w1) (dst ++ [x]) = None).
    { destruct (K (dst ++ [x])) as [K1|(c & E1 & _)]; [rewrite K1; apply FR|]. elim (NX _ _ E1); reflexivity. }
    assert (Gs : get (files w1) (src ++ [x]) = Some (File b)).
    { destruct (K (src ++ [x])) as [K1|(c & E1 & N)]; [congruence|].
      exfalso. destruct (W _ _ E1 N) as [H|H]; rewrite G in H; discriminate. }
    assert (Gd : get (files w1) dst = Some Dir).
    { apply (D dst []); [rewrite app_nil_r; reflexivity|exact NN]. }
    assert (F2 : files w2 = put (files w1) (dst ++ [x]) (File b)).
    { unfold w2, copy, remove_file, after_call, fault. cbn [files clock]. rewrite !fine, Gx, Gs.
      unfold write_file. cbn [Nat.eqb]. rewrite Gx, removelast_last, Gd. reflexivity. }
    rewrite F2. split.
    - split.
      + intros rel b' [-> ->]. apply get_put_same.
      + intros q c rel b' [-> ->] Q Cn E1.
        destruct (exists_last Cn) as (c' & y & ->). rewrite app_assoc in E1. apply app_inj_tail in E1 as [E1 _].
        rewrite get_put_other by (eapply NX; eauto). eapply D; eauto.
      + intros q. destruct (list_eq_dec string_dec q (dst ++ [x])) as [->|NQ].
        * right; left. exists [x], b. auto.
        * rewrite get_put_other by exact NQ.
          destruct (K q) as [K1|(c & E1 & N)]; auto.
          right; right. exists (c ++ [x]), [x], b. repeat split; auto; [destruct c; discriminate|].
          rewrite E1, <- app_assoc. reflexivity.
    - intros a c E1 N. rewrite get_put_other by (eapply NX; eauto). eapply D; eauto.
  Qed.

  (** * The whole copy *)
  Variables (s : fs) (C pre : name).
  Hypothesis pre_some : pre <> [].
  Hypothesis pre_tag : forall r, pre <> "CACHEDIR.TAG" :: r.
  Hypothesis tagged : holds s C "CACHEDIR.TAG".
  Let L := C ++ pre.
  (** Nothing outside of [L] has changed *)
  Definition stable (w : world) : Prop := forall q, after L q = None -> get (files w) q = get s q.

  Definition all (depth : nat) (src : name) (P : string -> Prop) (rel : name) (b : list ascii) : Prop :=
    header_of s depth src [] rel b /\ exists x r, rel = x :: r /\ P x.
  Lemma all_nil depth src P b : ~ all depth src P [] b.
  Proof. intros [_ (x & r & E & _)]. discriminate. Qed.

  Lemma outside src x : after C src = None -> after L (src ++ [x]) = None.
  Proof.
    rewrite !after_none. intros H r E. unfold L in E. destruct (exists_last pre_some) as (p & y & P). rewrite P in E.
    destruct r as [|z r].
    - rewrite app_nil_r, app_assoc in E. apply app_inj_tail in E as [E _]. eapply H; eauto.
    - destruct (exists_last (l := z :: r) ltac:(discriminate)) as (r' & z' & R). rewrite R in E.
      rewrite !app_assoc in E. apply app_inj_tail in E as [E _]. eapply (H (p ++ [y] ++ r')). rewrite E, <- !app_assoc. reflexivity.
  Qed.
  Lemma outside_src src : after C src = None -> after L src = None.
  Proof. rewrite !after_none. intros H r E. unfold L in E. rewrite <- app_assoc in E. eapply H; eauto. Qed.

  Definition exists_ (w : world) (q : name) : bool := match get (files w) q with None | Some (Link false) => false | _ => true end.
  Lemma exists_holds w d x : get (files w) (d ++ [x]) = get s (d ++ [x]) -> exists_ w (d ++ [x]) = true <-> holds s d x.
  Proof.
    intros E. unfold exists_, holds. rewrite E. destruct (get s (d ++ [x])) as [[b| |[]]|].
    - split; [intros _; eexists; split; [reflexivity|discriminate]|reflexivity].
    - split; [intros _; eexists; split; [reflexivity|discriminate]|reflexivity].
    - split; [intros _; eexists; split; [reflexivity|discriminate]|reflexivity].
    - split; [discriminate|]. intros (n & H & N). congruence.
    - split; [discriminate|]. intros (n & H & N). congruence.
  Qed.
  (** Whether a directory is left out is decided as it was at the beginning *)
  Lemma foreign_ok w src x : stable w -> after C src = None ->
    exists_ w (src ++ [x; "Cargo.toml"]) = true \/ exists_ w (src ++ [x; "CACHEDIR.TAG"]) = true <-> foreign s (src ++ [x]).
  Proof.
    intros St A.
    change (src ++ [x; "Cargo.toml"]) with (src ++ ([x] ++ ["Cargo.toml"])).
    change (src ++ [x; "CACHEDIR.TAG"]) with (src ++ ([x] ++ ["CACHEDIR.TAG"])). rewrite !app_assoc.
    destruct (after C (src ++ [x])) as [r|] eqn:E.
    - apply after_spec in E.
      assert (r = []) as ->.
      { destruct r as [|y r]; auto. exfalso.
        destruct (exists_last (l := y :: r) ltac:(discriminate)) as (r' & z & R). rewrite R, app_assoc in E.
        apply app_inj_tail in E as [E _]. rewrite after_none in A. eapply A; eauto. }
      rewrite app_nil_r in E. rewrite E. unfold foreign.
      assert (X : exists_ w (C ++ ["CACHEDIR.TAG"]) = true).
      { apply exists_holds; [|exact tagged]. apply St. apply after_none. intros r F. unfold L in F.
        rewrite <- app_assoc in F. apply app_inv_head in F.
        assert (exists r', pre = "CACHEDIR.TAG" :: r') as [r' Hr].
        { revert F. generalize pre pre_some. intros [|p p'] NE F; [congruence|]. cbn in F. injection F as <- _. eauto. }
        eapply pre_tag; eauto. }
      split; auto.
    - unfold foreign. rewrite <- !exists_holds with (w := w); [reflexivity| |]; apply St, outside; exact E.
  Qed.

  (** The headers below one entry *)
  Lemma all_hidden depth src x rel b : hidden x = true -> ~ all depth src (eq x) rel b.
  Proof.
    intros H [(ds & y & E & _ & _ & _ & Fo & _) (z & r & F & <-)]. rewrite F in Fo. inversion Fo as [|? ? Fx Fr]; subst.
    apply hidden_spec in H. contradiction.
  Qed.
  Lemma all_file depth src x c rel b : hidden x = false -> is_header x = true -> get s (src ++ [x]) = Some (File c) ->
    all depth src (eq x) rel b <-> rel = [x] /\ b = c.
  Proof.
    intros H I G. split.
    - intros [(ds & y & E & _ & Hn & Gr & Fo & Di) (z & r & F & <-)]. subst rel.
      destruct ds as [|d ds]; cbn in F.
      + injection F as -> <-. cbn in *. split; [reflexivity|congruence].
      + injection F as -> F2. destruct (Di [x] ds eq_refl ltac:(discriminate)) as (D & _). congruence.
    - intros [-> ->]. split; [|eauto]. exists [], x. split; [reflexivity|]. split; [cbn; lia|].
      split; [apply is_header_spec; exact I|]. split; [exact G|]. split.
      + constructor; [|constructor]. intros D. apply hidden_spec in D. congruence.
      + intros d more E N. destruct d; [congruence|discriminate].
  Qed.
  Lemma all_not depth src x rel b :
    (forall c, get s (src ++ [x]) = Some (File c) -> is_header x = false) ->
    (get s (src ++ [x]) = Some Dir -> depth = O \/ foreign s (src ++ [x])) ->
    ~ all depth src (eq x) rel b.
  Proof.
    intros NF ND [(ds & y & E & Le & Hn & Gr & Fo & Di) (z & r & F & <-)]. subst rel.
    destruct ds as [|d ds]; cbn in F.
    - injection F as -> <-. apply NF in Gr. apply is_header_spec in Hn. congruence.
    - injection F as -> F2. destruct (Di [x] ds eq_refl ltac:(discriminate)) as (D & Nf & _).
      destruct (ND D) as [->|Fn]; [cbn in Le; lia|contradiction].
  Qed.
  Lemma all_dir depth src x rel b : hidden x = false -> get s (src ++ [x]) = Some Dir -> ~ foreign s (src ++ [x]) ->
    all (S depth) src (eq x) rel b <-> exists r, rel = x :: r /\ header_of s depth (src ++ [x]) [] r b.
  Proof.
    intros H G NF. split.
    - intros [(ds & y & E & Le & Hn & Gr & Fo & Di) (z & r & F & <-)]. subst rel.
      destruct ds as [|d ds]; cbn in F.
      + injection F as -> <-. cbn in Gr. congruence.
      + injection F as -> F2. exists (ds ++ [y]). split; [reflexivity|].
        exists ds, y. split; [reflexivity|]. split; [cbn in Le; lia|]. split; [exact Hn|].
        split; [rewrite <- app_assoc; exact Gr|]. split; [inversion Fo; auto|].
        intros d more E N. rewrite <- app_assoc. apply (Di (x :: d) more); [rewrite E; reflexivity|discriminate].
    - intros (r & -> & (ds & y & -> & Le & Hn & Gr & Fo & Di)). split; [|eauto].
      exists (x :: ds), y. split; [reflexivity|]. split; [cbn; lia|]. split; [exact Hn|].
      split; [rewrite <- app_assoc in Gr; exact Gr|]. split.
      + constructor; [|exact Fo]. intros D. apply hidden_spec in D. congruence.
      + intros d more E N. destruct d as [|z d]; [congruence|]. cbn in E. injection E as <- E.
        destruct d as [|z d].
        * split; [exact G|]. split; [exact NF|]. destruct src; discriminate.
        * specialize (Di (z :: d) more E ltac:(discriminate)). rewrite <- app_assoc in Di. exact Di.
  Qed.

  Hypothesis way_L : forall a b, L = a ++ b -> b <> [] -> a <> [] -> get s a = Some Dir.
  Lemma effect_stable new dst w w' r0 : dst = L ++ r0 -> (forall b, ~ new [] b) ->
    effect new dst (files w) (files w') -> stable w -> stable w'.
  Proof.
    intros -> NE [F D R] St q Q. rewrite after_none in Q.
    destruct (R q) as [E|[(rel & b & -> & N)|(c & rel & b & Cn & Qn & E & N)]].
    - rewrite E. apply St, after_none. exact Q.
    - elim (Q (r0 ++ rel)). rewrite app_assoc. reflexivity.
    - rewrite (D _ _ _ _ N Qn Cn E).
      rewrite <- app_assoc in E. destruct (prefix_cases _ _ _ _ E) as [(e & E1 & E2)|(e & E1 & E2)].
      + symmetry. apply (way_L q e); auto. intros ->. rewrite app_nil_r in E1. elim (Q []). rewrite app_nil_r. auto.
      + elim (Q e); exact E1.
  Qed.

  Lemma loop_ok depth : 
    (forall d src dst w r0, depth = S d -> dst = L ++ r0 -> after C src = None -> get s src = Some Dir -> stable w -> way_free (files w) dst ->
       (forall x r, get (files w) (dst ++ x :: r) = None) ->
       effect (header_of s d src []) dst (files w) (files (copy_headers faults order d src dst w))) ->
    forall src dst r0 es created w, dst = L ++ r0 -> after C src = None -> NoDup es -> stable w -> way_free (files w) dst ->
      (created = true -> made (files w) dst) ->
      (forall x r, In x es -> get (files w) (dst ++ x :: r) = None) ->
      effect (all depth src (fun x => In x es)) dst (files w) (files (loop depth (copy_headers faults order) src dst es created w)).
  Proof.
    intros REC src dst r0 es. revert dst.
    assert (LN : forall r, L ++ r <> []).
    { intros r E. destruct L eqn:EL; [|discriminate]. unfold L in EL. apply app_eq_nil in EL as [_ EL]. congruence. }
    induction es as [|x es IH]; intros dst created w Hd HC ND St W M FR; cbn [loop].
    - eapply effect_ext; [|apply effect_none]. intros rel b. split; [contradiction|]. intros [_ (x & r & _ & [])].
    - inversion ND as [|? ? NI ND']; subst x0 l.
      assert (JOIN : forall w1 created1,
        effect (all depth src (eq x)) dst (files w) (files w1) ->
        (created1 = true -> made (files w1) dst) ->
        effect (all depth src (fun y => In y (x :: es))) dst (files w)
               (files (loop depth (copy_headers faults order) src dst es created1 w1))).
      { intros w1 created1 EF M1.
        eapply effect_ext; [|eapply effect_join; [| | |exact EF|apply IH]].
        - intros rel b. split.
          + intros [[A (y & r & E & P)]|[A (y & r & E & P)]]; split; auto; exists y, r; split; auto; cbn; auto.
          + intros [A (y & r & E & [P|P])]; [left|right]; split; eauto.
        - intros b. apply all_nil.
        - intros b. apply all_nil.
        - intros y r b y' r' b' [_ (z & q & E & <-)] [_ (z' & q' & E' & I)] F. injection E as <- _. injection E' as <- _.
          subst. contradiction.
        - exact Hd.
        - exact HC.
        - exact ND'.
        - eapply effect_stable; eauto. intros b. apply all_nil.
        - eapply effect_way; [|exact EF|exact W]. intros b. apply all_nil.
        - exact M1.
        - intros y r I. destruct EF as [EF1 EF2 EF3].
          destruct (EF3 (dst ++ y :: r)) as [E|[(rel & b & E & [_ (z & q & Ez & <-)])|(c & rel & b & Cn & Qn & E & [_ (z & q & Ez & <-)])]].
          + rewrite E. apply FR. right; exact I.
          + apply app_inv_head in E. rewrite Ez in E. injection E as E _. subst. contradiction.
          + rewrite <- app_assoc in E. apply app_inv_head in E. rewrite Ez in E. cbn in E. injection E as E _. subst. contradiction. }
      assert (SKIP : forall w1, files w1 = files w -> (forall rel b, ~ all depth src (eq x) rel b) ->
        effect (all depth src (fun y => In y (x :: es))) dst (files w)
               (files (loop depth (copy_headers faults order) src dst es created w1))).
      { intros w1 E N. apply JOIN.
        - rewrite E. eapply effect_ext; [|apply effect_none]. intros rel b. split; [contradiction|apply N].
        - rewrite E. exact M. }
      destruct (hidden x) eqn:Hx.
      { apply SKIP; [reflexivity|]. intros rel b. apply all_hidden; exact Hx. }
      unfold file_type, fault. rewrite fine.
      set (w0 := after_call w (files w)). assert (F0 : files w0 = files w) by reflexivity.
      assert (Gx : get (files w) (src ++ [x]) = get s (src ++ [x])) by (apply St, outside; exact HC).
      destruct (get (files w) (src ++ [x])) as [[c| |l]|] eqn:G.
      + destruct (is_header x) eqn:Ih.
        * destruct (copy_file_ok w0 src dst x c created) as (w1 & E1 & EF & M1).
          { rewrite Hd. apply LN. }
          { exact W. }
          { exact M. }
          { intros r. apply FR. left; reflexivity. }
          { rewrite F0. exact G. }
          rewrite E1. cbn beta iota zeta. apply JOIN; [|intros _; exact M1].
          rewrite F0 in EF. eapply effect_ext; [|exact EF]. intros rel b. symmetry. apply all_file; auto.
        * apply SKIP; [reflexivity|]. intros rel b. apply all_not; [auto|congruence].
      + destruct depth as [|d].
        * apply SKIP; [reflexivity|]. intros rel b. apply all_not; [congruence|auto].
        * unfold path_exists, fault. rewrite fine. fold (exists_ w0 (src ++ [x; "Cargo.toml"])).
          pose proof (foreign_ok w0 src x St HC) as FO.
          destruct (exists_ w0 (src ++ [x; "Cargo.toml"])) eqn:X1.
          { apply SKIP; [reflexivity|]. intros rel b. apply all_not; [congruence|]. intros _. right. apply FO; auto. }
          set (w1 := after_call w0 (files w0)). rewrite fine. fold (exists_ w1 (src ++ [x; "CACHEDIR.TAG"])).
          change (exists_ w1 (src ++ [x; "CACHEDIR.TAG"])) with (exists_ w0 (src ++ [x; "CACHEDIR.TAG"])).
          destruct (exists_ w0 (src ++ [x; "CACHEDIR.TAG"])) eqn:X2.
          { apply SKIP; [reflexivity|]. intros rel b. apply all_not; [congruence|]. intros _. right. apply FO; auto. }
          assert (NF : ~ foreign s (src ++ [x])) by (intros H; apply FO in H as [H|H]; discriminate).
          set (w2 := after_call w1 (files w1)).
          assert (EF : effect (all (S d) src (eq x)) dst (files w) (files (copy_headers faults order d (src ++ [x]) (dst ++ [x]) w2))).
          { eapply effect_ext; [intros rel b; symmetry; apply all_dir; auto|].
            apply effect_sub. apply (REC d _ _ w2 (r0 ++ [x])); auto.
            - rewrite Hd, <- app_assoc. reflexivity.
            - apply after_none. intros r E. destruct r as [|y r].
              + apply NF. rewrite E, app_nil_r. right. exact tagged.
              + destruct (exists_last (l := y :: r) ltac:(discriminate)) as (r' & z & R). rewrite R, app_assoc in E.
                apply app_inj_tail in E as [E _]. rewrite after_none in HC. eapply HC; eauto.
            - intros a b E N. destruct b as [|y b].
              + rewrite app_nil_r in E. subst a. left. apply (FR x []). left; reflexivity.
              + destruct (exists_last (l := y :: b) ltac:(discriminate)) as (b' & z & R). rewrite R, app_assoc in E.
                apply app_inj_tail in E as [E _]. eapply W; eauto.
            - intros y r. rewrite <- app_assoc. apply FR. left; reflexivity. }
          apply JOIN; [exact EF|]. intros Ct. intros a c E N.
          destruct EF as [EF1 EF2 EF3]. destruct (EF3 a) as [E3|[(rel & b & E3 & A3)|(c3 & rel & b & Cn & Qn & E3 & A3)]].
          { rewrite E3. eapply M; eauto. }
          { exfalso. subst a. rewrite <- app_assoc in E. rewrite <- (app_nil_r dst) in E at 1. apply app_inv_head in E.
            destruct rel; [elim (all_nil _ _ _ _ A3)|discriminate]. }
          { exact (EF2 _ _ _ _ A3 Qn Cn E3). }
      + apply SKIP; [reflexivity|]. intros rel b. apply all_not; congruence.
      + apply SKIP; [reflexivity|]. intros rel b. apply all_not; congruence.
  Qed.

  Lemma header_first depth src rel b : header_of s depth src [] rel b ->
    exists x r, rel = x :: r /\ get s (src ++ [x]) <> None.
  Proof.
    intros (ds & y & -> & _ & _ & G & _ & Di). destruct ds as [|d ds].
    - exists y, []. split; [reflexivity|]. cbn in G. congruence.
    - exists d, (ds ++ [y]). split; [reflexivity|].
      destruct (Di [d] ds eq_refl ltac:(discriminate)) as (D & _). congruence.
  Qed.

  Lemma copy_headers_ok depth : forall src dst w r0, dst = L ++ r0 -> after C src = None -> get s src = Some Dir -> stable w -> way_free (files w) dst ->
    (forall x r, get (files w) (dst ++ x :: r) = None) ->
    effect (header_of s depth src []) dst (files w) (files (copy_headers faults order depth src dst w)).
  Proof.
    induction depth as [|d IH]; intros src dst w r0 Hd HC SD St W FR; rewrite copy_headers_eq; unfold read_dir, fault; rewrite fine.
    all: assert (SD' : get (files w) src = Some Dir) by (rewrite St; [exact SD|apply outside_src; exact HC]); rewrite SD'.
    all: destruct (listed src (children (files w) src)) as [ND LI].
    all: match goal with |- effect _ _ _ (files (loop ?d _ _ _ _ _ ?w1)) => set (w0 := w1) end.
    all: change (files w) with (files w0).
    all: eapply effect_ext; [|eapply loop_ok with (r0 := r0)]; auto; try discriminate.
    all: try (intros rel b; split; [intros [Hh _]; exact Hh|]; intros Hh; split; [exact Hh|];
      destruct (header_first _ _ _ _ Hh) as (x & r & -> & G); exists x, r; split; [reflexivity|];
      apply LI, in_children; rewrite St; [exact G|apply outside; exact HC]).
    intros d0 src' dst' w' r' E. injection E as <-. apply IH.
  Qed.
End NoFaults.
