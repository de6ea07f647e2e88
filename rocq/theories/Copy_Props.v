(** C100: where symbolic links cannot be made, the headers of a crate are copied. *)
From Verif Require Import Base Copy_Model Copy_Spec Copy_Proofs Copy_Proofs2.

(** Without failing system calls, whatever was there before: the directory given to the compiler is made, and below
    the include prefix it has exactly the headers of the package, with their present content, and the directories
    on the way to them.  In particular nothing of an earlier copy is left, and the copy is not part of the copy. *)
Theorem C100_copied : forall faults order s clock tag manifest out prefix,
  (forall n, faults n = O) -> lists order -> sane s -> out <> [] ->
  prefix <> [] -> hd "" prefix <> "CACHEDIR.TAG" ->
  free_way s out (["cxxbridge"; "crate"] ++ prefix) ->
  get s manifest = Some Dir -> (forall r, manifest <> out ++ ["cxxbridge"; "crate"] ++ r) ->
  let '(w, include) := make_crate_dir faults order tag manifest out prefix (World s clock) in
  include = out ++ ["cxxbridge"; "crate"] /\
  (forall rel b, get (files w) (include ++ prefix ++ rel) = Some (File b) <-> header_of s 6 manifest include rel b) /\
  (forall rel, get (files w) (include ++ prefix ++ rel) = Some Dir <->
     exists more b, more <> [] /\ header_of s 6 manifest include (rel ++ more) b) /\
  (forall rel l, get (files w) (include ++ prefix ++ rel) <> Some (Link l)).
Proof.
  intros faults order s clock tag manifest out prefix fine listed Sa On Pn Pt Fr Md Mo.
  assert (Pt' : forall r, prefix <> "CACHEDIR.TAG" :: r) by (intros r ->; apply Pt; reflexivity).
  assert (Mo' : after (out ++ ["cxxbridge"; "crate"]) manifest = None).
  { apply after_none. intros r. rewrite <- app_assoc. apply Mo. }
  destruct (make_ok faults order fine listed s out prefix manifest tag Sa Pn Pt' Fr Md Mo' clock) as (s1 & R & [EF ED ER] & I).
  destruct (make_crate_dir faults order tag manifest out prefix (World s clock)) as [w include]. cbn [fst snd] in *. subst include.
  destruct R as [_ _ RG _ _].
  assert (LN : forall rel : name, (out ++ ["cxxbridge"; "crate"]) ++ prefix ++ rel <> []).
  { intros rel E. apply app_eq_nil in E as [E _]. apply app_eq_nil in E as [_ E]. discriminate. }
  split; [reflexivity|]. split; [|split].
  - intros rel b. split.
    + intros G. destruct (ER ((out ++ ["cxxbridge"; "crate"]) ++ prefix ++ rel)) as [E|[(rel' & b' & E & H)|(c & rel' & b' & Cn & Qn & E & H)]].
      * rewrite G, app_assoc, RG in E. discriminate.
      * rewrite app_assoc in E. apply app_inv_head in E as <-. pose proof (EF _ _ H) as G'.
        rewrite <- app_assoc, G in G'. injection G' as <-. exact H.
      * rewrite (ED _ _ _ _ H Qn Cn E) in G. discriminate.
    + intros H. rewrite app_assoc. apply EF. exact H.
  - intros rel. split.
    + intros G. destruct (ER ((out ++ ["cxxbridge"; "crate"]) ++ prefix ++ rel)) as [E|[(rel' & b' & E & H)|(c & rel' & b' & Cn & Qn & E & H)]].
      * rewrite G, app_assoc, RG in E. discriminate.
      * rewrite E, (EF _ _ H) in G. discriminate.
      * exists c, b'. split; [exact Cn|]. rewrite <- !app_assoc in E. do 3 apply app_inv_head in E. subst rel'. exact H.
    + intros (more & b & N & H). apply (ED _ more _ _ H); auto. rewrite <- !app_assoc. reflexivity.
  - intros rel l G. destruct (ER ((out ++ ["cxxbridge"; "crate"]) ++ prefix ++ rel)) as [E|[(rel' & b' & E & H)|(c & rel' & b' & Cn & Qn & E & H)]].
    + rewrite G, app_assoc, RG in E. discriminate.
    + rewrite E, (EF _ _ H) in G. discriminate.
    + rewrite (ED _ _ _ _ H Qn Cn E) in G. discriminate.
Qed.
Print Assumptions C100_copied.

(** Whatever fails, and whatever is there: nothing changes outside of the directory for the copy, but for the one
    around it being made. *)
Theorem C100_outside : forall faults order s clock tag manifest out prefix,
  sane s -> out <> [] -> get s out = Some Dir ->
  forall q, (forall r, q <> out ++ ["cxxbridge"; "crate"] ++ r) ->
  let s' := files (fst (make_crate_dir faults order tag manifest out prefix (World s clock))) in
  get s' q = get s q \/ q = out ++ ["cxxbridge"] /\ get s q = None /\ get s' q = Some Dir.
Proof.
  intros faults order s clock tag manifest out prefix Sa On Od q Q s'.
  apply (make_kept faults order s out Sa Od tag manifest prefix clock).
  apply after_none. intros r. rewrite <- app_assoc. apply Q.
Qed.
Print Assumptions C100_outside.

(** ** A package with headers, generated files, a hidden directory, another package in it and old copies *)
Definition some_files : fs :=
  [ ([], Dir); (["p"], Dir); (["p"; "Cargo.toml"], File []); (["p"; "a.h"], File ["a"%char]);
    (["p"; "lib.rs"], File []); (["p"; "include"], Dir); (["p"; "include"; "b.hpp"], File ["b"%char]);
    (["p"; "include"; "c.hxx"], File ["c"%char]); (["p"; ".git"], Dir); (["p"; ".git"; "d.h"], File ["d"%char]);
    (["p"; "sub"], Dir); (["p"; "sub"; "Cargo.toml"], File []); (["p"; "sub"; "e.h"], File ["e"%char]);
    (["p"; "link.h"], Link true);
    (["p"; "out"], Dir); (["p"; "out"; "f.hh"], File ["f"%char]);
    (["p"; "out"; "cxxbridge"], Dir); (["p"; "out"; "cxxbridge"; "crate"], Dir);
    (["p"; "out"; "cxxbridge"; "crate"; "pre"], Dir); (["p"; "out"; "cxxbridge"; "crate"; "pre"; "old.h"], File ["o"%char]) ].
Definition no_faults (n : nat) : nat := O.
Definition in_turn (d : name) (l : list string) : list string := nodup string_dec l.
Definition made_copy : fs := files (fst (make_crate_dir no_faults in_turn ["t"%char] ["p"] ["p"; "out"] ["pre"] (World some_files 0))).
Lemma in_turn_lists : lists in_turn.
Proof. intros d l. split; [apply NoDup_nodup|]. intros x. apply nodup_In. Qed.
Lemma get_some s q n : get s q = Some n -> In (q, n) s.
Proof.
  induction s as [|[r m] s IH]; cbn; [discriminate|]. destruct (name_eqb q r) eqn:E.
  - intros F; injection F as ->. apply name_eqb_spec in E as ->. auto.
  - intros F. right. apply IH, F.
Qed.
Definition placed (s : fs) (q : name) : bool :=
  match removelast q with [] => true | d => match get s d with Some Dir => true | _ => false end end.
Lemma sane_check s : forallb (fun e => placed s (fst e)) s = true -> sane s.
Proof.
  intros H d x n G. rewrite forallb_forall in H. specialize (H _ (get_some _ _ _ G)). cbn [fst] in H.
  unfold placed in H. rewrite removelast_last in H. destruct d as [|y d]; auto.
  destruct (get s (y :: d)) as [[b| |l]|]; try discriminate. auto.
Qed.
Example some_files_sane : sane some_files.
Proof. apply sane_check. vm_compute. reflexivity. Qed.
Example some_way_free : free_way some_files ["p"; "out"] (["cxxbridge"; "crate"] ++ ["pre"]).
Proof.
  split; [reflexivity|]. intros a b E N. cbn in E.
  destruct a as [|x [|y [|z a]]]; cbn in E.
  - right. reflexivity.
  - injection E as <- _. right. reflexivity.
  - injection E as <- <- _. right. reflexivity.
  - injection E as <- <- <- E. symmetry in E. apply app_eq_nil in E as [_ E]. congruence.
Qed.
Example some_copy :
  get made_copy ["p"; "out"; "cxxbridge"; "crate"; "pre"; "a.h"] = Some (File ["a"%char]) /\
  get made_copy ["p"; "out"; "cxxbridge"; "crate"; "pre"; "include"; "b.hpp"] = Some (File ["b"%char]) /\
  get made_copy ["p"; "out"; "cxxbridge"; "crate"; "pre"; "out"; "f.hh"] = Some (File ["f"%char]) /\
  get made_copy ["p"; "out"; "cxxbridge"; "crate"; "pre"; "out"; "cxxbridge"] = None /\
  get made_copy ["p"; "out"; "cxxbridge"; "crate"; "pre"; "old.h"] = None /\
  get made_copy ["p"; "out"; "cxxbridge"; "crate"; "CACHEDIR.TAG"] = Some (File ["t"%char]).
Proof. repeat split; vm_compute; reflexivity. Qed.
(** The first copy fails half way *)
Example some_fault :
  let w := fst (make_crate_dir (fun n => if Nat.eqb n 12 then 2%nat else O) in_turn ["t"%char] ["p"] ["p"; "out"] ["pre"] (World some_files 0)) in
  get (files w) ["p"; "a.h"] = Some (File ["a"%char]) /\ files w <> made_copy.
Proof. split; [vm_compute; reflexivity|]. vm_compute. discriminate. Qed.

(** ** What is lost *)
(** With a link, whatever is in the package can be included.  In the copy, other files are missing: those with
    another extension, hidden ones, those of packages inside the package, links, and those too deep. *)
Theorem C100_claim_refuted : exists faults order s tag manifest out prefix,
  (forall n, faults n = O) /\ lists order /\ sane s /\ free_way s out (["cxxbridge"; "crate"] ++ prefix) /\
  get s manifest = Some Dir /\
  let '(w, include) := make_crate_dir faults order tag manifest out prefix (World s 0) in
  exists rel b, get s (manifest ++ rel) = Some (File b) /\ get (files w) (include ++ prefix ++ rel) = None.
Proof.
  exists no_faults, in_turn, some_files, ["t"%char], ["p"], ["p"; "out"], ["pre"].
  split; [reflexivity|]. split; [apply in_turn_lists|]. split; [apply some_files_sane|]. split; [apply some_way_free|].
  split; [reflexivity|]. vm_compute. exists ["include"; "c.hxx"], ["c"%char]. split; reflexivity.
Qed.
Print Assumptions C100_claim_refuted.
