(** String helpers shared by several models: splitting and joining on a
    separator, ASCII case folding, prefixes.  Only general facts about strings;
    no definition here models code of the repository on its own. *)
From Verif Require Import Base.

(** Does the character occur in the string? *)
Fixpoint has_char (c : ascii) (s : string) : bool :=
  match s with
  | EmptyString => false
  | String a r => Ascii.eqb a c || has_char c r
  end.

(** str::split(c): always at least one piece. *)
Fixpoint split_on (c : ascii) (s : string) : list string :=
  match s with
  | EmptyString => [EmptyString]
  | String a r =>
      if Ascii.eqb a c then EmptyString :: split_on c r
      else match split_on c r with
           | [] => [String a EmptyString]
           | p :: ps => String a p :: ps
           end
  end.

(** [T]::join with a one character separator. *)
Fixpoint join_with (c : ascii) (l : list string) : string :=
  match l with
  | [] => EmptyString
  | [s] => s
  | s :: r => (s ++ String c (join_with c r))%string
  end.

(** str::strip_prefix *)
Fixpoint strip_prefix (p s : string) : option string :=
  match p, s with
  | EmptyString, _ => Some s
  | String a p', String b s' => if Ascii.eqb a b then strip_prefix p' s' else None
  | String _ _, EmptyString => None
  end.

(** u8::to_ascii_lowercase / to_ascii_uppercase *)
Definition lower (c : ascii) : ascii :=
  let n := N_of_ascii c in
  if (N.leb 65 n && N.leb n 90)%bool then ascii_of_N (n + 32) else c.
Definition upper (c : ascii) : ascii :=
  let n := N_of_ascii c in
  if (N.leb 97 n && N.leb n 122)%bool then ascii_of_N (n - 32) else c.

Fixpoint smap (f : ascii -> ascii) (s : string) : string :=
  match s with
  | EmptyString => EmptyString
  | String a r => String (f a) (smap f r)
  end.

Lemma strip_prefix_app p s : strip_prefix p (p ++ s)%string = Some s.
Proof. induction p; simpl; [destruct s; reflexivity|]. now rewrite Ascii.eqb_refl. Qed.

Lemma strip_prefix_inv p s r : strip_prefix p s = Some r -> s = (p ++ r)%string.
Proof.
  revert s; induction p as [|a p IH]; intros s; simpl.
  - intros H; injection H; auto.
  - destruct s as [|b s]; [discriminate|].
    destruct (Ascii.eqb_spec a b); [subst|discriminate].
    intros H. now rewrite (IH _ H).
Qed.

Lemma split_on_ne c s : split_on c s <> [].
Proof.
  destruct s as [|a r]; simpl; [discriminate|].
  destruct (Ascii.eqb a c); [discriminate|].
  destruct (split_on c r); discriminate.
Qed.

Lemma split_on_none c s : has_char c s = false -> split_on c s = [s].
Proof.
  induction s as [|a r IH]; simpl; [reflexivity|].
  intros H; apply orb_false_elim in H as [H1 H2].
  rewrite H1, (IH H2). reflexivity.
Qed.

Lemma split_on_app c s r :
  has_char c s = false -> split_on c (s ++ String c r)%string = s :: split_on c r.
Proof.
  induction s as [|a s IH]; simpl.
  - now rewrite Ascii.eqb_refl.
  - intros H; apply orb_false_elim in H as [H1 H2].
    rewrite H1, (IH H2). reflexivity.
Qed.

Lemma split_join c l :
  l <> [] -> (forall s, In s l -> has_char c s = false) -> split_on c (join_with c l) = l.
Proof.
  induction l as [|s l IH]; [congruence|].
  intros _ H. destruct l as [|s' l].
  - simpl. apply split_on_none, H. left; reflexivity.
  - change (join_with c (s :: s' :: l)) with (s ++ String c (join_with c (s' :: l)))%string.
    rewrite split_on_app; [|apply H; left; reflexivity].
    f_equal. apply IH; [discriminate|]. intros x Hx. apply H. now right.
Qed.

Lemma join_split c s : join_with c (split_on c s) = s.
Proof.
  induction s as [|a r IH]; [reflexivity|]. cbn [split_on].
  destruct (Ascii.eqb_spec a c).
  - subst a. pose proof (split_on_ne c r). destruct (split_on c r) as [|x xs] eqn:E; [congruence|].
    change (join_with c ("" :: x :: xs)) with (String c (join_with c (x :: xs))). now rewrite IH.
  - pose proof (split_on_ne c r). destruct (split_on c r) as [|x xs] eqn:E; [congruence|].
    destruct xs as [|y ys]; cbn in IH |- *; now rewrite IH.
Qed.

Lemma join_inj c l l' :
  l <> [] -> l' <> [] ->
  (forall s, In s l -> has_char c s = false) -> (forall s, In s l' -> has_char c s = false) ->
  join_with c l = join_with c l' -> l = l'.
Proof.
  intros N N' H H' E.
  rewrite <- (split_join c l N H), <- (split_join c l' N' H'). now rewrite E.
Qed.

Lemma smap_app f s t : smap f (s ++ t)%string = (smap f s ++ smap f t)%string.
Proof. induction s; simpl; [reflexivity|now rewrite IHs]. Qed.

Lemma smap_smap f g s : smap f (smap g s) = smap (fun c => f (g c)) s.
Proof. induction s; simpl; [reflexivity|now rewrite IHs]. Qed.

Lemma smap_ext f g s : (forall c, f c = g c) -> smap f s = smap g s.
Proof. intros H; induction s; simpl; [reflexivity|now rewrite H, IHs]. Qed.

Lemma has_char_app c s t : has_char c (s ++ t)%string = has_char c s || has_char c t.
Proof. induction s; simpl; [reflexivity|]. now rewrite IHs, orb_assoc. Qed.

Lemma append_nil_r s : (s ++ "")%string = s.
Proof. induction s; simpl; [reflexivity|now rewrite IHs]. Qed.

Lemma append_assoc s t u : ((s ++ t) ++ u)%string = (s ++ (t ++ u))%string.
Proof. induction s; simpl; [reflexivity|now rewrite IHs]. Qed.

Lemma append_cancel_l p s t : (p ++ s)%string = (p ++ t)%string -> s = t.
Proof. induction p; simpl; [auto|]. intros H; injection H; auto. Qed.

(** Lower-casing forgets what upper-casing did; checked on all 256 bytes. *)
Lemma lower_upper c : lower (upper c) = lower c.
Proof. destruct c as [[|] [|] [|] [|] [|] [|] [|] [|]]; vm_compute; reflexivity. Qed.

Lemma upper_lower c : upper (lower c) = upper c.
Proof. destruct c as [[|] [|] [|] [|] [|] [|] [|] [|]]; vm_compute; reflexivity. Qed.
