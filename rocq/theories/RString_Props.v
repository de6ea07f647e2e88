(** C48: rust::String in C++ has value semantics and owns its buffer. *)
From Verif Require Import Base Store_Lib RString_Model RString_Spec RString_Proofs.
Require Import NArith Lia.

(** the buffers the variables point to *)
Definition buffers (e : list (nat * repr)) : list nat :=
  flat_map (fun p => match buf (snd p) with Some a => [a] | None => [] end) e.

Lemma owned_buffers (m : list (nat * (repr * option (list N)))) : forall s, contents m = map (fun p => (fst p, Some (snd p))) s ->
  owned r_own m = buffers (reprs m) /\ map fst (reprs m) = map fst s.
Proof.
  induction m as [|[x [r o]] m IH]; intros [|[y t] s] C; cbn in C; try discriminate.
  - auto.
  - injection C as -> E C. subst o. destruct (IH s C) as [A B]. split.
    + change (owned r_own ((y, (r, Some t)) :: m)) with (r_own r ++ owned r_own m). rewrite A. reflexivity.
    + cbn. now f_equal.
Qed.

(** Every program does what it does on texts: never undefined behaviour, the same observations
    in the same order; at every point each buffer that is not freed belongs to exactly one
    string, so once all strings are destroyed all buffers are freed. *)
Theorem C48_value_semantics : forall slack valid ops,
  match run slack valid ops ([], []) with
  | (UB, _) => False
  | (Illegal, t) => spec_run valid ops [] = (Illegal, t)
  | (Ok (h, e) o, t) =>
      exists s, spec_run valid ops [] = (Ok s o, t)
        /\ map fst e = map fst s
        /\ NoDup (buffers e)
        /\ (forall a, cell h a <> None <-> In a (buffers e))
        /\ (s = [] -> forall a, cell h a = None)
  end.
Proof.
  intros slack valid ops. pose proof (run_ok slack valid ops _ _ rel_init) as R.
  destruct (run slack valid ops ([], [])) as [[| |[h e] o] t]; auto.
  destruct R as (s & E & m & EM & I & C). cbn [fst] in *. injection EM as ->. exists s. split; auto.
  destruct (owned_buffers m s C) as [OB KS]. destruct I as [O N A]. rewrite OB in *.
  assert (LV : forall a, In a (buffers (reprs m)) -> cell h a <> None).
  { intros a J. rewrite <- OB in J. eapply (inv_live r_own r_ok r_ok_live h m); [|exact J]. constructor; auto; rewrite OB; auto. }
  repeat split; auto. intros -> a. destruct m; [|discriminate]. destruct (cell h a) eqn:EC; auto. exfalso. apply (A a). congruence.
Qed.

(** After reserve(n), the capacity is at least n and the text is as before. *)
Theorem C48_reserve : forall slack valid ops h e o t x n st,
  run slack valid ops ([], []) = (Ok (h, e) o, t) ->
  reserve slack x n (h, e) = Some st ->
  (exists r, lookup x (snd st) = Some r /\ n <= cap r) /\ text x st = text x (h, e).
Proof.
  intros slack valid ops h e o t x n st RU RS. pose proof (run_ok slack valid ops _ _ rel_init) as R. rewrite RU in R.
  destruct R as (s & _ & m & EM & I & C). cbn [fst] in *. injection EM as ->.
  unfold reserve, string_reserve_total in RS.
  destruct (lookup x (reprs m)) as [r0|] eqn:L; [|discriminate].
  assert (LM : exists txt, lookup x m = Some (r0, Some txt)).
  { pose proof (contents_lookup m x) as Q. rewrite C, some_lookup in Q.
    unfold reprs in L. rewrite (map_lookup (fun s : repr * option (list N) => fst s)) in L.
    destruct (lookup x m) as [[r1 o1]|]; cbn in *; [|discriminate]. injection L as ->.
    destruct (lookup x s); cbn in Q; [|discriminate]. injection Q as <-. eauto. }
  destruct LM as (txt & LM). pose proof (inv_lookup _ _ _ _ _ _ _ I LM) as O1.
  assert (T0 : text x (h, reprs m) = Some txt) by (unfold text; cbn; rewrite L; now apply bytes_ok).
  destruct (Nat.ltb_spec (cap r0) n).
  - destruct (P_reserve slack valid h m x r0 txt (n - len r0) I LM) as (r2 & h2 & E & J & CA).
    rewrite E in RS. injection RS as <-. cbn [snd].
    assert (L2 : lookup x (set x (r2, Some txt) m) = Some (r2, Some txt)) by (apply lookup_set_same; congruence).
    pose proof (inv_lookup _ _ _ _ _ _ _ J L2) as O2.
    split.
    + exists r2. rewrite (reprs_lookup _ _ _ L2). split; auto. pose proof (r_ok_len _ _ _ O1). pose proof (r_ok_len _ _ _ O2).
      pose proof (r_ok_cap _ _ _ O2). pose proof (r_ok_cap _ _ _ O1). lia.
    + rewrite T0. unfold text. cbn [snd fst]. rewrite (reprs_lookup _ _ _ L2). now apply bytes_ok.
  - injection RS as <-. cbn [snd]. eauto.
Qed.

(** Copies, self-assignments both ways, a rejected text, growth, c_str and destruction. *)
Definition history : list op :=
  [FromBytes 0 [104; 105]%N; FromBytes 9 [255]%N; Copy 1 0; Write 1 0 72%N; CStr 1; Move 2 0; Assign 2 2; Text 2; Text 0;
   Append 2 [33; 33]%N; Swap 1 2; Text 1; Assign 0 1; MoveAssign 2 2; Text 2; MoveAssign 1 0; Text 1; Reserve 2 10;
   CStr 2; Destroy 0; Destroy 1; Destroy 2].
Example C48_nonvacuous :
  let valid := forallb (fun b => N.ltb b 128) in
  exists h o, run (fun n => n) valid history ([], []) =
    (Ok (h, []) o, [Done; Thrown; Done; Done; Bytes [72; 105; 0]%N; Done; Done; Bytes [104; 105]%N; Bytes []; Done; Done; Bytes [104; 105; 33; 33]%N;
      Done; Done; Bytes []; Done; Bytes [104; 105; 33; 33]%N; Done; Bytes [0]%N; Done; Done; Done])
  /\ List.length h = 6 /\ (forall a, cell h a = None).
Proof.
  cbv zeta. eexists. eexists. split; [vm_compute; reflexivity|]. split; [reflexivity|].
  intros a. do 6 (destruct a as [|a]; [reflexivity|]). destruct a; reflexivity.
Qed.
Example C48_reserve_nonvacuous : exists h e o t st,
  run (fun _ => 0) (fun _ => true) [FromBytes 0 [104; 105]%N] ([], []) = (Ok (h, e) o, t) /\ reserve (fun _ => 0) 0 7 (h, e) = Some st.
Proof. do 5 eexists. split; vm_compute; reflexivity. Qed.

Print Assumptions C48_value_semantics.
Print Assumptions C48_reserve.
