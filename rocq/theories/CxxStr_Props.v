(** C40: let_cxx_string destroys only initialised strings.  C67: CxxString is a byte string. *)
From Verif Require Import Base CxxStr_Model.
Require Import NArith Lia.

(** * C67 *)

(** What the operations should do to the text and what they should return *)
Definition before_nul (l : list byte) : list byte :=
  fold_right (fun b r => if N.eqb b 0 then [] else b :: r) [] l.
Definition spec_step (o : sop) (t : list byte) : list byte * sobs :=
  match o with
  | Len => (t, OLen (List.length t))
  | IsEmpty => (t, OBool match t with [] => true | _ => false end)
  | AsBytes => (t, OBytes t)
  | AsCStr => (t, OBytes (before_nul t))
  | Clear => ([], ODone)
  | Reserve _ => (t, ODone)
  | Push l | PushStr l => (t ++ l, ODone)
  end.

(** the texts of valid strings *)
Definition is_text (s : cxx_string) (t : list byte) : Prop := buffer s = t ++ [0%N] /\ length s = List.length t.

Lemma text_of_make t c : text_of (make t c) = t.
Proof. unfold text_of, make. cbn. rewrite firstn_app, firstn_all, Nat.sub_diag. cbn. apply app_nil_r. Qed.
Lemma text_of_is s t : is_text s t -> text_of s = t.
Proof. intros [B L]. unfold text_of. rewrite B, L, firstn_app, firstn_all, Nat.sub_diag. cbn. apply app_nil_r. Qed.
Lemma until_nul_text t : until_nul (t ++ [0%N]) = Val (before_nul t).
Proof.
  induction t as [|b t IH]; [reflexivity|]. cbn [app until_nul before_nul fold_right].
  destruct (N.eqb b 0); [reflexivity|]. now rewrite IH.
Qed.

Lemma as_bytes_text s t : is_text s t -> r_as_bytes s = Val t.
Proof.
  intros [B L]. unfold r_as_bytes, cxx_data, r_len, cxx_length. rewrite B, L.
  replace (Nat.leb _ _) with true by (symmetry; apply Nat.leb_le; rewrite app_length; lia).
  f_equal. rewrite firstn_app, firstn_all, Nat.sub_diag. cbn. apply app_nil_r.
Qed.

Lemma step_text choose max o s t : is_text s t ->
  match step choose max o s with
  | Val (s', ob) => is_text s' (fst (spec_step o t)) /\ ob = snd (spec_step o t) /\
      match o with Reserve n => (N.of_nat (List.length t) + n <= capacity s')%N | _ => True end
  | Panics => exists n, o = Reserve n /\ (usize_max < N.of_nat (List.length t) + n)%N
  | Abort => match o with
             | Reserve n => (max < N.of_nat (List.length t) + n <= usize_max)%N
             | Push l | PushStr l => (max < N.of_nat (List.length t + List.length l))%N
             | _ => False
             end
  | UB => False
  end.
Proof.
  intros H. pose proof H as [B L].
  assert (PU : forall l, match map_out (fun s => (s, ODone)) (r_push_bytes choose max s l) with
     | Val (s', ob) => is_text s' (t ++ l) /\ ob = ODone /\ True
     | Panics => False
     | Abort => (max < N.of_nat (List.length t + List.length l))%N
     | UB => False end).
  { intros l. unfold r_push_bytes, cxx_push. rewrite (text_of_is _ _ H), app_length.
    destruct (N.leb_spec (N.of_nat (List.length t + List.length l)) max) as [Q|Q]; cbn; [|exact Q].
    repeat split. }
  destruct o; cbn [step spec_step fst snd].
  - split; [exact H|]. split; [|exact I]. unfold r_len, cxx_length. now rewrite L.
  - split; [exact H|]. split; [|exact I]. unfold r_is_empty, r_len, cxx_length. rewrite L. now destruct t.
  - rewrite (as_bytes_text _ _ H). cbn. auto.
  - unfold r_as_c_str, cxx_data. rewrite B, until_nul_text. cbn. auto.
  - cbn. repeat split.
  - unfold r_reserve, r_len, cxx_length, cxx_reserve_total. rewrite L.
    destruct (N.leb_spec (N.of_nat (List.length t) + additional) usize_max) as [Q|Q]; [|cbn; eauto].
    destruct (N.leb_spec (N.of_nat (List.length t) + additional) max) as [Q'|Q']; cbn; [|lia].
    split; [split; [exact B|reflexivity]|]. split; [reflexivity|]. unfold need.
    lia.
  - specialize (PU bytes). destruct (map_out _ _) as [[s' ob]| | |]; auto. destruct PU.
  - unfold r_push_str. specialize (PU bytes). destruct (map_out _ _) as [[s' ob]| | |]; auto. destruct PU.
Qed.

(** From construction on, every history of operations sees a byte string: lengths, contents,
    the part before the first NUL; no history has undefined behaviour, only [reserve] can
    panic, exactly as documented, and the program only aborts if the string would become larger
    than the standard library supports. *)
Fixpoint spec_run (ops : list sop) (t : list byte) : list byte * list sobs :=
  match ops with
  | [] => (t, [])
  | o :: ops => let '(t, ob) := spec_step o t in let '(t, l) := spec_run ops t in (t, ob :: l)
  end.
Fixpoint run (choose : N -> N -> N) (max : N) (ops : list sop) (s : cxx_string) : outcome (cxx_string * list sobs) :=
  match ops with
  | [] => Val (s, [])
  | o :: ops => match step choose max o s with
                | Val (s, ob) => map_out (fun '(s, l) => (s, ob :: l)) (run choose max ops s)
                | Panics => Panics | Abort => Abort | UB => UB
                end
  end.
Theorem C67_byte_string : forall choose max bytes ops s,
  cxx_init choose max bytes = Some s ->
  match run choose max ops s with
  | Val (s', obs) => text_of s' = fst (spec_run ops bytes) /\ obs = snd (spec_run ops bytes)
  | Panics => exists before n after, ops = before ++ Reserve n :: after /\
                (usize_max < N.of_nat (List.length (fst (spec_run before bytes))) + n)%N
  | Abort => exists before o after, ops = before ++ o :: after /\
                let len := N.of_nat (List.length (fst (spec_run before bytes))) in
                match o with
                | Reserve n => (max < len + n)%N
                | Push l | PushStr l => (max < len + N.of_nat (List.length l))%N
                | _ => False
                end
  | UB => False
  end.
Proof.
  intros choose max bytes ops s E.
  assert (H : is_text s bytes).
  { unfold cxx_init in E. destruct (N.leb _ max); inversion E; subst. now split. }
  clear E. revert s bytes H. induction ops as [|o ops IH]; intros s t H; cbn [run].
  - split; [now apply text_of_is|reflexivity].
  - pose proof (step_text choose max o s t H) as S. cbn [spec_run].
    destruct (step choose max o s) as [[s' ob]| | |].
    + destruct S as (H' & -> & _). destruct (spec_step o t) as [t' ob] eqn:SS. cbn [fst snd] in *.
      specialize (IH s' t' H'). destruct (run choose max ops s') as [[s2 l]| | |]; cbn [map_out].
      * destruct (spec_run ops t') as [t2 l2]. cbn [fst snd] in *. destruct IH as [A ->]. auto.
      * destruct IH as (b & n & a & -> & Q). exists (o :: b), n, a. split; [reflexivity|]. cbn [spec_run]. rewrite SS.
        destruct (spec_run b t'). exact Q.
      * destruct IH as (b & o' & a & -> & Q). exists (o :: b), o', a. split; [reflexivity|]. cbn [spec_run]. rewrite SS.
        destruct (spec_run b t'). exact Q.
      * exact IH.
    + destruct S as (n & -> & Q). exists [], n, ops. auto.
    + exists [], o, ops. split; [reflexivity|]. cbn [spec_run fst]. destruct o; try exact S; try (destruct S; lia); lia.
    + exact S.
Qed.
Print Assumptions C67_byte_string.

(** Reserving makes room for that many more bytes. *)
Theorem C67_reserve : forall choose max bytes s n s',
  cxx_init choose max bytes = Some s -> r_reserve choose max s n = Val s' ->
  (N.of_nat (List.length bytes) + n <= capacity s')%N /\ text_of s' = bytes.
Proof.
  intros choose max bytes s n s' E R.
  assert (H : is_text s bytes).
  { unfold cxx_init in E. destruct (N.leb _ max); inversion E; subst. now split. }
  pose proof (step_text choose max (Reserve n) s bytes H) as S. cbn [step] in S. rewrite R in S. cbn in S.
  destruct S as (A & _ & B). split; [exact B|]. now apply text_of_is.
Qed.
Print Assumptions C67_reserve.

(** The order of CxxStrings is the lexicographic order of their bytes: the first difference
    decides, a proper prefix comes first. *)
Theorem C67_order : forall s t a b,
  is_text s a -> is_text t b ->
  exists c, r_cmp s t = Val c /\
    match c with
    | Eq => a = b
    | Lt => exists p x r, b = p ++ x :: r /\ (a = p \/ exists y r', a = p ++ y :: r' /\ (y < x)%N)
    | Gt => exists p x r, a = p ++ x :: r /\ (b = p \/ exists y r', b = p ++ y :: r' /\ (y < x)%N)
    end.
Proof.
  intros s t a b A B.
  unfold r_cmp. rewrite (as_bytes_text _ _ A), (as_bytes_text _ _ B). eexists. split; [reflexivity|]. clear.
  revert b. induction a as [|x a IH]; intros [|y b]; cbn [bytes_cmp].
  - reflexivity.
  - exists [], y, b. auto.
  - exists [], x, a. auto.
  - destruct (N.compare_spec x y) as [->|L|L].
    + specialize (IH b). destruct (bytes_cmp a b).
      * now rewrite IH.
      * destruct IH as (p & z & r & -> & [->|(w & r' & -> & L)]); exists (y :: p), z, r; split; auto. right. exists w, r'. auto.
      * destruct IH as (p & z & r & -> & [->|(w & r' & -> & L)]); exists (y :: p), z, r; split; auto. right. exists w, r'. auto.
    + exists [], y, b. split; [reflexivity|]. right. exists x, a. auto.
    + exists [], x, a. split; [reflexivity|]. right. exists y, b. auto.
Qed.
Print Assumptions C67_order.

Example C67_nonvacuous : exists s,
  cxx_init (fun n _ => 2 * n)%N 1000 [72; 0; 105]%N = Some s /\
  run (fun n _ => 2 * n)%N 1000 [Len; AsCStr; Push [33]%N; AsBytes; Reserve 10; Clear; IsEmpty; Reserve usize_max] s = Abort /\
  run (fun n _ => 2 * n)%N 1000 [Reserve usize_max] s = Panics /\
  exists s', run (fun n _ => 2 * n)%N 1000 [Len; AsCStr; Push [33]%N; AsBytes; Reserve 10; Clear; IsEmpty] s =
    Val (s', [OLen 3; OBytes [72]%N; ODone; OBytes [72; 0; 105; 33]%N; ODone; ODone; OBool true]).
Proof. eexists. split; [reflexivity|]. split; [reflexivity|]. split; [reflexivity|]. eexists. reflexivity. Qed.

(** * C40 *)

(** The claim is false: when the expression given to the macro does not complete, or when
    converting its value to bytes panics, the destructor of std::string runs on memory in which
    no string was ever constructed. *)
Theorem C40_refuted : forall choose max ops last,
  let_cxx_string choose max Unwinds ops last = UB /\
  let_cxx_string choose max Leaves ops last = UB /\
  let_cxx_string choose max (Normally Unwinds) ops last = UB.
Proof. intros. repeat split. Qed.
Print Assumptions C40_refuted.

(** If the expression has a value and its bytes can be had, the string is constructed once with
    those bytes, before anything else happens to it, and destroyed once, after everything else,
    however control leaves the scope, panics in its methods included. *)
Theorem C40_partial : forall choose max bytes ops last,
  match let_cxx_string choose max (Normally (Normally bytes)) ops last with
  | Val (t, x) => exists seen final, t = Constructed bytes :: map Observed seen ++ [Destroyed final] /\
      exists done, (exists rest, ops = done ++ rest) /\
        final = fst (spec_run done bytes) /\ seen = snd (spec_run done bytes) /\
        (ops = done /\ x = last \/
         x = Unwinds /\ exists n after, ops = done ++ Reserve n :: after /\ (usize_max < N.of_nat (List.length final) + n)%N)
  | Panics | UB => False
  | Abort => True
  end.
Proof.
  intros choose max bytes ops last. unfold let_cxx_string.
  destruct (cxx_init choose max bytes) as [s|] eqn:E; [|exact I].
  assert (H : is_text s bytes).
  { unfold cxx_init in E. destruct (N.leb _ max); inversion E; subst. now split. }
  clear E.
  assert (BD : match body choose max ops last s with
     | Val (t, s', x) => exists seen done, t = map Observed seen /\ (exists rest, ops = done ++ rest) /\
         is_text s' (fst (spec_run done bytes)) /\ seen = snd (spec_run done bytes) /\
         (ops = done /\ x = last \/ x = Unwinds /\ exists n after, ops = done ++ Reserve n :: after /\ (usize_max < N.of_nat (List.length (fst (spec_run done bytes))) + n)%N)
     | Panics | UB => False | Abort => True end).
  { revert s bytes H. induction ops as [|o ops IH]; intros s t H; cbn [body].
    - exists [], []. cbn. repeat split; try apply H; auto. now exists [].
    - pose proof (step_text choose max o s t H) as S. destruct (step choose max o s) as [[s1 ob]| | |]; auto.
      + destruct S as (H1 & -> & _). specialize (IH s1 (fst (spec_step o t)) H1).
        destruct (body choose max ops last s1) as [[[t2 s2] x]| | |]; auto. cbn [map_out].
        destruct IH as (seen & done & -> & (rest & R) & A & -> & C).
        exists (snd (spec_step o t) :: snd (spec_run done (fst (spec_step o t)))), (o :: done).
        cbn [spec_run]. destruct (spec_step o t) as [t1 ob]. cbn [fst snd] in *.
        destruct (spec_run done t1) as [t3 l3]. cbn [fst snd] in *. split; [reflexivity|]. split; [exists rest; now rewrite R|].
        split; [exact A|]. split; [reflexivity|]. destruct C as [[-> ->]|(-> & n & after & Q & L)]; [now left|]. right.
        split; [reflexivity|]. exists n, after. split; [now rewrite Q|exact L].
      + destruct S as (n & -> & Q). exists [], []. cbn. split; [reflexivity|]. split; [now exists (Reserve n :: ops)|].
        split; [exact H|]. split; [reflexivity|]. right. split; [reflexivity|]. exists n, ops. auto. }
  destruct (body choose max ops last s) as [[[t s'] x]| | |]; auto.
  destruct BD as (seen & done & -> & P & A & B & C). cbn [drop_stack_string].
  exists seen, (text_of s'). split; [reflexivity|]. exists done. rewrite (text_of_is _ _ A). auto.
Qed.
Print Assumptions C40_partial.

Example C40_nonvacuous :
  let_cxx_string (fun n cap => cap) 1000 (Normally (Normally [104; 105]%N)) [Len; Push [33]%N; AsBytes] Leaves =
    Val ([Constructed [104; 105]%N; Observed (OLen 2); Observed ODone; Observed (OBytes [104; 105; 33]%N); Destroyed [104; 105; 33]%N], Leaves) /\
  let_cxx_string (fun n cap => cap) 1000 (Normally (Normally [104; 105]%N)) [Reserve usize_max; Len] (Normally tt) =
    Val ([Constructed [104; 105]%N; Destroyed [104; 105]%N], Unwinds).
Proof. split; reflexivity. Qed.
