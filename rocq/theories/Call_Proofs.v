(** Lemmas for C86: evaluation. *)
From Verif Require Import Base StrLib Syntax_Model Types_Model Abi_Model Mangle_Model Expr_Model Expr_Spec CxxExpr_Model CxxExpr_Spec Call_Spec.
From Coq Require Import Lia.

Section Eval.
  Context {D A F X : Type}.
  Notation val := (val D A F X). Notation state := (state D A F X). Notation event := (event D A F X).
  Notation M := (M D A F X). Notation reply := (reply D A F X).
  Variable world : list event -> event -> reply.

  Lemma bind_done {B C} (m : M B) (k : B -> M C) s b s' : m s = (Done b, s') -> bind m k s = k b s'.
  Proof. intros E. unfold bind. rewrite E. reflexivity. Qed.
  Lemma bind_ret {B C} (b : B) (k : B -> M C) s : bind (ret b) k s = k b s.
  Proof. reflexivity. Qed.
  Lemma bind_assoc {B C G} (m : M B) (k : B -> M C) (h : C -> M G) s : bind (bind m k) h s = bind m (fun b => bind (k b) h) s.
  Proof. unfold bind. destruct (m s) as ([] & ?); reflexivity. Qed.
  Lemma bind_ext {B C} (m : M B) (k h : B -> M C) s : (forall b s, k b s = h b s) -> bind m k s = bind m h s.
  Proof. intros E. unfold bind. destruct (m s) as ([] & ?); auto. Qed.

  (** What an argument is when it crosses. *)
  Definition lower (v : val) : val := match v with BoxOf a | UniqueOf a => Addr a | _ => v end.

  Inductive wires (m : nat -> option val) : list nat -> list bool -> list val -> list val -> Prop :=
  | wi_nil : wires m [] [] [] []
  | wi_direct l bs vs ws v : wires m l bs vs ws -> wires m l (false :: bs) (v :: vs) (lower v :: ws)
  | wi_slot n l bs vs ws v : m n = Some v -> ~ In n l -> wires m l bs vs ws -> wires m (n :: l) (true :: bs) (v :: vs) (Addr (Local n) :: ws).
  Lemma wires_frame m m' l bs vs ws : wires m l bs vs ws -> (forall n, In n l -> m' n = m n) -> wires m' l bs vs ws.
  Proof.
    induction 1; intros H'; constructor; auto.
    - rewrite H'; [assumption|left; reflexivity].
    - apply IHwires. intros k I. apply H'. right. exact I.
  Qed.

  Lemma mem_alloc (o : option val) s n s' : alloc o s = (Done n, s') -> n = next s /\ next s' = S (next s) /\ trace s' = trace s /\ mem s' n = o /\ (forall k, k <> n -> mem s' k = mem s k).
  Proof.
    unfold alloc. intros E. injection E as <- <-. cbn. rewrite Nat.eqb_refl. repeat split; auto. intros k N. destruct (Nat.eqb_spec k (next s)); [contradiction|reflexivity].
  Qed.
  Lemma mem_set n (o : option val) s : mem (set_mem n o s) n = o.
  Proof. cbn. rewrite Nat.eqb_refl. reflexivity. Qed.
  Lemma mem_set_other n k (o : option val) s : k <> n -> mem (set_mem n o s) k = mem s k.
  Proof. intros N. cbn. destruct (Nat.eqb_spec k n); [contradiction|reflexivity]. Qed.

  (** Names *)
  Lemma lookup_cons_other {B} x y (b : B) l : x <> y -> lookup x ((y, b) :: l) = lookup x l.
  Proof. intros N. cbn. apply String.eqb_neq in N. rewrite N. reflexivity. Qed.
  Lemma lookup_cons_same {B} x (b : B) l : x <> "_" -> lookup x ((x, b) :: l) = Some b.
  Proof. intros N. cbn. rewrite String.eqb_refl. apply String.eqb_neq in N. rewrite N. reflexivity. Qed.
  Lemma find_cons_other {B} x y (b : B) l : x <> y -> find_name x ((y, b) :: l) = find_name x l.
  Proof. intros N. cbn. apply String.eqb_neq in N. rewrite N. reflexivity. Qed.
  Lemma find_cons_same {B} x (b : B) l : find_name x ((x, b) :: l) = Some b.
  Proof. cbn. rewrite String.eqb_refl. reflexivity. Qed.
End Eval.
