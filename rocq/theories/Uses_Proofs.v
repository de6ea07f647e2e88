(** Proofs about the names used in generated code. *)
From Verif Require Import Base StrLib Syntax_Model Toposort_Model Toposort_Spec Toposort_Proofs2 TypeEq_Model Types_Model Types_Spec Types_Proofs Types_Proofs3 Types_Props
  Mangle_Model Abi_Model Header_Text Ifndef_Model Builtin_Model Builtin_Spec Builtin_Proofs Out_Model Out_Spec Uses_Model Uses_Spec.

Definition use_eq_dec (a b : use) : {a = b} + {a <> b}. Proof. decide equality; apply string_dec. Defined.

(** What each use has to ask for. *)
Definition sources : list (use * want) :=
  map (fun n => (UStd n, WInc ICstdint)) ["uint8_t"; "uint16_t"; "uint32_t"; "uint64_t"; "int8_t"; "int16_t"; "int32_t"; "int64_t"]
  ++ map (fun n => (UStd n, WInc IMemory)) ["unique_ptr"; "shared_ptr"; "weak_ptr"]
  ++ [(UStd "size_t", WInc ICstddef); (UStd "string", WInc IString); (UStd "vector", WInc IVector); (UStd "array", WInc IArray);
      (UStd "move", WInc IUtility); (UStd "new", WInc INew); (UStd "true_type", WInc ITypeTraits); (UStd "is_enum", WInc ITypeTraits);
      (UStd "hash", WInc IFunctional)]
  ++ [(UHelper "isize", WFlag FIsize); (UHelper "String", WFlag FString); (UHelper "Box", WFlag FBox); (UHelper "Vec", WFlag FVec);
      (UHelper "Str", WFlag FStr); (UHelper "Slice", WFlag FSlice); (UHelper "Fn", WFlag FFn); (UHelper "Fat", WFlag FFat);
      (UHelper "PtrLen", WFlag FPtrLen); (UHelper "ManuallyDrop", WFlag FManuallyDrop); (UHelper "MaybeUninit", WFlag FMaybeUninit);
      (UHelper "Error", WFlag FError); (UHelper "trycatch", WFlag FTrycatch); (UHelper "Fail", WFlag FTrycatch);
      (UHelper "unsafe_bitcopy", WFlag FBitcopy); (UHelper "is_complete", WFlag FIsComplete); (UHelper "deleter_if", WFlag FDeleterIf);
      (UHelper "destroy", WFlag FDestroy); (UHelper "Opaque", WFlag FOpaque); (UHelper "layout", WFlag FLayout);
      (UHelper "IsRelocatableOrArray", WFlag FRelocatableOrArray); (UHelper "IsRelocatable", WFlag FRelocatable);
      (UMember "Str" "new_unchecked", WFlag FStrNew); (UMember "Slice" "slice", WFlag FSliceNew); (UMember "Error" "error", WFlag FError);
      (UMember "Str" "repr", WFlag FStrRepr); (UMember "Slice" "repr", WFlag FSliceRepr)].
Definition lit (l : list wop) : bool :=
  forallb (fun o => match o with
                    | Want _ => true
                    | Use u => existsb (fun x => (if use_eq_dec (fst x) u then true else false)
                                                 && existsb (fun o => match o with Want w => if want_eq_dec w (snd x) then true else false | _ => false end) l) sources
                    end) l.

Lemma asked_In ops w : asked ops w = true <-> In (Want w) ops.
Proof.
  unfold asked. rewrite existsb_exists. split.
  - intros [[w'|u] [H1 H2]]; [|discriminate]. destruct (want_eq_dec w w') as [<-|]; [exact H1|discriminate].
  - intros H. exists (Want w). split; [exact H|]. destruct (want_eq_dec w w); congruence.
Qed.

(** * Good lists *)
Section Good.
  Variable ops : list wop.
  Definition good (l : list wop) : Prop := forall u, In (Use u) l -> exists w, In (u, w) sources /\ In (Want w) ops.
  Lemma good_nil : good []. Proof. intros u []. Qed.
  Lemma good_want w l : good l -> good (Want w :: l). Proof. intros H u [E|I]; [discriminate|auto]. Qed.
  Lemma good_use u l w : In (u, w) sources -> In (Want w) ops -> good l -> good (Use u :: l).
  Proof. intros H1 H2 H u' [E|I]; [injection E as <-; eauto|auto]. Qed.
  Lemma good_app a b : good a -> good b -> good (a ++ b). Proof. intros A B u I. apply in_app_or in I. destruct I; auto. Qed.
  Lemma good_flat_map {A} (f : A -> list wop) l : (forall x, In x l -> good (f x)) -> good (flat_map f l).
  Proof. intros H u I. apply in_flat_map in I. destruct I as [x [I J]]. exact (H x I u J). Qed.
  Lemma good_lit l : lit l = true -> incl l ops -> good l.
  Proof.
    intros L I u Iu. unfold lit in L. rewrite forallb_forall in L. specialize (L _ Iu). cbn beta iota in L.
    apply existsb_exists in L. destruct L as [[u' w] [L1 L2]]. cbn [fst snd] in L2. apply andb_true_iff in L2. destruct L2 as [L2 L3].
    destruct (use_eq_dec u' u) as [->|]; [|discriminate]. exists w. split; [exact L1|]. apply existsb_exists in L3.
    destruct L3 as [[w'|] [L3 L4]]; [|discriminate]. destruct (want_eq_dec w' w) as [->|]; [|discriminate]. apply I, L3.
  Qed.
End Good.

Lemma incl_app_l {A} (a b c : list A) : incl (a ++ b) c -> incl a c. Proof. intros H x I. apply H, in_or_app. auto. Qed.
Lemma incl_app_r {A} (a b c : list A) : incl (a ++ b) c -> incl b c. Proof. intros H x I. apply H, in_or_app. auto. Qed.
Lemma incl_flat_map {A B} (f : A -> list B) l c : incl (flat_map f l) c -> forall x, In x l -> incl (f x) c.
Proof. intros H x I y J. apply H, in_flat_map. eauto. Qed.

Lemma occurs_trans t w : occurs t w -> forall u, occurs u t -> occurs u w.
Proof. induction 1; intros v V; [exact V|..]; try (constructor; auto; fail). eapply oc_arg; eauto. Qed.
Lemma mentioned_trans apis t u : mentioned apis t -> occurs u t -> mentioned apis u.
Proof. intros [s f A B C|f x t' A B C|f t' A B C|i A B] O; [eapply me_field|eapply me_arg|eapply me_ret|eapply me_impl]; eauto using occurs_trans. Qed.

Lemma pick_eqb u v : ty_eqb u v = true -> w_pick u = w_pick v.
Proof.
  destruct u, v; cbn; intros H; try discriminate H; try reflexivity.
  unfold named_eqb in H. apply andb_true_iff in H. destruct H as [H _]. apply String.eqb_eq in H. rewrite H. reflexivity.
Qed.
