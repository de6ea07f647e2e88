(** Proofs about the standard headers. *)
From Verif Require Import Base StrLib Header_Text Ifndef_Model Builtin_Model Builtin_Spec Builtin_Proofs.

Definition inc_names : list (inc * string) :=
  [(IAlgorithm, "algorithm"); (IArray, "array"); (ICassert, "cassert"); (ICstddef, "cstddef"); (ICstdint, "cstdint"); (IException, "exception");
   (IFunctional, "functional"); (IInitializerList, "initializer_list"); (IIterator, "iterator"); (IMemory, "memory"); (INew, "new"); (IRanges, "ranges");
   (IStdexcept, "stdexcept"); (IString, "string"); (IStringView, "string_view"); (ITypeTraits, "type_traits"); (IUtility, "utility"); (IVector, "vector")].
Lemma header_includes : forallb (fun x => smem (snd x) ["functional"; "memory"] || smem ("#include <" ++ snd x ++ ">")%string (lines HEADER)) inc_names = true.
Proof. vm_compute. reflexivity. Qed.
Local Opaque HEADER lines.
Ltac pick_line E := first [apply in_or_app; left; rewrite E; cbn [andb negb]; first [left; reflexivity | right; left; reflexivity] | apply in_or_app; right; pick_line E
                        | rewrite E; cbn [andb negb]; right; left; reflexivity].
Lemma inc_included S cxx i h : In (i, h) inc_names -> S (WInc i) = true -> included S cxx h.
Proof.
  intros I E. unfold included, includes. pose proof header_includes as H. rewrite forallb_forall in H. specialize (H _ I). cbn [snd] in H.
  apply orb_true_iff in H. rewrite (smem_In (_ ++ _)%string) in H.
  destruct cxx; [destruct H as [H|H]; [|right; split; [reflexivity|exact H]]|clear H].
  - left. unfold include_lines. cbn zeta.
    repeat (destruct I as [I|I]; [injection I as <- <-; first [exfalso; vm_compute in H; discriminate H | pick_line E]|]). destruct I.
  - left. unfold include_lines. cbn zeta.
    repeat (destruct I as [I|I]; [injection I as <- <-; pick_line E|]). destruct I.
Qed.

(** What the rules add to one field. *)
Definition single (f : flag) : settings := fun w => if want_eq_dec w (WFlag f) then true else false.
Lemma implied S f : (forall r, In r rules -> S (WFlag (fst r)) = true -> forall w, In w (snd r) -> S w = true) ->
  S (WFlag f) = true -> forall w, propagate (single f) w = true -> S w = true.
Proof.
  intros R H. apply propagate_inv; [exact R|]. intros w. unfold single. destruct (want_eq_dec w (WFlag f)) as [->|]; [auto|discriminate].
Qed.

(** A field without which the part is not written. *)
Definition flag_of (p : part) : option flag :=
  match p with
  | BPanic => Some FPanic | BFwdBitcopy => Some FString | BFwdImpl => Some FFriendImpl | BFwdString => Some FStr | BFwdOpaque => Some FLayout
  | BFwdSizeOf => Some FSlice | BString => Some FString | BStr => Some FStr | BSlice => Some FSlice | BBox => Some FBox | BBitcopyT => Some FBitcopyT
  | BBitcopy => Some FBitcopy | BVec => Some FVec | BFn => Some FFn | BError => Some FError | BIsize => Some FIsize | BOpaque => Some FOpaque
  | BIsComplete => Some FIsComplete | BLayout => Some FLayout | BRelocatable => Some FRelocatable | BStrUninit => Some FStrNew
  | BSliceUninit => Some FSliceNew | BFat => Some FFat | BPtrLen => Some FPtrLen | BOperatorNew => Some FMaybeUninit | BFail => Some FTrycatch
  | BManuallyDrop => Some FManuallyDrop | BMaybeUninit => Some FMaybeUninit | BImplStrNew => Some FStrNew | BImplStrRepr => Some FStrRepr
  | BImplSliceNew => Some FSliceNew | BImplSliceRepr => Some FSliceRepr | BImplError => Some FError | BDestroy => Some FDestroy
  | BDeleterIf => Some FDeleterIf | BRelocatableOrArray => Some FRelocatableOrArray | BTrycatch => Some FTrycatch
  | BImplStr | BImplStrEnd | BImplSlice | BImplSliceEnd => None
  end.
Lemma flag_of_enabled S p f : flag_of p = Some f -> enabled S p = true -> S (WFlag f) = true.
Proof. destruct p; cbn [flag_of enabled]; intros E; try discriminate E; injection E as <-; rewrite ?andb_true_iff; tauto. Qed.

Definition covered (p : part) (n : string) : bool :=
  match flag_of p with
  | Some f => existsb (fun x => smem n (snd x) && existsb (fun y => String.eqb (snd y) (fst x) && propagate (single f) (WInc (fst y))) inc_names) headers_of
  | None => false
  end.
(** Not covered by what the part itself asks for: *)
Definition uncovered (p : part) (n : string) : bool :=
  match p with
  | BString | BStr | BError => String.eqb n "size_t"
  | BSlice => smem n ["swap"; "declval"]
  | _ => false
  end.
Lemma covered_ok : forallb (fun p => forallb (fun n => covered p n || uncovered p n) (std_names (text p))) parts = true.
Proof. vm_compute. reflexivity. Qed.

Lemma covered_included S cxx p n : (forall r, In r rules -> S (WFlag (fst r)) = true -> forall w, In w (snd r) -> S w = true) ->
  enabled S p = true -> covered p n = true -> exists h, declared_by n h /\ included S cxx h.
Proof.
  intros R E C. unfold covered in C. destruct (flag_of p) as [f|] eqn:Ef; [|discriminate].
  apply existsb_exists in C. destruct C as [[h ns] [C1 C2]]. cbn [fst snd] in C2. apply andb_true_iff in C2. destruct C2 as [C2 C3].
  apply existsb_exists in C3. destruct C3 as [[i h'] [C3 C4]]. cbn [fst snd] in C4. apply andb_true_iff in C4. destruct C4 as [C4 C5].
  apply String.eqb_eq in C4. subst h'. exists h. split; [exists ns; split; [exact C1|apply smem_In, C2]|].
  apply (inc_included S cxx i h C3). apply (implied S f R); [apply (flag_of_enabled S p f Ef E)|exact C5].
Qed.
