(** C31 and C63: generated code only uses names that are declared before it. *)
From Verif Require Import Base StrLib Syntax_Model Toposort_Model Toposort_Spec Types_Model Types_Spec Types_Props
  Mangle_Model Abi_Model Header_Text Ifndef_Model Builtin_Model Builtin_Spec Builtin_Proofs Std_Proofs Out_Model Out_Spec Uses_Model Uses_Spec
  Uses_Proofs Uses_Proofs2 Uses_Proofs3 Uses_Proofs4.

(** * The texts *)
Lemma skip_line b line rest d : (forall r, conditionals d (tokens line "" ++ r) = conditionals d r) ->
  conditionals d (tokens_of ((if b : bool then [line] else []) ++ rest)) = conditionals d (tokens_of rest).
Proof. intros H. destruct b; [|reflexivity]. exact (H (tokens_of rest)). Qed.
Lemma include_lines_balanced s cxx : conditionals 0 (tokens_of (include_lines s cxx)) = Some 0.
Proof.
  unfold include_lines. cbn zeta. repeat (rewrite skip_line by (intros r; reflexivity)).
  destruct (s (WInc IBasetsd)), (s (WInc ISysTypes)), (s (WInc IStringView)), (s (WInc IRanges)), cxx; reflexivity.
Qed.

(** Extracting the text of a part from cxx.h never fails, whether the part is needed or
    only skipped, and all conditional sections that are opened are closed. *)
Theorem C31_texts :
  (forall p, part_lines p <> None /\ conditionals 0 (text_of p) = Some 0) /\
  (forall p g, guard_of p = Some g -> ifndef_write false g <> None) /\
  (forall s cxx, conditionals 0 (tokens_of (include_lines s cxx)) = Some 0).
Proof.
  split; [|split].
  - intros p. split; [destruct p; vm_compute; discriminate|]. rewrite text_eq. destruct p; vm_compute; reflexivity.
  - intros p g. destruct p; cbn [guard_of]; intros E; try discriminate E; injection E as <-; vm_compute; discriminate.
  - apply include_lines_balanced.
Qed.
Print Assumptions C31_texts.

Local Opaque HEADER lines text_of text HEADER_tokens propagate.
Lemma via_part s cxx n p : enabled (propagate s) p = true -> defines (text p) n || String.eqb n "Fn" && declares (text p) n = true ->
  (negb (from_header p) || (defines HEADER_tokens n || String.eqb n "Fn" && declares HEADER_tokens n)) = true ->
  available cxx (emitted_parts s cxx) n.
Proof.
  intros E D H. unfold available. cbn zeta. rewrite HEADER_tokens_eq. destruct (from_header p && cxx) eqn:F.
  - apply andb_true_iff in F. destruct F as [F ->]. rewrite F in H. left. split; [reflexivity|exact H].
  - right. exists p. split; [apply emitted_on; unfold on; rewrite E, F; reflexivity|]. rewrite text_eq. exact D.
Qed.
Lemma via_member s cxx c m p q : enabled (propagate s) p = true -> enabled (propagate s) q = true -> from_header p = false -> from_header q = false ->
  has_sequence ["class"; "impl"; "<"; c] (text p) = true -> has_sequence [m; "("] (text q) = true -> has_member (emitted_parts s cxx) c m.
Proof.
  intros E1 E2 F1 F2 H1 H2. exists p, q. rewrite !text_eq. repeat split; auto; apply emitted_on; unfold on; [rewrite E1, F1|rewrite E2, F2]; reflexivity.
Qed.
Local Transparent text HEADER_tokens.
Lemma source_resolved s cxx u w : In (u, w) sources -> propagate s w = true -> resolved s cxx u.
Proof.
  intros I E. unfold sources in I. cbn [map app In] in I.
  repeat (destruct I as [I|I];
    [injection I as <- <-; cbn [resolved];
     first
       [ (eexists; split; [eexists; split; [|]|]; [| |eapply inc_included; [|exact E]; unfold inc_names; cbn [In]; repeat (first [left; reflexivity | right])];
          [unfold headers_of; cbn [In]; repeat (first [left; reflexivity | right]) | cbn [In]; repeat (first [left; reflexivity | right])])
       | match type of E with _ (WFlag ?f) = _ =>
           let go p := apply (via_part s cxx _ p); [exact E|vm_compute; reflexivity|vm_compute; reflexivity] in
           match f with
           | FIsize => go BIsize | FString => go BString | FBox => go BBox | FVec => go BVec | FStr => go BStr | FSlice => go BSlice | FFn => go BFn
           | FFat => go BFat | FPtrLen => go BPtrLen | FManuallyDrop => go BManuallyDrop | FMaybeUninit => go BMaybeUninit | FError => go BError
           | FTrycatch => first [go BTrycatch | go BFail] | FBitcopy => go BBitcopy | FIsComplete => go BIsComplete | FDeleterIf => go BDeleterIf
           | FDestroy => go BDestroy | FOpaque => go BOpaque | FLayout => go BLayout | FRelocatableOrArray => go BRelocatableOrArray | FRelocatable => go BRelocatable
           end
         end
       | match type of E with _ (WFlag ?f) = _ =>
           let go p q := apply (via_member s cxx _ _ p q); [cbn [enabled]; rewrite E, ?orb_true_r; reflexivity|exact E|reflexivity|reflexivity|vm_compute; reflexivity|vm_compute; reflexivity] in
           match f with
           | FStrNew => go BImplStr BImplStrNew | FStrRepr => go BImplStr BImplStrRepr | FSliceNew => go BImplSlice BImplSliceNew
           | FSliceRepr => go BImplSlice BImplSliceRepr | FError => go BImplError BImplError
           end
         end ]|]).
  destruct I.
Qed.

(** * C31 *)
(** For every bridge, in the header or the source file, with or without rust/cxx.h: every
    name of the supporting code that the generated code uses is defined by it; the
    supporting code itself mentions no name before it is known; and what is written into
    headers may be read more than once. *)
Theorem C31_generated : forall indirect header cxx_header ord apis T errs, collect ord apis = Some (T, errs) ->
  let ops := generated_ops indirect header T apis in
  let s := asked ops in
  let out := emitted_parts s cxx_header in
  (forall u, In (Use u) ops -> resolved s cxx_header u) /\
  (forall before p after n, out = before ++ p :: after -> In n helpers -> In n (text_of p) -> known cxx_header before p n) /\
  (header = true -> forall p, In p out -> repeatable p = true).
Proof.
  intros indirect header cxx ord apis T errs Hc ops s out. split; [|split].
  - intros u I. destruct (all_good indirect header ord apis T errs Hc u I) as [w [W1 W2]].
    apply (source_resolved s cxx u w W1). apply propagate_incr, W2.
  - apply builtin_known. apply (all_coherent indirect header ord apis T errs Hc).
  - intros -> p I. apply emitted_on in I. unfold on in I. apply andb_true_iff in I. destruct I as [I _].
    assert (K : forall f, propagate s (WFlag f) = true -> header_flag (WFlag f)) by (intros f; apply header_propagated).
    assert (R : forallb (fun p => repeatable p || match flag_of p with
        | Some (FStrNew | FStrRepr | FSliceNew | FSliceRepr | FFat | FPtrLen | FMaybeUninit | FManuallyDrop | FTrycatch | FError | FDestroy | FDeleterIf | FRelocatableOrArray) => true
        | Some _ => false | None => true end) parts = true) by (vm_compute; reflexivity).
    rewrite forallb_forall in R. specialize (R p (parts_all p)). apply orb_true_iff in R. destruct R as [R|R]; [exact R|exfalso].
    destruct (flag_of p) as [f|] eqn:Ef.
    + apply (flag_of_enabled _ _ _ Ef) in I. apply K in I. destruct f; try discriminate R; exact I.
    + destruct p; try discriminate Ef; cbn [enabled] in I; apply orb_true_iff in I; destruct I as [I|I]; apply K in I; exact I.
Qed.
Print Assumptions C31_generated.

(** * C63 *)
(** For every bridge, every name of the standard library in the code generated for its
    items comes from a header that is included, by that code or by rust/cxx.h. *)
Theorem C63_generated : forall indirect header cxx_header ord apis T errs, collect ord apis = Some (T, errs) ->
  let ops := generated_ops indirect header T apis in
  forall n, In (std_ n) ops -> exists h, declared_by n h /\ included (propagate (asked ops)) cxx_header h.
Proof.
  intros indirect header cxx ord apis T errs Hc ops n I.
  destruct (C31_generated indirect header cxx ord apis T errs Hc) as [A _]. pose proof (A (UStd n) I) as B. unfold resolved in B. exact B.
Qed.
Print Assumptions C63_generated.

Definition I_ (s : string) : ty := TIdent (Named s []).
Definition F_ (lang_ : lang) (name : string) (args : list (string * ty)) (ret : option ty) (throws : bool) : extern_fn :=
  ExternFn CUnconditional lang_ (Pair [] name name) false false [] None args ret throws true.
Definition ex_bridge : list api :=
  [ARustType (ExternType CUnconditional LRust [] (Pair [] "R" "R") [] [] true);
   AStruct (Struct_ CUnconditional [] (Pair [] "S" "S") [] [Var CUnconditional (Pair [] "a" "a") (TBox (I_ "R"));
                                                              Var CUnconditional (Pair [] "b" "b") (I_ "usize")]);
   ARustFunction (F_ LRust "f" [("x", TStr None)] (Some (TStr None)) false);
   ARustFunction (F_ LRust "g" [("x", I_ "S")] (Some (TVec (I_ "u8"))) true);
   ACxxFunction (F_ LCxx "h" [("x", I_ "String")] (Some (TSlice false None (I_ "u8"))) false);
   ACxxFunction (F_ LCxx "k" [] None true)].
Definition ex_order (_ : nat) (l : list string) : list string := l.
Local Transparent propagate text_of HEADER lines.
(** A bridge with the types and functions that ask for most of it. *)
Example C31_nonvacuous : exists T, collect ex_order ex_bridge = Some (T, []) /\
  let ops := generated_ops (fun _ => true) false T ex_bridge in
  let hops := generated_ops (fun _ => true) true T ex_bridge in
  In (Use (UMember "Slice" "repr")) (generated_ops (fun _ => false) false T ex_bridge) /\ In (rust_ "Fail") ops /\ In (rust_ "ManuallyDrop") ops /\
  In (rust_ "Box") hops /\
  emitted_parts (asked ops) false =
    [BPanic; BFwdBitcopy; BFwdImpl; BFwdSizeOf; BString; BStr; BSlice; BBox; BBitcopyT; BBitcopy; BVec; BError; BOpaque; BIsComplete; BLayout;
     BFat; BPtrLen; BOperatorNew; BFail; BManuallyDrop; BMaybeUninit; BImplError; BTrycatch] /\
  emitted_parts (asked ops) true = [BFat; BPtrLen; BOperatorNew; BFail; BManuallyDrop; BMaybeUninit; BImplError; BTrycatch] /\
  emitted_parts (asked hops) false =
    [BPanic; BFwdBitcopy; BFwdImpl; BFwdSizeOf; BString; BStr; BSlice; BBox; BBitcopyT; BVec; BOpaque; BIsComplete; BLayout].
Proof.
  eexists. split; [vm_compute; reflexivity|]. cbn zeta.
  repeat match goal with |- _ /\ _ => split end.
  1-4: match goal with |- In ?x ?l => let l' := eval vm_compute in l in change (In x l') end; cbn [In]; repeat (first [left; reflexivity | right]).
  all: vm_compute; reflexivity.
Qed.

(** The same of the supporting code: *)
Definition C63_claim : Prop := forall indirect header cxx_header ord apis T errs, collect ord apis = Some (T, errs) ->
  let s := asked (generated_ops indirect header T apis) in
  forall p n, In p (emitted_parts s cxx_header) -> In n (std_names (text_of p)) -> exists h, declared_by n h /\ included (propagate s) cxx_header h.

Definition str_bridge : list api := [ACxxFunction (F_ LCxx "f" [("x", TStr None)] None false)].
Definition str_asked (T : types) : settings := asked (generated_ops (fun _ => false) false T str_bridge).
Lemma str_facts : exists T, collect ex_order str_bridge = Some (T, []) /\ emitted_parts (str_asked T) false = [BFwdImpl; BFwdString; BStr] /\
  include_lines (propagate (str_asked T)) false =
    ["#include <array>"; "#include <cstdint>"; "#include <string>"; "#if __cplusplus >= 201703L"; "#include <string_view>"; "#endif"].
Proof. eexists. split; [vm_compute; reflexivity|]. split; vm_compute; reflexivity. Qed.
Lemma no_size_t S : include_lines S false = ["#include <array>"; "#include <cstdint>"; "#include <string>"; "#if __cplusplus >= 201703L"; "#include <string_view>"; "#endif"] ->
  ~ exists h, declared_by "size_t" h /\ included S false h.
Proof.
  intros E [h [[ns [D1 D2]] [N|[C _]]]]; [|discriminate C]. unfold includes in N. rewrite E in N. unfold headers_of in D1. cbn [In] in D1.
  repeat (destruct D1 as [D1|D1]; [injection D1 as <- <-; first [cbn [In] in D2; repeat (destruct D2 as [D2|D2]; [discriminate D2|]); exact D2
      | cbn [In append] in N; repeat (destruct N as [N|N]; [discriminate N|]); exact N]|]). exact D1.
Qed.
Lemma str_size_t : In "size_t" (std_names (text_of BStr)).
Proof. rewrite text_eq. apply smem_In. vm_compute. reflexivity. Qed.

Local Opaque text_of propagate emitted_parts generated_ops asked include_lines HEADER lines collect std_names.
(** False: for `fn f(x: &str);` the text of rust::Str mentions std::size_t, and
    <cstddef> is not included. *)
Theorem C63_supporting_code_refuted : ~ C63_claim.
Proof.
  intros H. destruct str_facts as [T [E1 [E2 E3]]]. apply (no_size_t _ E3).
  apply (H (fun _ => false) false false ex_order str_bridge T [] E1 BStr "size_t"); [|exact str_size_t].
  fold (str_asked T). rewrite E2. right. right. left. reflexivity.
Qed.
Print Assumptions C63_supporting_code_refuted.

(** It holds except for std::size_t in rust::String and rust::Str, and std::swap and
    std::declval in rust::Slice (missing: those; compilers accept them because other
    included headers declare them too). *)
Theorem C63_supporting_code_partial : forall indirect header cxx_header ord apis T errs, collect ord apis = Some (T, errs) ->
  let s := asked (generated_ops indirect header T apis) in
  forall p n, In p (emitted_parts s cxx_header) -> In n (std_names (text_of p)) ->
    ~ In (p, n) [(BString, "size_t"); (BStr, "size_t"); (BSlice, "swap"); (BSlice, "declval")] ->
    exists h, declared_by n h /\ included (propagate s) cxx_header h.
Proof.
  intros indirect header cxx ord apis T errs Hc s p n Ip In_ Ne. apply emitted_on in Ip. unfold on in Ip. apply andb_true_iff in Ip. destruct Ip as [Ip _].
  pose proof (all_coherent indirect header ord apis T errs Hc) as C. fold s in C.
  pose proof covered_ok as K. rewrite forallb_forall in K. specialize (K p (parts_all p)). rewrite forallb_forall in K. rewrite text_eq in In_.
  specialize (K n In_). apply orb_true_iff in K. destruct K as [K|K].
  - exact (covered_included _ cxx p n (co_rules _ C) Ip K).
  - destruct p; try discriminate K; cbn [uncovered] in K.
    + apply String.eqb_eq in K. subst n. exfalso. apply Ne. left; reflexivity.
    + apply String.eqb_eq in K. subst n. exfalso. apply Ne. right; left; reflexivity.
    + apply smem_In in K. exfalso. apply Ne. destruct K as [<-|[<-|[]]]; [right; right; left|right; right; right; left]; reflexivity.
    + apply String.eqb_eq in K. subst n. exists "cstddef". split.
      * eexists. split; [left; reflexivity|left; reflexivity].
      * apply (inc_included _ cxx ICstddef); [right; right; right; left; reflexivity|].
        refine (co_rules _ C (FPtrLen, [WInc ICstddef]) _ _ _ (or_introl eq_refl)).
        -- do 15 right. left. reflexivity.
        -- apply (co_error _ C). exact Ip.
Qed.
Print Assumptions C63_supporting_code_partial.

Local Transparent text_of propagate emitted_parts generated_ops asked include_lines HEADER lines collect std_names.
Example C63_nonvacuous : exists T, collect ex_order ex_bridge = Some (T, []) /\
  let ops := generated_ops (fun _ => true) false T ex_bridge in
  In (std_ "move") ops /\ In (std_ "size_t") ops /\ In BVec (emitted_parts (asked ops) false) /\
  In "out_of_range" (std_names (text_of BVec)) /\ includes (include_lines (propagate (asked ops)) false) "stdexcept".
Proof.
  eexists. split; [vm_compute; reflexivity|]. cbn zeta.
  repeat match goal with |- _ /\ _ => split end.
  1-3: match goal with |- In ?x ?l => let l' := eval vm_compute in l in change (In x l') end; cbn [In]; repeat (first [left; reflexivity | right]).
  - rewrite text_eq. apply smem_In. vm_compute. reflexivity.
  - unfold includes. apply smem_In. vm_compute. reflexivity.
Qed.
