(** C101: the headers that a generated file includes. *)
From Verif Require Import Base StrLib Syntax_Model Parse_Model Parse_Spec Header_Text Ifndef_Model Builtin_Model Builtin_Spec Incl_Model Incl_Spec Incl_Proofs.
Open Scope N_scope.
Local Opaque HEADER lines.

(** C++ reads in the file, of either kind: the headers of the bridge, in order and in the brackets or quotes
    they were written in, those of the options, then the standard headers asked for, each only if it was asked
    for.  One asked for may be missing only where rust/cxx.h was included, which includes it itself.  What is
    written further down does not change this. *)
Theorem C101_included : forall decode header apis asked opt s rest, asks apis asked ->
  Forall plain (map (fun i => Directive (decode (in_path i)) (in_bracketed i)) asked ++ opt) ->
  exists std,
    includes_of (write_includes header (custom_includes decode apis opt) s ++ rest) =
      map (fun i => (decode (in_path i), in_bracketed i)) asked ++ map (fun i => (d_path i, d_bracketed i)) opt
      ++ map (fun i => (chars (std_header i), true)) std ++ includes_of rest /\
    (forall i, In i std -> s (WInc i) = true) /\
    (forall i, s (WInc i) = true -> In (std_header i) (map std_header std) \/
       ((exists c, In c (map (fun i => decode (in_path i)) asked ++ map d_path opt) /\ rust_cxx_h c) /\
        In (("#include <" ++ std_header i ++ ">")%string) (lines HEADER))).
Proof.
  intros decode header apis asked opt s rest A P. unfold custom_includes. rewrite (picked_asks decode apis asked A).
  set (custom := map _ asked ++ opt) in *.
  destruct (tame_read s (include_lines s (has_cxx_header custom)) rest (include_lines_tame s _)) as (std & R & B & C).
  exists std. split; [|split; [exact B|]].
  - unfold write_includes. rewrite <- !app_assoc.
    assert (E : forall r, includes_of ((if header then writeln (chars "#pragma once") else []) ++ r) = includes_of r).
    { intros r. destruct header; [|reflexivity]. rewrite includes_app by (vm_compute; intuition discriminate). reflexivity. }
    rewrite E, (custom_read custom _ P), R. unfold custom. rewrite map_app, map_map. cbn [d_path d_bracketed]. rewrite <- !app_assoc. reflexivity.
  - intros i W. destruct (asked_written s (has_cxx_header custom) i W) as [I|[H I]]; [left; apply C; exact I|]. right. split; [|exact I].
    destruct (has_cxx_header_spec custom H) as (c & J & K). exists (d_path c). split; [|exact K]. unfold custom in J.
    apply in_app_or in J as [J|J]; apply in_or_app; [left|right; apply in_map; exact J].
    apply in_map_iff in J as (x & <- & J). apply in_map_iff. exists x. auto.
Qed.
Print Assumptions C101_included.

(** Which paths arrive as they are: exactly the plain ones. *)
Theorem C101_exact : forall i, includes_of (writeln (custom_line i)) = [(d_path i, d_bracketed i)] <-> plain i.
Proof. exact exact_iff. Qed.
Print Assumptions C101_exact.

(** Whatever the characters of a path in quotes, the directive is one line of printable ASCII. *)
Theorem C101_one_line : forall p rest,
  lines_of (writeln (custom_line (Directive p false)) ++ rest) = custom_line (Directive p false) :: lines_of rest /\
  Forall (fun c => 32 <= c <= 126) (custom_line (Directive p false)).
Proof.
  intros p rest. split.
  - unfold writeln. rewrite <- app_assoc. apply (lines_app _ rest (quoted_no_newline p)).
  - unfold custom_line. cbn [d_bracketed d_path]. apply Forall_app. split; [vm_compute; repeat constructor; discriminate|].
    apply Forall_app. split; [apply escape_ok|vm_compute; repeat constructor; discriminate].
Qed.
Print Assumptions C101_one_line.

Lemma string_app_in (a b : string) c : In c (list_ascii_of_string (a ++ b)%string) -> In c (list_ascii_of_string a) \/ In c (list_ascii_of_string b).
Proof. induction a as [|d a IH]; [auto|]. cbn. intros [<-|H]; [auto|]. apply IH in H as [H|H]; auto. Qed.
Lemma concat_in l c : In c (list_ascii_of_string (String.concat "" l)) -> exists x, In x l /\ In c (list_ascii_of_string x).
Proof.
  induction l as [|x l IH]; intros H; [destruct H|]. destruct l as [|y l].
  - exists x. split; [left; reflexivity|exact H].
  - change (String.concat "" (x :: y :: l)) with (x ++ "" ++ String.concat "" (y :: l))%string in H. cbn [append] in H.
    apply string_app_in in H as [H|H]; [exists x; split; [left; reflexivity|exact H]|]. destruct (IH H) as (z & I & J). exists z. split; [right; exact I|exact J].
Qed.
Lemma chars_in s c : In (N_of_ascii c) (chars s) -> In c (list_ascii_of_string s).
Proof. intros I. apply in_map_iff in I as (d & E & I). apply (f_equal ascii_of_N) in E. rewrite !ascii_N_embedding in E. subst d. exact I. Qed.
(** Every header in angle brackets that a bridge can name arrives as it is (unless it has no name at all). *)
Theorem C101_brackets : forall toks s, include_is toks s true -> Forall lexed toks -> s <> "" ->
  includes_of (writeln (custom_line (Directive (chars s) true))) = [(chars s, true)].
Proof.
  intros toks s I L NE. apply (exact_iff (Directive (chars s) true)). inversion I as [|l texts F E1 E2 E3]. subst. clear I.
  assert (G : forall x, In x texts -> ~ In "010"%char (list_ascii_of_string x) /\ ~ In ">"%char (list_ascii_of_string x)).
  { inversion L as [|? ? _ L']; subst. apply Forall_app in L' as [L' _]. clear NE L. revert L'.
    induction F as [|t x l texts T _ IH]; intros L' y J; [destruct J|]. inversion L'; subst. destruct J as [<-|J]; [|apply IH; assumption].
    inversion T; subst; cbn [lexed] in *; try assumption. split; intros [K|[]]; congruence. }
  split; cbn [d_path d_bracketed]; [destruct (String.concat "" texts); [congruence|discriminate]|].
  split; intros H; [apply (chars_in _ "010"%char) in H|apply (chars_in _ ">"%char) in H]; apply concat_in in H as (x & J & K); apply G in J; tauto.
Qed.
Print Assumptions C101_brackets.

(** In quotes this is not so: *)
Definition C101_claim : Prop := forall p, p <> [] -> includes_of (writeln (custom_line (Directive p false))) = [(p, false)].
(** "é.h" is written as "\u{e9}.h"; an apostrophe, which is allowed in header names, gets a backslash. *)
Theorem C101_claim_refuted :
  (exists p, p = 233 :: chars ".h" /\ includes_of (writeln (custom_line (Directive p false))) = [(chars "\u{e9}.h", false)]) /\
  (exists p, p = chars "it's.h" /\ includes_of (writeln (custom_line (Directive p false))) = [(chars "it\'s.h", false)]) /\
  ~ C101_claim.
Proof.
  split; [exists (233 :: chars ".h"); split; vm_compute; reflexivity|]. split; [exists (chars "it's.h"); split; vm_compute; reflexivity|].
  intros C. specialize (C (chars "it's.h")). vm_compute in C. discriminate (C ltac:(discriminate)).
Qed.
Print Assumptions C101_claim_refuted.

(** Cases that meet the hypotheses: two includes and one of the options, <array> and <memory> asked for. *)
Definition sample_apis : list api :=
  [AInclude (Include_ CUnconditional "demo/include/blob.h" false); AInclude (Include_ CUnconditional "vector" true)].
Definition sample_wants : settings := fun w => match w with WInc (IArray | IMemory | ISysTypes) => true | _ => false end.
Example C101_sample :
  asks sample_apis [Include_ CUnconditional "demo/include/blob.h" false; Include_ CUnconditional "vector" true] /\
  Forall plain (custom_includes chars sample_apis [Directive (chars "a b.h") false]) /\
  includes_of (write_includes true (custom_includes chars sample_apis [Directive (chars "a b.h") false]) sample_wants) =
    [(chars "demo/include/blob.h", false); (chars "vector", true); (chars "a b.h", false); (chars "array", true); (chars "memory", true); (chars "sys/types.h", true)] /\
  includes_of (write_includes false [Directive (chars "rust/cxx.h") false] sample_wants) = [(chars "rust/cxx.h", false); (chars "memory", true)].
Proof.
  split; [repeat constructor|]. split; [|split; vm_compute; reflexivity].
  repeat (apply Forall_cons || apply Forall_nil); (split; [discriminate|]); cbn [d_bracketed d_path];
    try (vm_compute; repeat constructor; discriminate). vm_compute; intuition discriminate.
Qed.
Example C101_brackets_sample : include_is [ITPunct "<"; ITIdent "sys"; ITPunct "/"; ITIdent "types"; ITPunct "."; ITIdent "h"; ITPunct ">"] "sys/types.h" true
  /\ Forall lexed [ITPunct "<"; ITIdent "sys"; ITPunct "/"; ITIdent "types"; ITPunct "."; ITIdent "h"; ITPunct ">"].
Proof.
  split; [|repeat constructor; vm_compute; intuition discriminate].
  apply (inc_bracketed [ITIdent "sys"; ITPunct "/"; ITIdent "types"; ITPunct "."; ITIdent "h"] ["sys"; "/"; "types"; "."; "h"]).
  repeat constructor; discriminate.
Qed.
