(** C70: the types in the expansion are the types that were written. *)
From Verif Require Import Base Syntax_Model Names_Model ParseTy_Model ParseTy_Spec.

Lemma only_lifetimes_spec l : forall lts, only_lifetimes l = Some lts -> lifetimes l lts.
Proof.
  induction l as [|t l IH|s l IH|l IH]; intros lts E; cbn in E; try discriminate.
  - injection E as <-. constructor.
  - destruct (only_lifetimes l); [|discriminate]. injection E as <-. constructor. auto.
Qed.
Lemma lt_args_spec lts : lifetimes (lt_args lts) lts.
Proof. induction lts; cbn; constructor; auto. Qed.
Lemma print_lts_spec lts : lifetime_args (print_lts lts) lts.
Proof. destruct lts as [|s lts]; constructor. apply (lt_args_spec (s :: lts)). Qed.

Lemma builtin0_atom n p : builtin0 n p -> exists a, atom_from_str n = Some a /\
  match a with AChar => p = ["cxx"; "core"; "ffi"] | ACxxString => p = ["cxx"] | ARustString => p = ["cxx"; "alloc"; "string"] | _ => False end.
Proof. unfold builtin0. cbn. intros [E|[E|[E|[]]]]; injection E as <- <-; eexists; split; reflexivity. Qed.
Lemma print_ident n a : lifetime_args a (n_lts n) -> same (RPath false false [] (n_rust n) a) (print_ty (TIdent n)).
Proof.
  intros L. pose proof (print_lts_spec (n_lts n)) as P. cbn [print_ty].
  destruct (atom_from_str (n_rust n)) as [at_|] eqn:E.
  - pose proof (atom_from_str_inv _ _ E) as EN.
    destruct at_; try (eapply same_name; eauto; intros p B; apply builtin0_atom in B as (b & B & C); rewrite E in B; injection B as <-; exact C).
    + apply same_builtin0 with (lts := n_lts n); auto. rewrite EN. cbn. auto.
    + apply same_builtin0 with (lts := n_lts n); auto. rewrite EN. cbn. auto.
    + apply same_builtin0 with (lts := n_lts n); auto. rewrite EN. cbn. auto.
  - eapply same_name; eauto. intros p B. apply builtin0_atom in B as (b & B & C). congruence.
Qed.

(** printing a list of inputs *)
Fixpoint print_inputs (l : list (string * ty)) : rinputs := match l with [] => INil | (x, t) :: l => ICons (Some x) (print_ty t) (print_inputs l) end.
Lemma print_fn u throws args ret : print_ty (TFn u throws args ret) =
  RFn false false None (print_inputs args) false
    (match ret with
     | Some t => RetTy (if throws then RPath false false [] "Result" (AAngle (ATy (print_ty t) ANil)) else print_ty t)
     | None => if throws then RetTy (RPath false false [] "Result" (AAngle (ATy RUnit ANil))) else RetDefault
     end).
Proof. reflexivity. Qed.
Lemma bind_ok {A B} (r : res A) (f : A -> res B) b : bind r f = Ok b -> exists a, r = Ok a /\ f a = Ok b.
Proof. destruct r; cbn; try discriminate. eauto. Qed.

Definition print_ret (throws : bool) (ret : option ty) : rret :=
  match ret with
  | Some t => RetTy (if throws then RPath false false [] "Result" (AAngle (ATy (print_ty t) ANil)) else print_ty t)
  | None => if throws then RetTy (RPath false false [] "Result" (AAngle (ATy RUnit ANil))) else RetDefault
  end.
Definition P_ty (r : rty) : Prop :=
  (forall t, parse_type r = Ok t -> plain r -> same r (print_ty t)) /\
  match r with RSlice e => forall t, parse_type e = Ok t -> plain e -> same e (print_ty t)
            | RPath _ _ _ _ (AAngle (ATy e ANil)) => forall t, parse_type e = Ok t -> plain e -> same e (print_ty t) | _ => True end.
Definition P_argl (l : rargl) : Prop := match l with ATy t ANil => P_ty t | _ => True end.
Definition P_args (a : rargs) : Prop := match a with AAngle l => P_argl l | _ => True end.
Definition P_inputs (l : rinputs) : Prop := forall i args, parse_inputs i l = Ok args -> plain_inputs l -> same_inputs l (print_inputs args).
Definition P_ret (r : rret) : Prop := match r with RetDefault => True | RetTy t => P_ty t end /\
  forall throws ret, parse_ret r = Ok (throws, ret) -> match r with RetDefault => True | RetTy t => plain t end -> same_ret r (print_ret throws ret).

Lemma same_ret_ok t u : same t (print_ty u) -> same_ret (RetTy t) (print_ret false (match u with TVoid => None | t => Some t end)).
Proof.
  intros S. destruct u; try (apply same_ret_ty; exact S). cbn in S |- *. inversion S; subst. constructor.
Qed.
Lemma same_ret_res t u : same t (print_ty u) ->
  same_ret (RetTy (RPath false false [] "Result" (AAngle (ATy t ANil)))) (print_ret true (match u with TVoid => None | t => Some t end)).
Proof. intros S. destruct u; apply same_ret_result; exact S. Qed.

Ltac ok_inv := repeat match goal with
  | H : bind _ _ = Ok _ |- _ => apply bind_ok in H as (? & ? & ?)
  | H : Ok _ = Ok _ |- _ => injection H as H; try subst
  | H : Err _ = Ok _ |- _ => discriminate H
  | H : unsupported = Ok _ |- _ => discriminate H
  end.

Lemma path_error_no {A} q b (x : A) : path_error q b = Ok x -> False.
Proof. unfold path_error, unsupported. destruct b as [|? [|? ?]]; try discriminate. destruct (negb q && _); discriminate. Qed.


Definition finish (lt : option string) (m : bool) (inner : ty) : res ty :=
  match inner with
  | TIdent n => if String.eqb (n_rust n) "str" then (if m then unsupported else Ok (TStr lt)) else Ok (TRef false m lt inner)
  | _ => Ok (TRef false m lt inner)
  end.
Lemma parse_ref lt m e : parse_type (RRef lt m e) =
  match e with RSlice e => bind (parse_type e) (fun inner => Ok (TSlice m lt inner)) | _ => bind (parse_type e) (finish lt m) end.
Proof. destruct e; reflexivity. Qed.
Definition is_builtin1 (n : string) : bool := existsb (String.eqb n) ["UniquePtr"; "SharedPtr"; "WeakPtr"; "CxxVector"; "Box"; "Vec"; "Pin"].

(** what a path is read as *)
Lemma parse_path q ld b n a t : parse_type (RPath q ld b n a) = Ok t -> q = false /\ ld = false /\ b = [] /\
  ((exists lts, lifetime_args a lts /\ t = TIdent (Named n lts)) \/
   (exists r inner, a = AAngle (ATy r ANil) /\ parse_type r = Ok inner /\
     ((n = "UniquePtr" /\ t = TUniquePtr inner) \/ (n = "SharedPtr" /\ t = TSharedPtr inner) \/ (n = "WeakPtr" /\ t = TWeakPtr inner) \/
      (n = "CxxVector" /\ t = TCxxVector inner) \/ (n = "Box" /\ t = TBox inner) \/ (n = "Vec" /\ t = TVec inner) \/
      (n = "Pin" /\ exists p m lt u, inner = TRef p m lt u /\ t = TRef true m lt u)))).
Proof.
  intros E. cbn [parse_type] in E.
  destruct (negb q && negb ld && _)%bool eqn:C; [|exfalso; exact (path_error_no _ _ _ E)].
  apply andb_prop in C as [C C3]. apply andb_prop in C as [C1 C2]. apply Bool.negb_true_iff in C1, C2. subst q ld.
  destruct b; [|discriminate]. do 3 (split; [reflexivity|]).
  assert (PE : forall x : ty, path_error false [] = Ok x -> False) by (intros x; apply path_error_no).
  assert (L : forall l, (if match l with ALt _ ANil | AConst ANil => true | _ => false end && is_builtin1 n then path_error false []
             else match only_lifetimes l with Some lts => Ok (TIdent (Named n lts)) | None => path_error false [] end) = Ok t ->
             exists lts, lifetime_args (AAngle l) lts /\ t = TIdent (Named n lts)).
  { intros l H. destruct (_ && _)%bool; [exfalso; eauto|].
    destruct (only_lifetimes l) eqn:O; [|exfalso; eauto]. injection H as <-.
    apply only_lifetimes_spec in O. eexists. split; [constructor; exact O|reflexivity]. }
  destruct a as [|l|]; [| |exfalso; eauto].
  { injection E as <-. left. exists []. split; [constructor|reflexivity]. }
  destruct l as [|r [|r' l|s l|l]|s l|l]; try (left; apply L; exact E).
  right. exists r.
  repeat (match type of E with context [String.eqb n ?c] => destruct (String.eqb_spec n c) as [->|?] end;
          [apply bind_ok in E as (inner & EI & EO); exists inner; split; [reflexivity|]; split; [exact EI|]; try (injection EO as <-); tauto || idtac|]);
    try (exfalso; eauto; fail).
  destruct inner; try (exfalso; eauto; fail). injection EO as <-. do 6 right. split; eauto 6.
Qed.

Lemma ref_not_slice lt m e t : (forall e', e <> RSlice e') -> parse_type (RRef lt m e) = Ok t ->
  exists inner, parse_type e = Ok inner /\ finish lt m inner = Ok t.
Proof. intros N E. rewrite parse_ref in E. destruct e; try (apply bind_ok in E; exact E). exfalso. eapply N. reflexivity. Qed.

(** only paths are read as names *)
Lemma finish_not_ident lt m u n : finish lt m u <> Ok (TIdent n).
Proof. unfold finish. destruct u; try discriminate. destruct (String.eqb _ _); [destruct m|]; discriminate. Qed.
Lemma parse_ident r n : parse_type r = Ok (TIdent n) -> exists a, r = RPath false false [] (n_rust n) a /\ lifetime_args a (n_lts n).
Proof.
  intros E. destruct r.
  - rewrite parse_ref in E. destruct r; apply bind_ok in E as (u & _ & E); try discriminate; exfalso; eapply finish_not_ident; eauto.
  - cbn in E. apply bind_ok in E as (? & _ & E). discriminate.
  - apply parse_path in E as (-> & -> & -> & [(lts & L & E)|(r & inner & _ & _ & E)]).
    + injection E as ->. cbn. eauto.
    + exfalso. repeat (destruct E as [[_ E]|E]; [discriminate|]). destruct E as (_ & ? & ? & ? & ? & _ & E). discriminate.
  - cbn in E. apply bind_ok in E as (? & _ & E). destruct len; try discriminate. destruct (N.ltb _ _); [discriminate|]. destruct (N.eqb _ _); discriminate.
  - discriminate.
  - cbn in E. destruct for_lifetimes; [discriminate|]. destruct variadic; [discriminate|].
    apply bind_ok in E as (? & _ & E). apply bind_ok in E as ([? ?] & _ & E). discriminate.
  - discriminate.
  - discriminate.
Qed.
(** only `Pin` makes a pinned reference *)
Lemma parse_pinned r m lt u : parse_type r = Ok (TRef true m lt u) -> pinned r.
Proof.
  intros E. destruct r.
  - rewrite parse_ref in E. destruct r; apply bind_ok in E as (v & _ & E); try discriminate;
      unfold finish in E; destruct v; try discriminate; destruct (String.eqb _ _); destruct mutable; discriminate.
  - cbn in E. apply bind_ok in E as (? & _ & E). discriminate.
  - apply parse_path in E as (-> & -> & -> & [(lts & L & E)|(r & inner & _ & _ & E)]); [discriminate|].
    cbn. repeat (destruct E as [[_ E]|E]; [discriminate|]). apply E.
  - cbn in E. apply bind_ok in E as (? & _ & E). destruct len; try discriminate. destruct (N.ltb _ _); [discriminate|]. destruct (N.eqb _ _); discriminate.
  - discriminate.
  - cbn in E. destruct for_lifetimes; [discriminate|]. destruct variadic; [discriminate|].
    apply bind_ok in E as (? & _ & E). apply bind_ok in E as ([? ?] & _ & E). discriminate.
  - discriminate.
  - discriminate.
Qed.

Lemma parse_ret_eq t : parse_ret (RetTy t) =
  let ok throws ty := Ok (throws, match ty with TVoid => None | t => Some t end) in
  match t with
  | RPath false false [] ident (AAngle (ATy arg ANil)) =>
      if String.eqb ident "Result" then bind (parse_type arg) (ok true) else bind (parse_type t) (ok false)
  | _ => bind (parse_type t) (ok false)
  end.
Proof. reflexivity. Qed.
Lemma parse_ret_inv t throws ret : parse_ret (RetTy t) = Ok (throws, ret) ->
  (exists u, parse_type t = Ok u /\ throws = false /\ ret = match u with TVoid => None | t => Some t end) \/
  (exists arg u, t = RPath false false [] "Result" (AAngle (ATy arg ANil)) /\ parse_type arg = Ok u /\ throws = true /\ ret = match u with TVoid => None | t => Some t end).
Proof.
  intros E. rewrite parse_ret_eq in E. cbv zeta in E.
  assert (G : bind (parse_type t) (fun ty => Ok (false, match ty with TVoid => None | t => Some t end)) = Ok (throws, ret) ->
     exists u, parse_type t = Ok u /\ throws = false /\ ret = match u with TVoid => None | t => Some t end).
  { intros H. apply bind_ok in H as (u & H & R). injection R as <- <-. eauto. }
  destruct t as [| |[] [] [|] n [|[|arg [| | |]| |]|]| | | | |]; try (left; exact (G E)).
  destruct (String.eqb_spec n "Result") as [->|]; [|left; exact (G E)].
  right. apply bind_ok in E as (u & H & R). injection R as <- <-. eauto 6.
Qed.

Lemma parse_same : (forall r, P_ty r) /\ (forall a, P_args a) /\ (forall l, P_argl l) /\ (forall l, P_inputs l) /\ (forall r, P_ret r).
Proof.
  apply rty_mutind.
  - (* reference *)
    intros lt m e [IH IS]. split; [|exact I]. intros t E P. cbn [plain] in P.
    destruct e as [| | | |e1| | |] eqn:EE;
      [| | | |rewrite parse_ref in E; apply bind_ok in E as (u & EU & EO); injection EO as <-; cbn [print_ty]; do 2 constructor; apply IS; auto| | |];
      rewrite <- EE in *; (apply ref_not_slice in E as (u & EU & EO); [|rewrite EE; discriminate]);
      clear EE; specialize (IH u EU P);
      assert (S : same (RRef lt m e) (print_ty (TRef false m lt u))) by (cbn [print_ty]; constructor; exact IH);
      (destruct u; try (injection EO as <-; exact S));
      cbn [finish] in EO; (destruct (String.eqb_spec (n_rust n) "str") as [ES|]; [|injection EO as <-; exact S]);
      (destruct m; [discriminate|]); injection EO as <-; cbn [print_ty]; constructor;
      apply parse_ident in EU as (a & -> & L); cbn [plain] in P; destruct P as (_ & P & _); rewrite (P ES) in *; rewrite ES;
      apply same_name with (lts := []); try constructor; intros p B; cbn in B; intuition discriminate.
  - intros m e [IH _]. split; [|exact I]. intros t E P. cbn in E. apply bind_ok in E as (u & EU & EO). injection EO as <-. constructor. auto.
  - intros q ld b n a IH. split; [|destruct a as [|[|e [| | |]| |]|]; try exact I; exact (proj1 IH)]. intros t E P. cbn [plain] in P. destruct P as (PA & _ & PP).
    apply parse_path in E as (-> & -> & -> & [(lts & L & ->)|(r & u & -> & EU & E)]).
    + apply (print_ident (Named n lts)). exact L.
    + cbn in PA. destruct PA as [PA _]. cbn in IH. destruct IH as [IH _]. specialize (IH u EU PA).
      repeat (destruct E as [[-> ->]|E]; [cbn [print_ty]; unfold absolute; apply same_builtin; [cbn; tauto|exact IH]|]).
      destruct E as (-> & p & m & lt & v & -> & ->). destruct p.
      * exfalso. apply (PP eq_refl). exact (parse_pinned _ _ _ _ EU).
      * cbn [print_ty] in IH |- *. unfold absolute. apply same_builtin; [cbn; tauto|exact IH].
  - intros e [IH _] len. split; [|exact I]. intros t E P. cbn in E. apply bind_ok in E as (u & EU & EO).
    destruct len as [k| |]; try discriminate. destruct (N.ltb _ _); [discriminate|]. destruct (N.eqb _ _); [discriminate|].
    injection EO as <-. constructor. auto.
  - intros e [IH _]. split; [discriminate|exact IH].
  - intros fl un abi i IHi va o [_ IHo]. split; [|exact I]. intros t E P. cbn [plain] in P. destruct P as (-> & -> & Pi & Po).
    cbn [parse_type] in E. destruct fl; [discriminate|]. destruct va; [discriminate|].
    apply bind_ok in E as (args & EA & E). apply bind_ok in E as ([throws ret] & ER & E). injection E as <-.
    rewrite print_fn. apply same_fn; [exact (IHi _ _ EA Pi)|exact (IHo _ _ ER Po)].
  - split; [|exact I]. intros t E _. injection E as <-. constructor.
  - split; [discriminate|exact I].
  - exact I.
  - intros l IH. exact IH.
  - exact I.
  - exact I.
  - intros t IH l _. destruct l; [exact IH|exact I|exact I|exact I].
  - intros s l _. exact I.
  - intros l _. exact I.
  - intros i args E _. injection E as <-. constructor.
  - intros x t [IH _] l IHl i args E P. cbn [parse_inputs] in E. destruct P as [P Pl].
    apply bind_ok in E as (u & EU & E). apply bind_ok in E as (us & EUS & E). injection E as <-.
    cbn [print_inputs]. constructor; [exact (IH _ EU P)|exact (IHl _ _ EUS Pl)].
  - split; [exact I|]. intros throws ret E _. injection E as <- <-. constructor.
  - intros t [IH IS]. split; [split; auto|]. intros throws ret E P.
    apply parse_ret_inv in E as [(u & EU & -> & ->)|(arg & u & -> & EU & -> & ->)].
    + apply same_ret_ok. auto.
    + apply same_ret_res. cbn in P. apply IS; tauto.
Qed.


(** * Which types are accepted *)
Scheme supported_ind2 := Induction for supported Sort Prop
with sup_inputs_ind2 := Induction for sup_inputs Sort Prop
with sup_ret_ind2 := Induction for sup_ret Sort Prop.
Combined Scheme supported_mutind from supported_ind2, sup_inputs_ind2, sup_ret_ind2.

Lemma builtin_eq n p : builtin n p -> n = "UniquePtr" \/ n = "SharedPtr" \/ n = "WeakPtr" \/ n = "CxxVector" \/ n = "Box" \/ n = "Vec" \/ n = "Pin".
Proof. unfold builtin. cbn. intros B. repeat (destruct B as [B|B]; [injection B as <- <-; tauto|]). destruct B. Qed.
Lemma lifetimes_only l lts : lifetimes l lts -> only_lifetimes l = Some lts.
Proof. induction 1; cbn; [reflexivity|]. rewrite IHlifetimes. reflexivity. Qed.

Lemma finish_ok lt m r u : parse_type r = Ok u -> (forall a, r = RPath false false [] "str" a -> m = false) -> exists t, finish lt m u = Ok t.
Proof.
  intros E N. unfold finish. destruct u; try (eexists; reflexivity). destruct (String.eqb_spec (n_rust n) "str") as [ES|]; [|eexists; reflexivity].
  apply parse_ident in E as (a & -> & _). rewrite ES in N. rewrite (N a eq_refl). eexists. reflexivity.
Qed.
Lemma reference_parse r : reference r -> forall t, parse_type r = Ok t -> exists p m lt u, t = TRef p m lt u.
Proof.
  induction 1 as [lt m r NS NStr|r R IH]; intros t E.
  - apply ref_not_slice in E as (u & EU & EO); [|exact NS]. unfold finish in EO.
    destruct u; try (injection EO as <-; eauto). destruct (String.eqb_spec (n_rust n) "str") as [ES|]; [|injection EO as <-; eauto].
    exfalso. apply parse_ident in EU as (a & -> & _). rewrite ES in NStr. exact (NStr _ eq_refl).
  - apply parse_path in E as (_ & _ & _ & [(lts & L & _)|(r' & u & EA & EU & E)]).
    + inversion L as [|? ? L']; subst. inversion L'.
    + repeat (destruct E as [[E _]|E]; [discriminate E|]). destruct E as (_ & p & m & lt & v & -> & ->). eauto.
Qed.

Lemma supported_parse :
  (forall r, supported r -> exists t, parse_type r = Ok t) /\
  (forall l, sup_inputs l -> forall i, exists args, parse_inputs i l = Ok args) /\
  (forall r, sup_ret r -> exists throws ret, parse_ret r = Ok (throws, ret)).
Proof.
  apply supported_mutind.
  - intros n a lts L N. destruct L as [|l lts L]; [eexists; reflexivity|]. pose proof (lifetimes_only _ _ L) as O.
    cbn [parse_type negb andb].
    destruct l as [|r l|s l|l]; cbn in O; try discriminate.
    + eexists. reflexivity.
    + destruct l as [|r l|s' l|l]; cbn in O; try discriminate.
      * destruct (true && _)%bool eqn:B; [exfalso|eexists; cbn; reflexivity].
        assert (exists p, builtin n p) as [p BP]. { apply existsb_exists in B as (x & I & EX). apply String.eqb_eq in EX as <-. unfold builtin.
          cbn in I |- *. repeat (destruct I as [<-|I]; [eexists; tauto|]). destruct I. }
        exact (N _ s BP eq_refl).
      * cbn [andb]. cbn. destruct (only_lifetimes l); [eexists; reflexivity|discriminate].
  - intros n r (p & B & NP) _ [t E]. cbn [parse_type negb andb]. apply builtin_eq in B. rewrite E. cbn [bind].
    repeat (destruct B as [->|B]; [eexists; reflexivity|]). contradiction.
  - intros r R _ [t E]. destruct (reference_parse _ R _ E) as (p & m & lt & u & ->).
    cbn [parse_type negb andb]. rewrite E. cbn. eexists. reflexivity.
  - intros lt m r S [u E] N. rewrite parse_ref. destruct (finish_ok lt m r u E N) as [t F].
    destruct r; try (rewrite E; cbn [bind]; eauto). inversion S.
  - intros lt m r _ [u E]. rewrite parse_ref, E. eexists. reflexivity.
  - intros m r _ [u E]. cbn. rewrite E. eexists. reflexivity.
  - intros r n _ [u E] [L H]. cbn [parse_type]. rewrite E. cbn [bind].
    destruct (N.ltb_spec usize_max n) as [X|_]; [unfold usize_max in X; lia|]. destruct (N.eqb_spec n 0); [lia|]. eexists. reflexivity.
  - eexists. reflexivity.
  - intros un abi i o _ IHi _ (throws & ret & Eo). destruct (IHi 0) as [args Ei]. cbn [parse_type]. rewrite Ei, Eo. eexists. reflexivity.
  - intros i. eexists. reflexivity.
  - intros x r i _ [t E] _ IH k. destruct (IH (S k)) as [args EA]. cbn [parse_inputs]. rewrite E. cbn [bind]. rewrite EA. eexists. reflexivity.
  - do 2 eexists. reflexivity.
  - intros r S [t E]. rewrite parse_ret_eq. cbv zeta. 
    destruct r as [| |[] [] [|] n [|[|arg [| | |]| |]|]| | | | |]; try (rewrite E; do 2 eexists; reflexivity).
    destruct (String.eqb_spec n "Result") as [->|]; [|rewrite E; do 2 eexists; reflexivity].
    exfalso. apply parse_path in E as (_ & _ & _ & [(lts & L & _)|(r' & u & EA & EU & E)]).
    + inversion L as [|? ? L']; subst. inversion L'.
    + repeat (destruct E as [[E _]|E]; [discriminate E|]). destruct E as [E _]. discriminate.
  - intros r _ [t E]. rewrite parse_ret_eq. cbv zeta. cbn. rewrite E. do 2 eexists. reflexivity.
Qed.

Lemma pin_reference : forall r, forall p m lt u, parse_type r = Ok (TRef p m lt u) -> reference r.
Proof.
  assert (G : (forall r, (forall p m lt u, parse_type r = Ok (TRef p m lt u) -> reference r)) /\
    (forall a, match a with AAngle (ATy r ANil) => forall p m lt u, parse_type r = Ok (TRef p m lt u) -> reference r | _ => True end) /\
    (forall l, match l with ATy r ANil => forall p m lt u, parse_type r = Ok (TRef p m lt u) -> reference r | _ => True end) /\
    (forall l : rinputs, True) /\ (forall r : rret, True)); [|exact (proj1 G)].
  apply rty_mutind; try (intros; exact I).
  - intros lt0 m0 r _ p m lt u E.
    assert (NS : forall e, r <> RSlice e). { intros e ->. rewrite parse_ref in E. apply bind_ok in E as (? & _ & E). discriminate. }
    apply ref_not_slice in E as (v & EU & EO); [|exact NS]. constructor; [exact NS|]. intros a ->.
    apply parse_path in EU as (_ & _ & _ & [(lts & L & ->)|(r' & w & EA & EU & E)]).
    + cbn in EO. destruct m0; discriminate.
    + repeat (destruct E as [[E _]|E]; [discriminate E|]). destruct E as [E _]. discriminate.
  - intros m0 r _ p m lt u E. cbn in E. apply bind_ok in E as (? & _ & E). discriminate.
  - intros q ld b n a IH p m lt u E.
    apply parse_path in E as (-> & -> & -> & [(lts & L & E)|(r' & w & -> & EU & E)]); [discriminate|].
    repeat (destruct E as [[_ E]|E]; [discriminate E|]). destruct E as (-> & p' & m' & lt' & v & -> & E). constructor. eauto.
  - intros r _ len p m lt u E. cbn in E. apply bind_ok in E as (? & _ & E). destruct len; try discriminate. destruct (N.ltb _ _); [discriminate|]. destruct (N.eqb _ _); discriminate.
  - discriminate.
  - intros fl un abi i _ va o _ p m lt u E. cbn [parse_type] in E. destruct fl; [discriminate|]. destruct va; [discriminate|].
    apply bind_ok in E as (? & _ & E). apply bind_ok in E as ([? ?] & _ & E). discriminate.
  - discriminate.
  - discriminate.
  - intros l IH. exact IH.
  - intros r IH l _. destruct l; auto.
Qed.

Definition Q_ty (r : rty) : Prop :=
  (forall t, parse_type r = Ok t -> supported r) /\
  match r with RSlice e | RPath _ _ _ _ (AAngle (ATy e ANil)) => forall t, parse_type e = Ok t -> supported e | _ => True end.
Lemma parse_supported : (forall r, Q_ty r) /\ (forall a, match a with AAngle (ATy r ANil) => Q_ty r | _ => True end) /\
  (forall l, match l with ATy r ANil => Q_ty r | _ => True end) /\
  (forall l, forall i args, parse_inputs i l = Ok args -> sup_inputs l) /\
  (forall r, forall x, parse_ret r = Ok x -> sup_ret r).
Proof.
  apply rty_mutind.
  - intros lt m e [IH IS]. split; [|exact I]. intros t E.
    destruct e as [| | | |e1| | |] eqn:EE;
      [| | | |rewrite parse_ref in E; apply bind_ok in E as (u & EU & EO); apply sup_slice; eauto| | |];
      rewrite <- EE in *; (apply ref_not_slice in E as (u & EU & EO); [|rewrite EE; discriminate]);
      clear EE; (apply sup_ref; [eauto|]); intros a ->;
      (apply parse_path in EU as (_ & _ & _ & [(lts & L & ->)|(r' & w & EA & EU & E)]);
       [cbn in EO; destruct m; [discriminate|reflexivity]
       |repeat (destruct E as [[E _]|E]; [discriminate E|]); destruct E as [E _]; discriminate]).
  - intros m e [IH _]. split; [|exact I]. intros t E. cbn in E. apply bind_ok in E as (u & EU & _). constructor. eauto.
  - intros q ld b n a IH. split; [|destruct a as [|[|e [| | |]| |]|]; try exact I; exact (proj1 IH)].
    intros t E. pose proof E as E0. apply parse_path in E as (-> & -> & -> & [(lts & L & ->)|(r & u & -> & EU & E)]).
    + apply sup_name with (lts := lts); [exact L|]. intros p s B ->.
      apply builtin_eq in B. cbn [parse_type negb andb] in E0.
      repeat (destruct B as [->|B]; [cbn in E0; discriminate|]). subst n. cbn in E0. discriminate.
    + destruct IH as [IH _]. specialize (IH u EU).
      repeat (destruct E as [[-> _]|E]; [apply sup_generic; [eexists; split; [cbn; tauto|discriminate]|exact IH]|]).
      destruct E as (-> & p & m & lt & v & -> & _). apply sup_pin; [exact (pin_reference _ _ _ _ _ EU)|exact IH].
  - intros e [IH _] len. split; [|exact I]. intros t E. cbn in E. apply bind_ok in E as (u & EU & EO).
    destruct len as [k| |]; try discriminate. destruct (N.ltb_spec usize_max k) as [|X]; [discriminate|]. destruct (N.eqb_spec k 0); [discriminate|].
    constructor; [eauto|]. unfold usize_max in X. lia.
  - intros e [IH _]. split; [discriminate|exact IH].
  - intros fl un abi i IHi va o IHo. split; [|exact I]. intros t E.
    cbn [parse_type] in E. destruct fl; [discriminate|]. destruct va; [discriminate|].
    apply bind_ok in E as (args & EA & E). apply bind_ok in E as ([throws ret] & ER & E). constructor; eauto.
  - split; [|exact I]. intros t E. constructor.
  - split; [discriminate|exact I].
  - exact I.
  - intros l IH. exact IH.
  - exact I.
  - exact I.
  - intros t IH l _. destruct l; [exact IH|exact I|exact I|exact I].
  - intros s l _. exact I.
  - intros l _. exact I.
  - intros i args E. constructor.
  - intros x t [IH _] l IHl i args E. cbn [parse_inputs] in E.
    apply bind_ok in E as (u & EU & E). apply bind_ok in E as (us & EUS & E). constructor; eauto.
  - intros x _. constructor.
  - intros t [IH IS] [throws ret] E.
    apply parse_ret_inv in E as [(u & EU & -> & ->)|(arg & u & -> & EU & -> & ->)].
    + constructor. eauto.
    + apply sup_ret_result. eapply IS. exact EU.
Qed.

(** [r] is a type written in a bridge.  If it is accepted, the type in the generated Rust code is
    the same type: the names of the bridge language stand for the library's types, every
    reference is as shared or exclusive and as long-lived as it was, every array as long, every
    function pointer has the parameters and results it had.  Provided that no function pointer
    is unsafe or has an ABI, and no `Pin` is directly in another. *)
Theorem C70_same_type_partial r t : parse_type r = Ok t -> plain r -> same r (print_ty t).
Proof. intros E P. exact (proj1 (proj1 parse_same r) t E P). Qed.
Print Assumptions C70_same_type_partial.

(** The types accepted are those of the bridge language, no others. *)
Theorem C70_accepted r : (exists t, parse_type r = Ok t) <-> supported r.
Proof. split; [intros [t E]; exact (proj1 (proj1 parse_supported r) t E)|apply (proj1 supported_parse)]. Qed.
Print Assumptions C70_accepted.

(** an example with all of it: Pin<&'a mut UniquePtr<[fn(x: &str, *const Vec<u8>) -> Result<()>; 4]>> *)
Definition ident x := RPath false false [] x ANone.
Definition app1 x t := RPath false false [] x (AAngle (ATy t ANil)).
Definition example_ty : rty :=
  app1 "Pin" (RRef (Some "a") true (app1 "UniquePtr" (RArray
    (RFn false false None (ICons (Some "x") (RRef None false (ident "str")) (ICons None (RPtr false (app1 "Vec" (ident "u8"))) INil))
       false (RetTy (app1 "Result" RUnit))) (LInt 4)))).
Example C70_nonvacuous : plain example_ty /\ supported example_ty /\ exists t, parse_type example_ty = Ok t.
Proof.
  assert (exists t, parse_type example_ty = Ok t) as E by (eexists; reflexivity).
  repeat match goal with |- _ /\ _ => split end; [|apply C70_accepted; exact E|exact E].
  cbn. unfold pinned. intuition discriminate.
Qed.

(** An unsafe function pointer becomes a safe one, a function pointer with the calling
    convention of C one with that of Rust, and two `Pin` become one. *)
Theorem C70_same_type_refuted :
  (let r := RFn false true None INil false RetDefault in supported r /\ exists t, parse_type r = Ok t /\ ~ same r (print_ty t)) /\
  (let r := RFn false false (Some (Some "C")) INil false RetDefault in supported r /\ exists t, parse_type r = Ok t /\ ~ same r (print_ty t)) /\
  (let r := app1 "Pin" (app1 "Pin" (RRef None true (ident "T"))) in supported r /\ exists t, parse_type r = Ok t /\ ~ same r (print_ty t)).
Proof.
  repeat match goal with |- _ /\ _ => split end; cbv zeta; (split; [apply C70_accepted; eexists; reflexivity|]);
    (eexists; split; [reflexivity|]); cbn; intros S; inversion S; subst.
  - match goal with H : builtin0 _ _ |- _ => cbn in H; intuition discriminate end.
  - match goal with H : same (app1 _ _) _ |- _ => inversion H end.
Qed.
Print Assumptions C70_same_type_refuted.
