(** What the items of a bridge declare, read off the source. *)
From Verif Require Import Base Syntax_Model Cfg_Model Cfg_Spec Discriminant_Model Names_Model ParseTy_Model Attrs_Model Attrs_Spec Check_Spec Parse_Model.

(** * Attributes and the places they are possible in *)
Inductive place : Type := PStruct | PEnum | PMember (* a field or variant *) | PBlock | PType | PFn | PImpl.
Definition possible (pl : place) (e : effect) : bool :=
  match e with
  | EDoc _ | EHidden => match pl with PBlock | PImpl => false | _ => true end
  | EDerive _ => match pl with PStruct | PEnum | PType => true | _ => false end
  | ERepr _ | EHeader => match pl with PEnum => true | _ => false end
  | ENamespace _ => match pl with PMember | PImpl => false | _ => true end
  | ECxx _ | ERust _ => match pl with PBlock | PImpl => false | _ => true end
  | ECfg _ | ELint | EFormat => true
  end.

Section Spec.
  Variable lex : string -> option (list tok).
  Variable keyword : string -> bool.
  Variables experimental async_fn : bool.

  (** the attributes in this place have these effects *)
  Definition attributes_mean (pl : place) (attrs : list sattr) (effs : list effect) : Prop :=
    Forall2 (means lex keyword experimental) attrs effs /\ Forall (fun e => possible pl e = true) effs.

  (** an identifier as C++ sees it: its own text *)
  Definition identifier (i x : string) : Prop := exists t, lex i = Some [t] /\ word keyword t x.

  (** A declaration called [ident] with these attributes, in a place where the namespace is [ns]:
      the innermost namespace, and the names given, or else the identifier *)
  Definition name_is (ns : list string) (ident : string) (effs : list effect) (n : pair_name) : Prop :=
    p_ns n = last (namespaces effs) ns /\
    (match last (cxx_names effs) None with Some x => p_cxx n = x | None => identifier ident (p_cxx n) end) /\
    p_rust n = match last (rust_names effs) None with Some x => x | None => ident end.
  (** [e] is true exactly if all conditions are *)
  Definition condition (effs : list effect) (e : cfg_expr) : Prop := forall c, holds c e = forallb (holds c) (cfgs effs).
  Definition extra_is (inherited : list sattr) (attrs : list sattr) (effs : list effect) (x : extra) : Prop :=
    ex_doc x = (docs effs, hidden effs) /\ ex_pass x = inherited ++ kept (combine attrs effs).
  (** the generic parameters are these lifetimes, without bounds *)
  Definition lifetimes_only (l : list gparam) (lts : list string) : Prop := l = map (fun x => GLt x false) lts.

  (** * Shared types; for the types of fields see C70, for the values of variants C01 and C02 *)
  Definition field_is (f : sfield) (v : var) (x : extra) : Prop :=
    exists effs, attributes_mean PMember (sf_attrs f) effs /\ name_is [] (sf_ident f) effs (v_name v) /\
      condition effs (v_cfg v) /\ parse_type (sf_ty f) = Ok (v_ty v) /\ extra_is [] (sf_attrs f) effs x.
  Definition struct_is (ns : list string) (s : sstruct) (o : out) : Prop :=
    exists effs fields st,
      attributes_mean PStruct (ss_attrs s) effs /\ ss_fields s = FNamed fields /\ o_api o = AStruct st /\
      name_is ns (ss_ident s) effs (st_name st) /\ condition effs (st_cfg st) /\ st_derives st = derives effs /\
      lifetimes_only (g_params (ss_generics s)) (st_lts st) /\ g_where (ss_generics s) = false /\
      extra_is [] (ss_attrs s) effs (o_extra o) /\
      List.length (st_fields st) = List.length fields /\ List.length (o_subs o) = List.length fields /\
      Forall2 (fun f vx => field_is f (fst vx) (snd vx)) fields (combine (st_fields st) (o_subs o)).

  Definition variant_is (v : svariant) (w : variant) (x : extra) : Prop :=
    exists effs, attributes_mean PMember (sv_attrs v) effs /\ name_is [] (sv_ident v) effs (vr_name w) /\
      condition effs (vr_cfg w) /\ extra_is [] (sv_attrs v) effs x.
  Definition enum_is (ns : list string) (e : senum) (o : out) : Prop :=
    exists effs en ds,
      attributes_mean PEnum (se_attrs e) effs /\ o_api o = AEnum en /\
      name_is ns (se_ident e) effs (en_name en) /\ condition effs (en_cfg en) /\ en_derives en = derives effs /\
      se_generics e = SGenerics [] false /\ en_lts en = [] /\ en_from_header en = header effs /\
      extra_is [] (se_attrs e) effs (o_extra o) /\
      List.length (en_variants en) = List.length (se_variants e) /\ List.length (o_subs o) = List.length (se_variants e) /\
      Forall2 (fun v wx => variant_is v (fst wx) (snd wx)) (se_variants e) (combine (en_variants en) (o_subs o)) /\
      Discriminant_Model.parse_enum (last (reprs effs) None) (map (fun v => RVariant (sv_unit v) (sv_disc v)) (se_variants e))
        = Ok (ds, en_repr en) /\
      map vr_disc (en_variants en) = map disc_Z ds /\
      en_explicit_repr en = (match last (reprs effs) None with Some _ => true | None => false end).

  (** * Extern blocks *)
  Inductive path_tok : itok -> string -> Prop :=
  | pt_ident x : path_tok (ITIdent x) x
  | pt_number d x : (48 <= nat_of_ascii d <= 57)%nat -> path_tok (ITLit (String d x)) (String d x)
  | pt_punct c : c <> ">"%char -> path_tok (ITPunct c) (String c "").
  Inductive include_is : list itok -> string -> bool -> Prop :=
  | inc_quoted s : include_is [ITStr s] s false
  | inc_bracketed l texts : Forall2 path_tok l texts -> include_is (ITPunct "<" :: l ++ [ITPunct ">"]) (String.concat "" texts) true.

  (** [beffs] and [inherited]: of the block *)
  Definition type_is (l : lang) (trusted : bool) (ns : list string) (beffs : list effect) (inherited : list sattr)
      (attrs : list sattr) (ident : string) (params : list gparam) (bounds : list (option string)) (o : out) : Prop :=
    exists effs et,
      attributes_mean PType attrs effs /\ o_api o = (match l with LCxx => ACxxType et | LRust => ARustType et end) /\
      name_is ns ident (beffs ++ effs) (et_name et) /\ condition (beffs ++ effs) (et_cfg et) /\ et_derives et = derives effs /\
      lifetimes_only params (et_lts et) /\ et_lang et = l /\ et_trusted et = trusted /\
      Forall2 (fun b t => exists x, b = Some x /\ In (x, t) derivable) bounds (et_bounds et) /\
      extra_is inherited attrs effs (o_extra o) /\ o_subs o = [].
  Definition alias_is (ns : list string) (beffs : list effect) (inherited : list sattr)
      (attrs : list sattr) (ident : string) (params : list gparam) (o : out) : Prop :=
    exists effs ta,
      attributes_mean PType attrs effs /\ o_api o = ATypeAlias ta /\
      name_is ns ident (beffs ++ effs) (ta_name ta) /\ condition (beffs ++ effs) (ta_cfg ta) /\ ta_derives ta = derives effs /\
      lifetimes_only params (ta_lts ta) /\
      extra_is inherited attrs effs (o_extra o) /\ o_subs o = [].

  (** a reference to Self, or to the type that is written *)
  Inductive receiver_is : sreceiver -> receiver -> Prop :=
  | rc_short lt m : receiver_is (RcShort lt m) (Receiver false lt m (Named "Self" []) true)
  | rc_typed t p m lt n : parse_type t = Ok (TRef p m lt (TIdent n)) -> receiver_is (RcTyped t) (Receiver p lt m n false).
  (** arguments without name are called by their position, from [i] *)
  Inductive args_are : nat -> list sarg -> list (string * ty) -> Prop :=
  | args_nil i : args_are i [] []
  | args_named i at_ x r l y t args : identifier x y -> parse_type r = Ok t -> args_are (S i) l args ->
      args_are i (SArg at_ (PIdent x) r :: l) ((y, t) :: args)
  | args_wild i at_ r l y t args : identifier (arg_name i) y -> parse_type r = Ok t -> args_are (S i) l args ->
      args_are i (SArg at_ PWild r :: l) ((y, t) :: args).
  Definition fn_is (l : lang) (trusted : bool) (ns : list string) (beffs : list effect) (inherited : list sattr)
      (f : sfn) (o : out) : Prop :=
    exists effs ef,
      attributes_mean PFn (sn_attrs f) effs /\ o_api o = (match l with LCxx => ACxxFunction ef | LRust => ARustFunction ef end) /\
      name_is ns (sn_ident f) (beffs ++ effs) (fn_name ef) /\ condition (beffs ++ effs) (fn_cfg ef) /\
      fn_lang ef = l /\ fn_trusted ef = trusted /\ fn_async ef = sn_async f /\ fn_unsafe ef = sn_unsafe f /\
      lifetimes_only (g_params (sn_generics f)) (fn_generics ef) /\ g_where (sn_generics f) = false /\
      sn_variadic f = false /\ sn_const f = false /\ sn_abi f = false /\ (sn_async f = true -> async_fn = true) /\
      (match sn_receiver f, fn_receiver ef with
       | None, None => True
       | Some (_, r), Some rc => receiver_is r rc
       | _, _ => False
       end) /\
      args_are 0 (sn_args f) (fn_args ef) /\ parse_ret (sn_ret f) = Ok (fn_throws ef, fn_ret ef) /\
      extra_is inherited (sn_attrs f) effs (o_extra o) /\ o_subs o = [].

  Inductive foreign_is (l : lang) (trusted : bool) (ns : list string) (beffs : list effect) (inherited : list sattr) : sforeign -> out -> Prop :=
  | fi_type t o : type_is l trusted ns beffs inherited (sy_attrs t) (sy_ident t) (g_params (sy_generics t)) [] o ->
      foreign_is l trusted ns beffs inherited (FType t) o
  | fi_bounded attrs ident params bounds o : type_is l trusted ns beffs inherited attrs ident params bounds o ->
      foreign_is l trusted ns beffs inherited (FVerbatimType attrs ident params (TailBounds bounds)) o
  | fi_alias attrs ident params o : l = LCxx -> alias_is ns beffs inherited attrs ident params o ->
      foreign_is l trusted ns beffs inherited (FVerbatimType attrs ident params TailAlias) o
  | fi_fn f o : fn_is l trusted ns beffs inherited f o -> foreign_is l trusted ns beffs inherited (FFn f) o
  | fi_include attrs toks s b cfg o : include_is toks s b -> condition beffs cfg ->
      o = Out (AInclude (Include_ cfg s b)) (Extra ([], false) []) [] ->
      foreign_is l trusted ns beffs inherited (FInclude attrs toks) o.

  (** `Self` of a receiver is the type of the block if there is exactly one (C22) *)
  Definition bare_self (items out : list api) : Prop :=
    Forall2 (fun a b =>
      match fn_of a with
      | Some f =>
          match receiver_name f, flat_map (fun a => match declared_in_block a with Some x => [x] | None => [] end) items with
          | Some "Self", [x] => exists f', renamed_receiver x f f' /\ fn_of b = Some f' /\ (match a with ACxxFunction _ => b = ACxxFunction f' | _ => b = ARustFunction f' end)
          | _, _ => b = a
          end
      | None => b = a
      end) items out.

  Definition block_is (trusted : bool) (ns : list string) (b : sblock) (outs : list out) : Prop :=
    exists l effs mids,
      sb_abi b = Some (match l with LCxx => "C++" | LRust => "Rust" end) /\
      attributes_mean PBlock (sb_attrs b) effs /\
      (l = LRust -> sb_unsafe b = false) /\
      (* every function is unsafe to call, unless the block is unsafe or the bridge is *)
      (l = LCxx -> trusted = false -> sb_unsafe b = false -> forall f, In (FFn f) (sb_items b) -> sn_unsafe f = true) /\
      Forall2 (foreign_is l (trusted || sb_unsafe b) ns effs (kept (combine (sb_attrs b) effs))) (sb_items b) mids /\
      bare_self (map o_api mids) (map o_api outs) /\
      map o_extra outs = map o_extra mids /\ map o_subs outs = map o_subs mids.

  (** * Everything *)
  Definition impl_is (i : simpl) (o : out) : Prop :=
    exists effs im,
      attributes_mean PImpl (si_attrs i) effs /\ o = Out (AImpl im) (Extra ([], false) []) [] /\
      condition effs (im_cfg im) /\ lifetimes_only (g_params (si_generics i)) (im_lts im) /\ g_where (si_generics i) = false /\
      si_trait i = false /\ si_empty i = true /\ im_negative im = si_negative i /\ parse_type (si_ty i) = Ok (im_ty im).
  Inductive item_is (trusted : bool) (ns : list string) : sitem -> list out -> Prop :=
  | ii_struct s o : struct_is ns s o -> item_is trusted ns (ItStruct s) [o]
  | ii_enum e o : enum_is ns e o -> item_is trusted ns (ItEnum e) [o]
  | ii_block b outs : block_is trusted ns b outs -> item_is trusted ns (ItForeign b) outs
  | ii_impl i o : impl_is i o -> item_is trusted ns (ItImpl i) [o].
  Definition declares (trusted : bool) (ns : list string) (items : list sitem) (outs : list out) : Prop :=
    exists outss, Forall2 (item_is trusted ns) items outss /\ outs = List.concat outss.
End Spec.

(** The identifiers in the source that have to be names in C++ too *)
Definition idents_of_foreign (i : sforeign) : list string :=
  match i with
  | FType t => [sy_ident t]
  | FFn f => sn_ident f :: flat_map (fun a => match sa_pat a with PIdent x => [x] | PWild | POther => [] end) (sn_args f)
  | FVerbatimType _ x _ _ => [x]
  | FInclude _ _ | FVerbatimFn | FVerbatimOther | FOther => []
  end.
Definition idents_of_item (i : sitem) : list string :=
  match i with
  | ItStruct s => ss_ident s :: match ss_fields s with FNamed l => map sf_ident l | FUnit | FTuple => [] end
  | ItEnum e => se_ident e :: map sv_ident (se_variants e)
  | ItForeign b => flat_map idents_of_foreign (sb_items b)
  | ItImpl _ | ItUse | ItOther => []
  end.

(** The declarations of a bridge: the attributes of the block around it (none for shared types),
    its place, its attributes and its identifier *)
Inductive declaration (items : list sitem) : list sattr -> place -> list sattr -> string -> Prop :=
| de_struct s : In (ItStruct s) items -> declaration items [] PStruct (ss_attrs s) (ss_ident s)
| de_enum e : In (ItEnum e) items -> declaration items [] PEnum (se_attrs e) (se_ident e)
| de_type b t : In (ItForeign b) items -> In (FType t) (sb_items b) -> declaration items (sb_attrs b) PType (sy_attrs t) (sy_ident t)
| de_other_type b attrs ident params tail : In (ItForeign b) items -> In (FVerbatimType attrs ident params tail) (sb_items b) ->
    declaration items (sb_attrs b) PType attrs ident
| de_fn b f : In (ItForeign b) items -> In (FFn f) (sb_items b) -> declaration items (sb_attrs b) PFn (sn_attrs f) (sn_ident f).
Definition name_of_api (a : api) : option pair_name :=
  match a with
  | AStruct s => Some (st_name s)
  | AEnum e => Some (en_name e)
  | ACxxType t | ARustType t => Some (et_name t)
  | ATypeAlias t => Some (ta_name t)
  | ACxxFunction f | ARustFunction f => Some (fn_name f)
  | AInclude _ | AImpl _ => None
  end.
