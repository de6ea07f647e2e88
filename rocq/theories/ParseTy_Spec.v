(** When two Rust types as written are the same type, the names of the bridge language meaning
    what its documentation says they mean. *)
From Verif Require Import Base ParseTy_Model.

(** The generic types of the bridge language, and the Rust types behind them *)
Definition builtin (name : string) (path : list string) : Prop :=
  In (name, path)
    [("UniquePtr", ["cxx"]); ("SharedPtr", ["cxx"]); ("WeakPtr", ["cxx"]); ("CxxVector", ["cxx"]);
     ("Box", ["cxx"; "alloc"; "boxed"]); ("Vec", ["cxx"; "alloc"; "vec"]); ("Pin", ["cxx"; "core"; "pin"])].
(** The names without parameters *)
Definition builtin0 (name : string) (path : list string) : Prop :=
  In (name, path) [("c_char", ["cxx"; "core"; "ffi"]); ("CxxString", ["cxx"]); ("String", ["cxx"; "alloc"; "string"])].

(** the arguments are these lifetimes and nothing else *)
Inductive lifetimes : rargl -> list string -> Prop :=
| lifetimes_nil : lifetimes ANil []
| lifetimes_cons s l lts : lifetimes l lts -> lifetimes (ALt s l) (s :: lts).
Inductive lifetime_args : rargs -> list string -> Prop :=
| lifetimes_none : lifetime_args ANone []
| lifetimes_angle l lts : lifetimes l lts -> lifetime_args (AAngle l) lts.

(** [same a b]: what [a] means in the bridge is what [b] means outside of it.  Names of
    parameters in function pointers do not matter. *)
Inductive same : rty -> rty -> Prop :=
| same_name n a b lts : (forall p, ~ builtin0 n p) -> lifetime_args a lts -> lifetime_args b lts ->
    same (RPath false false [] n a) (RPath false false [] n b)
| same_builtin0 n p a b lts : builtin0 n p -> lifetime_args a lts -> lifetime_args b lts ->
    same (RPath false false [] n a) (RPath false true p n b)
| same_builtin n p t u : builtin n p -> same t u ->
    same (RPath false false [] n (AAngle (ATy t ANil))) (RPath false true p n (AAngle (ATy u ANil)))
| same_ref lt m t u : same t u -> same (RRef lt m t) (RRef lt m u)
| same_slice t u : same t u -> same (RSlice t) (RSlice u)
| same_ptr m t u : same t u -> same (RPtr m t) (RPtr m u)
| same_array n t u : same t u -> same (RArray t (LInt n)) (RArray u (LInt n))
| same_unit : same RUnit RUnit
| same_fn un abi i o j p : same_inputs i j -> same_ret o p ->
    same (RFn false un abi i false o) (RFn false un abi j false p)
with same_inputs : rinputs -> rinputs -> Prop :=
| same_inil : same_inputs INil INil
| same_icons x y t u i j : same t u -> same_inputs i j -> same_inputs (ICons x t i) (ICons y u j)
with same_ret : rret -> rret -> Prop :=
| same_default : same_ret RetDefault RetDefault
| same_ret_unit : same_ret (RetTy RUnit) RetDefault
| same_ret_ty t u : same t u -> same_ret (RetTy t) (RetTy u)
| same_ret_result t u : same t u ->
    same_ret (RetTy (RPath false false [] "Result" (AAngle (ATy t ANil)))) (RetTy (RPath false false [] "Result" (AAngle (ATy u ANil)))).

(** `Pin<..>` *)
Definition pinned (r : rty) : Prop := match r with RPath false false [] n _ => n = "Pin" | _ => False end.

(** No function pointer in the type is unsafe or has an ABI, `str` has no lifetime arguments,
    and there is no `Pin` immediately inside of a `Pin`. *)
Fixpoint plain (r : rty) : Prop :=
  match r with
  | RRef _ _ t | RPtr _ t | RArray t _ | RSlice t => plain t
  | RPath _ _ _ n a => plain_args a /\ (n = "str" -> a = ANone) /\ (n = "Pin" -> match a with AAngle (ATy t ANil) => ~ pinned t | _ => True end)
  | RFn _ un abi i _ o => un = false /\ abi = None /\ plain_inputs i /\ match o with RetDefault => True | RetTy t => plain t end
  | RUnit | ROther => True
  end
with plain_args (a : rargs) : Prop := match a with AAngle l => plain_argl l | _ => True end
with plain_argl (l : rargl) : Prop := match l with ANil => True | ATy t l => plain t /\ plain_argl l | ALt _ l | AConst l => plain_argl l end
with plain_inputs (i : rinputs) : Prop := match i with INil => True | ICons _ t i => plain t /\ plain_inputs i end.

(** * The types of the bridge language *)
(** a name with one type argument that is not `Pin` *)
Definition generic_name (n : string) : Prop := exists p, builtin n p /\ n <> "Pin".
(** `&T` and `&mut T`, pinned any number of times *)
Inductive reference : rty -> Prop :=
| reference_ref lt m t : (forall e, t <> RSlice e) -> (forall a, t <> RPath false false [] "str" a) -> reference (RRef lt m t)
| reference_pin t : reference t -> reference (RPath false false [] "Pin" (AAngle (ATy t ANil))).

Inductive supported : rty -> Prop :=
| sup_name n a lts : lifetime_args a lts -> (forall p s, builtin n p -> a <> AAngle (ALt s ANil)) -> supported (RPath false false [] n a)
| sup_generic n t : generic_name n -> supported t -> supported (RPath false false [] n (AAngle (ATy t ANil)))
| sup_pin t : reference t -> supported t -> supported (RPath false false [] "Pin" (AAngle (ATy t ANil)))
| sup_ref lt m t : supported t -> (forall a, t = RPath false false [] "str" a -> m = false) -> supported (RRef lt m t)
| sup_slice lt m t : supported t -> supported (RRef lt m (RSlice t))
| sup_ptr m t : supported t -> supported (RPtr m t)
| sup_array t n : supported t -> (0 < n <= 18446744073709551615)%N -> supported (RArray t (LInt n))
| sup_unit : supported RUnit
| sup_fn un abi i o : sup_inputs i -> sup_ret o -> supported (RFn false un abi i false o)
with sup_inputs : rinputs -> Prop :=
| sup_inil : sup_inputs INil
| sup_icons x t i : supported t -> sup_inputs i -> sup_inputs (ICons x t i)
with sup_ret : rret -> Prop :=
| sup_default : sup_ret RetDefault
| sup_ret_ty t : supported t -> sup_ret (RetTy t)
| sup_ret_result t : supported t -> sup_ret (RetTy (RPath false false [] "Result" (AAngle (ATy t ANil)))).
