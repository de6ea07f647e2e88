(** Specification for C98: the enums of a C++ translation unit. *)
From Coq Require Import DecimalString DecimalZ.
From Verif Require Import Base Syntax_Model Discriminant_Model Load_Model.

(** * The C++ side *)
Inductive scope := Namespace (n : string) | Anonymous | Local.
(** A declaration of a named enum: where, its name, the underlying type it states, what is inside *)
Record decl := Decl { d_path : list scope; d_name : string; d_fixed : option qual; d_inner : list node }.
(** All declarations of enums, in order.  Members of classes and of functions are not members
    of the namespace around them; a linkage specification (extern "C" { }) opens no scope. *)
Fixpoint decls (p : list scope) (n : node) {struct n} : list decl :=
  match n with
  | Node (NamespaceDecl (Some x)) l => flat_map (decls (p ++ [Namespace x])) l
  | Node (NamespaceDecl None) l => flat_map (decls (p ++ [Anonymous])) l
  | Node (Unknown (Record_ | Function_)) l => flat_map (decls (p ++ [Local])) l
  | Node (Unknown (Linkage | Other)) l => flat_map (decls p) l
  | Node (EnumDecl (Some x) fixed) l => [Decl p x fixed l]
  | Node (EnumDecl None _) _ | Node (EnumConstantDecl _) _ | Node ImplicitCastExpr _ | Node (ConstantExpr _) _ => []
  end.
Definition constants (l : list node) : list (string * list node) :=
  flat_map (fun n => match n with Node (EnumConstantDecl x) init => [(x, init)] | _ => [] end) l.

(** The text in which clang gives the value [z] *)
Definition text_of (z : Z) : string := NilZero.string_of_int (Z.to_int z).
(** The value of an initialiser *)
Inductive gives : node -> Z -> Prop :=
| gi_value z l : gives (Node (ConstantExpr (text_of z)) l) z
| gi_cast n z : gives n z -> gives (Node ImplicitCastExpr [n]) z.
(** The enumerators with their values: the one given, else one more than the one before, else zero *)
Inductive enumerators : option Z -> list (string * list node) -> list (string * Z) -> Prop :=
| en_nil prev : enumerators prev [] []
| en_given prev x n z l vs : gives n z -> enumerators (Some z) l vs -> enumerators prev ((x, [n]) :: l) ((x, z) :: vs)
| en_next prev x l vs : let z := match prev with Some z => (z + 1)%Z | None => 0%Z end in
    enumerators (Some z) l vs -> enumerators prev ((x, []) :: l) ((x, z) :: vs).

(** * Trees as clang makes them: expressions and comments hold no declarations, enumerators are in enums only, and
    values are written in decimal *)
Inductive plain : node -> Prop :=
| pl_node k l : match k with ImplicitCastExpr | ConstantExpr _ | Unknown _ => True | _ => False end ->
    (match k with ConstantExpr v => exists z, v = text_of z | _ => True end) -> Forall plain l -> plain (Node k l).
Inductive sane : node -> Prop :=
| sa_namespace x l : Forall sane l -> sane (Node (NamespaceDecl x) l)
| sa_unknown w l : Forall sane l -> sane (Node (Unknown w) l)
| sa_plain n : plain n -> sane n
| sa_enum x fixed l : Forall (fun n => plain n \/ exists y init, n = Node (EnumConstantDecl y) init /\ Forall plain init) l ->
    sane (Node (EnumDecl x fixed) l).

(** * The Rust side *)
(** The types that an enum may be based on, as C++ spells them and as core::ffi names them *)
Inductive ctype := CChar | CSChar | CUChar | CShort | CUShort | CInt | CUInt | CLong | CULong | CLongLong | CULongLong.
Definition cxx_spelling (t : ctype) : string :=
  match t with
  | CChar => "char" | CSChar => "signed char" | CUChar => "unsigned char" | CShort => "short" | CUShort => "unsigned short"
  | CInt => "int" | CUInt => "unsigned int" | CLong => "long" | CULong => "unsigned long" | CLongLong => "long long" | CULongLong => "unsigned long long"
  end.
Definition ffi_name (t : ctype) : string :=
  match t with
  | CChar => "c_char" | CSChar => "c_schar" | CUChar => "c_uchar" | CShort => "c_short" | CUShort => "c_ushort"
  | CInt => "c_int" | CUInt => "c_uint" | CLong => "c_long" | CULong => "c_ulong" | CLongLong => "c_longlong" | CULongLong => "c_ulonglong"
  end.
(** The underlying type, without typedefs *)
Definition based_on (d : decl) (t : ctype) : Prop :=
  exists q, d_fixed d = Some q /\ (q_desugared q = Some (cxx_spelling t) \/ q_desugared q = None /\ q_type q = cxx_spelling t).

Definition disc_value (d : disc) : Z := match d_sign d with Negative => - Z.of_N (d_mag d) | Positive => Z.of_N (d_mag d) end.
(** [e] has the variants and the representation of the declaration *)
Definition taken_from (d : decl) (e : lenum) : Prop :=
  (exists t, based_on d t /\ l_repr e = Some (ffi_name t)) /\
  enumerators None (constants (d_inner d)) (map (fun v => (lv_cxx v, disc_value (lv_disc v))) (l_variants e)).

(** The enum of the bridge and the declaration have the same qualified name *)
Definition named (n : pair_name) (d : decl) : Prop := d_path d = map Namespace (p_ns n) /\ d_name d = p_cxx n.
(** The same, if classes and functions around the declaration are overlooked *)
Definition namespaces (p : list scope) : list string := flat_map (fun s => match s with Namespace x => [x] | _ => [] end) p.
Definition looks_named (n : pair_name) (d : decl) : bool :=
  negb (existsb (fun s => match s with Anonymous => true | _ => false end) (d_path d))
  && (if list_eq_dec string_dec (namespaces (d_path d)) (p_ns n) then true else false) && String.eqb (d_name d) (p_cxx n).
Definition defines (d : decl) : Prop := constants (d_inner d) <> [].

(** What C++ has to offer for one enum: declarations without enumerators, then one with, each of a supported type,
    with names and values that Rust can hold *)
Definition loadable (any_ident : string -> bool) (ds : list decl) : Prop :=
  exists before d vs, ds = before ++ [d] /\ (forall b, In b before -> ~ defines b /\ exists t, based_on b t) /\
    defines d /\ (exists t, based_on d t) /\ enumerators None (constants (d_inner d)) vs /\
    (forall x z, In (x, z) vs -> any_ident x = true /\ (- 2 ^ 64 < z < 2 ^ 64)%Z).

Definition wanted (l : list henum) : list pair_name := map h_name (filter (fun h => h_from_header h && negb (h_explicit h)) l).
