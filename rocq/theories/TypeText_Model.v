(** The text of C++ types in generated code: gen/src/write.rs 1252-1338, 1341-1383. *)
From Verif Require Import Base Syntax_Model Types_Model Mangle_Model Deps_Model.

(** gen/src/names.rs 3-14 to_fully_qualified *)
Definition to_fully_qualified (p : pair_name) : list ascii :=
  List.concat (map (fun s => chars "::" ++ chars s) (p_ns p)) ++ chars "::" ++ chars (p_cxx p).

(** write.rs 1341-1360 write_atom *)
Definition write_atom (a : atom) : list ascii := chars
  match a with
  | ABool => "bool"
  | AChar => "char"
  | AU8 => "::std::uint8_t"
  | AU16 => "::std::uint16_t"
  | AU32 => "::std::uint32_t"
  | AU64 => "::std::uint64_t"
  | AUsize => "::std::size_t"
  | AI8 => "::std::int8_t"
  | AI16 => "::std::int16_t"
  | AI32 => "::std::int32_t"
  | AI64 => "::std::int64_t"
  | AIsize => "::rust::isize"
  | AF32 => "float"
  | AF64 => "double"
  | ACxxString => "::std::string"
  | ARustString => "::rust::String"
  end.

(** write.rs 1367-1383 write_space_after_type; the unit type does not get here *)
Definition space_after_type (t : ty) : list ascii :=
  match t with TRef _ _ _ _ | TPtr _ _ => [] | _ => chars " " end.

Definition comma_separated (l : list (list ascii)) : list ascii :=
  match l with
  | [] => []
  | x :: r => x ++ List.concat (map (fun y => chars ", " ++ y) r)
  end.

(** write.rs 1252-1338 write_type; [None] is a panic *)
Fixpoint write_type (T : types) (t : ty) : option (list ascii) :=
  let generic name t := option_map (fun s => chars name ++ s ++ chars ">") (write_type T t) in
  match t with
  | TIdent n =>
      match atom_from_str (n_rust n) with
      | Some a => Some (write_atom a)
      | None => option_map to_fully_qualified (resolve_name T (n_rust n))
      end
  | TBox t => generic "::rust::Box<" t
  | TVec t => generic "::rust::Vec<" t
  | TUniquePtr t => generic "::std::unique_ptr<" t
  | TSharedPtr t => generic "::std::shared_ptr<" t
  | TWeakPtr t => generic "::std::weak_ptr<" t
  | TCxxVector t => generic "::std::vector<" t
  | TRef _ m _ t => option_map (fun s => s ++ space_after_type t ++ (if m then [] else chars "const ") ++ chars "&") (write_type T t)
  | TPtr m t => option_map (fun s => s ++ space_after_type t ++ (if m then [] else chars "const ") ++ chars "*") (write_type T t)
  | TStr _ => Some (chars "::rust::Str")
  | TSlice m _ t => option_map (fun s => chars "::rust::Slice<" ++ s ++ space_after_type t ++ (if m then [] else chars "const") ++ chars ">") (write_type T t)
  | TFn _ _ args ret =>
      match (match ret with Some r => write_type T r | None => Some (chars "void") end) with
      | None => None
      | Some r =>
          match (fix go (l : list (string * ty)) : option (list (list ascii)) :=
                   match l with
                   | [] => Some []
                   | a :: l => match write_type T (snd a), go l with Some s, Some ss => Some (s :: ss) | _, _ => None end
                   end) args with
          | None => None
          | Some ss => Some (chars "::rust::Fn<" ++ r ++ chars "(" ++ comma_separated ss ++ chars ")>")
          end
      end
  | TArray t len => option_map (fun s => chars "::std::array<" ++ s ++ chars ", " ++ decimal len ++ chars ">") (write_type T t)
  | TVoid => None
  end.
