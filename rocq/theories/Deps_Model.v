(** How header directories are passed from crate to crate: gen/build/src/deps.rs and
    make_this_crate and validate_cfg of gen/build/src/lib.rs. *)
From Verif Require Import Base Paths_Model.
Require Import NArith.

(** Names of environment variables, as lists of characters so that suffixes are easy to
    cut.  Names that are not UTF-8 are converted lossily first (deps.rs 60), which is not
    modelled. *)
Definition key := list ascii.
Definition chars (s : string) : key := list_ascii_of_string s.

(** String order (bytes), by which BTreeMap sorts its keys *)
Fixpoint key_compare (a b : key) : comparison :=
  match a, b with
  | [], [] => Eq
  | [], _ :: _ => Lt
  | _ :: _, [] => Gt
  | x :: a, y :: b => match N.compare (N_of_ascii x) (N_of_ascii y) with Eq => key_compare a b | c => c end
  end.
Fixpoint key_eqb (a b : key) : bool :=
  match a, b with
  | [], [] => true
  | x :: a, y :: b => Ascii.eqb x y && key_eqb a b
  | _, _ => false
  end.

(** BTreeMap::entry(k).or_default(), then an update *)
Section Map.
  Context {V : Type} (default : V).
  Fixpoint update (k : key) (f : V -> V) (m : list (key * V)) : list (key * V) :=
    match m with
    | [] => [(k, f default)]
    | (k', v) :: m' =>
        match key_compare k k' with
        | Lt => (k, f default) :: m
        | Eq => (k', f v) :: m'
        | Gt => (k', v) :: update k f m'
        end
    end.
End Map.

(** deps.rs 6-16 *)
Record header_dir := HeaderDir { exported : bool; hd_path : string }.
Record crate := Crate { c_prefix : option string; c_links : option string; c_dirs : list header_dir }.
Definition no_crate : crate := Crate None None [].

(** str::starts_with, ends_with + truncate *)
Fixpoint cut_prefix (p k : key) : option key :=
  match p, k with
  | [], _ => Some k
  | a :: p, b :: k => if Ascii.eqb a b then cut_prefix p k else None
  | _ :: _, [] => None
  end.
Definition cut_suffix (s k : key) : option key := option_map (@rev _) (cut_prefix (rev s) (rev k)).

Definition is_digit (c : ascii) : bool := N.leb 48 (N_of_ascii c) && N.leb (N_of_ascii c) 57.
(** trim_end_matches(is_ascii_digit): the rest, and the digits cut off *)
Fixpoint span_digits (k : key) : key * key :=
  match k with
  | c :: k' => if is_digit c then let '(d, r) := span_digits k' in (c :: d, r) else ([], k)
  | [] => ([], [])
  end.
Definition trim_digits (k : key) : key * key := let '(d, r) := span_digits (rev k) in (rev r, rev d).

(** parse::<usize>().unwrap_or(usize::MAX) on a non-empty sequence of digits *)
Definition usize_max : N := 18446744073709551615.
Definition parse_usize (d : key) : N :=
  let n := fold_left (fun n c => n * 10 + (N_of_ascii c - 48))%N d 0%N in
  if N.leb n usize_max then n else usize_max.

(** deps.rs 59-94: what one environment variable contributes *)
Inductive contribution := KPrefix | KLinks | KDir (sort_key : N).
Definition classify (k : key) : option (key * contribution) :=
  match cut_prefix (chars "DEP_") k with
  | None => None
  | Some _ =>
      match cut_suffix (chars "_CXXBRIDGE_PREFIX") k with
      | Some k => Some (k, KPrefix)
      | None =>
          match cut_suffix (chars "_CXXBRIDGE_LINKS") k with
          | Some k => Some (k, KLinks)
          | None =>
              let '(without_counter, counter) := trim_digits k in
              match counter with
              | [] => None
              | _ =>
                  match cut_suffix (chars "_CXXBRIDGE_DIR") without_counter with
                  | Some k => Some (k, KDir (parse_usize counter))
                  | None => None
                  end
              end
          end
      end
  end.

Definition scan_state : Type := list (key * crate) * list (key * list (N * string)).
Definition scan_var (st : scan_state) (kv : key * string) : scan_state :=
  let '(crates, dirs) := st in
  let '(k, v) := kv in
  match classify k with
  | None => st
  | Some (k, KPrefix) => (update no_crate k (fun c => Crate (Some v) (c_links c) (c_dirs c)) crates, dirs)
  | Some (k, KLinks) => (update no_crate k (fun c => Crate (c_prefix c) (Some v) (c_dirs c)) crates, dirs)
  | Some (k, KDir n) => (crates, update [] k (fun l => l ++ [(n, v)]) dirs)
  end.

(** slice::sort_by_key is stable *)
Fixpoint insert_by_key (x : N * string) (l : list (N * string)) : list (N * string) :=
  match l with
  | [] => [x]
  | y :: l' => if N.ltb (fst x) (fst y) then x :: l else y :: insert_by_key x l'
  end.
Definition sort_by_key (l : list (N * string)) : list (N * string) :=
  fold_left (fun acc x => insert_by_key x acc) l [].

(** deps.rs 41-107: direct_dependencies *)
Definition direct_dependencies (env : list (key * string)) : list crate :=
  let '(crates, dirs) := fold_left scan_var env ([], []) in
  let crates := fold_left (fun crates kd =>
    update no_crate (fst kd)
      (fun c => Crate (c_prefix c) (c_links c)
                      (c_dirs c ++ map (fun d => HeaderDir true (snd d)) (sort_by_key (snd kd))))
      crates) dirs crates in
  map snd crates.

(** deps.rs 18-39: print_to_cargo, as (name, value); the counter is formatted in decimal.
    Cargo shows them to the build scripts of direct dependents as DEP_<LINKS>_<name>. *)
Fixpoint decimal_fuel (fuel : nat) (n : N) : key :=
  match fuel with
  | O => []
  | S fuel =>
      let d := ascii_of_N (48 + n mod 10) in
      if N.ltb n 10 then [d] else decimal_fuel fuel (n / 10) ++ [d]
  end.
Definition decimal (n : N) : key := decimal_fuel (S (N.to_nat (N.size n))) n.

Fixpoint print_dirs (i : N) (l : list header_dir) : list (key * string) :=
  match l with
  | [] => []
  | d :: l =>
      (if exported d then [(chars "CXXBRIDGE_DIR" ++ decimal i, hd_path d)] else []) ++ print_dirs (i + 1) l
  end.
Definition print_to_cargo (c : crate) : list (key * string) :=
  match c_prefix c with Some p => [(chars "CXXBRIDGE_PREFIX", p)] | None => [] end ++
  match c_links c with Some l => [(chars "CXXBRIDGE_LINKS", l)] | None => [] end ++
  print_dirs 0 (c_dirs c).

(** * lib.rs *)
Record cfg := Cfg {
  exported_header_dirs : list string;
  exported_header_prefixes : list string;
  exported_header_links : list string
}.

Inductive cfg_error :=
| ExportedDirNotAbsolute (d : string) | ExportedEmptyPrefix | ExportedDirsWithoutLinks
| ExportedPrefixesWithoutLinks | ExportedLinksWithoutLinks
| UnusedExportedLinks (l : string) | UnusedExportedPrefix (p : string).

(** lib.rs 237-263: validate_cfg *)
Definition validate_cfg (g : cfg) (links : option string) : option cfg_error :=
  match find (fun d => negb (is_absolute (components d))) (exported_header_dirs g) with
  | Some d => Some (ExportedDirNotAbsolute d)
  | None =>
      if existsb (String.eqb "") (exported_header_prefixes g) then Some ExportedEmptyPrefix
      else
        match links with
        | Some _ => None
        | None =>
            match exported_header_dirs g, exported_header_prefixes g, exported_header_links g with
            | _ :: _, _, _ => Some ExportedDirsWithoutLinks
            | [], _ :: _, _ => Some ExportedPrefixesWithoutLinks
            | [], [], _ :: _ => Some ExportedLinksWithoutLinks
            | [], [], [] => None
            end
        end
  end.

(** Path::starts_with: component by component *)
Fixpoint path_starts_with (p q : path) : bool :=
  match q, p with
  | [], _ => true
  | c :: q, d :: p => component_eqb c d && path_starts_with p q
  | _ :: _, [] => false
  end.

(** lib.rs 305-323: Iterator::any stops at the first match, which is recorded as used *)
Definition link_match (g : cfg) (c : crate) : option string :=
  match c_links c with
  | None => None
  | Some l => find (String.eqb l) (exported_header_links g)
  end.
Definition prefix_match (g : cfg) (c : crate) : option string :=
  match c_prefix c with
  | None => None
  | Some p => find (fun e => path_starts_with (components p) (components e)) (exported_header_prefixes g)
  end.

(** lib.rs 327-343: adding a directory of a dependency.  [own] are the directories already
    there that are not in the index of dependencies' directories. *)
Fixpoint add_dir (d : header_dir) (e : bool) (l : list header_dir) : list header_dir :=
  match l with
  | [] => [HeaderDir e (hd_path d)]
  | x :: l => if String.eqb (hd_path x) (hd_path d)
              then HeaderDir (exported x || e) (hd_path x) :: l
              else x :: add_dir d e l
  end.

(** lib.rs 300-344: one dependency.  The second closure is only called if the first
    returned false. *)
Record deps_state := DepsState {
  ds_dirs : list header_dir; ds_used_links : list string; ds_used_prefixes : list string }.
Definition add_dependency (g : cfg) (st : deps_state) (c : crate) : deps_state :=
  let '(e, ul, up) :=
    match link_match g c with
    | Some l => (true, ds_used_links st ++ [l], ds_used_prefixes st)
    | None =>
        match prefix_match g c with
        | Some p => (true, ds_used_links st, ds_used_prefixes st ++ [p])
        | None => (false, ds_used_links st, ds_used_prefixes st)
        end
    end in
  DepsState (fold_left (fun l d => add_dir d e l) (c_dirs c) (ds_dirs st)) ul up.

(** lib.rs 265-359: make_this_crate *)
Definition make_this_crate (g : cfg) (prefix : string) (links : option string)
    (include_dir crate_dir : string) (deps : list crate) : crate + cfg_error :=
  let own := [HeaderDir true include_dir; HeaderDir true crate_dir]
             ++ map (HeaderDir true) (exported_header_dirs g) in
  let st := fold_left (add_dependency g) deps (DepsState [] [] []) in
  match find (fun l => negb (existsb (String.eqb l) (ds_used_links st))) (exported_header_links g) with
  | Some l => inr (UnusedExportedLinks l)
  | None =>
      match find (fun p => negb (existsb (String.eqb p) (ds_used_prefixes st))) (exported_header_prefixes g) with
      | Some p => inr (UnusedExportedPrefix p)
      | None => inl (Crate (Some prefix) links (own ++ ds_dirs st))
      end
  end.
