# Design of the formal model of dtolnay/cxx

The model is written in Rocq (Coq 8.16.1), stdlib only.  Sources live in
`rocq/theories`.  For each area there are up to four files:

* `X_Model.v`  – executable Gallina transcription of the code, every definition
  annotated with the `/repo` file and lines it models and with the
  simplifications made;
* `X_Spec.v`   – what the property theorems are stated with: small inductive
  or functional specifications that do not use the model's helpers (some areas
  have their specification at the head of the Props file);
* `X_Proofs*.v` – lemmas;
* `X_Props.v`  – the property theorems with `Print Assumptions` beneath, and
  non-vacuity examples beside each theorem.

Naming: `Cnn_…` is the theorem for property `Cnn` of `properties.jsonl`;
suffix `_partial` means that only part of the English claim is proved (the note
in the table below and in `MANIFEST.json` says which part is missing); suffix
`_refuted` means that the claim is *false* of the faithful model, with a concrete
witness traced through the code.

## Plan per property

| id | what is modelled | how it is proved |
|----|------------------|------------------|
| C01–C03 | `syntax/discriminant.rs` (`insert`, `insert_next`, `remember`, `inferred_repr`, `LIMITS`), the variant loop of `parse.rs` | Sign×u64 arithmetic with explicit overflow errors; induction over the variant list against an integer (`Z`) specification; negative zero and `usize/isize` findings as refutations |
| C04–C06 | `syntax/toposort.rs`, `gen/src/write.rs: write_data_structures` | fuelled DFS, fuel proved sufficient; order, permutation, cycle ⇔ error; array containment as refutation |
| C07 | `syntax/pod.rs`, `primitive.rs`, `needs_indirect_abi` | inductive specification; termination from absence of cycles; array self-containment as refutation |
| C08 | fix-point loop of `Types::collect`, `improper.rs` | the iteration order of each round is an arbitrary oracle; soundness + completeness w.r.t. an inductive reachability relation |
| C09 | name bookkeeping of `Types::collect` | the set machine is proved equivalent to a counting specification |
| C10–C12 | `symbol.rs`, `mangle.rs`, symbol lists of `write.rs` and `expand.rs` | injectivity of `$`-join; collision witnesses; set equality of both sides' symbols |
| C13, C14, C60, C61 | ABI classes computed by `write.rs` and `expand.rs` separately | structural equality for all signatures and fields; cfg counterexample |
| C15, C16 | `impls.rs`, `set.rs`, `map.rs` | induction on types; refinement to association lists |
| C17, C18 | `visit.rs`, `instantiate.rs`, `trivial.rs`, `Types::collect` | characterisation by an inductive "mentions" relation |
| C19–C23, C51–C53, C56, C57 | `check.rs`, `ident.rs`, `parse.rs: parse_foreign_mod` | checker soundness: accepted ⇒ declarative predicate |
| C24–C28, C58 | `syntax/cfg.rs`, `gen/src/cfg.rs`, `gen/build/src/cargo.rs`, `gen/cmd/src/cfg.rs` | denotational semantics of cfg expressions; parser against a grammar |
| C29, C30 | `out.rs`, `block.rs`, `nested.rs` | simulation of the writer by a stack machine; permutation |
| C31, C63 | `builtin.rs`, `cxx.h`, the names each writer function of `write.rs` asks for | token lists of the texts; boolean closure over all flag sets; every requested name has its definition |
| C32, C33, C64 | `write.rs`/`expand.rs` operators, `derive.rs` | semantics of operators over arbitrary comparison functions |
| C34 | `type_id.rs`, `macro/src/type_id.rs` | injectivity of the encoding |
| C35, C36, C65 | `gen/build/src/paths.rs`, `out.rs`, `lib.rs` | paths as component lists, lexical resolution |
| C37–C40, C67 | `unique_ptr.rs`, `shared_ptr.rs`, `weak_ptr.rs`, `cxx_vector.rs`, `cxx_string.rs` with the C++ functions they call | operation histories over a small heap, simulation of an ownership-free specification |
| C41, C42 | `lossy.rs`, `cxx_string.rs` with a model of `core::str::from_utf8` | byte-level UTF-8 automaton against the definition of UTF-8 |
| C43–C45, C48, C49 | `cxx.cc`, `cxx.h` | small heap machines, address arithmetic modulo 2^64 |
| C46, C47 | `result.rs`, `exception.rs`, `unwind.rs`, shims | histories over a heap with two allocators; mutually calling program trees |
| C50 | tables of `check.rs` and the runtime | complete case analysis over the atoms, for an arbitrary C++ platform |
| C54 | `gen/src/mod.rs`, several bridges in one file | independence of each bridge from the others |
| C55 | names of parameters and locals in the shims of `write.rs` and `expand.rs` | collision witnesses; distinctness otherwise |
| C59 | cfg attributes copied into the expansion by `expand.rs` | every generated item is live only if its source item is |
| C62 | moves, `ManuallyDrop` and `MaybeUninit` in the shims of both sides | per value: number of destructor calls on every path |
| C66 | `gen/build/src/deps.rs`, `cargo.rs`, `cfg.rs` | environment round trip between build scripts |
| C68 | `cxx.cc` constructors, `rust_string.rs`, `rust_str.rs` | memory as list of readable bytes, each constructor and its Rust half function by function; reading lemmas, the UTF-8 theory of Lossy, induction on UTF-16 decompositions |
| C69 | the programs of RString with the real validity check | invariant over the programs of RString_Model, with the validity check of Lossy_Model; refuted through the mutable iterators |
| C70 | `parse.rs` parse_type and its cases, `tokens.rs` | rty (syn::Type) to ty and back to tokens; structural induction on types, acceptance by an independent inductive grammar |
| C71 | `attrs.rs`, `namespace.rs`, `qualified.rs`, `names.rs` | parser slots as a record, one step per attribute; soundness and completeness against an inductive meaning of attributes |
| C72 | `parse.rs`, `names.rs`, `namespace.rs` | corollary of C73 for the declarations of the source, with the effects of attributes of C71 |
| C73 | `parse.rs` from the syntax tree of the module to the items, all item kinds | errors in a writer monad with explicit panics; each function is proved equivalent to a declarative relation (soundness and completeness), lists by induction |
| C74 | `gen/src/file.rs`, `syntax/file.rs` | a file as a tree of items; positions as lists of indices; soundness and completeness of the search by induction on the tree |
| C75 | `gen/src/mod.rs` generate, `macro/src/lib.rs`, `expand.rs` up to the checks | composition of the models of File, Attrs, Cfg, Parse, Types and Check; conditions of modules by induction on attributes |
| C76 | the same and the symbols of Mangle | the specification of the symbols (C12) is additive over bridges with distinct type names |
| C77 | `gen/src/check.rs` precheck | path components of Paths against a description of the text |
| C78 | `syntax/doc.rs`, `gen/src/write.rs` write_doc; translation phases 2 and 3 of C++ | an automaton for line splicing and comments; induction on the lines |
| C79 | `gen/src/error.rs`, the shebang in `gen/src/mod.rs` | positions as an inductive relation over the text; the loops over lines by induction |
| C80 | `gen/src/write.rs` write_enum, check_enum | the text of the value read by the C++ rules for literals; bytes by induction on the width |
| C81 | `gen/src/write.rs` write_type, `gen/src/names.rs` | a C++ tokeniser and a parser of type-ids in the specification; the text is shown to tokenise and parse to the documented type by induction on types |
| C82, C83 | `gen/build/src/out.rs` 7-178, `gen/src/fs.rs` on Unix, and the system calls they make | programs over system calls on a file system with links; every failure and crash point; sequential proofs by a verifier for such programs, interleavings by a rely/guarantee invariant with an unbounded number of processes |
| C84 | `macro/src/expand.rs` 362-1246: the types, statements and expressions of the generated functions | an abstract syntax of the generated functions, a typing relation for Rust in the specification; case analysis over types gives the exact condition; the environments of the statements by induction over the parameters |
| C85 | `gen/src/write.rs` 735-900, 1004-1188: the statements and expressions of the generated functions | an abstract syntax of the generated functions, a typing relation for C++ in the specification (value categories, const, copies only of plain data, declared names) and the documented signature of a function as a relation; per argument and per result by case analysis over types, the declared names by induction over the parameters |
| C86 | the functions of C84 and C85 run together: wrapper and shim of a C++ function; C++ function, exported function and inner function of a Rust function; C++ function and trampoline of a function pointer | a big-step monadic interpreter of both languages over one memory and an oracle for the functions of the user (the specification); each side is run symbolically by induction over the arguments with invariants on the memory slots (which hold what, distinct, untouched by the rest), then composed through the relation of the values on the wire |
| C87 | Unit_Model: the generated file as a list of declarations with their namespaces, from the token stream of the forward declarations (Nested_Model), the emission order (Toposort_Model), the bodies of CxxExpr_Model and the link names of Mangle_Model. Unit_Spec: what a declaration provides and needs by the rules of C++, include guards, what the user's headers provide. | Stage by stage: each part of the file is founded on the facts of the parts before (Unit_Proofs2 to 4); the guards are distinct because accepted names are; totality from C85_generated and C12; refutations by computation. |
| C88 | Member_Model: the bodies of the classes and enums (write_struct, write_opaque_type, write_enum); the header is that of Unit_Model. Member_Spec: when members of a C++ class and declarations of a C++ header clash, and the corresponding condition on the items of the bridge. | Equivalence of the two for every accepted bridge: the written parameter types are a function of the Rust types (denotes), and names of accepted items are distinct; refutations by computation on accepted bridges; C88_same_class ties the bodies to the classes of C87. |
| C89 | Coherence_Model: the items of the macro's expansion with their scope, the names they define and the traits they implement (expand.rs, derive.rs). Coherence_Spec: Rust's rules on duplicate definitions and implementations, and the corresponding condition on the items of the bridge. | Equivalence of the two for every accepted bridge: items are tagged by the type they belong to, whose names are distinct; made-up names are uniquely decodable for ordinary names; refutations by computation on accepted bridges. |
| C90 | Lifetime_Model: all lifetimes in the headers of generated functions and impl blocks (expand.rs, generics.rs, tokens.rs). Lifetime_Spec: Rust's elision rules, once on the types of the bridge and once on the generated types. | By induction on types the generated type has the declared lifetimes, or a subsequence of them; a lemma on elision says that the only source stays the same when lifetimes disappear. Witnesses for the bridges that do not compile. |
| C91 | Reloc_Model: the trait IsRelocatable as a function of what C++ knows of a type, the static assertions (write.rs) and the Kind checks (expand.rs) from the reasons of Types_Model. Reloc_Spec: bytewise movable types, positions of use. | Reasons and positions are equivalent (C18), by-value types are covered (C19); the traits compute the predicates by induction on arrays; refutations by computation. |
| C92 | Cmd_Model: from the matched arguments to options, kinds and flags, the call of the generator (File_Model, Cfg_Model) and the writing of the outputs, with a file system and a standard output that may fail at any write. Cmd_Spec: which text belongs to which place, and what a sequence of writes leaves. | Induction over the outputs; the generated texts suffice because the flags are the disjunction over the outputs; uniqueness of the proper text gives independence of the other outputs. |
| C93 | What a whole build does to the file system: make_crate_dir, make_include_dir, generate_bridge and their order, as one program over the system calls of Fs_Model (Build_Model) | A build is a sequence of outputs; each keeps to its own name (C82), so what is done stays done as long as no output is, or is above, another; the facts left at the end are combined with a lemma on where relative links lead |
| C94 | find_target_dir and Project::init as programs over the same system calls | Induction over the directories above OUT_DIR |
| C95 | The handles of CFG (deref, deref_mut, drop, the table of snapshots by address, interning) as steps of any threads (Settings_Model), against handles that own their copy of the settings (Settings_Spec) | Simulation with an invariant on the table, the boxes and the references in use; the specification is deterministic |
| C96 | Auto traits of the opaque types, the bounds of the three pointers, and a machine of threads that create, clone, move, lend, use and drop pointers as far as the bounds allow (Thread_Model); conflicts and safe sets of bounds (Thread_Spec) | Invariant on owners and loans of all pointers; for every wider set of bounds a program that races or leaves its thread |
| C97 | The imports and exports that rustc keeps of an expansion in a configuration (Leftover_Model), against the generator's symbols for the enabled items (C12's model) | The lists name exactly the entities of C12's specification, restricted to enabled functions; instantiations by C17; counterexamples by computation |
| C98 | Load_Model: the traversal of the tree that clang dumps, with the namespace stack, the enum being filled and the errors. Load_Spec: the declarations of a translation unit with their scopes, the values of enumerators, what Rust can take over. | The traversal is a fold over the declarations; for each enum of the bridge its part of the fold is independent of the others; the fold over one enum's declarations is characterised exactly; refutations by computation |
| C99 | Handle_Model: the traits of UniquePtr and SharedPtr over those of an arbitrary target (with the implementations for Option and the provided methods of core and std). Handle_Spec: the laws of Rust's documentation, programs as trees of calls. | Case analysis on null; induction over programs; a target that fills all buffers as counterexample |
| C100 | `gen/build/src/lib.rs` make_crate_dir and best_effort_copy_headers over a file system of names, with an oracle for failing calls and for the order of directory listings | induction over the depth and the entries: the effect of a copy is described by the set of files that come in; a frame invariant for arbitrary faults |
| C101 | `gen/src/include.rs` write as a text of code points, with str::escape_default (Incl_Model); lines, directives and header names as C++ reads them (Incl_Spec) | an escape is a single character only for plain ones, so lengths tell that a path read back is unescaped; the fixed lines by cases, their lines in rust/cxx.h by computation on its text |
| C102 | What safe Rust can get through a bridge: an inductive relation over own / mutable / shared / pinned access, whose rules are the safe functions of UniquePtr, SharedPtr, WeakPtr, CxxVector and CxxString with their trait bounds, struct fields, and what the standard library allows; the Unpin and ExternType assertions of the expansion (Pin_Model.v, Pin_Spec.v). | Invariant over the relation: whatever is owned or mutably borrowed has no immovable part reachable that way; the initial access is covered by the type checks (C18, C19, C56) and by the assertions. Refuted for function pointers, whose arguments are not checked. |
| C103 | The #[repr(C)]/#[repr(transparent)] definitions of expand.rs, the class and enum definitions of write.rs, the data members of the library types on both sides, and the compile-time assertions about sizes and alignments (Layout_Model.v). The layout rules of Rust (padding function) and of C++ (least aligned offset, positive size) are two separate specifications (Layout_Spec.v). | The two rules are shown to give the same offsets for lists of proper layouts; then induction over the types held inline (well founded as no struct contains itself), with C60 for the fields and C13's relation for the values. |
| C104–C106 | The special member functions that the generated classes and those of cxx.h declare, the rules of C++ for implicit, defaulted and deleted ones, aggregates in four standards, initialisation (with the two differences between compilers that matter), what each public member of Box, Vec and Slice makes or destroys, copy constructors on values, and the state after default initialisation (Special_Model.v). What has one owner, what is held, values and sameness in Special_Spec.v. | Induction over the types held inline, and over initialisers; a copy compiles iff the closure of what is copied has no deleted copy constructor, which is reachability; induction over values with a counter of fresh addresses. Refutations by explicit bridges. |
| C64 (structs) | derive.rs struct_debug and struct_default, core's DebugStruct and PadAdapter on pieces of text (Show_Model.v); the text of Rust's own derive (Show_Spec.v). | Padding pieces is indenting their concatenation, by induction over lines; equality of texts exactly without raw identifiers, by counting characters. |
| C23, C53, C58 (raw identifiers) | the places that compare or look up the text of an identifier | the relation between an identifier and the name it stands for; witnesses from source text to acceptance by both programs |
| C107 | The declarations of generated headers and source files (Unit_Model.v), lists of such files read one after the other by a preprocessor that drops guarded definitions, and the macros of cxx.h and of the supporting code (Odr_Spec.v: unit_of, support_macros, what may be defined once). | The guard of a definition spells its kind and its qualified name, injectively; induction over the preprocessor; the guards of classes are not among the macros of the supporting texts (computed from the texts). Refutations by two explicit bridges. |
| C108 | Errors and their propagation, the three stages of the C++ generator with the lists of errors that each pushes (Report_Model.v, on top of File_Model.v, Types_Model.v, Check_Model.v), the table of known errors and the choice of label and note. | Induction over the bridges with the errors about conditions, which are pushed once each; which errors there are is specified without the loops (Report_Spec.v: error_of). Agreement with the model of C74-C77 by counting errors. Refutation by an explicit file. The wording of errors about names and the exit of the program are not modelled. |

## Results

Generated from `MANIFEST.json`.  "proved": the English claim holds of the model
in full; "partial": part of it is proved, or it is false as stated and both the
refutation and the largest true part are proved.

| id | claim | status | theorems | remarks |
|----|-------|--------|----------|---------|
| C01 | Shared enum discriminants are the ones written | proved | `C01_discriminants_as_written` |  |
| C02 | Inferred enum representation is the first that fits | proved | `C02_repr_first_fit`, `C02_negative_zero_refuted` | Exact characterisation for all enums without a literal negative zero; the refuted theorem documents the -0 deviation (covered by C03). |
| C03 | Discriminant arithmetic never panics or wraps | partial | `C03_no_panic_refuted`, `C03_no_panic_partial` | False as stated: `A = -0, B` computes 0u64 - 1. Proved for all enums without a negative zero literal. |
| C04 | A shared struct is defined after the structs it contains by value | partial | `C04_definition_order_refuted`, `C04_accepted_refuted`, `C04_definition_order_partial`, `C04_array_free_partial` | False as stated: containment through an array field is not followed, so `struct A { f: [B; 2] } struct B { f: i32 }` defines A first. Proved for containment through direct fields, all graphs. |
| C05 | By-value cycles between shared structs are rejected, and only those | partial | `C05_cycles_refuted`, `C05_C07_accepted_refuted`, `C05_cycles_partial` | False as stated: `struct A { f: [A; 1] }` is a cycle that is not reported. Exact (iff) for cycles through direct fields, and for array-free bridges. |
| C06 | Every shared struct and enum is emitted exactly once | proved | `C06_emitted_once` |  |
| C07 | The pass-by-value analysis terminates and looks at every nested field | partial | `C07_pod_refuted`, `C05_C07_accepted_refuted`, `C07_pod_partial`, `C07_array_free_partial` | False as stated: `struct A { f: [A; 1] }` passes collection and the analysis of A recurses forever. Proved (termination and exactness) for every bridge in which no struct contains itself, in particular all accepted array-free bridges. |
| C08 | The improper-ctype closure is a least fixed point independent of hash order | proved | `C08_improper`, `C08_runs_agree` |  |
| C09 | Duplicate type names are rejected exactly when ambiguous | partial | `C09_duplicates_refuted`, `C09_accepted_refuted`, `C09_duplicates_partial`, `C09_no_alias_partial` | False as stated: an alias followed by a shared type of the same name (and an extern C++ type or alias followed by a header-bound enum) is accepted. The exact accepted combinations are proved for all bridges. |
| C10 | Distinct functions have distinct link symbols | partial | `C10_distinct_refuted`, `C10_collision_exact`, `C10_distinct_partial` | False as stated: methods of the same name on a::Handle and b::Handle declared in one namespace share a link name. The collisions are characterised exactly, and absent those every two functions have different link names. |
| C11 | Symbol segments are uniquely decodable | partial | `C11_decodable`, `C11_unique_refuted`, `C11_runtime_refuted`, `C11_runtime_exact`, `C11_namespaced_partial` | False as stated: three kinds of pairs of entities share a link name, and a bridge can redefine a symbol of the runtime. Outside the listed pairs a link name determines its entity, and the clashes with the runtime are characterised exactly. |
| C12 | Rust and C++ sides reference and define the same symbols | proved | `C12_symbols_agree` |  |
| C13 | Both sides agree on how every argument and return value is passed | partial | `C13_nested_callback_refuted`, `C13_vector_callback_refuted`, `C13_aliased_primitive_refuted`, `C13_same_abi_partial` | False as stated: a callback taking a callback, a callback taking a C++ vector by value, or an alias named like a primitive give different ABIs. Proved for all accepted bridges without these in which no struct contains itself; covers functions in both directions and callback trampolines. |
| C14 | Calling conventions agree also under conditional compilation | partial | `C14_cfg_field_refuted`, `C14_cfg_partial` | False as stated: a cfg attribute on a struct field makes the C++ generator and the macro disagree on whether the struct is passed directly. Proved when only whole items are conditional and no name is declared by both an enabled and a disabled item. |
| C15 | Type equality is an equivalence consistent with hashing | partial | `C15_equality_refuted`, `C15_equality_partial`, `C15_equivalence_partial`, `C15_recorded_once_partial`, `C15_recorded_once_refuted` | False as stated: `PartialEq for Type` has no arm for Ptr and Array, so these types are not equal to themselves and are recorded once per mention. Symmetry, transitivity, Eq/Hash consistency proved for all types; reflexivity and recorded-once for types without raw pointers and arrays. |
| C16 | Insertion-ordered set and map behave as such | proved | `C16_ordered_set`, `C16_ordered_map` |  |
| C17 | Exactly the mentioned instantiations are generated, once each | proved | `C17_instantiations` |  |
| C18 | Extern C++ types used by value are checked for triviality | proved | `C18_reasons` | Exact set of recorded (type, reason) pairs for the listed positions. |
| C19 | Opaque and unsized types never cross by value | partial | `C19_slices_refuted`, `C19_by_value_partial` | False as stated for slices: an alias may be named CxxString, after which &[CxxString] is accepted. Fields, arguments, return values, Vec and array elements proved for all accepted bridges; slices proved for bridges without such an alias. |
| C20 | Safe functions do not take raw pointers or untrusted C++ functions | partial | `C20_raw_pointers_refuted`, `C20_raw_pointers_partial`, `C20_untrusted_block` | False as stated: raw pointers nested in a reference (`&*const u8`) are accepted in a safe function. Proved for raw pointers that are themselves arguments; the untrusted-block part is proved in full. |
| C21 | A safe function cannot conjure a mutable reference from a shared one | partial | `C21_mut_return_refuted`, `C21_mut_return_partial`, `C21_no_callbacks_partial` | False as stated: a `&mut` that only occurs in the signature of a callback argument satisfies the check. Proved in full for functions without callback arguments. |
| C22 | A bare self receiver names the only type of its block | proved | `C22_bare_self`, `C22_unresolved_rejected` |  |
| C23 | Reserved names are rejected everywhere they could clash | partial | `C23_reserved_identifiers`, `C23_only_reserved`, `C23_raw_refuted` | Proved of the identifiers as they are written, r# included; exactly these are rejected. False of what a raw identifier stands for: r#cxxbridge1_f is accepted as a Rust name. |
| C24 | Several cfg attributes mean their conjunction | partial | `C24_conjunction`, `C24_one_list`, `C24_include_refuted`, `C24_include_partial`, `C24_nested_module_refuted`, `C24_nested_module_partial` | Proved for every item that reads its attributes (functions, types, structs, enums, fields, variants, bridge modules). False for `#[cfg(..)] include!(..)`, whose own attributes are ignored, and for a bridge inside a `#[cfg(..)] mod`, whose enclosing attributes are ignored by the C++ generator. |
| C25 | cfg evaluation is three-valued logic, sound for every completion | proved | `C25_sound`, `C25_errors`, `C25_reported_once` | Errors are identified by message text, as the code does. |
| C26 | Stripping keeps exactly the enabled items | proved | `C26_strip`, `C26_generate` |  |
| C27 | Cargo features select the same items in build scripts as in rustc | partial | `C27_hyphen_refuted`, `C27_case_refuted`, `C27_features_exact`, `C27_features_partial`, `C27_bare_key_refuted`, `C27_values_partial`, `C27_bare_key_exact` | False as stated: a feature with a hyphen always reads as off, features are compared ignoring case, and a bare key reads as set when rustc only has it with a value. Exact characterisations proved against the documented cargo environment. |
| C28 | Command line cfg flags are deterministic and consistent | proved | `C28_accepted`, `C28_answers`, `C28_order` |  |
| C29 | Namespace and extern "C" blocks in generated code are balanced | proved | `C29_buffer`, `C29_generated`, `C29_builtin` | the output buffer of gen/src/out.rs with namespaces and extern "C" blocks, for every sequence of operations; the pieces of write.rs that request namespaces, and builtin.rs. |
| C30 | Forward declarations are grouped by namespace without loss | proved | `C30_forward_declarations` | nested.rs and write_forward_declarations; the depth of the recursion is the length of the longest namespace. |
| C31 | Built-in support code is closed under its own dependencies | proved | `C31_texts`, `C31_generated`, `C31_written` | Names of the supporting code used by each writer function (Uses_Model), against the tokenised text of the parts of builtin.rs and cxx.h. C31_written: the names that the types, methods, functions and instantiations of a bridge bring with them are all among the names that C31_generated resolves. |
| C32 | C++ comparison operators of shared structs agree with the Rust impls | proved | `C32_operators`, `C32_rust_operators`, `C32_hash` | The generated C++ operators and the extern functions they call, over an arbitrary semantics of the field types; a panic while comparing fields is not modelled. |
| C33 | Derived struct ordering is the lexicographic order of the fields | proved | `C33_lexicographic`, `C33_total_order`, `C33_partial_order`, `C33_enum` |  |
| C34 | Type ids identify exactly the qualified C++ name | proved | `C34_type_id`, `C34_alias`, `C34_defined`, `C34_parse` |  |
| C35 | Generated file paths stay inside the output directory | proved | `C35_contained`, `C35_total`, `C35_mirrors`, `C35_prefix_refuted` | Holds for the generated files whatever the source path; a parent directory component in the include prefix itself escapes (C35_prefix_refuted). Unix paths. |
| C36 | Relative symlinks resolve to the intended file | partial | `C36_resolves`, `C36_relative_when_possible`, `C36_canonical`, `C36_no_panic_refuted`, `C36_no_panic_partial`, `C36_relative_original_refuted`, `C36_empty_target_refuted` | Relative links resolve to the original; a panic for a link at the root, an empty link target, and links made from relative originals are the exceptions. Unix paths, file system without symlinks in between. |
| C37 | A UniquePtr frees its object exactly once | proved | `C37_owned_values`, `C37_exactly_once` | The C++ standard semantics of std::unique_ptr is part of the model. |
| C38 | Shared and weak pointers keep the object alive exactly as long as needed | proved | `C38_lifetime`, `C38_spec_reading` | The C++ standard semantics of std::shared_ptr and weak_ptr is part of the model; threads and count overflow are not. |
| C39 | CxxVector operations match a sequence | proved | `C39_sequence`, `C39_iteration` | The C++ standard semantics of std::vector is part of the model. |
| C40 | let_cxx_string destroys only initialised strings | partial | `C40_refuted`, `C40_partial` | False when the macro argument does not complete normally (or its as_ref panics): the destructor then runs on uninitialised memory. Proved for arguments that do complete. |
| C41 | Displaying a CxxString is lossy UTF-8 decoding | proved | `C41_spec_total`, `C41_lossy`, `C41_valid` | core::str::from_utf8 is modelled by its algorithm in core. |
| C42 | Debug output of a CxxString is a faithful escape | proved | `C42_escape`, `C42_faithful`, `C42_injective` | char::escape_debug of core is modelled; its table of printable characters is arbitrary. |
| C43 | rust::Str comparison in C++ is a total order that agrees with Rust | partial | `C43_total_order`, `C43_refuted`, `C43_agrees_partial` | With signed char the C++ order of rust::Str and rust::String differs from the order of str in Rust for non-ASCII texts; it is a total order in any case, and agrees when char is unsigned or the texts are ASCII. |
| C44 | rust::Vec in C++ behaves like a sequence with amortised growth | partial | `C44_refuted`, `C44_self_append_refuted`, `C44_sequence_partial`, `C44_reserve`, `C44_amortised` | False in two cases, each proved: push_back of a reference to an element of the same vector when it is full reads freed memory, and copy assignment whose element copy throws destroys the old buffer twice. For every other history of operations the vector behaves like a sequence and each element is dropped once. The bound on moved elements is proved for every Vec::reserve that at least doubles the capacity. Zero-size elements and capacity overflow are not modelled. |
| C45 | Iterating a rust::Slice visits every element once | partial | `C45_refuted`, `C45_zero_size_refuted`, `C45_iteration_partial`, `C45_random_access_partial`, `C45_index`, `C45_empty` | False for zero-size elements (opaque Rust types without fields): iteration visits nothing and the distance divides by zero. Proved for every element of positive size and every slice that fits in a 64-bit address space. |
| C46 | Results and exceptions carry their message faithfully in both directions | partial | `C46_refuted`, `C46_moved_from_refuted`, `C46_messages_partial`, `C46_rust_to_cpp_partial`, `C46_cpp_to_rust` | False for texts with a zero byte inside (what() is a C string) and for a moved-from rust::Error thrown out of a C++ function (strlen of null). Proved otherwise for every history: what each side reads, and that each message buffer is freed exactly once by the allocator it came from. String::from_utf8_lossy is taken as documented (is_lossy). |
| C47 | A panic never unwinds across the language boundary | partial | `C47_refuted`, `C47_no_crossing_partial`, `C47_no_exception_partial`, `C47_recent`, `C47_panic_aborts`, `C47_transparent`, `C47_exceptions` | False before Rust 1.81 (cxx supports 1.73): a capacity overflow in reserve panics out of an extern "C" function without guard. Proved without capacity overflow on every toolchain, and without any restriction from 1.81 on. |
| C48 | rust::String in C++ has value semantics and owns its buffer | proved | `C48_value_semantics`, `C48_reserve` | Growing always moves the buffer in the model; capacity overflow (abort) is not modelled. Moving a string onto itself leaves it empty. |
| C49 | rust::Box in C++ owns its object exactly once | proved | `C49_exactly_once` | Moving a box onto itself destroys its object and leaves the box null; the theorem says so. |
| C50 | Primitive instantiations accepted by the checker exist at run time | proved | `C50_available`, `C50_no_redefinition`, `C50_not_generated`, `C50_16_bit_refuted` | The tables of src/cxx.cc and of the Rust runtime are transcribed as lists of link names with signatures; the theorem ranges over every accepted bridge and every C++ platform with 32- or 64-bit pointers. On platforms with 16-bit pointers (where size_t is uint16_t) src/cxx.cc does not compile: C50_16_bit_refuted. |
| C51 | Every name in an accepted bridge resolves | proved | `C51_names_resolve` |  |
| C52 | Callback signatures obey the same by-value rules as functions | partial | `C52_fn_pointer_refuted`, `C52_fn_pointer_partial` | False as stated: `fn f(cb: fn(C))` with C an opaque C++ type is accepted. The other restrictions (no Result, raw pointers need unsafe, positions) are proved. |
| C53 | User types never shadow the bridge's built-in names | partial | `C53_builtin_names_refuted`, `C53_builtin_names_partial`, `C53_raw_refuted` | False as stated: `type i32 = path;` is accepted, and so is a struct named r#String next to uses of the built-in String. Proved for structs, enums and extern types, of their names as written. |
| C54 | Bridges in one file do not influence each other | partial | `C54_bridges_refuted`, `C54_bridges_partial` | False as stated: an alias in one bridge of a struct shared by a later bridge of the file is passed directly by C++ and by pointer by Rust. Proved for bridges whose type names are not declared by another bridge. |
| C55 | Parameter names of generated functions are distinct | partial | `C55_wildcard_refuted`, `C55_error_refuted`, `C55_throw_refuted`, `C55_callback_refuted`, `C55_distinct_partial`, `C55_callback_partial` | False as stated: `fn f(_: i32, arg0: i32)`, a parameter called `error` of a fallible Rust function, a fallible C++ function called `throw`, and a callback parameter called `__extern` each declare a name twice. Proved for all functions that avoid these names. |
| C56 | Only supported compound types are accepted | proved | `C56_composites` |  |
| C57 | Explicit lifetimes require a promise of correctness | proved | `C57_explicit_lifetimes` |  |
| C58 | The text of a cfg attribute is read as Rust defines it | partial | `C58_cfg_grammar`, `C58_names_partial`, `C58_raw_refuted` | The grammar is proved in full: the parser accepts exactly the predicates and gives each its expression. That the expression means what it means to rustc is false of names written as raw identifiers: r#unix is unix to rustc and another name to the generator, which leaves such items out of the C++ code without an error. Proved for all attributes without raw names; exact for a single name. |
| C59 | Disabled items leave nothing behind in the Rust expansion | partial | `C59_struct_refuted`, `C59_variant_refuted`, `C59_field_refuted`, `C59_import_refuted`, `C59_functions_partial` | False as stated: code generated for a disabled struct, variant, field or Rust type is not itself disabled. Proved for bridges in which only functions and aliases are conditional. |
| C60 | Shared struct fields have the same order and representation on both sides | partial | `C60_fields_partial`, `C60_fields_refuted` | False for a bridge with an alias named like a primitive; proved for all others. |
| C61 | The C++ generator can write every type of an accepted bridge | partial | `C61_writable_refuted`, `C61_writable_partial` | False: a callback taking () reaches unreachable!(). Proved for bridges whose callbacks take no unit and no callback. |
| C62 | Values crossing the boundary have exactly one owner | proved | `C62_arguments`, `C62_results`, `C62_uncaught` | For every type for which both generators reach a decision (always, when no struct contains itself: C07). Per-argument semantics; a C++ move leaves nothing to destroy. |
| C63 | Every standard-library name in generated C++ has its header included | partial | `C63_generated`, `C63_supporting_code_refuted`, `C63_supporting_code_partial` | Holds for the code generated for the items. For the supporting code it is false: std::size_t in rust::String/rust::Str without <cstddef>, std::swap/std::declval in rust::Slice without <utility> (declared by other headers in practice); proved for everything else. |
| C64 | Derived Clone, Debug and marker traits of shared types behave like Rust's own derives | partial | `C64_clone`, `C64_default`, `C64_struct_debug`, `C64_raw_refuted`, `C64_enum_debug`, `C64_enum_debug_name`, `C64_enum_traits` | Debug of structs is that of Rust's own derive exactly if no name is a raw identifier: r#x is printed as r#x, where Rust prints x. Everything else is proved. Writing to a formatter does not fail in the model. |
| C65 | Different bridge files get different generated files | partial | `C65_distinct_refuted`, `C65_distinct_partial` | False: parent directory components that climb out of the build directory are dropped, so lib.rs and ../lib.rs get the same generated files; proved for source paths that stay below the build directory. |
| C66 | Header directories reach dependents, in order and once each | partial | `C66_roundtrip`, `C66_include_path`, `C66_unused_reported`, `C66_only_unused_reported_partial`, `C66_only_unused_reported_refuted` | Everything except one direction for prefixes: a prefix that does select a dependency can be reported as unused if a links entry or an earlier prefix selects it too. |
| C67 | A CxxString behaves as a byte string | proved | `C67_byte_string`, `C67_reserve`, `C67_order` | A request above max_size aborts, as the C++ side is noexcept; the theorem says exactly when. |
| C68 | Strings made from C++ data hold exactly the text given | proved | `C68_string`, `C68_str`, `C68_lossy`, `C68_utf16`, `C68_lossy16`, `C68_asserts` | Over every memory; core::str::from_utf8 and char::decode_utf16 are modelled by their algorithms, String::from_utf8_lossy through from_utf8. |
| C69 | A rust::String is always valid UTF-8 | partial | `C69_utf8_partial`, `C69_iterators_refuted` | False: begin() and end() of a non-const rust::String are pointers to char, through which C++ can make it ill-formed. Proved for every program that does not write through them. |
| C70 | A type in the bridge is understood as Rust understands it | partial | `C70_same_type_partial`, `C70_accepted`, `C70_same_type_refuted` | False for function pointers that are unsafe or have an ABI (dropped) and for Pin<Pin<&mut T>> (collapses). Proved for all other types; acceptance is characterised exactly. |
| C71 | Attributes take effect or are rejected | partial | `C71_attributes_partial`, `C71_one_meaning`, `C71_no_effect_refuted` | False: of two cxx_name, rust_name, namespace or repr attributes the first is dropped without an error. Proved: rejection exactly of what is not documented for the place, and the joint effect (last one wins). The tokenizer is a parameter. |
| C72 | Names and namespaces of declarations | partial | `C72_names_partial`, `C72_fields`, `C72_raw_refuted` | False for raw identifiers: r#delete becomes the C++ name r#delete (and is rejected in a quoted namespace but not in an unquoted one). Everything else is proved for every accepted bridge. |
| C73 | A bridge declares what its source says | partial | `C73_declared_partial`, `C73_accepted`, `C73_no_panic_partial`, `C73_nothing_dropped_refuted` | Dropped without an error: the where-clause of an extern type, unsafe on an impl, attributes of include! and of arguments. Proved: acceptance exactly of the documented forms, the result of parsing, and no panic unless a variant has the value -0 (C03). The result of parse_type and of the discriminants is characterised by C70, C01 and C02. |
| C74 | Every bridge of a file is found | partial | `C74_found`, `C74_readable`, `C74_nested`, `C74_imported_refuted` | Proved for modules marked #[cxx::bridge]. False for a bridge attribute written in another way (#[bridge] after use cxx::bridge): the compiler expands it, the generator passes over it without an error. |
| C75 | Generator and macro read the same bridge | partial | `C75_same_declarations`, `C75_accepted_partial`, `C75_generated_partial`, `C75_several_refuted`, `C75_static_refuted` | The declarations agree, always. That the macro accepts what the generator accepts is false for several bridges (the generator resolves types across bridges) and proved for one bridge from which conditions take nothing away. Conversely the generator accepts one such bridge if the macro does, unless it has relative includes that are not allowed or a lifetime parameter 'static (which only rustc rejects after the expansion). |
| C76 | A file and its expansions link | partial | `C76_links_partial`, `C76_links_refuted` | False if two bridges of a file declare the same type name (an alias in one, a struct in the other). Proved from source file to symbols for any number of bridges with type names apart and no item switched off; that identifiers are identifiers (no dollar sign, no leading digit) is assumed of the source. |
| C77 | Includes relative to the generated file | proved | `C77_relative_includes` |  |
| C78 | Documentation comments stay comments | partial | `C78_comment_partial`, `C78_copied`, `C78_comment_refuted` | False: a documentation line that ends in a backslash swallows the next line of the generated code. Proved for every other documentation. |
| C79 | Errors point at the source that caused them | partial | `C79_points`, `C79_positions`, `C79_order`, `C79_shebang_partial`, `C79_shebang_refuted` | Ranges and order are proved for every text. Reading the file as rustc does is false for a first line that starts with #! followed by blanks and [, which is an attribute for rustc and dropped as a shebang line here. |
| C80 | Enums have the same values in C++ | partial | `C80_values_partial`, `C80_checked`, `C80_values_refuted` | False for values from 2^63 on and for -2^63, whose decimal literal has no type in C++ (compilers accept it with a warning as an extension). Proved for all others, exactly. |
| C81 | The C++ type written for a Rust type is the documented one | partial | `C81_text_partial`, `C81_unambiguous`, `C81_written`, `C81_text_refuted`, `C81_array_refuted` | False for slices and arrays of references (`&[&T]`, `[&T; N]`), which pass the checks but have no C++ type. Proved for every other type, against a tokeniser and a parser of C++ type-ids. |
| C82 | Writing a generated file survives failures, crashes and reruns | partial | `C82_content`, `C82_run`, `C82_unchanged`, `C82_recovers`, `C82_link`, `C82_link_relative`, `C82_ends`, `C82_failures_refuted` | Proved, except that with failing system calls other files are not safe: if the path is a link and its removal fails, the content is written through the link. |
| C83 | Build scripts that run at the same time | partial | `C83_write`, `C83_link`, `C83_ends`, `C83_stable_refuted`, `C83_outside_refuted` | Proved for writers of the same content and for makers of links. False: a file may vanish for a while after one process has reported success; and if one process writes cxx.h where another puts a link to an existing cxx.h, that file may be overwritten. |
| C84 | The generated Rust functions type check | partial | `C84_wrapper`, `C84_exported`, `C84_callback`, `C84_super`, `C84_generated`, `C84_pinned_refuted`, `C84_vec_str_refuted`, `C84_unsafe_refuted`, `C84_callback_refuted` | The exact condition is proved for each kind of generated function (lifetimes and trait bounds are not modelled). Without the exceptions the claim is false; also a parameter of a callback may be named _ or twice the same, which is not rejected. |
| C85 | The generated C++ functions are well typed | partial | `C85_call`, `C85_exported`, `C85_callback`, `C85_generated`, `C85_error_refuted`, `C85_throw_refuted`, `C85_vector_refuted` | The exact condition is proved for each kind of generated function. Without the two exceptions the claim is false (the generated code declares one name twice); a callback that takes a CxxVector by value is accepted, but its function is not well typed (such arguments are excluded in C85_callback). |
| C86 | A call through the bridge is a call of the user's function | proved | `C86_call`, `C86_exported`, `C86_callback` | Over an operational semantics of the Rust and C++ used in the generated functions (Call_Spec), with one memory; a use of a moved-from or uninitialised variable, of a wrong name or of a wrong kind of value has no meaning there, so the theorems also say that none happens. Conversions that change only the type keep the value; destructors are C62. Names that are keywords of Rust are excluded, as is the fallible C++ function named throw of C85. |
| C87 | Every declaration of the generated C++ file finds what it refers to | partial | `C87_file_partial`, `C87_generated`, `C87_array_refuted`, `C87_namespace_refuted`, `C87_same_name_refuted`, `C87_extern_refuted`, `C87_claim_refuted` | Proved for the source file and the header of every accepted bridge without array fields, whose items for one type agree on its C++ name, whose different types have different C++ names, and whose Rust methods are declared in the namespace of their type; both files are produced for every sufficient recursion budget and no definition is dropped by its include guard. Refuted without each of these conditions: a field [B; 1] of a struct defined before B; a Rust method with another namespace than its type; two structs with one C++ name; a shared struct and an extern C++ type of one Rust name in different namespaces. |
| C88 | The members of generated C++ classes and the names in the header can be told apart | partial | `C88_struct`, `C88_opaque`, `C88_enum`, `C88_header`, `C88_same_class`, `C88_class_refuted`, `C88_layout_refuted`, `C88_enumerators_refuted`, `C88_header_refuted`, `C88_claim_refuted` | False: clashes that come from cxx_name, namespace, or names that cxx uses itself (IsRelocatable, layout) are not rejected. The exact condition on the bridge is proved for struct classes, opaque classes and the header (the last for bridges whose types have different C++ names). |
| C89 | What the macro generates defines each name once and implements no trait twice | partial | `C89_total`, `C89_coherent`, `C89_values_refuted`, `C89_methods_refuted`, `C89_local_names_refuted`, `C89_duplicates_refuted`, `C89_separate_refuted`, `C89_scope_refuted`, `C89_claim_refuted` | That the expansion exists is proved. That it is coherent is false: duplicated fields, variants, lifetimes and derives, an alias and a struct of one name, methods that differ only in the receiver, and rust_names like those the macro makes up are not rejected. The exact condition is proved for bridges whose names are different types and unlike the made-up ones; both restrictions are shown to be needed. |
| C90 | Lifetimes of the generated Rust functions are those of the bridge | partial | `C90_wrapper`, `C90_declaration`, `C90_export`, `C90_trampoline`, `C90_total`, `C90_instances`, `C90_explicit`, `C90_method_refuted`, `C90_rust_method_refuted`, `C90_str_refuted`, `C90_generic_method_refuted`, `C90_receiver_refuted`, `C90_trampoline_refuted`, `C90_instances_refuted`, `C90_claim_refuted` | The function that Rust code calls always compiles and has exactly the declared lifetimes; every other generated function compiles exactly under the stated condition and never gives a lifetime another source. False as a whole: a method with a further reference parameter and an elided result, a &str parameter with an elided result, a method of a type with lifetime parameters, a struct declared also as a C++ type without its lifetimes, and an explicit impl without lifetimes are accepted, but what is generated does not compile. Elision is modelled for single results as rustc does it, without lifetimes inside function pointer types; outlives bounds and variance are not modelled. |
| C91 | What Rust moves can be moved bytewise in C++ | partial | `C91_static`, `C91_values`, `C91_kinds`, `C91_callback_refuted`, `C91_unique_refuted`, `C91_claim_refuted` | The assertions hold exactly if every C++ type may be used where the bridge uses it, and cover everything passed by value or stored inline. False as a whole: a C++ type passed by value in the signature of a function pointer is checked in neither language, and for one used only in UniquePtr, SharedPtr or CxxVector C++ checks nothing although Rust may create it if its Kind is Trivial. (The code calls the assertions a convenience, as Kind is declared in an unsafe impl.) Specialisations of IsRelocatable for array types are not modelled. |
| C92 | The command line tool writes to each output what was asked for | partial | `C92_written`, `C92_succeeds`, `C92_failed`, `C92_files`, `C92_alone`, `C92_all_partial`, `C92_stdout_refuted` | Proved for every command line and every failure of the file system. False as a whole: an error while writing to standard output is dropped, so the tool exits with success although the text did not arrive; C92_all_partial is the claim for a standard output that takes everything. clap's splitting of the command line and the text that write::gen makes are parameters; --help and --version output is not modelled. |
| C93 | A build leaves behind what the compiler is told to include | partial | `C93_run`, `C93_found`, `C93_cxx_h`, `C93_crate`, `C93_rerun`, `C93_usual`, `C93_collision_refuted`, `C93_stale_refuted` | Holds for absolute directories without links and for sources whose outputs do not collide (C93_usual: different .rs files below dot-free directories and a one-name prefix never collide), without failing system calls. Refuted as stated: sources that land in the same place lose a header while the build reports success, and headers of bridges that were removed are still found, even in front of the crate's own files. |
| C94 | The shared directory is in the target directory that Cargo uses | proved | `C94_nearest`, `C94_given`, `C94_separate` | OUT_DIR is absolute and without `..`, as Cargo gives it; links are followed. The scratch directory used if nothing is found is that of another crate. |
| C95 | Settings of a build script take effect for what follows | partial | `C95_safe`, `C95_settings`, `C95_reads`, `C95_statements`, `C95_no_loss`, `C95_stale_refuted`, `C95_lost_refuted`, `C95_bytes_refuted`, `C95_claim_refuted` | Memory safety and the settings themselves are as specified in every history. False for reads from a handle at an address where a handle was moved away after having been read (`let c = CFG; c.doxygen; drop(c)`): it shows the old settings. A change is lost if two changed handles exist at the same time, and a directory that is not UTF-8 is altered. Proved in full for one mention of CFG per statement, on any threads. |
| C96 | Smart pointers are safe across threads, and no stricter than needed | proved | `C96_types`, `C96_safe`, `C96_weakest`, `C96_lifetime` | Pointers inside other pointers' targets are not followed; all loans of one pointer end together; the operations of std::shared_ptr are atomic, as the C++ standard requires of its counts. |
| C97 | Switching functions off does not break linking | partial | `C97_functions_partial`, `C97_no_leftover`, `C97_function_refuted`, `C97_impl_refuted` | False as stated: if the only function that mentions a generic over a type is switched off, or an explicit instantiation is, the expansion still refers to the operations of that instantiation, which C++ does not define. Proved: nothing else dangles when only functions are conditional, and without such leftovers the symbols agree exactly. |
| C98 | Variants taken from a header are those of the C++ enum | partial | `C98_exact`, `C98_dump`, `C98_qualified_partial`, `C98_names_partial`, `C98_class_refuted`, `C98_hidden_refuted`, `C98_redeclared_refuted`, `C98_comment_refuted`, `C98_names_refuted` | False as stated: an enum inside a class is taken for one of the namespace around it (or makes the right one be rejected), a redeclaration after the definition is an error, so is a comment on an enumerator without a value, and an enumerator called __Variant1 may clash. Proved: exactly which headers are accepted and what is taken from them, with enums in classes counted as the code counts them. |
| C99 | Smart pointers stand for what they point to | partial | `C99_laws`, `C99_targets`, `C99_null`, `C99_io_partial`, `C99_io_provided_partial`, `C99_io_null`, `C99_read_vectored_refuted` | False for read_vectored, which UniquePtr does not forward: it fills only the first buffer although the target may fill all. Proved for all other calls, for targets that have the provided read_vectored, and in full for comparison, hashing and printing. |
| C100 | Headers of a crate are found also where links cannot be made | partial | `C100_copied`, `C100_outside`, `C100_claim_refuted` | False as a whole: files with another extension (.hxx, .inc), hidden ones, links and files too deep or in packages inside the package are not copied, although with a link they can be included. Proved: exactly the headers described are there afterwards, whatever was there before; nothing else changes, whatever fails. Copying is best effort: after a failing system call some headers may be missing. Links are not followed on the way to the copy. |
| C101 | Headers named in a bridge are the headers included | partial | `C101_included`, `C101_exact`, `C101_one_line`, `C101_brackets`, `C101_claim_refuted` | False for some paths in quotes: they are written with the escapes of Rust, but header names in C++ have none, so "é.h" becomes "\u{e9}.h" and an apostrophe gets a backslash. Proved: exactly which paths arrive (printable ASCII without quotes, apostrophes and backslashes; anything without newline and > in brackets), that all paths in brackets that a bridge can name do, that quoted directives are always one line, and what the whole list is. White space between the tokens of a path in brackets is lost before the model starts (the tokens carry none). |
| C102 | C++ objects that must stay in place cannot be moved by safe Rust | partial | `C102_in_place_partial`, `C102_opaque_partial`, `C102_available`, `C102_callback_refuted`, `C102_claim_refuted` | Proved for bridges whose function pointers do not take such an object as argument. False otherwise: fn(C) with an opaque C++ type C is accepted as type of a function pointer, so that C++ can hand the object over by value. |
| C103 | Shared structs have the same memory layout in both languages | partial | `C103_layout_partial`, `C103_values_partial`, `C103_aliased_primitive_refuted` | Proved for every accepted bridge without an alias named like a primitive (refuted with one), on every platform that passes the crate's assertions, given that the user's C++ types have the layout the bridge says. Assumed of the bridge: no struct contains itself, different types have different C++ names, no array of length 0, enums have an integer representation. The layout rules of both languages are in Layout_Spec.v. |
| C104 | Opaque Rust objects are made and destroyed by Rust only | partial | `C104_made_partial`, `C104_library`, `C104_never_held`, `C104_assignment`, `C104_braces_refuted` | Proved for C++11, C++14 and C++20, and for C++17 in compilers that ask for the destructors of the elements of an aggregate. False in C++17 with GCC, which accepts `new R{{}}`: the deleted constructors of rust::Opaque do not keep it from being an aggregate. The rules of C++ for special member functions and initialisation are part of the model (Special_Model.v); code that circumvents them (casts, memcpy) is not. |
| C105 | Shared structs can be moved, and copied unless something in them has one owner | partial | `C105_moves`, `C105_containers`, `C105_copies`, `C105_copy_trait`, `C105_assigns`, `C105_copy_values`, `C105_trait_refuted` | Proved if the user's classes that are used by value can be moved and destroyed (what cxx asserts) and no struct contains itself. Refuted is only the reading in which std::is_copy_constructible tells whether a copy compiles: rust::Vec<R> of an opaque type says yes but does not compile. |
| C106 | Shared structs can be made in C++ with all fields defined | partial | `C106_braces`, `C106_fewer`, `C106_default_compiles`, `C106_default_partial`, `C106_enum_refuted`, `C106_cxx11_refuted` | Default initialisation: proved since C++14 for all fields, at any depth, that are not enums, arrays or of the user's classes. False for enums (no default value is written) and in C++11 (the default values are left out). |
| C107 | Generated files can be used together | partial | `C107_header_partial`, `C107_unit_partial`, `C107_agreeing_partial`, `C107_own_partial`, `C107_link_partial`, `C107_namespaces_partial`, `C107_layout_refuted`, `C107_symbol_refuted` | Proved: headers define nothing that may be defined only once in a program; no class or enumeration is defined twice in a translation unit, and one is dropped only where another of the same kind and qualified name is defined; nothing is lost where definitions of the same name agree, as in the files of one bridge; bridges whose functions, structs, opaque types and instantiations are in different namespaces share no link name and define nothing of the same C++ name. False for two bridges with different structs of one C++ name (the later class is dropped silently), and for two bridges that import the same C++ function (both source files define the same symbol). |
| C108 | All errors of a file are reported, and nothing is generated for it | partial | `C108_reported`, `C108_ends_partial`, `C108_written`, `C108_order`, `C108_hidden_refuted`, `C108_expanded`, `C108_accepted`, `C108_hint`, `C108_no_hint`, `C108_known` | Proved as stated, for files that syn can parse and runs that do not panic (none does unless a variant has the value `-0`, see C03: C108_ends_partial). Refuted is only the stronger reading in which all errors of a file are reported at once: a mistake in one bridge hides a name that is declared twice in another one until it is corrected. |

## What is modelled and what is not

Modelled (function by function, with the simplifications in the comments):

* `syntax/`: `atom`, `cfg`, `check`, `derive` (which traits), `discriminant`, `ident`,
  `impls`, `improper`, `instantiate`, `mangle`, `map`, `names`, `pod`, `primitive`,
  `resolve`, `set`, `symbol`, `toposort`, `trivial`, `types`, `visit`, `attrs`, `namespace`,
  `qualified`, `names`, `doc`, and all of `parse` (from syn's syntax tree); of `tokens` the types.
* `gen/src/`: `block`, `builtin`, `cfg`, `check`, `error` (positions), `file`, `fs` (as used by cxx-build on Unix), `mod` (generate, up to the writing), `ifndef`, `include`,
  `nested`, `out`, and of `write` everything that decides symbols, ABI, order,
  namespaces, guards, operators, parameter names, required support code and the text of types.
* `gen/build/src/`: `cargo`, `cfg`, `intern`, `vec`, `deps`, `paths`, `out`, `target`, `lib`.
* `gen/cmd/src/`: `app`, `cfg`, `main`, `output`.
* `macro/src/`: `clang` (the kinds of nodes), `derive`, `load`, `type_id`, and of `expand` everything that decides symbols,
  ABI, trait impls, cfg attributes and shims, and the bodies of the generated functions (without lifetimes); the lifetimes of function and impl headers.
* `src/`: `cxx_string`, `cxx_vector`, `exception`, `extern_type` (ids), `lossy`, `result`,
  `rust_vec`, `shared_ptr`, `symbols/*`, `type_id`, `unique_ptr`, `unwind`, `weak_ptr`, `cxx.cc`.
* `include/cxx.h`: `Str` and `String` (comparison, ownership), `Slice` and its iterators,
  `Box`, `Vec`, `Error`, `IsRelocatable`, the dependency structure of the guarded sections.

Outside of the project, the following is part of the model as documented by its
own standard: `std::unique_ptr`, `std::shared_ptr`, `std::weak_ptr`, `std::vector`, `std::string`,
`std::optional`-free parts of `<algorithm>` used by `cxx.cc`; `alloc::vec::Vec`,
`alloc::string::String`, `alloc::boxed::Box`, `core::str::from_utf8` (by its algorithm),
`char::escape_debug` (its table of printable characters is arbitrary),
`String::from_utf8_lossy` (as documented), unwinding and `catch_unwind`, Cargo's
environment variables for build scripts, the Unix path rules of `std::path`, the Unix system
calls on files (one step each; no permissions or times; a faulty call has no effect, except that a tree
may be removed in part).

Not modelled: the Rust and C++ compilers, linkers and their optimisers; `syn`,
`quote` and `proc_macro2` (the source is modelled as the syntax tree of `syn`); the exact text of
generated code other than the parts above; the wording
of diagnostics; reading and parsing the file that clang dumps; the `cc`
crate; interleavings within one operation (the reference counts of `std::shared_ptr` are assumed atomic);
allocation failure except where a definition mentions it; Windows paths.

## Trusted base

* Coq 8.16.1's kernel, including `vm_compute`.
* The transcription of the Rust/C++ code into Gallina (the code is not run), and the
  specification files.
* `Print Assumptions` says "Closed under the global context" for every theorem
  named `Cnn_…`: no axioms are used, neither of the standard library nor own
  ones.
* No functors, module types, plugins or switched-off checks are used.
