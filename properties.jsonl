{"id": "C01", "title": "Shared enum discriminants are the ones written", "statement": "In every shared enum that the bridge accepts, each variant's numeric value (on both the Rust and C++ side) is the discriminant written for it, or, when none is written, one more than the previous variant's value (0 for the first), and the value fits the enum's representation type whenever that type has a fixed width.", "quantifier": "every finite list of variants, each with no discriminant or any signed integer literal (with or without type suffix), and every optional repr attribute", "why_tests_cant": "the set of variant lists is infinite and the interesting cases depend on the interaction of suffixes, explicit reprs and earlier variants", "anchors": ["syntax/discriminant.rs: DiscriminantSet::insert, insert_next, remember", "syntax/parse.rs: parse_enum, parse_variant"]}
{"id": "C02", "title": "Inferred enum representation is the first that fits", "statement": "When a shared enum has no repr attribute and no suffixed discriminant, the representation chosen is the first of u8,i8,u16,i16,u32,i32,u64,i64 whose range contains every variant value, and the enum is rejected exactly when none does; an explicit repr or suffix is always respected.", "quantifier": "every list of variants (no literal negative zero, whose treatment C03 covers) over the 65-bit signed range that literals can express", "why_tests_cant": "minimality is a statement about all ranges at once; tests only sample boundaries", "anchors": ["syntax/discriminant.rs: inferred_repr, Limits", "syntax/discriminant.rs: LIMITS"]}
{"id": "C03", "title": "Discriminant arithmetic never panics or wraps", "statement": "Computing the discriminants of a shared enum never overflows: whatever integer literals are written, the generator either accepts the enum or reports a compile error.", "quantifier": "every list of variants with arbitrary literals, including the negative zero literal", "why_tests_cant": "overflow needs one specific predecessor literal out of 2^65", "anchors": ["syntax/discriminant.rs: insert_next, Sub/Neg arithmetic", "syntax/discriminant.rs: checked_succ"]}
{"id": "C04", "title": "A shared struct is defined after the structs it contains by value", "statement": "In the generated C++ file the definition of every shared struct comes after the definitions of all shared structs that appear by value in its fields, so no field has incomplete type.", "quantifier": "every accepted set of shared structs, in any declaration order and any (acyclic) by-value containment graph, including containment through arrays", "why_tests_cant": "graphs are unbounded in size and shape", "anchors": ["syntax/toposort.rs: sort, visit", "gen/src/write.rs: write_data_structures"]}
{"id": "C05", "title": "By-value cycles between shared structs are rejected, and only those", "statement": "The bridge reports 'unsupported cyclic data structure' if and only if some shared struct contains itself by value through a chain of fields.", "quantifier": "every finite set of shared structs with arbitrary field types", "why_tests_cant": "cycle length is unbounded and false positives depend on sharing in the graph", "anchors": ["syntax/toposort.rs: sort, visit"]}
{"id": "C06", "title": "Every shared struct and enum is emitted exactly once", "statement": "For every accepted bridge, the generated C++ contains exactly one definition of each shared struct that is not also declared as an extern C++ type, none for those that are, and the relative order of enums/types/functions is the source order.", "quantifier": "every list of API items", "why_tests_cant": "double emission depends on the interleaving of several passes over arbitrarily long item lists", "anchors": ["gen/src/write.rs: write_data_structures"]}
{"id": "C07", "title": "The pass-by-value analysis terminates and looks at every nested field", "statement": "Deciding whether a shared struct may be passed by value in registers terminates for every bridge and says yes exactly when no by-value-reachable component requires indirection.", "quantifier": "every set of struct definitions reachable from a function signature", "why_tests_cant": "non-termination only shows on particular recursive definitions", "anchors": ["syntax/pod.rs: is_guaranteed_pod", "syntax/primitive.rs: kind", "syntax/types.rs: needs_indirect_abi"]}
{"id": "C08", "title": "The improper-ctype closure is a least fixed point independent of hash order", "statement": "A shared struct is treated as improper for a C signature exactly when following its fields leads to a type that is not C-compatible, and this classification does not depend on the iteration order of the compiler's hash tables and the computation terminates.", "quantifier": "every set of shared structs and every iteration order of the underlying hash set, different in each round", "why_tests_cant": "hash iteration order is a scheduler-like nondeterminism that tests cannot enumerate", "anchors": ["syntax/types.rs: Types::collect (fixpoint loop 216-238)", "syntax/improper.rs: determine_improper_ctype"]}
{"id": "C09", "title": "Duplicate type names are rejected exactly when ambiguous", "statement": "A bridge is rejected for duplicate type names iff some name is declared more than once, except that one shared struct or one shared enum may share its name with one extern C++ type (in either order).", "quantifier": "every list of type declarations of any kinds in any order", "why_tests_cant": "number and order of declarations is unbounded", "anchors": ["syntax/types.rs: Types::collect (type_names)"]}
{"id": "C10", "title": "Distinct functions have distinct link symbols", "statement": "In an accepted bridge, two different extern functions never get the same link symbol.", "quantifier": "every pair of accepted functions: any namespaces, receivers, Rust and C++ names", "why_tests_cant": "collisions depend on name structure; string sets are infinite", "anchors": ["syntax/mangle.rs: extern_fn", "syntax/types.rs: function_names", "syntax/symbol.rs: Symbol"]}
{"id": "C11", "title": "Symbol segments are uniquely decodable", "statement": "The mangled symbol of a function, trampoline or operator determines the list of name segments it was built from, and symbols of different categories (functions, operators, smart-pointer instantiations, trampolines) never coincide.", "quantifier": "all namespaces and identifiers accepted by the identifier rules", "why_tests_cant": "infinitely many identifier strings", "anchors": ["syntax/symbol.rs: join!, Symbol::push", "syntax/mangle.rs", "syntax/ident.rs: check"]}
{"id": "C12", "title": "Rust and C++ sides reference and define the same symbols", "statement": "For every accepted bridge, each link symbol the generated Rust code imports is defined by the generated C++ code and each symbol the generated C++ code imports is exported by the generated Rust code (functions, function-pointer trampolines, struct operators, opaque-type layout queries, Box/Vec/UniquePtr/SharedPtr/WeakPtr/CxxVector instantiations).", "quantifier": "every accepted list of API items", "why_tests_cant": "the two generators are separate programs; agreement must hold for each of infinitely many bridges", "anchors": ["macro/src/expand.rs", "gen/src/write.rs", "syntax/mangle.rs"]}
{"id": "C13", "title": "Both sides agree on how every argument and return value is passed", "statement": "For each extern function and each function-pointer trampoline, the generated Rust declaration and the generated C++ definition have the same number of parameters in the same order, each passed in the same way (by value, by pointer, out-parameter), and the same return convention.", "quantifier": "every accepted signature over every set of type declarations", "why_tests_cant": "signature space is infinite and mismatches are undefined behaviour rather than test failures", "anchors": ["macro/src/expand.rs: expand_cxx_function_decl, expand_rust_function_shim_impl, indirect_return", "gen/src/write.rs: write_cxx_function_shim, write_rust_function_decl_impl, write_extern_arg, indirect_return"]}
{"id": "C14", "title": "Calling conventions agree also under conditional compilation", "statement": "The agreement of calling conventions between the two sides holds for every assignment of cfg flags when items, fields or variants carry cfg attributes.", "quantifier": "every bridge with cfg attributes and every cfg assignment", "why_tests_cant": "2^n cfg combinations per bridge; the two sides see different item lists", "anchors": ["gen/src/cfg.rs: strip", "gen/src/mod.rs: generate", "macro/src/expand.rs: bridge", "syntax/pod.rs"]}
{"id": "C15", "title": "Type equality is an equivalence consistent with hashing", "statement": "The equality used to deduplicate types in a bridge is reflexive, symmetric and transitive and equal types hash equally, so each type mentioned in the bridge is recorded exactly once.", "quantifier": "every type expression the bridge syntax allows", "why_tests_cant": "types nest without bound", "anchors": ["syntax/impls.rs: PartialEq/Hash for Type, Ref, Ptr, SliceRef, Array, Signature, Receiver, Ty1", "syntax/set.rs: OrderedSet"]}
{"id": "C16", "title": "Insertion-ordered set and map behave as such", "statement": "The ordered set (map) used for types and instantiations iterates every inserted key exactly once in order of first insertion, and a lookup returns the value most recently inserted for the key.", "quantifier": "every sequence of insertions and lookups with any key equality that is an equivalence", "why_tests_cant": "histories are unbounded", "anchors": ["syntax/set.rs", "syntax/map.rs"]}
{"id": "C17", "title": "Exactly the mentioned instantiations are generated, once each", "statement": "For each Box/Vec/UniquePtr/SharedPtr/WeakPtr/CxxVector over a named non-primitive type mentioned anywhere in the bridge (or requested by an explicit impl block) support code is generated exactly once, and not for a type alias unless explicitly requested.", "quantifier": "every list of API items with arbitrarily nested types", "why_tests_cant": "unbounded nesting and repetition", "anchors": ["syntax/types.rs: Types::collect (impls)", "syntax/instantiate.rs: impl_key", "syntax/visit.rs"]}
{"id": "C18", "title": "Extern C++ types used by value are checked for triviality", "statement": "Every opaque extern C++ type that an accepted bridge lets Rust hold by value (struct field, function argument, return value, Box/Vec/slice element, unpinned &mut) is subjected to the triviality/relocatability check, with the reasons recorded.", "quantifier": "every list of API items", "why_tests_cant": "one missed syntactic position is enough to be unsound", "anchors": ["syntax/trivial.rs: required_trivial_reasons", "syntax/types.rs: required_trivial"]}
{"id": "C19", "title": "Opaque and unsized types never cross by value", "statement": "No accepted bridge has an opaque C++ type, opaque Rust type, CxxString or CxxVector by value as a struct field, argument or return value, a function pointer anywhere but as argument of a C++ function, or an unsized element in Vec, slice or array.", "quantifier": "every list of API items with arbitrarily nested types", "why_tests_cant": "soundness of a checker quantifies over all programs it accepts", "anchors": ["syntax/check.rs: check_type_*, check_api_struct, check_api_fn, is_unsized, is_opaque_cxx"]}
{"id": "C20", "title": "Safe functions do not take raw pointers or untrusted C++ functions", "statement": "In an accepted bridge a function that mentions raw pointers in its arguments is declared unsafe, and an extern C++ function is callable from safe Rust only if its block is written `unsafe extern \"C++\"`.", "quantifier": "every list of API items", "why_tests_cant": "checker soundness over all accepted programs", "anchors": ["syntax/check.rs: check_api_fn, check_type_ptr", "syntax/parse.rs: parse_foreign_mod"]}
{"id": "C21", "title": "A safe function cannot conjure a mutable reference from a shared one", "statement": "An accepted safe function returning a mutable (or pinned mutable) reference takes at least one argument from which such a reference can legitimately be derived.", "quantifier": "every signature", "why_tests_cant": "signature space is infinite", "anchors": ["syntax/check.rs: check_mut_return_restriction"]}
{"id": "C22", "title": "A bare self receiver names the only type of its block", "statement": "A method written with `&self`, `&mut self` or `self: Pin<&mut Self>` is attached to the unique type declared in its extern block, and is rejected if the block declares no type or several types; explicitly typed receivers are unaffected.", "quantifier": "every foreign block with any number and order of types and functions", "why_tests_cant": "unbounded block contents", "anchors": ["syntax/parse.rs: parse_foreign_mod"]}
{"id": "C23", "title": "Reserved names are rejected everywhere they could clash", "statement": "In an accepted bridge no user identifier for a type, field, variant, function or argument starts with the generator's reserved prefix, and no C++ name contains a double underscore.", "quantifier": "every list of API items", "why_tests_cant": "checker soundness over all accepted programs and all strings", "anchors": ["syntax/ident.rs: check, check_all", "syntax/check.rs: check_reserved_name"]}
{"id": "C24", "title": "Several cfg attributes mean their conjunction", "statement": "An item carrying several cfg attributes (directly or inherited from its extern block) is enabled exactly when all of them are true.", "quantifier": "every list of cfg attributes, every cfg assignment", "why_tests_cant": "expressions nest without bound", "anchors": ["syntax/cfg.rs: CfgExpr::merge", "syntax/attrs.rs: parse", "syntax/parse.rs: parse_foreign_mod"]}
{"id": "C25", "title": "cfg evaluation is three-valued logic, sound for every completion", "statement": "When the code generator decides a cfg expression it gives the truth value that the expression has under every completion of the flags it could not determine; it reports an error exactly when the value genuinely depends on undetermined flags in the strong Kleene sense; each undetermined flag is reported once.", "quantifier": "every cfg expression and every partial flag assignment", "why_tests_cant": "expressions nest without bound and partial assignments are arbitrary", "anchors": ["gen/src/cfg.rs: eval, try_eval"]}
{"id": "C26", "title": "Stripping keeps exactly the enabled items", "statement": "After cfg processing the generated C++ contains exactly the items, fields and variants whose cfg is true, in source order.", "quantifier": "every list of API items, every cfg assignment", "why_tests_cant": "2^n assignments", "anchors": ["gen/src/cfg.rs: strip"]}
{"id": "C27", "title": "Cargo features select the same items in build scripts as in rustc", "statement": "In a cargo build script, `cfg(feature = \"x\")` evaluates to true exactly when the feature x of the crate is enabled.", "quantifier": "every feature name cargo accepts and every set of enabled features", "why_tests_cant": "feature names are arbitrary strings; the environment-variable encoding is lossy", "anchors": ["gen/build/src/cargo.rs: CargoEnvCfgEvaluator, Name, Lookup"]}
{"id": "C28", "title": "Command line cfg flags are deterministic and consistent", "statement": "With the cxxbridge command, evaluation of a cfg depends only on the set of --cfg flags given (not their order), a key given both true and false is rejected, and flags that were not given are reported as undetermined rather than guessed.", "quantifier": "every list of --cfg flags and every cfg query", "why_tests_cant": "unbounded lists and orders", "anchors": ["gen/cmd/src/cfg.rs: FlagsCfgEvaluator, parse", "gen/cmd/src/app.rs"]}
{"id": "C29", "title": "Namespace and extern \"C\" blocks in generated code are balanced", "statement": "The generated C++ text always opens and closes namespace and extern \"C\" blocks in properly nested fashion, every piece of text appears inside exactly the blocks that were open for it, empty blocks are elided, and the writer never hits its internal assertions.", "quantifier": "every sequence of writer operations the generator can issue", "why_tests_cant": "block cancellation depends on the whole history of writes", "anchors": ["gen/src/out.rs: Content, set_namespace, begin_block, end_block, write, flush_blocks", "gen/src/block.rs"]}
{"id": "C30", "title": "Forward declarations are grouped by namespace without loss", "statement": "Grouping items by namespace keeps every item exactly once, under precisely its own namespace path, and preserves source order within a namespace.", "quantifier": "every list of items with arbitrary nested namespaces", "why_tests_cant": "depth and interleaving unbounded", "anchors": ["gen/src/nested.rs: NamespaceEntries::new, sort_by_inner_namespace"]}
{"id": "C31", "title": "Built-in support code is closed under its own dependencies", "statement": "Whatever subset of built-in helpers the bridge needs, the emitted set contains everything those helpers refer to, in an order where definitions precede uses.", "quantifier": "every subset of requested builtins", "why_tests_cant": "2^n subsets; dependency propagation is a single hand-ordered pass", "anchors": ["gen/src/builtin.rs: write"]}
{"id": "C32", "title": "C++ comparison operators of shared structs agree with the Rust impls", "statement": "For every shared struct deriving comparison traits, each of ==, !=, <, <=, >, >= that the C++ class offers returns what the Rust operator returns on the same values.", "quantifier": "every combination of derives and every lawful or partial comparison", "why_tests_cant": "depends on semantic laws over all values", "anchors": ["gen/src/write.rs: write_struct_operator_decls, write_struct_operators", "macro/src/expand.rs: expand_struct_operators", "macro/src/derive.rs"]}
{"id": "C33", "title": "Derived struct ordering is the lexicographic order of the fields", "statement": "Derived Ord/PartialOrd/PartialEq on shared structs compare fields lexicographically in declaration order; with lawful field orders the result is a total order consistent with equality, and enums order by discriminant.", "quantifier": "every number of fields, every field ordering, all values", "why_tests_cant": "all values of unboundedly many fields", "anchors": ["macro/src/derive.rs: struct_ord, struct_partial_ord, struct_partial_eq, enum_ord"]}
{"id": "C34", "title": "Type ids identify exactly the qualified C++ name", "statement": "Two extern types have equal type-level ids iff they have the same namespace and name, so an alias to a different C++ type is rejected.", "quantifier": "all pairs of qualified names over all identifiers", "why_tests_cant": "injectivity over infinite string sets", "anchors": ["macro/src/type_id.rs: expand", "src/extern_type.rs: verify_extern_type"]}
{"id": "C35", "title": "Generated file paths stay inside the output directory", "statement": "For every source path given to the build helper, the generated header and source paths lie inside the output directory (no absolute path, no parent component survives).", "quantifier": "every path with any mixture of normal, current-dir, parent-dir, root and prefix components", "why_tests_cant": "path strings are unbounded", "anchors": ["gen/build/src/paths.rs: local_relative_path", "gen/build/src/lib.rs: generate_bridge"]}
{"id": "C36", "title": "Relative symlinks resolve to the intended file", "statement": "When the build helper creates a relative symlink, resolving it from the link's directory yields the original path; it falls back to an absolute path in all cases where that is not guaranteed, and never panics on absolute normalised inputs.", "quantifier": "every pair of paths and every target-directory configuration", "why_tests_cant": "path pairs are unbounded", "anchors": ["gen/build/src/out.rs: best_effort_relativize_symlink, abstractly_relativize_symlink, split_after_common_prefix"]}
{"id": "C37", "title": "A UniquePtr frees its object exactly once", "statement": "Through any sequence of safe UniquePtr operations (null, new, as_ref, pin_mut, into_raw/from_raw pairs, drop, passing to C++), each heap object is destroyed at most once, exactly once when its owner is dropped, never while owned, and dereferencing null panics.", "quantifier": "every operation history over any number of pointers", "why_tests_cant": "histories unbounded; double free is not reliably observable in tests", "anchors": ["src/unique_ptr.rs", "gen/src/write.rs: write_unique_ptr_common", "src/cxx.cc"]}
{"id": "C38", "title": "Shared and weak pointers keep the object alive exactly as long as needed", "statement": "Through any sequence of SharedPtr/WeakPtr operations (null, new, clone, downgrade, upgrade, drop) an object is destroyed exactly when the last SharedPtr to it is dropped; upgrade yields a non-null pointer to the same object iff it is still alive.", "quantifier": "every operation history over any number of pointers", "why_tests_cant": "histories unbounded", "anchors": ["src/shared_ptr.rs", "src/weak_ptr.rs", "src/cxx.cc: SHARED_PTR_OPS"]}
{"id": "C39", "title": "CxxVector operations match a sequence", "statement": "CxxVector get/len/push/pop/iter behave as on a list; out-of-range get gives None; iteration yields each element exactly once in order with exact size hints and the mutable iterator never yields the same element twice.", "quantifier": "every history of operations", "why_tests_cant": "unbounded histories", "anchors": ["src/cxx_vector.rs"]}
{"id": "C40", "title": "let_cxx_string destroys only initialised strings", "statement": "The stack-allocated std::string created by let_cxx_string! is destroyed exactly once and only after having been constructed, however the initialiser expression completes (value, panic, early return).", "quantifier": "every way control can leave the initialiser", "why_tests_cant": "undefined behaviour on unwinding is not deterministically observable", "anchors": ["src/cxx_string.rs: let_cxx_string, StackString"]}
{"id": "C41", "title": "Displaying a CxxString is lossy UTF-8 decoding", "statement": "Displaying any C++ string yields valid UTF-8, equals the string itself when it is valid UTF-8, and otherwise substitutes one U+FFFD per maximal invalid prefix, i.e. equals the standard lossy conversion.", "quantifier": "every byte sequence", "why_tests_cant": "256^n inputs", "anchors": ["src/lossy.rs: display", "src/cxx_string.rs: Display"]}
{"id": "C42", "title": "Debug output of a CxxString is a faithful escape", "statement": "Debug formatting of a C++ string is always valid text in double quotes in which invalid bytes appear as \\xNN and from which the original bytes can be recovered.", "quantifier": "every byte sequence", "why_tests_cant": "256^n inputs", "anchors": ["src/lossy.rs: debug"]}
{"id": "C43", "title": "rust::Str comparison in C++ is a total order that agrees with Rust", "statement": "The relational operators of rust::Str / rust::String in C++ form a consistent total order and agree with Rust's ordering of the same strings.", "quantifier": "every pair and triple of strings", "why_tests_cant": "infinitely many pairs; depends on char signedness", "anchors": ["src/cxx.cc: Str::operator<, operator<=, operator=="]}
{"id": "C44", "title": "rust::Vec in C++ behaves like a sequence with amortised growth", "statement": "Any sequence of C++ operations on rust::Vec (push_back, emplace_back, reserve, truncate, clear, copy, move, swap, at) behaves like the same operations on a list, never writes outside the allocation, and destroys each element exactly once; appending n elements to a vector of m moves at most m + 2n elements.", "quantifier": "every operation history, every reallocation policy, including arguments that alias the vector", "why_tests_cant": "depends on allocator growth policy and aliasing", "anchors": ["include/cxx.h: Vec", "src/rust_vec.rs", "src/symbols/rust_vec.rs"]}
{"id": "C45", "title": "Iterating a rust::Slice visits every element once", "statement": "Iterating a rust::Slice or rust::Vec from begin() to end() visits exactly size() elements in index order, and iterator arithmetic satisfies the random-access laws.", "quantifier": "every element size, base address and length", "why_tests_cant": "unbounded sizes, includes zero-sized element types", "anchors": ["include/cxx.h: Slice<T>::iterator, Slice::begin, Slice::end"]}
{"id": "C46", "title": "Results and exceptions carry their message faithfully in both directions", "statement": "A Rust function returning Err makes C++ throw rust::Error whose what() is the error text, Ok never throws; a C++ function throwing makes Rust return Err whose what() is the (lossily decoded) exception text, and normal return gives Ok with the value; each message buffer is freed exactly once.", "quantifier": "every message (any bytes, including empty and interior NUL), any chain of copies/moves of the error object", "why_tests_cant": "all messages and all ownership histories", "anchors": ["src/result.rs", "src/symbols/exception.rs", "src/cxx.cc: Error, Fail", "gen/src/write.rs: write_cxx_function_shim, write_rust_function_shim_impl"]}
{"id": "C47", "title": "A panic never unwinds across the language boundary", "statement": "If a Rust function called from C++ panics, the process aborts; control never returns or unwinds into C++, and a call without panic is unaffected.", "quantifier": "every behaviour of the called function, including nested calls", "why_tests_cant": "unwinding through foreign frames is undefined behaviour", "anchors": ["src/unwind.rs: prevent_unwind", "macro/src/expand.rs: expand_rust_function_shim_impl"]}
{"id": "C48", "title": "rust::String in C++ has value semantics and owns its buffer", "statement": "Any sequence of construct/copy/move/assign/swap/c_str/reserve/destroy on rust::String objects keeps each object's text independent, never frees a buffer twice and frees all of them, and c_str() yields the text followed by NUL without changing the text.", "quantifier": "every operation history including self-assignment", "why_tests_cant": "unbounded histories", "anchors": ["src/cxx.cc: String", "src/symbols/rust_string.rs", "include/cxx.h: String"]}
{"id": "C49", "title": "rust::Box in C++ owns its object exactly once", "statement": "Any sequence of construct (with possibly throwing constructor)/move/assign/swap/into_raw/from_raw/destroy on rust::Box destroys and deallocates each object exactly once and leaks nothing.", "quantifier": "every operation history including self-move and throwing constructors", "why_tests_cant": "unbounded histories and exceptional paths", "anchors": ["include/cxx.h: Box, Box::allocation"]}
{"id": "C50", "title": "Primitive instantiations accepted by the checker exist at run time", "statement": "For every primitive type accepted inside Vec, CxxVector, SharedPtr, WeakPtr or UniquePtr, all runtime entry points the generated code needs are defined with matching names on both sides.", "quantifier": "every accepted container/primitive combination and every entry point", "why_tests_cant": "missing symbols only show at link time of the particular combination", "anchors": ["syntax/check.rs: check_type_*", "src/cxx.cc: FOR_EACH_*", "src/cxx_vector.rs", "src/shared_ptr.rs", "src/weak_ptr.rs", "src/symbols/rust_vec.rs"]}
{"id": "C51", "title": "Every name in an accepted bridge resolves", "statement": "In an accepted bridge every type name in any field, signature, impl or receiver is a built-in type or is declared by the bridge, so neither generator can abort on an unknown name.", "quantifier": "every list of API items with arbitrarily nested types", "why_tests_cant": "the generators look names up with a panicking accessor; only a proof over all accepted programs shows it is never reached", "anchors": ["syntax/check.rs: check_type_ident, check_api_fn", "syntax/resolve.rs: Types::resolve"]}
{"id": "C52", "title": "Callback signatures obey the same by-value rules as functions", "statement": "In an accepted bridge no function pointer type takes or returns an opaque or unsized type by value, returns Result, or (unless unsafe) takes a raw pointer.", "quantifier": "every accepted bridge and every function pointer type at any depth", "why_tests_cant": "soundness of a checker quantifies over all programs it accepts", "anchors": ["syntax/check.rs: check_type_fn, check_api_fn"]}
{"id": "C53", "title": "User types never shadow the bridge's built-in names", "statement": "No type declared in an accepted bridge has the name of a built-in type (Box, Vec, str, String, i32, ...), so a name means the same to both generators and to the user.", "quantifier": "every accepted bridge", "why_tests_cant": "checker soundness over all accepted programs and all strings", "anchors": ["syntax/check.rs: check_reserved_name, check_api_type_alias", "syntax/atom.rs: Atom::from_str"]}
{"id": "C54", "title": "Bridges in one file do not influence each other", "statement": "A bridge module has the same layout and calling convention in the C++ code generator, which processes all bridges of a file together, as in the Rust macro, which sees one bridge at a time.", "quantifier": "every file with any number of bridge modules", "why_tests_cant": "pairs of interacting modules are unbounded", "anchors": ["gen/src/mod.rs: generate", "gen/src/file.rs", "macro/src/expand.rs: bridge"]}
{"id": "C55", "title": "Parameter names of generated functions are distinct", "statement": "Each generated function of an accepted bridge, including callback trampolines, has pairwise distinct parameter and local variable names, including the names invented for `_` parameters, return slots, moved arguments and error results.", "quantifier": "every parameter list", "why_tests_cant": "unbounded lists of names chosen by the user", "anchors": ["syntax/parse.rs: parse_extern_fn", "macro/src/expand.rs", "gen/src/write.rs"]}
{"id": "C56", "title": "Only supported compound types are accepted", "statement": "At any depth of an accepted bridge, Box, UniquePtr, SharedPtr, WeakPtr, CxxVector, references and raw pointers are only applied to the types for which both sides have support; mutable references to opaque C++ types are pinned.", "quantifier": "every accepted bridge and every type at any nesting depth", "why_tests_cant": "soundness of a checker quantifies over all programs it accepts", "anchors": ["syntax/check.rs: check_type_box, check_type_unique_ptr, check_type_shared_ptr, check_type_weak_ptr, check_type_cxx_vector, check_type_ref, check_type_ptr"]}
{"id": "C57", "title": "Explicit lifetimes require a promise of correctness", "statement": "In an accepted bridge a C++ function with explicit lifetime parameters is declared in an unsafe block, and a Rust function with explicit lifetime parameters is an unsafe fn.", "quantifier": "every accepted bridge", "why_tests_cant": "checker soundness over all accepted programs", "anchors": ["syntax/check.rs: check_api_fn"]}
{"id": "C58", "title": "The text of a cfg attribute is read as Rust defines it", "statement": "The cfg attribute parser of the code generator accepts exactly the token sequences of Rust's configuration predicate grammar (all, any, not, name, name = \"value\", optional trailing commas) and gives each the predicate it stands for.", "quantifier": "every token sequence, any nesting", "why_tests_cant": "unbounded nesting and length", "anchors": ["syntax/cfg.rs: parse_attribute, parse_single, parse_multiple"]}
{"id": "C59", "title": "Disabled items leave nothing behind in the Rust expansion", "statement": "An item switched off by its own cfg contributes no definition to the Rust expansion that still refers to it, so disabling an item never breaks the build.", "quantifier": "every bridge with cfg attributes and every cfg assignment", "why_tests_cant": "all combinations of items, derives and flags", "anchors": ["macro/src/expand.rs: expand_struct_operators, expand_rust_type_import, expand_rust_type_layout, expand_cxx_function_shim"]}
{"id": "C60", "title": "Shared struct fields have the same order and representation on both sides", "statement": "The fields of a shared struct are declared in C++ and in Rust in the same order, under the names given in the bridge, and each with types of the same representation.", "quantifier": "every accepted bridge and every shared struct in it", "why_tests_cant": "Tests can only compare the layout of the structs they define; field types nest arbitrarily.", "anchors": ["gen/src/write.rs: write_struct, write_type", "macro/src/expand.rs: expand_struct", "syntax/tokens.rs"]}
{"id": "C61", "title": "The C++ generator can write every type of an accepted bridge", "statement": "A bridge that passes all checks never makes the C++ generator panic on one of the types mentioned in it.", "quantifier": "every accepted bridge and every type mentioned in it", "why_tests_cant": "A panic needs a combination of type constructors that the checks let through; the combinations are unbounded.", "anchors": ["gen/src/write.rs: write_type, write_extern_arg, write_extern_return_type", "syntax/check.rs: check_type_fn"]}
{"id": "C62", "title": "Values crossing the boundary have exactly one owner", "statement": "When either language calls a function of the other, every argument passed by value and the result end up owned by exactly one side: the callee receives each argument and the caller the result, nothing is destroyed twice, lost or read before it was written, and an error is never mistaken for a value.", "quantifier": "every accepted bridge, every argument and return type, every outcome of the call", "why_tests_cant": "quantifies over all types and over both generators, which decide independently how each value is passed", "anchors": ["gen/src/write.rs: write_cxx_function_shim, write_rust_function_shim_impl", "macro/src/expand.rs: expand_cxx_function_shim, expand_rust_function_shim_impl", "src/result.rs: r#try"]}
{"id": "C63", "title": "Every standard-library name in generated C++ has its header included", "statement": "For every accepted bridge, each standard-library name that the generated C++ mentions is declared by a standard header that the same output includes, directly or through an explicitly included rust/cxx.h.", "quantifier": "every bridge, header and source output, with and without rust/cxx.h", "why_tests_cant": "which headers are needed depends on the combination of every type and signature in the bridge", "anchors": ["gen/src/write.rs: pick_includes_and_builtins", "gen/src/builtin.rs: write", "gen/src/include.rs: Includes", "include/cxx.h"]}
{"id": "C64", "title": "Derived Clone, Debug and marker traits of shared types behave like Rust's own derives", "statement": "Cloning a shared struct copies or clones every field in order, its Default sets every field to the default of its type, and its Debug text is the one of Rust's own derive, in both styles; the Debug text of a shared enum value is the name of its variant or, for a value that C++ made up, the type's name with the number; an enum always has the traits that its generated operators need.", "quantifier": "every shared struct and enum and every value, including enum values outside the declared variants", "why_tests_cant": "quantifies over all field lists, derive lists and all representable discriminants", "anchors": ["macro/src/derive.rs: expand_struct, expand_enum, struct_clone, struct_debug, struct_default, enum_debug"]}
{"id": "C65", "title": "Different bridge files get different generated files", "statement": "Two different Rust source files given to the build script never overwrite each other's generated C++ header or source.", "quantifier": "every pair of source paths and every package configuration", "why_tests_cant": "quantifies over all relative and absolute paths", "anchors": ["gen/build/src/lib.rs: generate_bridge", "gen/build/src/paths.rs: local_relative_path, with_extension", "gen/build/src/out.rs"]}
{"id": "C66", "title": "Header directories reach dependents, in order and once each", "statement": "The build script of a dependent learns exactly the header directories its direct dependencies export, in the order they were exported, whatever else the environment contains; its include path has its own directories first and every directory of a dependency once, re-exported exactly if the configuration selects such a dependency; configuration entries are reported as unused exactly if they select nothing.", "quantifier": "every set of dependencies, every order of the environment, every configuration", "why_tests_cant": "unbounded numbers of directories (numeric order against text order), arbitrary environments", "anchors": ["gen/build/src/deps.rs: direct_dependencies, Crate::print_to_cargo", "gen/build/src/lib.rs: make_this_crate"]}
{"id": "C67", "title": "A CxxString behaves as a byte string", "statement": "Under any sequence of len, is_empty, as_bytes, as_c_str, clear, reserve, push_bytes and push_str, a CxxString behaves as the sequence of bytes it was created with and modified by: lengths and contents are exact (bytes after an embedded NUL are kept, as_c_str stops at the first NUL), reserving never changes the content and makes room for that many more bytes, only reserve can panic and does so exactly when the sum overflows usize, and comparing two strings is the lexicographic order of their unsigned bytes.", "quantifier": "every initial content, every finite sequence of operations with any arguments, every growth policy of the standard library", "why_tests_cant": "the contents, operation sequences and the capacities a standard library may choose are unbounded", "anchors": ["src/cxx_string.rs: CxxString::len, is_empty, as_bytes, as_c_str, clear, reserve, push_str, push_bytes, Ord", "src/cxx.cc: cxxbridge1$cxx_string$init, data, length, clear, reserve_total, push"]}
{"id": "C68", "title": "Strings made from C++ data hold exactly the text given", "statement": "Constructing a rust::String or rust::Str from a std::string, a NUL-terminated string or a pointer with a length accepts exactly valid UTF-8 (valid UTF-16 for char16_t) and then holds exactly that text; anything else throws std::invalid_argument; the lossy functions accept every data and replace each maximal ill-formed part by U+FFFD; a null pointer of length 0 is the empty text; no such call reads beyond the data or hands Rust a null or misaligned pointer; with assertions on, misuse aborts before anything is read.", "quantifier": "every content of memory, every pointer and length, both byte orders, assertions on or off", "why_tests_cant": "contents of memory and texts are unbounded; the interesting cases are every kind of ill-formed sequence at every position", "anchors": ["src/cxx.cc: initString, String::String, String::lossy, initStr, Str::Str", "src/symbols/rust_string.rs: string_from_utf8, string_from_utf8_lossy, string_from_utf16, string_from_utf16_lossy", "src/symbols/rust_str.rs: str_from"]}
{"id": "C69", "title": "A rust::String is always valid UTF-8", "statement": "Whatever sequence of operations a C++ program performs on its rust::Strings, the text of each of them is valid UTF-8, which is what Rust code given a reference to it relies on.", "quantifier": "every finite program over the operations of rust::String", "why_tests_cant": "an invariant over all histories of operations", "anchors": ["src/cxx.cc: String", "include/cxx.h: String::begin, String::end", "src/symbols/rust_string.rs"]}
{"id": "C70", "title": "A type in the bridge is understood as Rust understands it", "statement": "Every type written in a bridge that is accepted is carried into the generated Rust code as the type that was written (same references, mutability, pinning, lifetimes, pointers, arrays, containers, function signatures), and exactly the documented forms of types are accepted.", "quantifier": "every type expression, of any nesting", "why_tests_cant": "type expressions nest without bound", "anchors": ["syntax/parse.rs: parse_type, parse_type_reference, parse_type_ptr, parse_type_path, parse_type_array, parse_type_fn, parse_return_type", "syntax/tokens.rs"]}
{"id": "C71", "title": "Attributes take effect or are rejected", "statement": "In every place where the bridge reads attributes, each of them is one of the documented attributes, possible in that place, and takes effect as documented (documentation and derives add up, all conditions have to hold, lints reach the expansion in order), or the bridge is rejected.", "quantifier": "every list of attributes, in every place of a bridge", "why_tests_cant": "attribute lists, their order and their arguments are unbounded", "anchors": ["syntax/attrs.rs: parse, parse_doc_attribute, parse_derive_attribute, parse_repr_attribute, parse_cxx_name_attribute, parse_rust_name_attribute, parse_cfg_attribute", "syntax/namespace.rs", "syntax/qualified.rs", "syntax/names.rs"]}
{"id": "C72", "title": "Names and namespaces of declarations", "statement": "In an accepted bridge every struct, enum, extern type, alias and function has as C++ namespace the innermost one that is given for it (on itself, on its extern block, on the bridge), and as names those given by cxx_name and rust_name, or else its identifier; fields are named likewise, outside of namespaces; every such name is a name in C++.", "quantifier": "every bridge module, every combination of attributes on the bridge, the blocks and the items", "why_tests_cant": "combinations of attributes at three levels over unbounded item lists", "anchors": ["syntax/parse.rs: parse_items, parse_struct, parse_enum, parse_foreign_mod, parse_extern_type, parse_extern_fn, parse_type_alias, pair", "syntax/names.rs", "syntax/namespace.rs", "syntax/qualified.rs"]}
{"id": "C73", "title": "A bridge declares what its source says", "statement": "For every bridge module, parsing reports no error exactly if every item in it is of a documented form with documented attributes; the result then has exactly the written declarations in order, each with the written lifetimes, derives, fields, variants with their values, receivers, arguments, return types, safety, conditions, documentation and lints; nothing in the source is dropped; and parsing never panics.", "quantifier": "every syntax tree of a bridge module", "why_tests_cant": "syntax trees are unbounded; every construct can occur in every place", "anchors": ["syntax/parse.rs: parse_items, parse_struct, parse_enum, parse_variant, parse_foreign_mod, parse_lang, parse_extern_type, parse_extern_fn, parse_extern_verbatim, parse_extern_verbatim_type, extern_type_lifetimes, parse_type_alias, parse_extern_type_bounded, parse_impl, parse_include", "syntax/file.rs"]}
{"id": "C74", "title": "Every bridge of a file is found", "statement": "Of a source file, the C++ generator reads every module marked #[cxx::bridge], in modules at any depth, in the order of the source, each with its attributes, the namespace given in the attribute and all of its items; if one of them cannot be read (not a module, no body, malformed namespace), or a bridge is inside of a bridge that is enabled, the file is rejected. No bridge that the compiler expands is passed over.", "quantifier": "every source file: items and modules nested to any depth, any attributes", "why_tests_cant": "files and their nesting are unbounded", "anchors": ["gen/src/file.rs: File::parse, parse, parse_args", "syntax/file.rs: Module::parse, Item::parse", "syntax/namespace.rs: parse_bridge_attr_namespace"]}
{"id": "C75", "title": "Generator and macro read the same bridge", "statement": "What the C++ generator works on are exactly the declarations that the macro reads in the bridges of the file that are switched on, in order, less those that are switched off by their own conditions; this for every configuration compatible with what the generator was told, whatever attributes the compiler leaves on the module. A file that the generator accepts, the macro accepts as well, and conversely.", "quantifier": "every file, every configuration, every order of hash tables", "why_tests_cant": "two programs over all source files and configurations", "anchors": ["gen/src/mod.rs: generate", "gen/src/file.rs", "macro/src/lib.rs: bridge", "macro/src/expand.rs: bridge", "syntax/attrs.rs: parse", "syntax/cfg.rs"]}
{"id": "C76", "title": "A file and its expansions link", "statement": "For every file accepted by the generator whose bridges are accepted by the macro: the symbols that the expansions of all of its bridges refer to in C++ are exactly those that the generated C++ defines, and the symbols that the C++ declares and calls are exactly those that the expansions export.", "quantifier": "every source file with any number of bridges, every order of hash tables", "why_tests_cant": "relates the outputs of two programs, one of which sees the bridges one by one, for all files", "anchors": ["gen/src/mod.rs: generate", "gen/src/write.rs", "macro/src/expand.rs", "syntax/mangle.rs", "syntax/types.rs"]}
{"id": "C77", "title": "Includes relative to the generated file", "statement": "In builds by cargo an accepted file has no include! whose path begins with the component . or .., and a file is rejected for its includes only if it has one.", "quantifier": "every source file, every include path", "why_tests_cant": "paths are unbounded strings", "anchors": ["gen/src/check.rs: precheck, check_dot_includes", "gen/build/src/lib.rs: allow_dot_includes"]}
{"id": "C78", "title": "Documentation comments stay comments", "statement": "Documentation of a bridge item that is copied into the generated C++ never changes what the C++ compiler sees: after joining continued lines and removing comments, only blanks remain of it, whatever text follows. Every line of the documentation is copied, in order and unchanged.", "quantifier": "every documentation text, every indentation, every text that follows, with and without doxygen", "why_tests_cant": "documentation is arbitrary text; whether it breaks the C++ depends on characters at the ends of its lines", "anchors": ["syntax/doc.rs: Doc::to_string", "gen/src/write.rs: write_doc"]}
{"id": "C79", "title": "Errors point at the source that caused them", "statement": "For every source file and every piece of it that the parser or a check complains about, the range shown is exactly that piece of the file, byte for byte, whatever characters precede it and whether or not the file starts with a shebang line; computing it never panics. All errors are shown, in the order of the file. The file is read as rustc reads it.", "quantifier": "every source file (any Unicode text), every pair of positions in it, every list of errors", "why_tests_cant": "line and column arithmetic over arbitrary multi-byte text", "anchors": ["gen/src/error.rs: display_syn_error, sort_syn_errors", "gen/src/mod.rs: generate_from_string"]}
{"id": "C80", "title": "Enums have the same values in C++", "statement": "For every accepted enum, each C++ enumerator is well-formed and has the value of the Rust variant; and the assertions about an enum that is defined in C++ hold exactly if it has the declared size and each enumerator the same bytes as the Rust variant.", "quantifier": "every accepted enum, every C++ enum it could be declared for", "why_tests_cant": "all values of eight integer types and all C++ definitions", "anchors": ["gen/src/write.rs: write_enum, check_enum", "syntax/discriminant.rs: Discriminant Display"]}
{"id": "C81", "title": "The C++ type written for a Rust type is the documented one", "statement": "For every type in an accepted bridge whose C++ names are identifiers, the text that the generated C++ contains for it is a well-formed C++ type, read in exactly one way, and it is the documented counterpart: const for shared references, pointers and slices, in the right place through any nesting; namespaces and renamed types resolved from the global namespace; array lengths kept; no templates over references.", "quantifier": "every accepted bridge, every type mentioned in it at any depth, including function pointers", "why_tests_cant": "unbounded nesting of types, where one missing space, const or leading colon changes how C++ tokenises or binds the text", "anchors": ["gen/src/write.rs: write_type, write_atom, write_space_after_type", "gen/src/names.rs: to_fully_qualified"]}
{"id": "C82", "title": "Writing a generated file survives failures, crashes and reruns", "statement": "Writing a file from a build script reports success only if the file can then be read with exactly that content, whichever system calls fail on the way; it leaves a file that already has the content untouched; at every moment, and so at every crash, nothing differs except the file itself, new directories above it and new files (old contents are never modified in place); after any crash or failure at any point a rerun succeeds; links lead to what they are made for.", "quantifier": "every file system, every path below real directories, every content, every sequence of failures, every point of a crash", "why_tests_cant": "all file systems, failure sequences and crash points", "anchors": ["gen/build/src/out.rs: write, absolute_symlink_file, relative_symlink_file, best_effort_remove", "gen/src/fs.rs"]}
{"id": "C83", "title": "Build scripts that run at the same time", "statement": "Any number of build scripts that write the same file, or make links at the same place, in any interleaving of their system calls all succeed, and in the end the file has the content (the link is one of theirs); nothing else is touched at any moment; once one of them has succeeded, the file stays.", "quantifier": "every number of processes, every interleaving, every initial file system", "why_tests_cant": "all interleavings of any number of processes", "anchors": ["gen/build/src/out.rs", "gen/build/src/lib.rs: make_include_dir, generate_bridge"]}
{"id": "C84", "title": "The generated Rust functions type check", "statement": "For every function and every callback of an accepted bridge, the Rust function that is generated for it is well typed by the rules of Rust: every name is bound, every call passes the number and types of arguments of the declaration, every conversion is applied to the type it is for, the body has the declared result type. Exactly the following are the exceptions: pinned references to String and Vec, references to Vec<&str>, Vec<&str> by value (except as an argument of a C++ function), and unsafe Rust functions that need no conversion at all.", "quantifier": "every accepted bridge, every function, receiver, argument, result and callback in it", "why_tests_cant": "unbounded combinations of argument and result types, receivers, fallibility and passing by pointer; a mismatch shows only when a user compiles their own bridge", "anchors": ["macro/src/expand.rs: expand_cxx_function_decl, expand_cxx_function_shim, expand_function_pointer_trampoline, expand_rust_function_shim_impl, expand_rust_function_shim_super, expand_extern_type"]}
{"id": "C85", "title": "The generated C++ functions are well typed", "statement": "For every function and every callback of an accepted bridge, the C++ function that is generated for it is well typed by the rules of C++, given the user's function with the documented signature: every name is declared once and before its use, every parameter is initialised by a value of its type (copied only if it is plain data, otherwise moved), the body returns the declared type; functions callable from C++ have the documented signature and are noexcept exactly if they are not fallible. The only exceptions are a fallible Rust function with an argument named error that is passed by address, and a fallible C++ function whose Rust name is throw.", "quantifier": "every accepted bridge, every function, receiver, argument, result and callback in it", "why_tests_cant": "unbounded combinations of argument and result types, names, receivers, fallibility and passing by pointer; a mismatch shows only when a user compiles their own bridge", "anchors": ["gen/src/write.rs: write_cxx_function_shim, write_rust_function_shim_decl, write_rust_function_shim_impl, write_function_pointer_trampoline"]}
{"id": "C86", "title": "A call through the bridge is a call of the user's function", "statement": "Calling a function of the bridge from the other language performs exactly one call of the function that the user wrote, on the same receiver and with the same values as arguments, in order; the caller gets back exactly what it returned. An error of a fallible Rust function arrives as an exception with that error, an exception of a fallible C++ function as an Err with it; a panic, an exception out of an infallible function and an exception that is not a std::exception end the program. The same holds for a function pointer that Rust has passed to C++.", "quantifier": "every accepted bridge, every function and callback in it, all argument values, everything the user's functions may reply depending on all earlier calls", "why_tests_cant": "the values pass through two generated functions, memory slots and conversions that differ for each type and position; all combinations and all behaviours of the user's code", "anchors": ["gen/src/write.rs: write_cxx_function_shim, write_rust_function_shim_impl, write_function_pointer_trampoline", "macro/src/expand.rs: expand_cxx_function_shim, expand_rust_function_shim_impl, expand_rust_function_shim_super, expand_function_pointer_trampoline", "src/result.rs", "src/unwind.rs: prevent_unwind", "include/cxx.h: rust::Fn"]}
{"id": "C87", "title": "Every declaration of the generated C++ file finds what it refers to", "statement": "In the generated C++ source file and header, read from top to bottom after preprocessing: each type named has been declared, each object, by-value parameter and data member has a complete type, each member function defined outside its class has been declared in that class with the same constness, result, parameters and exception specification and is defined in the namespace of the class, each function called has been declared in the same or an enclosing namespace, and the address taken of a user's function is that of the function or member the bridge declares. What is not provided by an earlier declaration is a type or function of the bridge's extern C++ blocks, for the user's headers to provide. Given sufficient recursion budget both files are produced.", "quantifier": "all accepted bridges (items in any order, number, namespaces and combinations), both output files", "why_tests_cant": "The order of declarations results from the namespaces, the containment of structs, and the interplay of six passes over the items; a missing or late declaration shows only for some combinations of items.", "anchors": ["gen/src/write.rs: gen, write_forward_declarations, write_data_structures, write_functions, write_generic_instantiations, write_struct, write_opaque_type, write_cxx_function_shim, write_rust_function_shim"]}
{"id": "C88", "title": "The members of generated C++ classes and the names in the header can be told apart", "statement": "In the class generated for a shared struct or an opaque Rust type no two members clash (same name, except for overloads that differ in parameters or const), none but a field has the name of the class, and operators name their own class; the enumerators of a shared enum are distinct; in the generated header every qualified name has one meaning: a type is defined once and is not also a function or a namespace, and functions of one name differ in their parameters.", "quantifier": "all accepted bridges: any number of structs, enums, types, methods and functions with any C++ names, namespaces and signatures", "why_tests_cant": "names come from the user, from cxx_name and namespace attributes and from cxx itself; a clash needs a particular combination of items, and shows only as a C++ compile error", "anchors": ["gen/src/write.rs: write_struct, write_opaque_type, write_enum, write_forward_declarations, write_functions, write_struct_operator_decls", "syntax/check.rs: check", "syntax/types.rs: Types::collect"]}
{"id": "C89", "title": "What the macro generates defines each name once and implements no trait twice", "statement": "The macro's expansion of an accepted bridge never reaches unreachable!(); in the generated module, in the hidden block and in its submodule no type or value name is defined twice, no struct has two fields of one name, no type has two associated items of one name, no trait is implemented twice for a type, and a type named in the hidden block is the type of the bridge and not something the macro has put there.", "quantifier": "all accepted bridges: any number of items with any names, derives, receivers and explicit impls; any environment (which names are aliases of one type, which Rust types are tuple structs)", "why_tests_cant": "names come from the user, from rust_name attributes and from the macro itself; a clash needs a particular combination of items, and shows only as a confusing compile error in generated code", "anchors": ["macro/src/expand.rs: expand, expand_struct, expand_struct_operators, expand_enum, expand_cxx_type, expand_cxx_function_shim, expand_rust_function_shim, expand_forbid, expand_rust_box, expand_rust_vec, expand_unique_ptr", "macro/src/derive.rs: expand_struct, expand_enum", "syntax/ident.rs: check_all", "syntax/types.rs: Types::collect"]}
{"id": "C90", "title": "Lifetimes of the generated Rust functions are those of the bridge", "statement": "For a bridge function whose signature has a meaning under Rust's rules (lifetimes in scope, the right number of lifetime arguments, elided lifetimes in the result with a source), every Rust function generated for it (the one the user calls, the extern declaration, the exported function and the function inside it, trampolines of function pointers) and every generated implementation is accepted by the same rules, and each lifetime in a result stands for the same lifetime as in the bridge; none is ever attached to another parameter.", "quantifier": "all accepted bridges, all functions and function pointers in them with any types, receivers, lifetime parameters and elisions", "why_tests_cant": "elision depends on the number and kind of all parameters; a generated function differs from the declared one in the receiver, in pointers and in types that lose their lifetime; a wrong lifetime would be unsound only in a particular use", "anchors": ["macro/src/expand.rs: expand_cxx_function_decl, expand_cxx_function_shim, expand_function_pointer_trampoline, expand_rust_function_shim_impl, expand_rust_function_shim_super, expand_extern_type", "macro/src/generics.rs: split_for_impl", "macro/src/tokens.rs", "syntax/tokens.rs"]}
{"id": "C91", "title": "What Rust moves can be moved bytewise in C++", "statement": "If the generated C++ and Rust compile, then no object of a C++ type that Rust holds by value, in a Box, Vec, slice or array, or behind an unpinned mutable reference, or that it may create or take out of a smart pointer or vector, is of a type whose objects cannot be moved by copying their bytes (trivial move constructor and destructor, or the user's promise); conversely, a type that is used only behind pointers is not refused.", "quantifier": "all accepted bridges, all C++ types named in them by type aliases and whatever C++ knows of these types", "why_tests_cant": "a type is used in many places directly and inside other types; a missed place makes Rust move an object with a self-reference, which shows only as memory corruption", "anchors": ["gen/src/write.rs: check_trivial_extern_type, write", "include/cxx.h: rust::IsRelocatable", "gen/src/builtin.rs: IsRelocatableOrArray", "macro/src/expand.rs: expand_type_alias_verify", "syntax/trivial.rs: required_trivial_reasons"]}
{"id": "C92", "title": "The command line tool writes to each output what was asked for", "statement": "When cxxbridge exits with success, each file named by -o holds the text it is meant to hold (the runtime header if there is no input, the generated header if --header is given or the name ends in .h, .hh or .hpp, else the generated source), standard output has got its texts in order, and no other file has changed; the text is the same as in a run with this output only. If the input cannot be read or is refused, nothing is written; if a file cannot be written, only the outputs before it have been.", "quantifier": "all command lines (any number and order of outputs, includes and cfg flags), all inputs, all failures of the file system and of standard output", "why_tests_cant": "combinations of outputs and failures at any point", "anchors": ["gen/cmd/src/main.rs: try_main", "gen/cmd/src/app.rs: from_args", "gen/cmd/src/output.rs", "gen/src/mod.rs: generate_from_path, generate"]}
{"id": "C93", "title": "A build leaves behind what the compiler is told to include", "statement": "After cxx_build::bridges has succeeded, the compiler searching the include path finds for every bridge source file the header generated from it, under the include prefix followed by the path of the source with .h appended and also under the path of the source itself; rust/cxx.h is the header of the library (or the one announced by the cxx crate); the files handed to the compiler are the generated implementations; the crate's own headers are found under the include prefix unless a generated file has that name; nothing but these outputs is touched; and a build that is killed at any moment can be repeated with the right result.", "quantifier": "every project directory, include prefix, list of bridge sources with whatever is generated from them, every initial state of the file system in which the outputs can be placed (including left-overs of earlier builds), every partial write, every moment at which the build is killed", "why_tests_cant": "the result depends on the state of the output directory, on how source paths, prefixes and directories relate, on relative links resolved through other directories, and on the order of a long sequence of system calls any of which may be the last", "anchors": ["gen/build/src/lib.rs: build, make_this_crate, make_crate_dir, make_include_dir, generate_bridge", "gen/build/src/out.rs: write, relative_symlink_file, relative_symlink_dir, absolute_symlink_file"]}
{"id": "C94", "title": "The shared directory is in the target directory that Cargo uses", "statement": "Without CARGO_TARGET_DIR, the directory in which generated code is shared is in the nearest directory above OUT_DIR that carries a mark of Cargo (.rustc_info.json, CACHEDIR.TAG, or the name target next to a Cargo.toml), searched first as OUT_DIR is spelled and then from its real location; an absolute CARGO_TARGET_DIR decides alone; finding it changes nothing; and it is separate from the output directory.", "quantifier": "every OUT_DIR, every file system with any links and any set of marked directories", "why_tests_cant": "the search walks over arbitrarily many directories of an arbitrary file system, twice", "anchors": ["gen/build/src/target.rs: find_target_dir", "gen/build/src/lib.rs: Project::init"]}
{"id": "C95", "title": "Settings of a build script take effect for what follows", "statement": "A build script that reads a field of cxx_build::CFG sees the settings as all changes completed before left them (initially the name of the package as include prefix); a handle keeps showing what it showed when first read, or its own changes; the settings become those of a changed handle when it is dropped, as they are, and no change is lost; no reference into the settings is used after the memory has been freed.", "quantifier": "every history of making, reading, changing, formatting, moving, forgetting and dropping handles on any number of threads at any addresses, with any changes and any texts", "why_tests_cant": "handles are told apart by their addresses, which are reused; what is read depends on the order in which handles on several threads are made, changed and dropped", "anchors": ["gen/build/src/cfg.rs: Cfg, CFG, deref, deref_mut, drop, current", "gen/build/src/intern.rs: intern", "gen/build/src/vec.rs: intern"]}
{"id": "C96", "title": "Smart pointers are safe across threads, and no stricter than needed", "statement": "A UniquePtr may be sent or shared between threads exactly if its target may be, a SharedPtr or WeakPtr exactly if its target is both Send and Sync; opaque C++ types are neither unless their author says so, a CxxVector is what its elements are. With these rules, in every schedule of threads that create, clone, downgrade, upgrade, move, lend, use and drop pointers, no two threads can make conflicting accesses to one object, an object that is not Send is changed and destroyed only on its own thread, nothing is used after its destruction, and an object lives exactly as long as an owning pointer exists. No set of rules that accepts more programs has this property.", "quantifier": "every schedule of every number of threads, pointers, loans and objects of all types; every other choice of bounds", "why_tests_cant": "races depend on the interleaving, and that the bounds suffice is a statement about all programs that rustc accepts; tests can only try some", "anchors": ["src/unique_ptr.rs: Send and Sync for UniquePtr", "src/shared_ptr.rs: Send and Sync for SharedPtr, clone, downgrade", "src/weak_ptr.rs: Send and Sync for WeakPtr, upgrade", "src/opaque.rs: Opaque", "src/cxx_vector.rs: CxxVector", "macro/src/expand.rs: expand_cxx_type"]}
{"id": "C97", "title": "Switching functions off does not break linking", "statement": "If functions of a bridge are switched off by cfg attributes, in the same configuration for the macro's output and for the generator, then every symbol that the remaining Rust code refers to is defined by the generated C++, and every symbol that C++ declares or calls is exported by the remaining Rust code.", "quantifier": "every accepted bridge, every configuration, every order of hash tables", "why_tests_cant": "the macro expands the whole bridge and leaves the choice to rustc while the generator drops the items first; whether both agree depends on which of the other items mention the same types", "anchors": ["macro/src/expand.rs: expand, expand_cxx_function_shim, expand_unique_ptr", "syntax/types.rs: Types::collect, impls", "syntax/cfg.rs", "gen/src/cfg.rs: strip", "gen/src/write.rs: write_generic_instantiations"]}
{"id": "C98", "title": "Variants taken from a header are those of the C++ enum", "statement": "For an enum with #![variants_from_header], the macro either reports an error or gives it exactly the enumerators, the values and the underlying type of the one C++ enum that has its qualified name in the headers, under distinct Rust names; it reports no error if that definition exists, states one of the supported underlying types, and has names and values that Rust can hold. It never panics.", "quantifier": "every syntax tree that clang dumps for the headers (any nesting of namespaces, classes and linkage blocks, any number of declarations), every list of enums in a bridge", "why_tests_cant": "the tree, its namespaces and the order of declarations are arbitrary; what is found for one enum depends on everything that stands before it in all included headers", "anchors": ["macro/src/load.rs: load, traverse, translate_qual_type, discriminant_value", "macro/src/clang.rs: Clang, EnumDecl, EnumConstantDecl", "syntax/discriminant.rs: FromStr, checked_succ"]}
{"id": "C99", "title": "Smart pointers stand for what they point to", "statement": "UniquePtr and SharedPtr compare, order and print as their targets do; a null pointer equals only null pointers, comes before everything else and prints as nullptr. Whenever the comparison, ordering and hashing of the target obey the laws that Rust's traits demand, so do those of the pointers. Any sequence of reads, writes and seeks through a UniquePtr has the effects and results that it has on the target; on a null pointer each panics.", "quantifier": "every type of target with any implementations of the traits, every heap, every pair of pointers, every hasher and formatter, every adaptive sequence of calls of the I/O traits", "why_tests_cant": "the targets' own implementations are arbitrary user code with state; the laws quantify over all values", "anchors": ["src/unique_ptr.rs: Debug, Display, PartialEq, PartialOrd, Ord, Hash, Read, Seek, Write for UniquePtr", "src/shared_ptr.rs: the same for SharedPtr"]}
{"id": "C100", "title": "Headers of a crate are found also where links cannot be made", "statement": "If a build script cannot make symbolic links (not on Unix), the include path has a directory in which, below the include prefix, exactly the header files of the package are found under their names relative to the package and with their present content: those called .h, .hh or .hpp, at most six directories deep, not in hidden directories nor in directories of other packages or caches. Nothing of an earlier copy is left, the copy does not copy itself, and whatever fails, nothing outside of this directory changes. Every file of the package that can be included where there are links can be included from the copy.", "quantifier": "all contents of the file system (with earlier copies, links and files in the way), all orders in which directories are listed, all places of the output directory inside or outside of the package, all failures of system calls", "why_tests_cant": "the result depends on arbitrary directory trees, on what earlier runs left behind and on where system calls fail", "anchors": ["gen/build/src/lib.rs: make_crate_dir, best_effort_copy_headers", "gen/build/src/out.rs: write, best_effort_remove, relative_symlink_dir"]}
{"id": "C101", "title": "Headers named in a bridge are the headers included", "statement": "A generated file, header or source, includes exactly the headers that the bridge names with include!, in order and in the quotes or brackets they were written in, then those given as options, then standard headers; each as a line of its own that C++ reads as that header, whatever characters the path has. A path cannot inject further lines. A standard header that the generated code asks for is missing only if rust/cxx.h, which includes it, is among the others.", "quantifier": "every list of include! items between other items, every path (any sequence of Unicode characters), every set of standard headers asked for, everything written further down", "why_tests_cant": "paths are arbitrary strings, written by rules of Rust and read by rules of C++ that have no escapes", "anchors": ["gen/src/include.rs: write, Includes::has_cxx_header, Includes::insert", "gen/src/write.rs: gen, pick_includes_and_builtins", "syntax/parse.rs: parse_include", "include/cxx.h"]}
{"id": "C102", "title": "C++ objects that must stay in place cannot be moved by safe Rust", "statement": "For every accepted bridge that compiles: a C++ object whose type is neither declared Trivial nor Unpin (an opaque C++ type, std::string, std::vector of anything, an array of such) is never available to safe Rust by value or behind a mutable reference that is not pinned, however arguments, results, receivers, callbacks, struct fields, smart pointers, vectors, boxes and slices are combined. Trivial or Unpin types can be taken out of vectors and borrowed mutably.", "quantifier": "all bridges, all assignments of Unpin and Kind to the type names that satisfy the assertions in the expansion, and all finite sequences of uses of the standard library, the library's safe API, and struct fields", "why_tests_cant": "Tests use a few of the types and functions; the property is about everything that can be reached by any combination of the safe functions on any types of any bridge.", "anchors": ["syntax/check.rs: check_type_ref, check_type_box, check_type_rust_vec, check_type_slice_ref, check_type_array, check_api_fn, is_opaque_cxx", "syntax/trivial.rs: required_trivial_reasons", "macro/src/expand.rs: expand_cxx_type_assert_pinned, expand_rust_type_assert_unpin, expand_type_alias_verify", "src/unique_ptr.rs", "src/shared_ptr.rs", "src/weak_ptr.rs", "src/cxx_vector.rs", "src/cxx_string.rs: CxxString", "src/opaque.rs: Opaque"]}
{"id": "C103", "title": "Shared structs have the same memory layout in both languages", "statement": "A shared struct has one memory layout: the Rust compiler and the C++ compiler give it the same size and alignment and put each field at the same offset, with the fields in their order, aligned, inside the struct and not overlapping; likewise every value that crosses the boundary (strings, vectors, slices, boxes, smart pointers, arrays, enums, callbacks, results) has the same size and alignment in both languages.", "quantifier": "all accepted bridges, all shared structs with any nesting of field types, all platforms that pass the compile-time assertions, and all layouts of the user's own types", "why_tests_cant": "The tests run on one platform and with the structs of one bridge; agreement is a statement about the layout rules of two languages for every nesting of types and every size of pointers and integers.", "anchors": ["macro/src/expand.rs: expand_struct, expand_enum", "gen/src/write.rs: write_struct, write_enum", "gen/src/builtin.rs: write", "include/cxx.h: String, Str, Slice, Box, Vec, Fn", "src/rust_string.rs, src/rust_vec.rs, src/rust_str.rs, src/rust_slice.rs, src/unique_ptr.rs, src/shared_ptr.rs, src/weak_ptr.rs, src/function.rs, src/result.rs"]}
{"id": "C104", "title": "Opaque Rust objects are made and destroyed by Rust only", "statement": "C++ code cannot bring an object of an opaque Rust type into being, whatever it initialises it with, nor destroy one; of the members of rust::Box, rust::Vec and rust::Slice for such a type, exactly those compile that leave making and destroying objects to Rust; no shared struct has such an object inside; an assignment between two such objects writes nothing.", "quantifier": "all accepted bridges, all opaque Rust types of them, all initialisers, all public members of the library's containers, all C++ standards from 11 to 20", "why_tests_cant": "The claim is that code does not compile, for every initialiser and every standard; tests only contain code that does compile, and in few standards.", "anchors": ["include/cxx.h: Opaque, Box, Vec, Slice", "gen/src/write.rs: write_opaque_type, write_rust_box_impl, write_rust_vec_impl", "syntax/check.rs: check_type_box, is_unsized"]}
{"id": "C105", "title": "Shared structs can be moved, and copied unless something in them has one owner", "statement": "Every shared struct can be moved and destroyed in C++, and moved into a rust::Box or rust::Vec. Copying it compiles exactly if no part of it, including the elements of vectors, is a box, a unique_ptr, an opaque Rust object or an object of a user's class that cannot be copied; assigning exactly if it holds no reference, mutable slice, box, unique_ptr or unassignable object. A copy is equal to the original, and original and copy free different memory, each piece once.", "quantifier": "all accepted bridges, all nestings of shared structs, arrays and vectors (also recursive through vectors), all classes of the user, all values and heaps", "why_tests_cant": "The type of a field can be any nesting of types, and values can be of any size; sharing of a buffer shows only when both objects are destroyed.", "anchors": ["gen/src/write.rs: write_struct, write_type", "include/cxx.h: String, Str, Slice, copy_assignable_if, Box, Vec, Fn", "src/cxx.cc: String::String"]}
{"id": "C106", "title": "Shared structs can be made in C++ with all fields defined", "statement": "In every standard a shared struct is an aggregate: it is made from one initialiser for each field, in order, in braces; more are rejected, and those at the end may be left out unless they hold a box or a reference. It can be made without initialiser exactly if it holds no box, no reference and no object of a user's class without default constructor. A struct that is made without initialiser has no undefined field.", "quantifier": "all accepted bridges, all shared structs with any nesting of fields, all lists of initialisers, all C++ standards from 11 to 20", "why_tests_cant": "An undefined field usually holds zero in a test; whether a class is an aggregate depends on the standard and on all of its fields.", "anchors": ["gen/src/write.rs: write_struct, write_macros", "syntax/primitive.rs: kind", "include/cxx.h: String, Str, Slice, Box, Vec"]}
{"id": "C107", "title": "Generated files can be used together", "statement": "Any number of generated headers and source files can be read by one translation unit, in any order and beside rust/cxx.h: no class or enumeration is then defined twice, and no declaration is lost. A generated header can be read by any number of translation units of one program: what may be defined only once in a program is defined only by source files, each thing by one of them.", "quantifier": "all accepted bridges, all lists of their generated headers and source files in any order, all sets of macros that the supporting code may have defined before", "why_tests_cant": "Tests read one or two headers of bridges with different names; a name that is lost to another definition, or a definition that slips into a header, shows only in combinations that no test builds.", "anchors": ["gen/src/write.rs: gen, write_struct, write_opaque_type, write_enum, write_functions, write_generic_instantiations", "gen/src/ifndef.rs: write", "include/cxx.h"]}
{"id": "C108", "title": "All errors of a file are reported, and nothing is generated for it", "statement": "If there is a mistake in some bridge of a file, the C++ generator writes no code and reports at least one error. Every mistake that can be seen in one place (an attribute, a condition, an item) is reported, whichever bridge it is in and whatever other mistakes there are, in the order of the bridges; without such mistakes all errors about names and includes are reported, and without those all errors about the use of types. The macro does the same for each bridge, reporting errors about names together with those seen in one place. Nothing is reported that is not a mistake, and the hint shown with an error is the one that belongs to it.", "quantifier": "all files with any number of bridges, all conditions and what is known about them, all messages", "why_tests_cant": "A test looks at the message of one mistake; that two mistakes in different bridges or of different kinds do not hide each other, and that none is dropped on the way, is about all combinations.", "anchors": ["syntax/report.rs: Errors::propagate", "gen/src/mod.rs: generate", "macro/src/expand.rs: bridge", "gen/src/error.rs: diagnose", "syntax/error.rs: ERRORS"]}
