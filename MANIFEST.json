{
 "claims": [
  {
   "property": "C01",
   "status": "proved",
   "theorems": [
    "C01_discriminants_as_written"
   ],
   "note": ""
  },
  {
   "property": "C02",
   "status": "proved",
   "theorems": [
    "C02_repr_first_fit",
    "C02_negative_zero_refuted"
   ],
   "note": "Exact characterisation for all enums without a literal negative zero; the refuted theorem documents the -0 deviation (covered by C03)."
  },
  {
   "property": "C03",
   "status": "partial",
   "theorems": [
    "C03_no_panic_refuted",
    "C03_no_panic_partial"
   ],
   "note": "False as stated: `A = -0, B` computes 0u64 - 1. Proved for all enums without a negative zero literal."
  },
  {
   "property": "C04",
   "status": "partial",
   "theorems": [
    "C04_definition_order_refuted",
    "C04_accepted_refuted",
    "C04_definition_order_partial",
    "C04_array_free_partial"
   ],
   "note": "False as stated: containment through an array field is not followed, so `struct A { f: [B; 2] } struct B { f: i32 }` defines A first. Proved for containment through direct fields, all graphs."
  },
  {
   "property": "C05",
   "status": "partial",
   "theorems": [
    "C05_cycles_refuted",
    "C05_C07_accepted_refuted",
    "C05_cycles_partial"
   ],
   "note": "False as stated: `struct A { f: [A; 1] }` is a cycle that is not reported. Exact (iff) for cycles through direct fields, and for array-free bridges."
  },
  {
   "property": "C06",
   "status": "proved",
   "theorems": [
    "C06_emitted_once"
   ],
   "note": ""
  },
  {
   "property": "C15",
   "status": "partial",
   "theorems": [
    "C15_equality_refuted",
    "C15_equality_partial",
    "C15_equivalence_partial",
    "C15_recorded_once_partial",
    "C15_recorded_once_refuted"
   ],
   "note": "False as stated: `PartialEq for Type` has no arm for Ptr and Array, so these types are not equal to themselves and are recorded once per mention. Symmetry, transitivity, Eq/Hash consistency proved for all types; reflexivity and recorded-once for types without raw pointers and arrays."
  },
  {
   "property": "C16",
   "status": "proved",
   "theorems": [
    "C16_ordered_set",
    "C16_ordered_map"
   ],
   "note": ""
  },
  {
   "property": "C07",
   "status": "partial",
   "theorems": [
    "C07_pod_refuted",
    "C05_C07_accepted_refuted",
    "C07_pod_partial",
    "C07_array_free_partial"
   ],
   "note": "False as stated: `struct A { f: [A; 1] }` passes collection and the analysis of A recurses forever. Proved (termination and exactness) for every bridge in which no struct contains itself, in particular all accepted array-free bridges."
  },
  {
   "property": "C08",
   "status": "proved",
   "theorems": [
    "C08_improper",
    "C08_runs_agree"
   ],
   "note": ""
  },
  {
   "property": "C09",
   "status": "partial",
   "theorems": [
    "C09_duplicates_refuted",
    "C09_accepted_refuted",
    "C09_duplicates_partial",
    "C09_no_alias_partial"
   ],
   "note": "False as stated: an alias followed by a shared type of the same name (and an extern C++ type or alias followed by a header-bound enum) is accepted. The exact accepted combinations are proved for all bridges."
  },
  {
   "property": "C17",
   "status": "proved",
   "theorems": [
    "C17_instantiations"
   ],
   "note": ""
  },
  {
   "property": "C18",
   "status": "proved",
   "theorems": [
    "C18_reasons"
   ],
   "note": "Exact set of recorded (type, reason) pairs for the listed positions."
  },
  {
   "property": "C19",
   "status": "partial",
   "theorems": [
    "C19_slices_refuted",
    "C19_by_value_partial"
   ],
   "note": "False as stated for slices: an alias may be named CxxString, after which &[CxxString] is accepted. Fields, arguments, return values, Vec and array elements proved for all accepted bridges; slices proved for bridges without such an alias."
  },
  {
   "property": "C20",
   "status": "partial",
   "theorems": [
    "C20_raw_pointers_refuted",
    "C20_raw_pointers_partial",
    "C20_untrusted_block"
   ],
   "note": "False as stated: raw pointers nested in a reference (`&*const u8`) are accepted in a safe function. Proved for raw pointers that are themselves arguments; the untrusted-block part is proved in full."
  },
  {
   "property": "C21",
   "status": "partial",
   "theorems": [
    "C21_mut_return_refuted",
    "C21_mut_return_partial",
    "C21_no_callbacks_partial"
   ],
   "note": "False as stated: a `&mut` that only occurs in the signature of a callback argument satisfies the check. Proved in full for functions without callback arguments."
  },
  {
   "property": "C22",
   "status": "proved",
   "theorems": [
    "C22_bare_self",
    "C22_unresolved_rejected"
   ],
   "note": ""
  },
  {
   "property": "C23",
   "status": "partial",
   "theorems": [
    "C23_reserved_identifiers",
    "C23_only_reserved",
    "C23_raw_refuted"
   ],
   "note": "Proved of the identifiers as they are written, r# included; exactly these are rejected. False of what a raw identifier stands for: r#cxxbridge1_f is accepted as a Rust name."
  },
  {
   "property": "C51",
   "status": "proved",
   "theorems": [
    "C51_names_resolve"
   ],
   "note": ""
  },
  {
   "property": "C52",
   "status": "partial",
   "theorems": [
    "C52_fn_pointer_refuted",
    "C52_fn_pointer_partial"
   ],
   "note": "False as stated: `fn f(cb: fn(C))` with C an opaque C++ type is accepted. The other restrictions (no Result, raw pointers need unsafe, positions) are proved."
  },
  {
   "property": "C53",
   "status": "partial",
   "theorems": [
    "C53_builtin_names_refuted",
    "C53_builtin_names_partial",
    "C53_raw_refuted"
   ],
   "note": "False as stated: `type i32 = path;` is accepted, and so is a struct named r#String next to uses of the built-in String. Proved for structs, enums and extern types, of their names as written."
  },
  {
   "property": "C56",
   "status": "proved",
   "theorems": [
    "C56_composites"
   ],
   "note": ""
  },
  {
   "property": "C57",
   "status": "proved",
   "theorems": [
    "C57_explicit_lifetimes"
   ],
   "note": ""
  },
  {
   "property": "C24",
   "status": "partial",
   "theorems": [
    "C24_conjunction",
    "C24_one_list",
    "C24_include_refuted",
    "C24_include_partial",
    "C24_nested_module_refuted",
    "C24_nested_module_partial"
   ],
   "note": "Proved for every item that reads its attributes (functions, types, structs, enums, fields, variants, bridge modules). False for `#[cfg(..)] include!(..)`, whose own attributes are ignored, and for a bridge inside a `#[cfg(..)] mod`, whose enclosing attributes are ignored by the C++ generator."
  },
  {
   "property": "C25",
   "status": "proved",
   "theorems": [
    "C25_sound",
    "C25_errors",
    "C25_reported_once"
   ],
   "note": "Errors are identified by message text, as the code does."
  },
  {
   "property": "C26",
   "status": "proved",
   "theorems": [
    "C26_strip",
    "C26_generate"
   ],
   "note": ""
  },
  {
   "property": "C27",
   "status": "partial",
   "theorems": [
    "C27_hyphen_refuted",
    "C27_case_refuted",
    "C27_features_exact",
    "C27_features_partial",
    "C27_bare_key_refuted",
    "C27_values_partial",
    "C27_bare_key_exact"
   ],
   "note": "False as stated: a feature with a hyphen always reads as off, features are compared ignoring case, and a bare key reads as set when rustc only has it with a value. Exact characterisations proved against the documented cargo environment."
  },
  {
   "property": "C28",
   "status": "proved",
   "theorems": [
    "C28_accepted",
    "C28_answers",
    "C28_order"
   ],
   "note": ""
  },
  {
   "property": "C58",
   "status": "partial",
   "theorems": [
    "C58_cfg_grammar",
    "C58_names_partial",
    "C58_raw_refuted"
   ],
   "note": "The grammar is proved in full: the parser accepts exactly the predicates and gives each its expression. That the expression means what it means to rustc is false of names written as raw identifiers: r#unix is unix to rustc and another name to the generator, which leaves such items out of the C++ code without an error. Proved for all attributes without raw names; exact for a single name."
  },
  {
   "property": "C10",
   "status": "partial",
   "theorems": [
    "C10_distinct_refuted",
    "C10_collision_exact",
    "C10_distinct_partial"
   ],
   "note": "False as stated: methods of the same name on a::Handle and b::Handle declared in one namespace share a link name. The collisions are characterised exactly, and absent those every two functions have different link names."
  },
  {
   "property": "C11",
   "status": "partial",
   "theorems": [
    "C11_decodable",
    "C11_unique_refuted",
    "C11_runtime_refuted",
    "C11_runtime_exact",
    "C11_namespaced_partial"
   ],
   "note": "False as stated: three kinds of pairs of entities share a link name, and a bridge can redefine a symbol of the runtime. Outside the listed pairs a link name determines its entity, and the clashes with the runtime are characterised exactly."
  },
  {
   "property": "C12",
   "status": "proved",
   "theorems": [
    "C12_symbols_agree"
   ],
   "note": ""
  },
  {
   "property": "C13",
   "status": "partial",
   "theorems": [
    "C13_nested_callback_refuted",
    "C13_vector_callback_refuted",
    "C13_aliased_primitive_refuted",
    "C13_same_abi_partial"
   ],
   "note": "False as stated: a callback taking a callback, a callback taking a C++ vector by value, or an alias named like a primitive give different ABIs. Proved for all accepted bridges without these in which no struct contains itself; covers functions in both directions and callback trampolines."
  },
  {
   "property": "C14",
   "status": "partial",
   "theorems": [
    "C14_cfg_field_refuted",
    "C14_cfg_partial"
   ],
   "note": "False as stated: a cfg attribute on a struct field makes the C++ generator and the macro disagree on whether the struct is passed directly. Proved when only whole items are conditional and no name is declared by both an enabled and a disabled item."
  },
  {
   "property": "C54",
   "status": "partial",
   "theorems": [
    "C54_bridges_refuted",
    "C54_bridges_partial"
   ],
   "note": "False as stated: an alias in one bridge of a struct shared by a later bridge of the file is passed directly by C++ and by pointer by Rust. Proved for bridges whose type names are not declared by another bridge."
  },
  {
   "property": "C60",
   "status": "partial",
   "theorems": [
    "C60_fields_partial",
    "C60_fields_refuted"
   ],
   "note": "False for a bridge with an alias named like a primitive; proved for all others."
  },
  {
   "property": "C61",
   "status": "partial",
   "theorems": [
    "C61_writable_refuted",
    "C61_writable_partial"
   ],
   "note": "False: a callback taking () reaches unreachable!(). Proved for bridges whose callbacks take no unit and no callback."
  },
  {
   "property": "C55",
   "status": "partial",
   "theorems": [
    "C55_wildcard_refuted",
    "C55_error_refuted",
    "C55_throw_refuted",
    "C55_callback_refuted",
    "C55_distinct_partial",
    "C55_callback_partial"
   ],
   "note": "False as stated: `fn f(_: i32, arg0: i32)`, a parameter called `error` of a fallible Rust function, a fallible C++ function called `throw`, and a callback parameter called `__extern` each declare a name twice. Proved for all functions that avoid these names."
  },
  {
   "property": "C59",
   "status": "partial",
   "theorems": [
    "C59_struct_refuted",
    "C59_variant_refuted",
    "C59_field_refuted",
    "C59_import_refuted",
    "C59_functions_partial"
   ],
   "note": "False as stated: code generated for a disabled struct, variant, field or Rust type is not itself disabled. Proved for bridges in which only functions and aliases are conditional."
  },
  {
   "property": "C62",
   "status": "proved",
   "theorems": [
    "C62_arguments",
    "C62_results",
    "C62_uncaught"
   ],
   "note": "For every type for which both generators reach a decision (always, when no struct contains itself: C07). Per-argument semantics; a C++ move leaves nothing to destroy."
  },
  {
   "property": "C29",
   "status": "proved",
   "theorems": [
    "C29_buffer",
    "C29_generated",
    "C29_builtin"
   ],
   "note": "the output buffer of gen/src/out.rs with namespaces and extern \"C\" blocks, for every sequence of operations; the pieces of write.rs that request namespaces, and builtin.rs."
  },
  {
   "property": "C30",
   "status": "proved",
   "theorems": [
    "C30_forward_declarations"
   ],
   "note": "nested.rs and write_forward_declarations; the depth of the recursion is the length of the longest namespace."
  },
  {
   "property": "C31",
   "status": "proved",
   "theorems": [
    "C31_texts",
    "C31_generated",
    "C31_written"
   ],
   "note": "Names of the supporting code used by each writer function (Uses_Model), against the tokenised text of the parts of builtin.rs and cxx.h. C31_written: the names that the types, methods, functions and instantiations of a bridge bring with them are all among the names that C31_generated resolves."
  },
  {
   "property": "C63",
   "status": "partial",
   "theorems": [
    "C63_generated",
    "C63_supporting_code_refuted",
    "C63_supporting_code_partial"
   ],
   "note": "Holds for the code generated for the items. For the supporting code it is false: std::size_t in rust::String/rust::Str without <cstddef>, std::swap/std::declval in rust::Slice without <utility> (declared by other headers in practice); proved for everything else."
  },
  {
   "property": "C32",
   "status": "proved",
   "theorems": [
    "C32_operators",
    "C32_rust_operators",
    "C32_hash"
   ],
   "note": "The generated C++ operators and the extern functions they call, over an arbitrary semantics of the field types; a panic while comparing fields is not modelled."
  },
  {
   "property": "C33",
   "status": "proved",
   "theorems": [
    "C33_lexicographic",
    "C33_total_order",
    "C33_partial_order",
    "C33_enum"
   ],
   "note": ""
  },
  {
   "property": "C34",
   "status": "proved",
   "theorems": [
    "C34_type_id",
    "C34_alias",
    "C34_defined",
    "C34_parse"
   ],
   "note": ""
  },
  {
   "property": "C35",
   "status": "proved",
   "theorems": [
    "C35_contained",
    "C35_total",
    "C35_mirrors",
    "C35_prefix_refuted"
   ],
   "note": "Holds for the generated files whatever the source path; a parent directory component in the include prefix itself escapes (C35_prefix_refuted). Unix paths."
  },
  {
   "property": "C36",
   "status": "partial",
   "theorems": [
    "C36_resolves",
    "C36_relative_when_possible",
    "C36_canonical",
    "C36_no_panic_refuted",
    "C36_no_panic_partial",
    "C36_relative_original_refuted",
    "C36_empty_target_refuted"
   ],
   "note": "Relative links resolve to the original; a panic for a link at the root, an empty link target, and links made from relative originals are the exceptions. Unix paths, file system without symlinks in between."
  },
  {
   "property": "C64",
   "status": "partial",
   "theorems": [
    "C64_clone",
    "C64_default",
    "C64_struct_debug",
    "C64_raw_refuted",
    "C64_enum_debug",
    "C64_enum_debug_name",
    "C64_enum_traits"
   ],
   "note": "Debug of structs is that of Rust's own derive exactly if no name is a raw identifier: r#x is printed as r#x, where Rust prints x. Everything else is proved. Writing to a formatter does not fail in the model."
  },
  {
   "property": "C65",
   "status": "partial",
   "theorems": [
    "C65_distinct_refuted",
    "C65_distinct_partial"
   ],
   "note": "False: parent directory components that climb out of the build directory are dropped, so lib.rs and ../lib.rs get the same generated files; proved for source paths that stay below the build directory."
  },
  {
   "property": "C66",
   "status": "partial",
   "theorems": [
    "C66_roundtrip",
    "C66_include_path",
    "C66_unused_reported",
    "C66_only_unused_reported_partial",
    "C66_only_unused_reported_refuted"
   ],
   "note": "Everything except one direction for prefixes: a prefix that does select a dependency can be reported as unused if a links entry or an earlier prefix selects it too."
  },
  {
   "property": "C37",
   "status": "proved",
   "theorems": [
    "C37_owned_values",
    "C37_exactly_once"
   ],
   "note": "The C++ standard semantics of std::unique_ptr is part of the model."
  },
  {
   "property": "C38",
   "status": "proved",
   "theorems": [
    "C38_lifetime",
    "C38_spec_reading"
   ],
   "note": "The C++ standard semantics of std::shared_ptr and weak_ptr is part of the model; threads and count overflow are not."
  },
  {
   "property": "C39",
   "status": "proved",
   "theorems": [
    "C39_sequence",
    "C39_iteration"
   ],
   "note": "The C++ standard semantics of std::vector is part of the model."
  },
  {
   "property": "C40",
   "status": "partial",
   "theorems": [
    "C40_refuted",
    "C40_partial"
   ],
   "note": "False when the macro argument does not complete normally (or its as_ref panics): the destructor then runs on uninitialised memory. Proved for arguments that do complete."
  },
  {
   "property": "C67",
   "status": "proved",
   "theorems": [
    "C67_byte_string",
    "C67_reserve",
    "C67_order"
   ],
   "note": "A request above max_size aborts, as the C++ side is noexcept; the theorem says exactly when."
  },
  {
   "property": "C41",
   "status": "proved",
   "theorems": [
    "C41_spec_total",
    "C41_lossy",
    "C41_valid"
   ],
   "note": "core::str::from_utf8 is modelled by its algorithm in core."
  },
  {
   "property": "C42",
   "status": "proved",
   "theorems": [
    "C42_escape",
    "C42_faithful",
    "C42_injective"
   ],
   "note": "char::escape_debug of core is modelled; its table of printable characters is arbitrary."
  },
  {
   "property": "C43",
   "status": "partial",
   "theorems": [
    "C43_total_order",
    "C43_refuted",
    "C43_agrees_partial"
   ],
   "note": "With signed char the C++ order of rust::Str and rust::String differs from the order of str in Rust for non-ASCII texts; it is a total order in any case, and agrees when char is unsigned or the texts are ASCII."
  },
  {
   "property": "C48",
   "status": "proved",
   "theorems": [
    "C48_value_semantics",
    "C48_reserve"
   ],
   "note": "Growing always moves the buffer in the model; capacity overflow (abort) is not modelled. Moving a string onto itself leaves it empty."
  },
  {
   "property": "C49",
   "status": "proved",
   "theorems": [
    "C49_exactly_once"
   ],
   "note": "Moving a box onto itself destroys its object and leaves the box null; the theorem says so."
  },
  {
   "property": "C44",
   "status": "partial",
   "theorems": [
    "C44_refuted",
    "C44_self_append_refuted",
    "C44_sequence_partial",
    "C44_reserve",
    "C44_amortised"
   ],
   "note": "False in two cases, each proved: push_back of a reference to an element of the same vector when it is full reads freed memory, and copy assignment whose element copy throws destroys the old buffer twice. For every other history of operations the vector behaves like a sequence and each element is dropped once. The bound on moved elements is proved for every Vec::reserve that at least doubles the capacity. Zero-size elements and capacity overflow are not modelled."
  },
  {
   "property": "C45",
   "status": "partial",
   "theorems": [
    "C45_refuted",
    "C45_zero_size_refuted",
    "C45_iteration_partial",
    "C45_random_access_partial",
    "C45_index",
    "C45_empty"
   ],
   "note": "False for zero-size elements (opaque Rust types without fields): iteration visits nothing and the distance divides by zero. Proved for every element of positive size and every slice that fits in a 64-bit address space."
  },
  {
   "property": "C46",
   "status": "partial",
   "theorems": [
    "C46_refuted",
    "C46_moved_from_refuted",
    "C46_messages_partial",
    "C46_rust_to_cpp_partial",
    "C46_cpp_to_rust"
   ],
   "note": "False for texts with a zero byte inside (what() is a C string) and for a moved-from rust::Error thrown out of a C++ function (strlen of null). Proved otherwise for every history: what each side reads, and that each message buffer is freed exactly once by the allocator it came from. String::from_utf8_lossy is taken as documented (is_lossy)."
  },
  {
   "property": "C47",
   "status": "partial",
   "theorems": [
    "C47_refuted",
    "C47_no_crossing_partial",
    "C47_no_exception_partial",
    "C47_recent",
    "C47_panic_aborts",
    "C47_transparent",
    "C47_exceptions"
   ],
   "note": "False before Rust 1.81 (cxx supports 1.73): a capacity overflow in reserve panics out of an extern \"C\" function without guard. Proved without capacity overflow on every toolchain, and without any restriction from 1.81 on."
  },
  {
   "property": "C50",
   "status": "proved",
   "theorems": [
    "C50_available",
    "C50_no_redefinition",
    "C50_not_generated",
    "C50_16_bit_refuted"
   ],
   "note": "The tables of src/cxx.cc and of the Rust runtime are transcribed as lists of link names with signatures; the theorem ranges over every accepted bridge and every C++ platform with 32- or 64-bit pointers. On platforms with 16-bit pointers (where size_t is uint16_t) src/cxx.cc does not compile: C50_16_bit_refuted."
  },
  {
   "property": "C68",
   "status": "proved",
   "theorems": [
    "C68_string",
    "C68_str",
    "C68_lossy",
    "C68_utf16",
    "C68_lossy16",
    "C68_asserts"
   ],
   "note": "Over every memory; core::str::from_utf8 and char::decode_utf16 are modelled by their algorithms, String::from_utf8_lossy through from_utf8."
  },
  {
   "property": "C69",
   "status": "partial",
   "theorems": [
    "C69_utf8_partial",
    "C69_iterators_refuted"
   ],
   "note": "False: begin() and end() of a non-const rust::String are pointers to char, through which C++ can make it ill-formed. Proved for every program that does not write through them."
  },
  {
   "property": "C70",
   "status": "partial",
   "theorems": [
    "C70_same_type_partial",
    "C70_accepted",
    "C70_same_type_refuted"
   ],
   "note": "False for function pointers that are unsafe or have an ABI (dropped) and for Pin<Pin<&mut T>> (collapses). Proved for all other types; acceptance is characterised exactly."
  },
  {
   "property": "C71",
   "status": "partial",
   "theorems": [
    "C71_attributes_partial",
    "C71_one_meaning",
    "C71_no_effect_refuted"
   ],
   "note": "False: of two cxx_name, rust_name, namespace or repr attributes the first is dropped without an error. Proved: rejection exactly of what is not documented for the place, and the joint effect (last one wins). The tokenizer is a parameter."
  },
  {
   "property": "C72",
   "status": "partial",
   "theorems": [
    "C72_names_partial",
    "C72_fields",
    "C72_raw_refuted"
   ],
   "note": "False for raw identifiers: r#delete becomes the C++ name r#delete (and is rejected in a quoted namespace but not in an unquoted one). Everything else is proved for every accepted bridge."
  },
  {
   "property": "C73",
   "status": "partial",
   "theorems": [
    "C73_declared_partial",
    "C73_accepted",
    "C73_no_panic_partial",
    "C73_nothing_dropped_refuted"
   ],
   "note": "Dropped without an error: the where-clause of an extern type, unsafe on an impl, attributes of include! and of arguments. Proved: acceptance exactly of the documented forms, the result of parsing, and no panic unless a variant has the value -0 (C03). The result of parse_type and of the discriminants is characterised by C70, C01 and C02."
  },
  {
   "property": "C74",
   "status": "partial",
   "theorems": [
    "C74_found",
    "C74_readable",
    "C74_nested",
    "C74_imported_refuted"
   ],
   "note": "Proved for modules marked #[cxx::bridge]. False for a bridge attribute written in another way (#[bridge] after use cxx::bridge): the compiler expands it, the generator passes over it without an error."
  },
  {
   "property": "C75",
   "status": "partial",
   "theorems": [
    "C75_same_declarations",
    "C75_accepted_partial",
    "C75_generated_partial",
    "C75_several_refuted",
    "C75_static_refuted"
   ],
   "note": "The declarations agree, always. That the macro accepts what the generator accepts is false for several bridges (the generator resolves types across bridges) and proved for one bridge from which conditions take nothing away. Conversely the generator accepts one such bridge if the macro does, unless it has relative includes that are not allowed or a lifetime parameter 'static (which only rustc rejects after the expansion)."
  },
  {
   "property": "C76",
   "status": "partial",
   "theorems": [
    "C76_links_partial",
    "C76_links_refuted"
   ],
   "note": "False if two bridges of a file declare the same type name (an alias in one, a struct in the other). Proved from source file to symbols for any number of bridges with type names apart and no item switched off; that identifiers are identifiers (no dollar sign, no leading digit) is assumed of the source."
  },
  {
   "property": "C77",
   "status": "proved",
   "theorems": [
    "C77_relative_includes"
   ],
   "note": ""
  },
  {
   "property": "C78",
   "status": "partial",
   "theorems": [
    "C78_comment_partial",
    "C78_copied",
    "C78_comment_refuted"
   ],
   "note": "False: a documentation line that ends in a backslash swallows the next line of the generated code. Proved for every other documentation."
  },
  {
   "property": "C79",
   "status": "partial",
   "theorems": [
    "C79_points",
    "C79_positions",
    "C79_order",
    "C79_shebang_partial",
    "C79_shebang_refuted"
   ],
   "note": "Ranges and order are proved for every text. Reading the file as rustc does is false for a first line that starts with #! followed by blanks and [, which is an attribute for rustc and dropped as a shebang line here."
  },
  {
   "property": "C80",
   "status": "partial",
   "theorems": [
    "C80_values_partial",
    "C80_checked",
    "C80_values_refuted"
   ],
   "note": "False for values from 2^63 on and for -2^63, whose decimal literal has no type in C++ (compilers accept it with a warning as an extension). Proved for all others, exactly."
  },
  {
   "property": "C81",
   "status": "partial",
   "theorems": [
    "C81_text_partial",
    "C81_unambiguous",
    "C81_written",
    "C81_text_refuted",
    "C81_array_refuted"
   ],
   "note": "False for slices and arrays of references (`&[&T]`, `[&T; N]`), which pass the checks but have no C++ type. Proved for every other type, against a tokeniser and a parser of C++ type-ids."
  },
  {
   "property": "C82",
   "status": "partial",
   "theorems": [
    "C82_content",
    "C82_run",
    "C82_unchanged",
    "C82_recovers",
    "C82_link",
    "C82_link_relative",
    "C82_ends",
    "C82_failures_refuted"
   ],
   "note": "Proved, except that with failing system calls other files are not safe: if the path is a link and its removal fails, the content is written through the link."
  },
  {
   "property": "C83",
   "status": "partial",
   "theorems": [
    "C83_write",
    "C83_link",
    "C83_ends",
    "C83_stable_refuted",
    "C83_outside_refuted"
   ],
   "note": "Proved for writers of the same content and for makers of links. False: a file may vanish for a while after one process has reported success; and if one process writes cxx.h where another puts a link to an existing cxx.h, that file may be overwritten."
  },
  {
   "property": "C84",
   "status": "partial",
   "theorems": [
    "C84_wrapper",
    "C84_exported",
    "C84_callback",
    "C84_super",
    "C84_generated",
    "C84_pinned_refuted",
    "C84_vec_str_refuted",
    "C84_unsafe_refuted",
    "C84_callback_refuted"
   ],
   "note": "The exact condition is proved for each kind of generated function (lifetimes and trait bounds are not modelled). Without the exceptions the claim is false; also a parameter of a callback may be named _ or twice the same, which is not rejected."
  },
  {
   "property": "C85",
   "status": "partial",
   "theorems": [
    "C85_call",
    "C85_exported",
    "C85_callback",
    "C85_generated",
    "C85_error_refuted",
    "C85_throw_refuted",
    "C85_vector_refuted"
   ],
   "note": "The exact condition is proved for each kind of generated function. Without the two exceptions the claim is false (the generated code declares one name twice); a callback that takes a CxxVector by value is accepted, but its function is not well typed (such arguments are excluded in C85_callback)."
  },
  {
   "property": "C86",
   "status": "proved",
   "theorems": [
    "C86_call",
    "C86_exported",
    "C86_callback"
   ],
   "note": "Over an operational semantics of the Rust and C++ used in the generated functions (Call_Spec), with one memory; a use of a moved-from or uninitialised variable, of a wrong name or of a wrong kind of value has no meaning there, so the theorems also say that none happens. Conversions that change only the type keep the value; destructors are C62. Names that are keywords of Rust are excluded, as is the fallible C++ function named throw of C85."
  },
  {
   "property": "C87",
   "status": "partial",
   "theorems": [
    "C87_file_partial",
    "C87_generated",
    "C87_array_refuted",
    "C87_namespace_refuted",
    "C87_same_name_refuted",
    "C87_extern_refuted",
    "C87_claim_refuted"
   ],
   "note": "Proved for the source file and the header of every accepted bridge without array fields, whose items for one type agree on its C++ name, whose different types have different C++ names, and whose Rust methods are declared in the namespace of their type; both files are produced for every sufficient recursion budget and no definition is dropped by its include guard. Refuted without each of these conditions: a field [B; 1] of a struct defined before B; a Rust method with another namespace than its type; two structs with one C++ name; a shared struct and an extern C++ type of one Rust name in different namespaces."
  },
  {
   "property": "C88",
   "status": "partial",
   "theorems": [
    "C88_struct",
    "C88_opaque",
    "C88_enum",
    "C88_header",
    "C88_same_class",
    "C88_class_refuted",
    "C88_layout_refuted",
    "C88_enumerators_refuted",
    "C88_header_refuted",
    "C88_claim_refuted"
   ],
   "note": "False: clashes that come from cxx_name, namespace, or names that cxx uses itself (IsRelocatable, layout) are not rejected. The exact condition on the bridge is proved for struct classes, opaque classes and the header (the last for bridges whose types have different C++ names)."
  },
  {
   "property": "C89",
   "status": "partial",
   "theorems": [
    "C89_total",
    "C89_coherent",
    "C89_values_refuted",
    "C89_methods_refuted",
    "C89_local_names_refuted",
    "C89_duplicates_refuted",
    "C89_separate_refuted",
    "C89_scope_refuted",
    "C89_claim_refuted"
   ],
   "note": "That the expansion exists is proved. That it is coherent is false: duplicated fields, variants, lifetimes and derives, an alias and a struct of one name, methods that differ only in the receiver, and rust_names like those the macro makes up are not rejected. The exact condition is proved for bridges whose names are different types and unlike the made-up ones; both restrictions are shown to be needed."
  },
  {
   "property": "C90",
   "status": "partial",
   "theorems": [
    "C90_wrapper",
    "C90_declaration",
    "C90_export",
    "C90_trampoline",
    "C90_total",
    "C90_instances",
    "C90_explicit",
    "C90_method_refuted",
    "C90_rust_method_refuted",
    "C90_str_refuted",
    "C90_generic_method_refuted",
    "C90_receiver_refuted",
    "C90_trampoline_refuted",
    "C90_instances_refuted",
    "C90_claim_refuted"
   ],
   "note": "The function that Rust code calls always compiles and has exactly the declared lifetimes; every other generated function compiles exactly under the stated condition and never gives a lifetime another source. False as a whole: a method with a further reference parameter and an elided result, a &str parameter with an elided result, a method of a type with lifetime parameters, a struct declared also as a C++ type without its lifetimes, and an explicit impl without lifetimes are accepted, but what is generated does not compile. Elision is modelled for single results as rustc does it, without lifetimes inside function pointer types; outlives bounds and variance are not modelled."
  },
  {
   "property": "C91",
   "status": "partial",
   "theorems": [
    "C91_static",
    "C91_values",
    "C91_kinds",
    "C91_callback_refuted",
    "C91_unique_refuted",
    "C91_claim_refuted"
   ],
   "note": "The assertions hold exactly if every C++ type may be used where the bridge uses it, and cover everything passed by value or stored inline. False as a whole: a C++ type passed by value in the signature of a function pointer is checked in neither language, and for one used only in UniquePtr, SharedPtr or CxxVector C++ checks nothing although Rust may create it if its Kind is Trivial. (The code calls the assertions a convenience, as Kind is declared in an unsafe impl.) Specialisations of IsRelocatable for array types are not modelled."
  },
  {
   "property": "C92",
   "status": "partial",
   "theorems": [
    "C92_written",
    "C92_succeeds",
    "C92_failed",
    "C92_files",
    "C92_alone",
    "C92_all_partial",
    "C92_stdout_refuted"
   ],
   "note": "Proved for every command line and every failure of the file system. False as a whole: an error while writing to standard output is dropped, so the tool exits with success although the text did not arrive; C92_all_partial is the claim for a standard output that takes everything. clap's splitting of the command line and the text that write::gen makes are parameters; --help and --version output is not modelled."
  },
  {
   "property": "C93",
   "status": "partial",
   "theorems": [
    "C93_run",
    "C93_found",
    "C93_cxx_h",
    "C93_crate",
    "C93_rerun",
    "C93_usual",
    "C93_collision_refuted",
    "C93_stale_refuted"
   ],
   "note": "Holds for absolute directories without links and for sources whose outputs do not collide (C93_usual: different .rs files below dot-free directories and a one-name prefix never collide), without failing system calls. Refuted as stated: sources that land in the same place lose a header while the build reports success, and headers of bridges that were removed are still found, even in front of the crate's own files."
  },
  {
   "property": "C94",
   "status": "proved",
   "theorems": [
    "C94_nearest",
    "C94_given",
    "C94_separate"
   ],
   "note": "OUT_DIR is absolute and without `..`, as Cargo gives it; links are followed. The scratch directory used if nothing is found is that of another crate."
  },
  {
   "property": "C95",
   "status": "partial",
   "theorems": [
    "C95_safe",
    "C95_settings",
    "C95_reads",
    "C95_statements",
    "C95_no_loss",
    "C95_stale_refuted",
    "C95_lost_refuted",
    "C95_bytes_refuted",
    "C95_claim_refuted"
   ],
   "note": "Memory safety and the settings themselves are as specified in every history. False for reads from a handle at an address where a handle was moved away after having been read (`let c = CFG; c.doxygen; drop(c)`): it shows the old settings. A change is lost if two changed handles exist at the same time, and a directory that is not UTF-8 is altered. Proved in full for one mention of CFG per statement, on any threads."
  },
  {
   "property": "C96",
   "status": "proved",
   "theorems": [
    "C96_types",
    "C96_safe",
    "C96_weakest",
    "C96_lifetime"
   ],
   "note": "Pointers inside other pointers' targets are not followed; all loans of one pointer end together; the operations of std::shared_ptr are atomic, as the C++ standard requires of its counts."
  },
  {
   "property": "C97",
   "status": "partial",
   "theorems": [
    "C97_functions_partial",
    "C97_no_leftover",
    "C97_function_refuted",
    "C97_impl_refuted"
   ],
   "note": "False as stated: if the only function that mentions a generic over a type is switched off, or an explicit instantiation is, the expansion still refers to the operations of that instantiation, which C++ does not define. Proved: nothing else dangles when only functions are conditional, and without such leftovers the symbols agree exactly."
  },
  {
   "property": "C98",
   "status": "partial",
   "theorems": [
    "C98_exact",
    "C98_dump",
    "C98_qualified_partial",
    "C98_names_partial",
    "C98_class_refuted",
    "C98_hidden_refuted",
    "C98_redeclared_refuted",
    "C98_comment_refuted",
    "C98_names_refuted"
   ],
   "note": "False as stated: an enum inside a class is taken for one of the namespace around it (or makes the right one be rejected), a redeclaration after the definition is an error, so is a comment on an enumerator without a value, and an enumerator called __Variant1 may clash. Proved: exactly which headers are accepted and what is taken from them, with enums in classes counted as the code counts them."
  },
  {
   "property": "C99",
   "status": "partial",
   "theorems": [
    "C99_laws",
    "C99_targets",
    "C99_null",
    "C99_io_partial",
    "C99_io_provided_partial",
    "C99_io_null",
    "C99_read_vectored_refuted"
   ],
   "note": "False for read_vectored, which UniquePtr does not forward: it fills only the first buffer although the target may fill all. Proved for all other calls, for targets that have the provided read_vectored, and in full for comparison, hashing and printing."
  },
  {
   "property": "C100",
   "status": "partial",
   "theorems": [
    "C100_copied",
    "C100_outside",
    "C100_claim_refuted"
   ],
   "note": "False as a whole: files with another extension (.hxx, .inc), hidden ones, links and files too deep or in packages inside the package are not copied, although with a link they can be included. Proved: exactly the headers described are there afterwards, whatever was there before; nothing else changes, whatever fails. Copying is best effort: after a failing system call some headers may be missing. Links are not followed on the way to the copy."
  },
  {
   "property": "C101",
   "status": "partial",
   "theorems": [
    "C101_included",
    "C101_exact",
    "C101_one_line",
    "C101_brackets",
    "C101_claim_refuted"
   ],
   "note": "False for some paths in quotes: they are written with the escapes of Rust, but header names in C++ have none, so \"\u00e9.h\" becomes \"\\u{e9}.h\" and an apostrophe gets a backslash. Proved: exactly which paths arrive (printable ASCII without quotes, apostrophes and backslashes; anything without newline and > in brackets), that all paths in brackets that a bridge can name do, that quoted directives are always one line, and what the whole list is. White space between the tokens of a path in brackets is lost before the model starts (the tokens carry none)."
  },
  {
   "property": "C102",
   "status": "partial",
   "theorems": [
    "C102_in_place_partial",
    "C102_opaque_partial",
    "C102_available",
    "C102_callback_refuted",
    "C102_claim_refuted"
   ],
   "note": "Proved for bridges whose function pointers do not take such an object as argument. False otherwise: fn(C) with an opaque C++ type C is accepted as type of a function pointer, so that C++ can hand the object over by value."
  },
  {
   "property": "C103",
   "status": "partial",
   "theorems": [
    "C103_layout_partial",
    "C103_values_partial",
    "C103_aliased_primitive_refuted"
   ],
   "note": "Proved for every accepted bridge without an alias named like a primitive (refuted with one), on every platform that passes the crate's assertions, given that the user's C++ types have the layout the bridge says. Assumed of the bridge: no struct contains itself, different types have different C++ names, no array of length 0, enums have an integer representation. The layout rules of both languages are in Layout_Spec.v."
  },
  {
   "property": "C104",
   "status": "partial",
   "theorems": [
    "C104_made_partial",
    "C104_library",
    "C104_never_held",
    "C104_assignment",
    "C104_braces_refuted"
   ],
   "note": "Proved for C++11, C++14 and C++20, and for C++17 in compilers that ask for the destructors of the elements of an aggregate. False in C++17 with GCC, which accepts `new R{{}}`: the deleted constructors of rust::Opaque do not keep it from being an aggregate. The rules of C++ for special member functions and initialisation are part of the model (Special_Model.v); code that circumvents them (casts, memcpy) is not."
  },
  {
   "property": "C105",
   "status": "partial",
   "theorems": [
    "C105_moves",
    "C105_containers",
    "C105_copies",
    "C105_copy_trait",
    "C105_assigns",
    "C105_copy_values",
    "C105_trait_refuted"
   ],
   "note": "Proved if the user's classes that are used by value can be moved and destroyed (what cxx asserts) and no struct contains itself. Refuted is only the reading in which std::is_copy_constructible tells whether a copy compiles: rust::Vec<R> of an opaque type says yes but does not compile."
  },
  {
   "property": "C106",
   "status": "partial",
   "theorems": [
    "C106_braces",
    "C106_fewer",
    "C106_default_compiles",
    "C106_default_partial",
    "C106_enum_refuted",
    "C106_cxx11_refuted"
   ],
   "note": "Default initialisation: proved since C++14 for all fields, at any depth, that are not enums, arrays or of the user's classes. False for enums (no default value is written) and in C++11 (the default values are left out)."
  },
  {
   "property": "C107",
   "status": "partial",
   "theorems": [
    "C107_header_partial",
    "C107_unit_partial",
    "C107_agreeing_partial",
    "C107_own_partial",
    "C107_link_partial",
    "C107_namespaces_partial",
    "C107_layout_refuted",
    "C107_symbol_refuted"
   ],
   "note": "Proved: headers define nothing that may be defined only once in a program; no class or enumeration is defined twice in a translation unit, and one is dropped only where another of the same kind and qualified name is defined; nothing is lost where definitions of the same name agree, as in the files of one bridge; bridges whose functions, structs, opaque types and instantiations are in different namespaces share no link name and define nothing of the same C++ name. False for two bridges with different structs of one C++ name (the later class is dropped silently), and for two bridges that import the same C++ function (both source files define the same symbol)."
  },
  {
   "property": "C108",
   "status": "partial",
   "theorems": [
    "C108_reported",
    "C108_ends_partial",
    "C108_written",
    "C108_order",
    "C108_hidden_refuted",
    "C108_expanded",
    "C108_accepted",
    "C108_hint",
    "C108_no_hint",
    "C108_known"
   ],
   "note": "Proved as stated, for files that syn can parse and runs that do not panic (none does unless a variant has the value `-0`, see C03: C108_ends_partial). Refuted is only the stronger reading in which all errors of a file are reported at once: a mistake in one bridge hides a name that is declared twice in another one until it is corrected."
  }
 ]
}