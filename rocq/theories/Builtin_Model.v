(** gen/src/builtin.rs: the supporting code written into generated C++, and the standard
    headers it asks for.  The texts taken from cxx.h are those of Ifndef_Model. *)
From Verif Require Import Base StrLib Ifndef_Model.

(** builtin.rs 6-35: Builtins (without `content`) *)
Inductive flag : Set :=
| FPanic | FString | FStr | FSlice | FBox | FVec | FFn | FIsize | FOpaque | FLayout
| FBitcopy | FBitcopyT | FError | FManuallyDrop | FMaybeUninit | FTrycatch | FPtrLen | FFat
| FStrNew | FStrRepr | FSliceNew | FSliceRepr | FRelocatable | FRelocatableOrArray
| FFriendImpl | FIsComplete | FDestroy | FDeleterIf.
(** include.rs 21-46: Includes (without `custom` and `content`) *)
Inductive inc : Set :=
| IAlgorithm | IArray | ICassert | ICstddef | ICstdint | ICstring | IException | IFunctional
| IInitializerList | IIterator | IMemory | INew | IRanges | IStdexcept | IString | IStringView
| ITypeTraits | IUtility | IVector | IBasetsd | ISysTypes.
(** A field of `out.builtin` or `out.include` *)
Inductive want : Set := WFlag (f : flag) | WInc (i : inc).
Definition flag_eq_dec (a b : flag) : {a = b} + {a <> b}. Proof. decide equality. Defined.
Definition inc_eq_dec (a b : inc) : {a = b} + {a <> b}. Proof. decide equality. Defined.
Definition want_eq_dec (a b : want) : {a = b} + {a <> b}. Proof. decide equality; [apply flag_eq_dec|apply inc_eq_dec]. Defined.
Definition want_mem (w : want) (l : list want) : bool := if in_dec want_eq_dec w l then true else false.

(** The fields that are set. *)
Definition settings : Type := want -> bool.

(** builtin.rs 53-144, and the later assignments to `include` at 214-216, 221, 238-239,
    258, 276, 287, 404-406: `if builtin.x { … = true; }`, in order.  The later ones no
    longer read any field that they or others set. *)
Definition rules : list (flag * list want) :=
  [(FString, [WInc IArray; WInc ICstdint; WInc IString]);
   (FStr, [WInc IArray; WInc ICstdint; WInc IString; WInc IStringView; WFlag FFriendImpl]);
   (FVec, [WInc IAlgorithm; WInc IArray; WInc ICassert; WInc ICstddef; WInc ICstdint; WInc IInitializerList; WInc IIterator; WInc INew;
           WInc IStdexcept; WInc ITypeTraits; WInc IUtility; WFlag FPanic; WFlag FSlice; WFlag FBitcopyT]);
   (FSlice, [WInc IArray; WInc ICassert; WInc ICstddef; WInc ICstdint; WInc IIterator; WInc IRanges; WInc IStdexcept; WInc ITypeTraits;
             WFlag FFriendImpl; WFlag FLayout; WFlag FPanic]);
   (FBox, [WInc INew; WInc ITypeTraits; WInc IUtility]);
   (FFn, [WInc IUtility]);
   (FError, [WInc IException; WFlag FFriendImpl]);
   (FIsize, [WInc IBasetsd; WInc ISysTypes]);
   (FRelocatableOrArray, [WInc ICstddef; WFlag FRelocatable]);
   (FRelocatable, [WInc ITypeTraits]);
   (FLayout, [WInc ITypeTraits; WInc ICstddef; WFlag FIsComplete]);
   (FIsComplete, [WInc ICstddef; WInc ITypeTraits]);
   (FBitcopy, [WFlag FBitcopyT]);
   (FTrycatch, [WFlag FPtrLen]);
   (FFat, [WInc IArray; WInc ICstdint]);
   (FPtrLen, [WInc ICstddef]);
   (FMaybeUninit, [WInc ICstddef; WInc INew]);
   (FTrycatch, [WInc IString]);
   (FManuallyDrop, [WInc IUtility]);
   (FMaybeUninit, [WInc ICstddef]);
   (FTrycatch, [WInc IException; WInc ITypeTraits; WInc IUtility])].
Definition rule_step (s : settings) (r : flag * list want) : settings :=
  fun w => if want_mem w (snd r) then s (WFlag (fst r)) || s w else s w.
Definition propagate (s : settings) : settings := fold_left rule_step rules s.

(** The parts of write(), in order.  The texts of impl<Str> and impl<Slice<T>>, of which
    two members are optional, are split. *)
Inductive part : Set :=
| BPanic | BFwdBitcopy | BFwdImpl | BFwdString | BFwdOpaque | BFwdSizeOf
| BString | BStr | BSlice | BBox | BBitcopyT | BBitcopy | BVec | BFn | BError | BIsize | BOpaque | BIsComplete | BLayout | BRelocatable
| BStrUninit | BSliceUninit | BFat | BPtrLen | BOperatorNew | BFail | BManuallyDrop | BMaybeUninit
| BImplStr | BImplStrNew | BImplStrRepr | BImplStrEnd | BImplSlice | BImplSliceNew | BImplSliceRepr | BImplSliceEnd
| BImplError | BDestroy | BDeleterIf | BRelocatableOrArray | BTrycatch.
Definition parts : list part :=
  [BPanic; BFwdBitcopy; BFwdImpl; BFwdString; BFwdOpaque; BFwdSizeOf;
   BString; BStr; BSlice; BBox; BBitcopyT; BBitcopy; BVec; BFn; BError; BIsize; BOpaque; BIsComplete; BLayout; BRelocatable;
   BStrUninit; BSliceUninit; BFat; BPtrLen; BOperatorNew; BFail; BManuallyDrop; BMaybeUninit;
   BImplStr; BImplStrNew; BImplStrRepr; BImplStrEnd; BImplSlice; BImplSliceNew; BImplSliceRepr; BImplSliceEnd;
   BImplError; BDestroy; BDeleterIf; BRelocatableOrArray; BTrycatch].

(** The conditions: builtin.rs 152-197 (which need `!cxx_header`) and 200-419. *)
Definition from_header (p : part) : bool :=
  match p with
  | BPanic | BFwdBitcopy | BFwdImpl | BFwdString | BFwdOpaque | BFwdSizeOf
  | BString | BStr | BSlice | BBox | BBitcopyT | BBitcopy | BVec | BFn | BError | BIsize | BOpaque | BIsComplete | BLayout | BRelocatable => true
  | _ => false
  end.
Definition enabled (s : settings) (p : part) : bool :=
  let b f := s (WFlag f) in
  match p with
  | BPanic => b FPanic
  | BFwdBitcopy => b FString
  | BFwdImpl => b FFriendImpl
  | BFwdString => b FStr && negb (b FString)
  | BFwdOpaque => b FLayout && negb (b FOpaque)
  | BFwdSizeOf => b FSlice
  | BString => b FString
  | BStr => b FStr
  | BSlice => b FSlice
  | BBox => b FBox
  | BBitcopyT => b FBitcopyT
  | BBitcopy => b FBitcopy
  | BVec => b FVec
  | BFn => b FFn
  | BError => b FError
  | BIsize => b FIsize
  | BOpaque => b FOpaque
  | BIsComplete => b FIsComplete
  | BLayout => b FLayout
  | BRelocatable => b FRelocatable
  | BStrUninit => b FStrNew
  | BSliceUninit => b FSliceNew
  | BFat => b FFat
  | BPtrLen => b FPtrLen
  | BOperatorNew => b FMaybeUninit
  | BFail => b FTrycatch
  | BManuallyDrop => b FManuallyDrop
  | BMaybeUninit => b FMaybeUninit
  | BImplStr | BImplStrEnd => b FStrNew || b FStrRepr
  | BImplStrNew => b FStrNew
  | BImplStrRepr => b FStrRepr
  | BImplSlice | BImplSliceEnd => b FSliceNew || b FSliceRepr
  | BImplSliceNew => b FSliceNew
  | BImplSliceRepr => b FSliceRepr
  | BImplError => b FError
  | BDestroy => b FDestroy
  | BDeleterIf => b FDeleterIf
  | BRelocatableOrArray => b FRelocatableOrArray
  | BTrycatch => b FTrycatch
  end.
(** builtin.rs 44-424: write; [cxx_header]: the bridge includes rust/cxx.h itself *)
Definition emitted_parts (s : settings) (cxx_header : bool) : list part :=
  filter (fun p => enabled (propagate s) p && negb (from_header p && cxx_header)) parts.

(** The guard in cxx.h of a part that is copied from there. *)
Definition guard_of (p : part) : option string :=
  match p with
  | BPanic => Some "CXXBRIDGE1_PANIC"
  | BString => Some "CXXBRIDGE1_RUST_STRING"
  | BStr => Some "CXXBRIDGE1_RUST_STR"
  | BSlice => Some "CXXBRIDGE1_RUST_SLICE"
  | BBox => Some "CXXBRIDGE1_RUST_BOX"
  | BBitcopyT => Some "CXXBRIDGE1_RUST_BITCOPY_T"
  | BBitcopy => Some "CXXBRIDGE1_RUST_BITCOPY"
  | BVec => Some "CXXBRIDGE1_RUST_VEC"
  | BFn => Some "CXXBRIDGE1_RUST_FN"
  | BError => Some "CXXBRIDGE1_RUST_ERROR"
  | BIsize => Some "CXXBRIDGE1_RUST_ISIZE"
  | BOpaque => Some "CXXBRIDGE1_RUST_OPAQUE"
  | BIsComplete => Some "CXXBRIDGE1_IS_COMPLETE"
  | BLayout => Some "CXXBRIDGE1_LAYOUT"
  | BRelocatable => Some "CXXBRIDGE1_RELOCATABLE"
  | _ => None
  end.
(** The lines written for the other parts. *)
Definition own_lines (p : part) : list string :=
  match p with
  | BFwdBitcopy => ["struct unsafe_bitcopy_t;"]
  | BFwdImpl => ["template <typename T>"; "class impl;"]
  | BFwdString => ["class String;"]
  | BFwdOpaque => ["class Opaque;"]
  | BFwdSizeOf => ["template <typename T>"; "::std::size_t size_of();"; "template <typename T>"; "::std::size_t align_of();"]
  | BStrUninit => ["class Str::uninit {};"; "inline Str::Str(uninit) noexcept {}"]
  | BSliceUninit => ["template <typename T>"; "class Slice<T>::uninit {};"; "template <typename T>"; "inline Slice<T>::Slice(uninit) noexcept {}"]
  | BFat => ["using Fat = ::std::array<::std::uintptr_t, 2>;"]
  | BPtrLen => ["struct PtrLen final {"; "  void *ptr;"; "  ::std::size_t len;"; "};"]
  | BOperatorNew =>
      ["template <typename T, typename = void *>"; "struct operator_new {";
       "  void *operator()(::std::size_t sz) { return ::operator new(sz); }"; "};";
       "template <typename T>"; "struct operator_new<T, decltype(T::operator new(sizeof(T)))> {";
       "  void *operator()(::std::size_t sz) { return T::operator new(sz); }"; "};"]
  | BFail =>
      ["class Fail final {"; "  ::rust::repr::PtrLen &throw$;"; "public:";
       "  Fail(::rust::repr::PtrLen &throw$) noexcept : throw$(throw$) {}";
       "  void operator()(char const *) noexcept;"; "  void operator()(std::string const &) noexcept;"; "};"]
  | BManuallyDrop =>
      ["template <typename T>"; "union ManuallyDrop {"; "  T value;";
       "  ManuallyDrop(T &&value) : value(::std::move(value)) {}"; "  ~ManuallyDrop() {}"; "};"]
  | BMaybeUninit =>
      ["template <typename T>"; "union MaybeUninit {"; "  T value;";
       "  void *operator new(::std::size_t sz) { return detail::operator_new<T>{}(sz); }";
       "  MaybeUninit() {}"; "  ~MaybeUninit() {}"; "};"]
  | BImplStr => ["template <>"; "class impl<Str> final {"; "public:"]
  | BImplStrNew =>
      ["  static Str new_unchecked(repr::Fat repr) noexcept {"; "    Str str = Str::uninit{};";
       "    str.repr = repr;"; "    return str;"; "  }"]
  | BImplStrRepr => ["  static repr::Fat repr(Str str) noexcept {"; "    return str.repr;"; "  }"]
  | BImplSlice => ["template <typename T>"; "class impl<Slice<T>> final {"; "public:"]
  | BImplSliceNew =>
      ["  static Slice<T> slice(repr::Fat repr) noexcept {"; "    Slice<T> slice = typename Slice<T>::uninit{};";
       "    slice.repr = repr;"; "    return slice;"; "  }"]
  | BImplSliceRepr => ["  static repr::Fat repr(Slice<T> slice) noexcept {"; "    return slice.repr;"; "  }"]
  | BImplStrEnd | BImplSliceEnd => ["};"]
  | BImplError =>
      ["template <>"; "class impl<Error> final {"; "public:"; "  static Error error(repr::PtrLen repr) noexcept {";
       "    Error error;"; "    error.msg = static_cast<char const *>(repr.ptr);"; "    error.len = repr.len;";
       "    return error;"; "  }"; "};"]
  | BDestroy => ["template <typename T>"; "void destroy(T *ptr) {"; "  ptr->~T();"; "}"]
  | BDeleterIf =>
      ["template <bool> struct deleter_if {"; "  template <typename T> void operator()(T *) {}"; "};";
       "template <> struct deleter_if<true> {"; "  template <typename T> void operator()(T *ptr) { ptr->~T(); }"; "};"]
  | BRelocatableOrArray =>
      ["template <typename T>"; "struct IsRelocatableOrArray : IsRelocatable<T> {};";
       "template <typename T, ::std::size_t N>"; "struct IsRelocatableOrArray<T[N]> : IsRelocatableOrArray<T> {};"]
  | BTrycatch =>
      ["class missing {};"; "missing trycatch(...);"; "";
       "template <typename Try, typename Fail>"; "static typename ::std::enable_if<";
       "    ::std::is_same<decltype(trycatch(::std::declval<Try>(), ::std::declval<Fail>())),";
       "                 missing>::value>::type"; "trycatch(Try &&func, Fail &&fail) noexcept try {"; "  func();";
       "} catch (::std::exception const &e) {"; "  fail(e.what());"; "}"]
  | _ => []
  end.
Definition part_lines (p : part) : option (list string) :=
  match guard_of p with Some g => ifndef_write true g | None => Some (own_lines p) end.

(** include.rs 84-186: write, after the custom includes *)
Definition include_lines (s : settings) (cxx_header : bool) : list string :=
  let b i := s (WInc i) in
  let line i (h : string) := if b i && negb cxx_header then [("#include <" ++ h ++ ">")%string] else [] in
  let always i (h : string) := if b i then [("#include <" ++ h ++ ">")%string] else [] in
  line IAlgorithm "algorithm" ++ line IArray "array" ++ line ICassert "cassert" ++ line ICstddef "cstddef" ++ line ICstdint "cstdint"
  ++ always ICstring "cstring" ++ line IException "exception" ++ always IFunctional "functional" ++ line IInitializerList "initializer_list"
  ++ line IIterator "iterator" ++ always IMemory "memory" ++ line INew "new" ++ line IStdexcept "stdexcept" ++ line IString "string"
  ++ line ITypeTraits "type_traits" ++ line IUtility "utility" ++ line IVector "vector"
  ++ (if b IBasetsd && negb cxx_header then ["#if defined(_WIN32)"; "#include <basetsd.h>"] else [])
  ++ (if b ISysTypes && negb cxx_header then (if b IBasetsd then ["#else"] else ["#if not defined(_WIN32)"]) else [])
  ++ (if b ISysTypes && negb cxx_header then ["#include <sys/types.h>"] else [])
  ++ (if (b IBasetsd || b ISysTypes) && negb cxx_header then ["#endif"] else [])
  ++ (if b IStringView && negb cxx_header then ["#if __cplusplus >= 201703L"; "#include <string_view>"; "#endif"] else [])
  ++ (if b IRanges && negb cxx_header then ["#if __cplusplus >= 202002L"; "#include <ranges>"; "#endif"] else []).
