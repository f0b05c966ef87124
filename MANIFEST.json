{
 "claims": [
  {
   "property": "C01",
   "status": "proved",
   "theorems": [
    "C01_cautious_layout_exact"
   ],
   "note": "For every well-formed type and every initializer: calculate_layout_cautious returns a layout exactly when every length fits and the exact (unbounded) size is below 2^64, and then it is that size."
  },
  {
   "property": "C02",
   "status": "proved",
   "theorems": [
    "C02_layout_of_built_object"
   ],
   "note": "After initialize, calculate_layout on the new object returns the layout the initializer promised, for every type and initializer."
  },
  {
   "property": "C03",
   "status": "proved",
   "theorems": [
    "C03_writes_only_inside"
   ],
   "note": "Every byte outside the destination range keeps its content, also when client code panics half-way."
  },
  {
   "property": "C04",
   "status": "proved",
   "theorems": [
    "C04_construct_read"
   ],
   "note": "initialize then reading every part back gives the value the initializer denotes (`ival`, Spec.v)."
  },
  {
   "property": "C05",
   "status": "proved",
   "theorems": [
    "C05_parts_inside_disjoint_aligned",
    "C05_promised_parts",
    "C05_declaration_order"
   ],
   "note": "Three views: parts of a live object (inside, disjoint, aligned), parts promised by a layout before the object exists, and declaration order of their addresses."
  },
  {
   "property": "C06",
   "status": "proved",
   "theorems": [
    "C06_mutation_is_local",
    "C06_controllers_not_mutable",
    "C06_layout_fixed"
   ],
   "note": "Assigning any assignable leaf changes that leaf's value only and no byte outside it; controllers are not assignable; the layout stays."
  },
  {
   "property": "C07",
   "status": "proved",
   "theorems": [
    "C07_vcopy"
   ],
   "note": "For types without destructors; the copy reads back equal, the source and every other byte are unchanged, no event."
  },
  {
   "property": "C08",
   "status": "proved",
   "theorems": [
    "C08_vclone"
   ],
   "note": "Every leaf is cloned once, in order; the leaves of the copy are the results; when a clone panics it is the first that panics (`first_none`), the source is unchanged."
  },
  {
   "property": "C09",
   "status": "proved",
   "theorems": [
    "C09_vbox_new_requests",
    "C09_vbox_drop_matches"
   ],
   "note": "The request of VBox::new has size and alignment of the object; VBox's Drop returns exactly that."
  },
  {
   "property": "C10",
   "status": "proved",
   "theorems": [
    "C10_vdrop_each_once",
    "C10_vbox_drop_each_once"
   ],
   "note": "The destructors that run are those of the leaves that have one, each once, in order."
  },
  {
   "property": "C11",
   "status": "proved",
   "theorems": [
    "C11_vbox_moves",
    "C11_boxes_inside"
   ],
   "note": "C11_vbox_moves: a box as the whole initializer. C11_boxes_inside: a box anywhere inside the initializer of a tuple, struct or newtype."
  },
  {
   "property": "C12",
   "status": "partial",
   "theorems": [
    "C12_owned_moves_refuted",
    "C12_owned_tuple_refuted",
    "C12_owned_moves_partial",
    "C12_owned_moves_exact"
   ],
   "note": "Refuted: Owned::initialize copies layout.size() units of T instead of bytes (owned.rs:215). The two _refuted theorems exhibit it; the _partial theorem proves the property for types whose Rust header has size 1, where units of T and bytes agree. The _exact theorem: the move is right, whatever the destination held, if and only if the Rust type has size one or the object has no bytes."
  },
  {
   "property": "C13",
   "status": "partial",
   "theorems": [
    "C13_leak_refuted",
    "C13_leak_partial",
    "C13_leak_exact"
   ],
   "note": "Refuted: Owned::leak drops the object it leaks (owned.rs:164), so the returned reference is to dropped data. The _partial theorem proves it for types without destructors. The _exact theorem: no destructor runs if and only if the object has none."
  },
  {
   "property": "C14",
   "status": "proved",
   "theorems": [
    "C14_owned_drop",
    "C14_raw_round_trip"
   ],
   "note": "Owned's Drop and into_raw/from_raw (C14_raw_round_trip), which neither reads nor writes."
  },
  {
   "property": "C15",
   "status": "proved",
   "theorems": [
    "C15_seq_is_list",
    "C15_pushed_values",
    "C15_push_defined"
   ],
   "note": "Stated for every history of pushes, failed pushes, takes and mutations (`shist`)."
  },
  {
   "property": "C16",
   "status": "proved",
   "theorems": [
    "C16_offset_is_cumulative",
    "C16_offset_before_push",
    "C16_push_keeps_offsets"
   ],
   "note": "The offset of element k is the sum of the sizes (in units of the alignment) before it; pushes keep offsets and contents."
  },
  {
   "property": "C17",
   "status": "proved",
   "theorems": [
    "C17_offset_of_inverse",
    "C17_foreign_reference"
   ],
   "note": "For every element of every sequence; an address outside the occupied storage panics."
  },
  {
   "property": "C18",
   "status": "proved",
   "theorems": [
    "C18_checked_exact",
    "C18_every_element"
   ],
   "note": "Before any element has been taken out; afterwards see C19."
  },
  {
   "property": "C19",
   "status": "partial",
   "theorems": [
    "C19_taken_offsets_exact",
    "C19_taken_offsets_refuted",
    "C19_taken_offsets_partial"
   ],
   "note": "Refuted: take_elems zeroes the occupied count before clearing the bitmap (seq.rs:904), so stale offsets are accepted and lead to undefined behaviour. The _partial theorem proves exactness up to those stale offsets. The _exact theorem: after any history an offset is accepted if and only if it is below offset() and some push began an element there since the sequence was created."
  },
  {
   "property": "C20",
   "status": "proved",
   "theorems": [
    "C20_growth_policy",
    "C20_capacity_monotone"
   ],
   "note": "Exactly when a push reallocates, the exact new capacity (maximum of what is needed, 32 bytes and twice the old one) and the exact bytes requested; take_elems keeps the capacity."
  },
  {
   "property": "C21",
   "status": "proved",
   "theorems": [
    "C21_amortised",
    "C21_from_new"
   ],
   "note": "Bytes requested from the allocator over a whole run of pushes are bounded by a constant times the bytes pushed."
  },
  {
   "property": "C22",
   "status": "proved",
   "theorems": [
    "C22_take_elems",
    "C22_drain",
    "C22_taken_element_drop"
   ],
   "note": "take_elems to the end, dropped early, and one element dropped by hand."
  },
  {
   "property": "C23",
   "status": "proved",
   "theorems": [
    "C23_seq_drop"
   ],
   "note": "For types that are not zero-sized; the zero-sized case is C24."
  },
  {
   "property": "C24",
   "status": "partial",
   "theorems": [
    "C24_drop_exact",
    "C24_drop_does_nothing",
    "C24_zst_drop_refuted",
    "C24_zst_misaligned_refuted",
    "C24_zst_partial"
   ],
   "note": "Refuted: dropping a Seq of zero-size elements runs no destructor (C24_drop_does_nothing holds for every such type), and a zero-size tuple with alignment > 1 is built at a misaligned dangling pointer. The _partial theorem proves that take_elems plus drop runs each destructor once. The _exact theorem: dropping the sequence is right if and only if its elements have no destructors."
  },
  {
   "property": "C25",
   "status": "partial",
   "theorems": [
    "C25_zst_checked_push_refuted",
    "C25_checked_push_exact",
    "C25_zst_push_partial",
    "C25_types_covered"
   ],
   "note": "Refuted for every zero-size type: a checked push accesses the bitmap through the dangling pointer. The _partial theorem proves that an unchecked push touches no memory. The _exact theorem says what a checked push does in every state: nothing if the initializer is not accepted, otherwise it reads and writes the byte at the dangling address (undefined behaviour unless that byte belongs to something else, whose lowest bit it then sets)."
  },
  {
   "property": "C26",
   "status": "proved",
   "theorems": [
    "C26_failed_push"
   ],
   "note": "Every reason for failure: length too large, size overflow, capacity overflow, allocator refusal, panicking client code."
  },
  {
   "property": "C27",
   "status": "partial",
   "theorems": [
    "C27_vbox_new_oom_refuted",
    "C27_vbox_new_partial",
    "C27_vbox_new_exact"
   ],
   "note": "Refuted: VBox::new does not check the allocation for null (vbox.rs:54). The _partial theorem proves the property when the allocator does not fail. The _exact theorem: undefined behaviour if and only if the layout is valid and the object has no bytes or the allocator gives no usable answer."
  },
  {
   "property": "C28",
   "status": "partial",
   "theorems": [
    "C28_vbox_zero_size_refuted",
    "C28_vbox_partial",
    "C28_vbox_zero_size_exact",
    "C28_seq_requests"
   ],
   "note": "Refuted for VBox of a zero-size type (alloc with size 0); proved for Seq (C28_seq_requests) and for VBox of other types (_partial). The _exact theorem: a zero-size request is made if and only if the layout is valid and the object has no bytes."
  },
  {
   "property": "C29",
   "status": "proved",
   "theorems": [
    "C29_iterators_exact",
    "C29_limited_to"
   ],
   "note": "len, size_hint and exhaustion for iter, iter_mut, take_elems, and limited_to."
  },
  {
   "property": "C30",
   "status": "proved",
   "theorems": [
    "C30_elements_disjoint",
    "C30_mutation_local"
   ],
   "note": "The references are to disjoint ranges, and mutation of one element leaves the others and the offsets as they are."
  },
  {
   "property": "C31",
   "status": "proved",
   "theorems": [
    "C31_extend",
    "C31_collect"
   ],
   "note": "extend / collect / seq! against iterated push, including a panic in the middle."
  },
  {
   "property": "C32",
   "status": "proved",
   "theorems": [
    "C32_refused_iff_too_long",
    "C32_str_refused_iff_too_long",
    "C32_usize_always_fits",
    "C32_length_kept"
   ],
   "note": "For u8, u16, u32, u64, usize and Str: refused if and only if the length does not fit; otherwise read back unchanged."
  },
  {
   "property": "C33",
   "status": "proved",
   "theorems": [
    "C33_deref",
    "C33_str_bytes",
    "C33_seq_of_str"
   ],
   "note": "The bytes; that they stay UTF-8 under safe edits is C52."
  },
  {
   "property": "C34",
   "status": "proved",
   "theorems": [
    "C34_producers_fill",
    "C34_producers_panic",
    "C34_copy_move_fill",
    "C34_clone_fill",
    "C34_length_mismatch",
    "C34_user_defined",
    "C34_new_array"
   ],
   "note": "One theorem for each kind of array initializer; C34_user_defined for a user's own implementation, C34_new_array for std arrays."
  },
  {
   "property": "C35",
   "status": "proved",
   "theorems": [
    "C35_no_double_drop",
    "C35_unused_initializer"
   ],
   "note": "Every initializer, every point at which client code panics."
  },
  {
   "property": "C36",
   "status": "proved",
   "theorems": [
    "C36_try_set_controllers",
    "C36_length_panics"
   ],
   "note": "Accepted if and only if every array keeps its length; otherwise nothing changes and the new values are dropped. Length expressions that panic: C36_length_panics."
  },
  {
   "property": "C37",
   "status": "partial",
   "theorems": [
    "C37_try_set_panic_exact",
    "C37_try_set_panic_refuted",
    "C37_try_set_panic_partial",
    "C37_single_controller"
   ],
   "note": "Refuted: a panicking destructor in try_set_layout_controllers leaves the object with a mix of old and new controllers whose lengths need not agree. The _partial theorems prove what still holds. The _exact theorem: after the panic some prefix of the controllers is new and the layout still fits the storage if and only if that mixture gives every array its old length."
  },
  {
   "property": "C38",
   "status": "proved",
   "theorems": [
    "C38_no_vdrop_needed",
    "C38_skipping_elements"
   ],
   "note": "vdrop of such a type has no effect at all, so neither has skipping it in Seq."
  },
  {
   "property": "C39",
   "status": "proved",
   "theorems": [
    "C39_newtype_transparent"
   ],
   "note": "Same size, alignment, layouts, bytes, destructors and clones as the inner type."
  },
  {
   "property": "C40",
   "status": "proved",
   "theorems": [
    "C40_one_kind_attribute"
   ],
   "note": "parse_fields over every list of attributes."
  },
  {
   "property": "C41",
   "status": "proved",
   "theorems": [
    "C41_same_region",
    "C41_accessible",
    "C41_rejected"
   ],
   "note": "For every visibility the user can write; C41_rejected: which are refused."
  },
  {
   "property": "C42",
   "status": "proved",
   "theorems": [
    "C42_bitmap_overhead",
    "C42_push_stays_inside"
   ],
   "note": "The allocation has exactly one bit per capacity unit more (rounded up to bytes), and a push stays inside it."
  },
  {
   "property": "C43",
   "status": "partial",
   "theorems": [
    "C43_overflow_exact",
    "C43_no_overflow_partial",
    "C43_old_rule_refuted"
   ],
   "note": "Under the isize::MAX rule of Layout (Rust 1.65+) the addition is proved exact; under the usize::MAX rule of toolchains current at the commit it is refuted. The _exact theorem: for every limit rule the addition overflows if and only if size plus bitmap reaches 2^64."
  },
  {
   "property": "C44",
   "status": "proved",
   "theorems": [
    "C44_vbox_clone",
    "C44_boxes_independent"
   ],
   "note": "The clone and the original can be changed and dropped in any order without affecting each other. If cloning leaf k panics, the clones made before and the new storage are leaked, nothing else changes."
  },
  {
   "property": "C45",
   "status": "proved",
   "theorems": [
    "C45_program_safe",
    "C45_reads_back",
    "C45_no_leak",
    "C45_all_freed"
   ],
   "note": "Programs use every safe operation: construction, push, drop, mem::forget, assignment, try_set_layout_controllers, iteration (whole, partial), len/offset/capacity, offset_of, is_offset_valid, from_offset(_mut) (also the unchecked form with a valid offset), and take_elems driven by hand (next, len, reading, assigning, dropping, forgetting elements, dropping or forgetting the iterator). Excluded: the operations refuted elsewhere and Seq of zero-sized types."
  },
  {
   "property": "C46",
   "status": "proved",
   "theorems": [
    "C46_owned_new_in"
   ],
   "note": "bumpalo is modelled as an allocator that answers with fresh aligned storage or refuses."
  },
  {
   "property": "C47",
   "status": "proved",
   "theorems": [
    "C47_fields_grouped",
    "C47_controllers_shared"
   ],
   "note": "Which fragment is generated for which field, in which order (MacroFront.v)."
  },
  {
   "property": "C48",
   "status": "proved",
   "theorems": [
    "C48_push_never_asserts",
    "C48_vbox_new_never_asserts",
    "C48_offset_of_never_asserts",
    "C48_from_offset_never_asserts",
    "C48_from_offset_unchecked_never_asserts"
   ],
   "note": "debug_assert! of seq.rs and vbox.rs under the preconditions the API documents."
  },
  {
   "property": "C49",
   "status": "proved",
   "theorems": [
    "C49_calculate_layout",
    "C49_constants",
    "C49_vdrop",
    "C49_layouts",
    "C49_refs",
    "C49_muts",
    "C49_calculate_layout_cautious",
    "C49_layouts_cautious",
    "C49_drop_init",
    "C49_initialize",
    "C49_try_set"
   ],
   "note": "The generated functions, transcribed in MacroSem.v from the quote! template, against the struct semantics (TRec KStruct) that all other theorems use."
  },
  {
   "property": "C50",
   "status": "proved",
   "theorems": [
    "C50_accounted",
    "C50_balance",
    "C50_no_double_drop",
    "C50_all_dropped"
   ],
   "note": "Values passed to mem::forget (boxes, sequences, elements taken out, the take_elems iterator) may be lost, nothing else is, unless client code in an initializer panics."
  },
  {
   "property": "C51",
   "status": "proved",
   "theorems": [
    "C51_no_panics",
    "C51_drop_owned",
    "C51_drop_box",
    "C51_no_panics_take",
    "C51_program_safe",
    "C51_aborts_exactly",
    "C51_reads_back",
    "C51_bounded_leak",
    "C51_no_double_drop",
    "C51_accounted"
   ],
   "note": "Model: DropPanic.v (the functions that run destructors, with an arbitrary predicate for panicking destructors and abort as an outcome); spec: DropPanicSpec.v. C51_no_panics and C51_no_panics_take tie it to the main model. Excluded (by allowed_p): try_set_layout_controllers when a controller's destructor panics and the mixture of new and old controllers gives another length (the defect of C37, refuted there); VBox::new with a refusing allocator is excluded as in C45 (C28)."
  },
  {
   "property": "C52",
   "status": "proved",
   "theorems": [
    "C52_always_utf8",
    "C52_program_safe",
    "C52_edit"
   ],
   "note": "Every newtype of an array of u8 counts as a Str. The text of elements held by a take_elems iterator is not read or edited by the programs; an edit that panics half-way is not modelled; the bytes are stored one by one."
  },
  {
   "property": "C53",
   "status": "proved",
   "theorems": [
    "C53_generic_header"
   ],
   "note": "MacroGenerics.v models syn types, the GenericRefs visitor, parse_generics, the scope of every generated item and instantiation. size_of is an arbitrary function of the header field types (markers have no bytes); that rustc gives two instances with equal header fields the same size is the assumption this rests on."
  },
  {
   "property": "C54",
   "status": "partial",
   "theorems": [
    "C54_params_split",
    "C54_layout_generics",
    "C54_resolves_exact",
    "C54_resolves_partial",
    "C54_generics_refuted"
   ],
   "note": "Refuted (seven concrete definitions). C54_resolves_exact says exactly which definitions resolve; the _partial theorem gives the sufficient condition for types without projections and const expressions. C54_params_split: the parameter lists of the definition, the impl header and the application."
  },
  {
   "property": "C55",
   "status": "partial",
   "theorems": [
    "C55_address",
    "C55_stays",
    "C55_stays_run",
    "C55_push_in_place",
    "C55_memory_kept",
    "C55_not_reused",
    "C55_seq_growth_refuted",
    "C55_box_moved_refuted",
    "C55_forgotten_reused_refuted"
   ],
   "note": "Stability is proved for all operations and runs that do not consume the owner or push to its sequence, for in-place pushes, and the drop guarantee (memory neither freed nor reused before a destructor has run: C55_memory_kept, C55_not_reused) for everything but the three refuted cases: Seq growth and VBox as initializer move objects that client code may have pinned, and the memory of a forgotten Owned is reused."
  },
  {
   "property": "C56",
   "status": "proved",
   "theorems": [
    "C56_footprint",
    "C56_threads",
    "C56_schedule",
    "C56_readers"
   ],
   "note": "Calls are the atomic steps of the interleaving; C56_footprint is what justifies this: a call touches no byte outside its object. Modelled calls: read of the whole object, assignment to a leaf, try_set_layout_controllers. Allocating calls (VBox::new, push) need a whole owner: threads that own values are C66. Send and Sync are auto traits of the compiler and not modelled (the crate implements neither)."
  },
  {
   "property": "C57",
   "status": "proved",
   "theorems": [
    "C57_header_only",
    "C57_varying_not_unpin",
    "C57_tail_not_unpin",
    "C57_swap_objects",
    "C57_swap_leaves",
    "C57_swap_within"
   ],
   "note": "Unpin is an auto trait; `unpin` in Program.v computes it from the fields and markers the crate puts into each type, with any choice for fixed-length types. C57_markers_needed shows that swapping two arrays of different length breaks the program, so the hypothesis is needed. The swaps are operations of the program model and thereby covered by C45, C50, C52, C55 and C56 as well."
  },
  {
   "property": "C58",
   "status": "proved",
   "theorems": [
    "C58_copy_slice",
    "C58_clone_slice",
    "C58_slice_mismatch",
    "C58_box_of_slice",
    "C58_push_slice"
   ],
   "note": "One array: C58_copy_slice, C58_clone_slice, C58_slice_mismatch, for any source and destination that do not overlap. Whole programs: C58_box_of_slice, C58_push_slice (that they do not overlap is then a consequence, not a hypothesis). Slices as array fields of structs and inside wrappers are covered by C45 (rules D_sized_at, Ds_arr_at of ProgSpec.v), an example is in C58_meets."
  },
  {
   "property": "C59",
   "status": "proved",
   "theorems": [
    "C59_session_safe",
    "C59_reads_back",
    "C59_no_leak",
    "C59_all_freed",
    "C59_storage_back"
   ],
   "note": "C59_session_safe: one more operation of any program with live iterators (reach_x, xallowed, xstep in SessSpec.v); C59_reads_back: everything held reads back; C59_no_leak, C59_all_freed: ownership of allocations; C59_storage_back: the sequence gets its storage back. Same exception as C45: VBox::new when the allocator refuses (C28). The numbers under which elements will be held are chosen when the iterator is made (a simplification of the model, no restriction)."
  },
  {
   "property": "C60",
   "status": "proved",
   "theorems": [
    "C60_calls_correct",
    "C60_plain_programs",
    "C60_text_programs",
    "C60_panicking_destructors",
    "C60_reentrant_programs",
    "C60_all_returned",
    "C60_no_double_free"
   ],
   "note": "heap_calls (TraceSpec.v) replays the calls of the allocator in the log against the list of live allocations. C60_calls_correct: any run of any program, iterators included; C60_plain_programs, C60_text_programs, C60_panicking_destructors, C60_reentrant_programs: the other kinds of program; C60_all_returned: nothing is left at the end; C60_no_double_free: in terms of two calls and one address. The theorems speak about runs that have not hit undefined behaviour; that safe programs do not is C45, C51, C52 and C59."
  },
  {
   "property": "C61",
   "status": "proved",
   "theorems": [
    "C61_reentrant",
    "C61_reads_back",
    "C61_no_user_code"
   ],
   "note": "ReenterModel.v repeats every function that calls user code with a hook at each call; a hook runs any operations of the program (nested, panics caught) on the values the running operation does not mention. C61_reentrant: whole programs, against ustep (ReenterSpec.v), which says that each operation does what astep says it does alone and that its events are a shuffle of its own and those of the user code; own_calls says which user code an operation calls. C61_reads_back: the values afterwards. C61_no_user_code: with empty hooks the model is that of C45. Simplifications: user code cannot use values the operation only reads (Rust would allow shared reads); length expressions and a user's own ArrayInitializer have no hooks; destructors do not panic here (C51); the result of a closure or iterator is fixed in the initializer."
  },
  {
   "property": "C62",
   "status": "proved",
   "theorems": [
    "C62_names_exact",
    "C62_no_capture"
   ],
   "note": "MacroNames.v: for each generated item, the rule of rustc on its names and a small type check of the local variables and layout fields (usize, <t as VarLen>::Layout, the tuple of controllers). C62_names_exact: accepted iff names_rule, both directions. C62_no_capture: accepted implies names_ok, the hypothesis of the C49 theorems, so C49 holds for every struct that compiles. Not modelled: items or generics of the user with a generated name (InitX, Init, Refs, Muts, LayoutControllers), raw identifiers; the conversions to UpperCamel and of the struct name to its module name are arbitrary functions. The refused definitions are compile errors in code that looks fine to the user (e.g. an array field called size), not unsoundness."
  },
  {
   "property": "C63",
   "status": "proved",
   "theorems": [
    "C63_coercions",
    "C63_coercions_owner",
    "C63_object_coercions",
    "C63_handles_stay",
    "C63_object_threads",
    "C63_object_unpin",
    "C63_refs_threads",
    "C63_refs_coercions",
    "C63_no_extension"
   ],
   "note": "TypeModel.v: a grammar of Rust types, rustc's rules for subtyping (variance) and for Send, Sync and Unpin (trusted: a specification of the compiler), the struct definitions of the crate transcribed field by field, and what safe code can do with a handle on an object. All characterisations are exact (iff). C63_no_extension: every history. Not modelled: layout types and tuple Cloners (associated types), signatures of individual methods beyond the borrow they make, a user type has one lifetime."
  },
  {
   "property": "C64",
   "status": "proved",
   "theorems": [
    "C64_no_alias_ub",
    "C64_mutable_is_unique",
    "C64_refs_all",
    "C64_muts_all",
    "C64_needs_wide_references"
   ],
   "note": "AliasModel.v: the rules of Tree Borrows (trusted: a specification of the language, without protectors and interior mutability) and the functions of the crate as sequences of retags and accesses; memory contents are forgotten, layouts are those of some value of the type. AliasSpec.v: the client's rules. Finding: under Stacked Borrows all accesses to a tail through a reference to the object are undefined (C64_needs_wide_references, exact for Deref of an Array); the crate needs the more permissive rules."
  },
  {
   "property": "C65",
   "status": "partial",
   "theorems": [
    "C65_cell_set_exact",
    "C65_cell_is_assign",
    "C65_only_controllers",
    "C65_swap_headers_exact",
    "C65_programs_safe_partial",
    "C65_programs_read_partial",
    "C65_cell_refuted",
    "C65_unpin_impl_refuted"
   ],
   "note": "False of the code: C65_cell_refuted (a layout controller with interior mutability, set through refs()), C65_unpin_impl_refuted (a hand-written impl Unpin, mem::swap). C65_programs_safe_partial and C65_programs_read_partial hold for programs in which such steps keep the layouts; C65_cell_set_exact and C65_swap_headers_exact say exactly when they do. That length expressions can read a cell needs a const fn that does (user types; Cell itself in recent releases of Rust)."
  },
  {
   "property": "C66",
   "status": "proved",
   "theorems": [
    "C66_decomposes",
    "C66_fine_safe",
    "C66_no_race",
    "C66_fine_as_if_alone",
    "C66_fine_reads_back",
    "C66_fine_no_leak",
    "C66_fine_covers",
    "C66_threads_safe",
    "C66_as_if_alone",
    "C66_reads_back",
    "C66_undisturbed",
    "C66_no_leak",
    "C66_all_freed"
   ],
   "note": "C66_threads_safe to C66_all_freed: whole operations are interleaved. C66_fine_*: single accesses are (a memcpy, a typed load or store, a call of the allocator are one access each; C66_no_race says that it would not matter if they were not). The code of an operation is any code that does what the operation does when it is not interrupted; C66_decomposes: there is such code. The allocator calls are atomic (GlobalAlloc is thread-safe). References sent to other threads are C56."
  },
  {
   "property": "C67",
   "status": "partial",
   "theorems": [
    "C67_accepts",
    "C67_refuses",
    "C67_problem_reported",
    "C67_panics_exact",
    "C67_no_panic_partial",
    "C67_no_panic_refuted"
   ],
   "note": "Exact: C67_accepts (when there is code, and which), C67_refuses and C67_problem_reported (the error), C67_panics_exact (when the macro itself panics). That it never panics is false (C67_no_panic_refuted): a varlen or varlen_array field with a raw name (r#type) makes format_ident! panic in mk_init_ident (lib.rs:567, to_string keeps the r#), and so does a struct whose name has no snake-case form (lib.rs:246). C67_no_panic_partial: it does not panic when the derived names are identifiers. The case conversions (a dependency) are arbitrary functions; the refutation says what it needs of them."
  },
  {
   "property": "C68",
   "status": "proved",
   "theorems": [
    "C68_same_code",
    "C68_crate_types",
    "C68_boxes",
    "C68_user_type",
    "C68_vbox",
    "C68_vbox_drop",
    "C68_owned_drop",
    "C68_owned_new",
    "C68_push",
    "C68_extend",
    "C68_extend_owning",
    "C68_iter",
    "C68_from_offset",
    "C68_offset_of",
    "C68_take_elems",
    "C68_drain",
    "C68_seq_drop",
    "C68_history",
    "C68_no_leak",
    "C68_all_freed",
    "C68_no_UB"
   ],
   "note": "The contract (ContractSpec.v) is the safety sections of lib.rs, clause by clause, over an arbitrary meaning of values. C68_same_code: at the crate's types the generic code is the code of the other model files. C68_crate_types, C68_boxes, C68_user_type: the contract is kept by every well-formed type of the crate, by boxes as initializers, and by a zero-terminated string the macros cannot define. C68_vbox, _vbox_drop, _owned_new, _owned_drop, _push, _extend, _extend_owning (an iterator that owns its items: those left when a push panics are dropped), _iter, _from_offset, _offset_of, _take_elems, _drain, _seq_drop: each operation; C68_history, C68_no_leak, C68_all_freed, C68_no_UB: whole programs. C68_contract_needed_concrete: undefined behaviour when calculate_layout is wrong. Zero-sized objects are excluded as in C12 and C13."
  }
 ]
}