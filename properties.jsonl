{"id": "C01", "title": "Cautious layout is exact and detects every overflow", "statement": "Initializer::calculate_layout_cautious returns None exactly when some offset or size of the object (computed with unbounded integers: each tail part placed at the next multiple of its alignment, right after the previous one) does not fit in usize; otherwise it returns exactly those unbounded offsets and sizes. If a length expression panics on the controllers of the initializer, no layout is returned (None or the panic).", "quantifier": "every variable-length type built from FixedLen, Array, Str, tuples, newtypes and define_varlen structs (any nesting), every initializer for it, every array length up to usize::MAX", "why_tests_cant": "the overflow boundary depends on 64-bit lengths combined with arbitrary alignments and nesting; tests only try usize::MAX and tiny sizes", "anchors": ["varlen/src/macro_support.rs:cat_array_field_cautious", "varlen/src/macro_support.rs:cat_field_cautious", "varlen/src/array.rs:SizedInit", "varlen/src/tuple.rs:define_tuple", "varlen_macro/src/lib.rs:define_varlen_impl"]}
{"id": "C02", "title": "Layout reported by an object agrees with the layout promised by its initializer", "statement": "Whenever an initializer reports a layout and initialize returns normally with that layout, calculate_layout on the resulting object returns the very same layout (same size, same offset of every tail part, recursively).", "quantifier": "every type, every initializer (values, copies, clones, boxes), every destination address and memory contents", "why_tests_cant": "two different code paths (checked arithmetic on the initializer, wrapping arithmetic on raw memory) have to agree on all inputs", "anchors": ["varlen/src/lib.rs:Initializer", "varlen/src/lib.rs:VarLen", "varlen/src/macro_support.rs:cat_field_fast", "varlen/src/macro_support.rs:cat_array_field_fast"]}
{"id": "C03", "title": "Initialization writes only inside the object", "statement": "initialize(dst, layout) modifies no byte outside [dst, dst+layout.size()), whether it returns or panics, and never accesses memory out of bounds or misaligned.", "quantifier": "every type, initializer, destination, initial memory, and every panic point of user closures/iterators/clones", "why_tests_cant": "out-of-bounds writes are silent in tests; panics can occur at any element", "anchors": ["varlen/src/lib.rs:Initializer::initialize", "varlen/src/macro_support.rs:init_array", "varlen/src/macro_support.rs:init_field"]}
{"id": "C04", "title": "Construct/read round trip", "statement": "Reading an object back through its accessors (FixedLen.0, Array/Str deref, refs(), inner()) after initialization yields exactly the values its initializer described: every array element in order, every tuple and struct field.", "quantifier": "every type, initializer and destination", "why_tests_cant": "depends on offset arithmetic for unbounded nesting and lengths", "anchors": ["varlen/src/array.rs:Deref", "varlen/src/tuple.rs:refs", "varlen/src/vbox.rs:VBox::new", "varlen_macro/src/lib.rs:refs"]}
{"id": "C05", "title": "Fields are inside the object, disjoint, and correctly aligned", "statement": "In every layout the header and tail parts occupy pairwise disjoint byte ranges inside [0,size), in declaration order, and if the object address is a multiple of ALIGN then every part (recursively, down to single array elements) is at an address that is a multiple of its own alignment; ALIGN is a power of two and at least every part's alignment.", "quantifier": "every type, every lengths", "why_tests_cant": "a universally quantified arithmetic fact about rounding masks with arbitrary power-of-two alignments", "anchors": ["varlen/src/lib.rs:VarLen::ALIGN", "varlen/src/macro_support.rs:array_max", "varlen/src/array.rs:ALIGN"]}
{"id": "C06", "title": "Mutable access to one part changes only that part", "statement": "Writing a leaf value through muts()/mut_slice()/inner_mut() replaces exactly that leaf: all other leaves read back unchanged, calculate_layout returns the same layout, and no byte outside the leaf changes.", "quantifier": "every type, object, path to a leaf, new value", "why_tests_cant": "non-interference between any two of unboundedly many leaves", "anchors": ["varlen/src/tuple.rs:muts", "varlen/src/array.rs:mut_slice", "varlen/src/str.rs:mut_slice", "varlen_macro/src/lib.rs:muts"]}
{"id": "C07", "title": "vcopy makes an identical object and leaves the source alone", "statement": "Initializing from vcopy() produces an object that reads back exactly as the source; the source object is unchanged; no destructor or clone runs.", "quantifier": "every copyable type, every object, every non-overlapping destination", "why_tests_cant": "byte-level copy of an object of unbounded size and nesting", "anchors": ["varlen/src/lib.rs:VCopier", "varlen/src/lib.rs:VCopy"]}
{"id": "C08", "title": "vclone clones every part exactly once and leaves the source alone", "statement": "Initializing from vclone() yields an object with the same shape in which every fixed-size leaf is the clone of the corresponding source leaf; each leaf is cloned exactly once, in order; the source is unchanged; the layout equals the source's layout.", "quantifier": "every cloneable type, every object", "why_tests_cant": "recursion through arbitrary nesting", "anchors": ["varlen/src/lib.rs:VClone", "varlen/src/array.rs:ArrayCloner", "varlen/src/tuple.rs:Cloner", "varlen/src/str.rs:StrCloner"]}
{"id": "C09", "title": "VBox releases exactly what it allocated", "statement": "VBox::new requests one allocation of exactly the object's size and ALIGN; dropping the VBox at any later time, after any permitted mutations, returns that same block with the same size and alignment, and leaves every other live allocation untouched.", "quantifier": "every type with non-zero size, initializer, allocator behaviour and mutation history", "why_tests_cant": "needs the size recomputed from memory at drop time to equal the size at allocation for all histories", "anchors": ["varlen/src/vbox.rs:VBox::new", "varlen/src/vbox.rs:Drop"]}
{"id": "C10", "title": "Dropping an object drops each contained value exactly once", "statement": "vdrop (hence dropping a VBox or Owned) runs the destructor of every contained fixed-size value that has one exactly once, in declaration/index order, and of nothing else.", "quantifier": "every type and object", "why_tests_cant": "exactly-once over unboundedly many contained values", "anchors": ["varlen/src/lib.rs:VarLen::vdrop", "varlen/src/macro_support.rs:drop_array", "varlen/src/macro_support.rs:vdrop_field"]}
{"id": "C11", "title": "Moving a VBox into a container moves the contents once", "statement": "Using a VBox<T> as an initializer yields an object that reads back as the box's contents, frees the box's allocation exactly once with its original layout, and runs no destructor.", "quantifier": "every type, object, destination, also as a field initializer inside tuples and structs", "why_tests_cant": "ownership transfer must be right for every type and nesting", "anchors": ["varlen/src/vbox.rs:Initializer for VBox"]}
{"id": "C12", "title": "Moving an Owned into a container moves exactly the object", "statement": "Using an Owned<T> as an initializer copies exactly the object's bytes to the destination: the result reads back as the Owned's contents and nothing outside the destination object is written or read.", "quantifier": "every type, object and destination", "why_tests_cant": "the number of bytes copied depends on both the static head size and the dynamic size; only types whose head is one byte behave", "anchors": ["varlen/src/owned.rs:Initializer for Owned"]}
{"id": "C13", "title": "Owned::leak never runs the destructor", "statement": "Owned::leak returns a reference to the object and no contained value's destructor runs.", "quantifier": "every type and object", "why_tests_cant": "a compile-time drop-scope subtlety visible only for types with destructors", "anchors": ["varlen/src/owned.rs:Owned::leak"]}
{"id": "C14", "title": "Dropping an Owned destroys the contents but not the storage", "statement": "Dropping an Owned<T> runs each contained destructor exactly once, frees no memory, and changes no live allocation; into_raw followed by from_raw is the identity and runs no destructor.", "quantifier": "every type and object", "why_tests_cant": "exactly-once over all contained values", "anchors": ["varlen/src/owned.rs:Drop", "varlen/src/owned.rs:Owned::into_raw"]}
{"id": "C15", "title": "Seq behaves as a list under push", "statement": "After any sequence of pushes (with arbitrary element sizes, growth and allocator placements), len() is the number of successful pushes and iter() yields exactly the pushed values in order.", "quantifier": "every element type of non-zero size, every history of pushes (including ones that panic), both indexing modes, every allocator behaviour", "why_tests_cant": "unbounded histories crossing arbitrarily many reallocations", "anchors": ["varlen/src/seq.rs:Seq::push", "varlen/src/seq.rs:Iter", "varlen/src/seq.rs:try_realloc"]}
{"id": "C16", "title": "Offsets are stable and cumulative", "statement": "offset() equals the sum over elements of ceil(size/ALIGN); the value of offset() before a push is forever after (for every later push) an offset at which the pushed element is found; offsets of existing elements never change by pushing.", "quantifier": "every history of pushes", "why_tests_cant": "must survive every possible reallocation point", "anchors": ["varlen/src/seq.rs:Seq::offset", "varlen/src/seq.rs:Seq::from_offset_unchecked", "varlen/src/seq.rs:try_push"]}
{"id": "C17", "title": "offset_of and from_offset_unchecked are inverse; foreign references panic", "statement": "For each element yielded by iter(), offset_of returns its offset and from_offset_unchecked of it returns the same element; for a reference that does not point into the occupied storage, offset_of panics.", "quantifier": "every sequence state and every address", "why_tests_cant": "quantifies over all addresses, including wrap-around of the subtraction", "anchors": ["varlen/src/seq.rs:Seq::offset_of", "varlen/src/seq.rs:Seq::from_offset_unchecked"]}
{"id": "C18", "title": "Checked indexing accepts exactly the element starts (no element has been taken out)", "statement": "For an IndexableSeq built by any history of pushes, is_offset_valid(o) is true exactly when o is the offset of an element; from_offset(o)/from_offset_mut(o) returns that element and panics for every other o.", "quantifier": "every history of pushes (some of which may panic) and every o in usize", "why_tests_cant": "all offsets, across arbitrarily many growths of the bitmap", "anchors": ["varlen/src/seq.rs:Seq::is_offset_valid", "varlen/src/seq.rs:Seq::from_offset", "varlen/src/seq.rs:CheckedIndexing"]}
{"id": "C19", "title": "Checked indexing stays exact after take_elems", "statement": "The previous property also holds for histories that contain take_elems(): an offset valid before take_elems is not accepted afterwards unless an element has again been pushed at exactly that offset.", "quantifier": "every history of pushes and take_elems, every o", "why_tests_cant": "needs a particular interleaving of sizes before and after take_elems", "anchors": ["varlen/src/seq.rs:Seq::take_elems", "varlen/src/seq.rs:clear_bitmasks"]}
{"id": "C20", "title": "Growth policy", "statement": "occupied <= capacity always; a push reallocates only when the new element does not fit; on reallocation the new capacity is max(needed, ceil(32/ALIGN), 2*old capacity) offsets; capacity never decreases.", "quantifier": "every history", "why_tests_cant": "an invariant over unbounded histories", "anchors": ["varlen/src/seq.rs:try_realloc", "varlen/src/seq.rs:Seq::capacity_in_offsets"]}
{"id": "C21", "title": "push is amortised O(1)", "statement": "Over any history of pushes the total number of storage bytes ever requested for (re)allocation is bounded by a constant times the final capacity, which itself is bounded by a constant times the bytes of the elements (plus a constant): at most 4 times total element offsets plus the initial minimum.", "quantifier": "every history of pushes", "why_tests_cant": "an asymptotic claim about unbounded histories", "anchors": ["varlen/src/seq.rs:try_realloc", "varlen/src/seq.rs:Seq"]}
{"id": "C22", "title": "take_elems hands out every element exactly once", "statement": "take_elems leaves the sequence empty with the same capacity; the iterator yields the elements in order; elements obtained belong to the caller, and dropping the iterator at any point drops exactly the not-yet-yielded ones, each once.", "quantifier": "every sequence and every number of items taken before the iterator is dropped", "why_tests_cant": "exactly-once over all split points", "anchors": ["varlen/src/seq.rs:Seq::take_elems", "varlen/src/seq.rs:OwnedElems"]}
{"id": "C23", "title": "Dropping a Seq drops every element once and frees its storage with the right layout", "statement": "Dropping a Seq runs the destructors of its elements' contents exactly once each, in order, then returns its storage with exactly the size and alignment it was last (re)allocated with; an empty never-grown Seq frees nothing.", "quantifier": "every history, both indexing modes, non-zero-size element types", "why_tests_cant": "layout recomputation (including the bitmap) must match the last realloc for all histories", "anchors": ["varlen/src/seq.rs:Drop for Seq", "varlen/src/seq.rs:Seq::layout", "varlen/src/seq.rs:extended_layout"]}
{"id": "C24", "title": "Zero-size elements: every element is dropped", "statement": "Dropping a Seq whose elements have size zero runs each element's destructor exactly once.", "quantifier": "every zero-size element type and number of elements", "why_tests_cant": "only zero-size types with destructors expose it", "anchors": ["varlen/src/seq.rs:Drop for Seq", "varlen/src/seq.rs:try_push"]}
{"id": "C25", "title": "Zero-size elements: checked push is memory safe", "statement": "Pushing a zero-size element onto an IndexableSeq touches only memory belonging to the sequence.", "quantifier": "every zero-size element type and history", "why_tests_cant": "writes through a dangling pointer are not observable by ordinary tests", "anchors": ["varlen/src/seq.rs:mark_offset_valid", "varlen/src/seq.rs:try_push"]}
{"id": "C26", "title": "A failed push leaves the Seq unchanged", "statement": "If push panics because a length expression panics, the layout overflows, the allocator fails, or the element's own initialization panics at any point, then the sequence afterwards has the same length, offset() and elements as before and all later operations behave normally; nothing owned by the sequence is dropped or leaked by it.", "quantifier": "every state, initializer, failure point (allocation failure or panic at any element)", "why_tests_cant": "crash points: one per allocation and per element initialised", "anchors": ["varlen/src/seq.rs:try_push", "varlen/src/seq.rs:must_realloc"]}
{"id": "C27", "title": "VBox::new survives allocation failure", "statement": "If the allocator reports failure, VBox::new does not access memory (it diverges or panics).", "quantifier": "every type, initializer", "why_tests_cant": "allocation failure cannot be provoked in ordinary tests", "anchors": ["varlen/src/vbox.rs:VBox::new"]}
{"id": "C28", "title": "The global allocator is never asked for zero bytes", "statement": "No operation calls alloc or realloc with a zero-size layout (which the GlobalAlloc contract forbids).", "quantifier": "every type and history", "why_tests_cant": "undefined behaviour that common allocators tolerate silently", "anchors": ["varlen/src/vbox.rs:VBox::new", "varlen/src/seq.rs:alloc_storage", "varlen/src/seq.rs:grow_storage"]}
{"id": "C29", "title": "Iterator limits and length hints are exact", "statement": "limited_to(n) yields exactly the first min(n, remaining) elements; len()/size_hint()/count() equal the number of elements that will be yielded, at every point of the iteration.", "quantifier": "every sequence, iterator position and n", "why_tests_cant": "all positions and limits", "anchors": ["varlen/src/seq.rs:Iter::limited_to", "varlen/src/seq.rs:IterMut::limited_to", "varlen/src/seq.rs:ExactSizeIterator"]}
{"id": "C30", "title": "iter_mut visits every element once and mutations stay within their element", "statement": "iter_mut yields the elements in order at pairwise disjoint byte ranges; mutating a leaf of one element leaves all other elements, the length, offsets and (in checked mode) the validity of every offset unchanged.", "quantifier": "every sequence, element index and mutation", "why_tests_cant": "non-interference over unboundedly many elements", "anchors": ["varlen/src/seq.rs:IterMut"]}
{"id": "C31", "title": "extend, collect and seq! are iterated push", "statement": "Extending from an iterator (or collecting, or seq!) has the effect of pushing the items in iteration order; if one item panics the earlier ones remain.", "quantifier": "every list of initializers", "why_tests_cant": "unbounded lists and every failing position", "anchors": ["varlen/src/seq.rs:Extend", "varlen/src/seq.rs:FromIterator", "varlen/src/seq.rs:seq"]}
{"id": "C32", "title": "Length conversion is lossless or refused", "statement": "Array::try_copy / try_clone_from_slice (and Str::try_copy) return None exactly when the source length exceeds the maximum of the Len type; otherwise the array built reports exactly that length via len() and len_short().", "quantifier": "all five length types and every source length", "why_tests_cant": "boundary at 2^8, 2^16, 2^32, 2^64", "anchors": ["varlen/src/array.rs:try_copy", "varlen/src/array.rs:ArrayLen", "varlen/src/str.rs:try_copy"]}
{"id": "C33", "title": "Str always holds exactly the bytes it was given (valid UTF-8 stays valid)", "statement": "A Str built from a &str (directly, by vcopy, vclone, via VBox or Seq) derefs to exactly the same byte sequence; hence it is valid UTF-8 whenever the source is.", "quantifier": "every byte string, length type and container", "why_tests_cant": "all strings of all lengths", "anchors": ["varlen/src/str.rs:Str", "varlen/src/str.rs:Deref"]}
{"id": "C34", "title": "Array initializers fill every slot in order or panic", "statement": "FillSequentially calls its closure once per index in ascending order and stores result i in slot i; FillWithDefault stores defaults; FromIterPrefix stores the first n items and panics iff the iterator ends early; CopyFrom/CloneFrom/MoveFrom store the source elements and panic iff lengths differ. The same holds for new_array.", "quantifier": "every length, closure behaviour, iterator, source", "why_tests_cant": "every length and every failing position", "anchors": ["varlen/src/array_init.rs:FillSequentially", "varlen/src/array_init.rs:FromIterPrefix", "varlen/src/array_init.rs:CopyFrom", "varlen/src/array_init.rs:CloneFrom", "varlen/src/array_init.rs:MoveFrom", "varlen/src/array_init.rs:new_array"]}
{"id": "C35", "title": "No value is dropped twice when construction panics", "statement": "If initialization panics at any point, every value owned by the initializer (moved values, boxes, MoveFrom arrays) is dropped at most once, every box it owned is freed exactly once, and no value already belonging to someone else is dropped.", "quantifier": "every initializer and panic point", "why_tests_cant": "one scenario per panic point and nesting", "anchors": ["varlen/src/array_init.rs:MoveFrom", "varlen/src/tuple.rs:initialize", "varlen_macro/src/lib.rs:initialize"]}
{"id": "C36", "title": "Layout-controlling fields can be set only without changing the layout", "statement": "try_set_layout_controllers returns Ok exactly when every array-length expression has the same value for old and new controllers; then the controllers take their new values, every array and every other field reads back unchanged and calculate_layout is unchanged; on Err nothing changes. If a length expression panics on the new controllers, the panic propagates, the object is unchanged and the new controllers are dropped.", "quantifier": "every define_varlen struct, length expressions, object and new controllers", "why_tests_cant": "all length functions and values", "anchors": ["varlen_macro/src/lib.rs:try_set_layout_controllers"]}
{"id": "C37", "title": "Setting layout controllers is panic-safe", "statement": "If dropping an old controller value panics in the middle of try_set_layout_controllers, the object is still consistent (its array lengths are unchanged).", "quantifier": "every struct, values and panic position", "why_tests_cant": "needs a panicking destructor at one specific assignment", "anchors": ["varlen_macro/src/lib.rs:try_set_layout_controllers"]}
{"id": "C38", "title": "Skipping vdrop when it is reported unnecessary changes nothing", "statement": "If NEEDS_VDROP is false, vdrop has no observable effect (no destructor runs), so containers may skip it; in particular OwnedElems and tuples skipping it lose no destructor.", "quantifier": "every type and object", "why_tests_cant": "must hold for every nesting", "anchors": ["varlen/src/lib.rs:NEEDS_VDROP", "varlen/src/seq.rs:Drop for OwnedElems", "varlen/src/tuple.rs:vdrop"]}
{"id": "C39", "title": "Newtypes are transparent", "statement": "A define_varlen_newtype wrapper has the same ALIGN, layout, bytes, accessors and drop behaviour as the wrapped type, and its initializer behaves as the inner initializer.", "quantifier": "every inner type, object and initializer", "why_tests_cant": "every inner type", "anchors": ["varlen/src/newtype.rs:define_varlen_newtype", "varlen/src/newtype.rs:impl_initializer_as_newtype"]}
{"id": "C40", "title": "define_varlen accepts at most one kind attribute per field", "statement": "A field is rejected exactly when it carries two or more of #[varlen], #[varlen_array], #[controls_layout]; otherwise it gets the kind of its single attribute (or Normal) and keeps its other attributes in order.", "quantifier": "every attribute list", "why_tests_cant": "all lists and orders", "anchors": ["varlen_macro/src/lib.rs:parse_fields"]}
{"id": "C41", "title": "Generated inner items keep the visibility the user asked for", "statement": "For each accepted visibility on the struct or a field, the corresponding item generated one module deeper is visible from exactly the same modules.", "quantifier": "every module path and every visibility form", "why_tests_cant": "quantifies over all module trees", "anchors": ["varlen_macro/src/lib.rs:SimpleVisibility::try_parse"]}
{"id": "C42", "title": "Bitmap memory overhead", "statement": "An IndexableSeq with capacity c (offsets) uses exactly ceil(c/8) extra bytes over the plain storage of c*ALIGN bytes, and pushing never reads or writes outside that block.", "quantifier": "every history", "why_tests_cant": "every growth step", "anchors": ["varlen/src/seq.rs:add_bitmask_to_layout"]}
{"id": "C43", "title": "Storage-size arithmetic of checked sequences cannot overflow", "statement": "The unchecked addition of bitmap bytes to the storage size never wraps, for every layout accepted by Layout::from_size_align.", "quantifier": "every size/alignment accepted by from_size_align (both the current isize::MAX rule and the pre-1.65 usize::MAX rule of the toolchains current at this commit)", "why_tests_cant": "only sizes near 2^64 matter", "anchors": ["varlen/src/seq.rs:add_bitmask_to_layout"]}
{"id": "C44", "title": "VBox::clone is independent of the original", "statement": "Cloning a VBox yields an object reading back as the clone of the original in a separate allocation; mutating or dropping either leaves the other unchanged.", "quantifier": "every cloneable type and object", "why_tests_cant": "non-interference over all mutations", "anchors": ["varlen/src/vbox.rs:Clone"]}
{"id": "C45", "title": "Whole-program memory safety of the safe API", "statement": "Any finite program over any number of VBoxes, Owned items and Seqs made of calls of the safe API (excluding the operations refuted above) never reads or writes out of bounds, misaligned, uninitialised length or bitmap bytes or freed memory, never frees with a wrong layout, and each live handle always reads back as the value predicted by a purely functional specification.", "quantifier": "every program (operation list), every type, every allocator behaviour", "why_tests_cant": "arbitrary interleavings of operations on many handles", "anchors": ["varlen/src/seq.rs", "varlen/src/vbox.rs", "varlen/src/lib.rs"]}
{"id": "C46", "title": "Arena allocation", "statement": "Owned::new_in places the object in storage of sufficient size and alignment provided by the arena, reads back as its initializer described; dropping the Owned runs destructors once and leaves the arena storage.", "quantifier": "every type, initializer and arena behaviour", "why_tests_cant": "every type and placement", "anchors": ["varlen/src/owned.rs:Owned::new_in"]}
{"id": "C47", "title": "define_varlen generates, for every field, the code of its kind, in declaration order", "statement": "A struct is accepted exactly when each field has at most one kind attribute, a supported visibility, and an array type if it is a #[varlen_array]. For an accepted struct the generated declarations, initializers, accessors, drop and NEEDS_VDROP fragments are, in declaration order, exactly those of each field's kind and mention only identifiers of that field; the layout controllers are the #[controls_layout] fields in order (and are only exposed as shared references); the tail is the #[varlen] and #[varlen_array] fields in order.", "quantifier": "every list of field declarations", "why_tests_cant": "all field lists, attribute combinations and orders", "anchors": ["varlen_macro/src/lib.rs:parse_fields", "varlen_macro/src/lib.rs:FieldGroups::push_normal", "varlen_macro/src/lib.rs:FieldGroups::push_length", "varlen_macro/src/lib.rs:FieldGroups::push_varlen", "varlen_macro/src/lib.rs:FieldGroups::push_varlen_array"]}
{"id": "C48", "title": "Debug assertions never fire", "statement": "The debug_assert!s of the crate hold whenever they are reached: VBox::new, Seq::push (and extend/collect), from_offset(_mut), from_offset_unchecked(_mut) on an element's offset, and offset_of on a reference to a live object of the element type behave in a debug build exactly as in a release build. The only exception is offset_of on a sequence that never allocated, where both builds panic.", "quantifier": "all types, initializers, allocator behaviours, sequence histories, offsets and references", "why_tests_cant": "The assertions depend on sizes, growth histories and addresses chosen by the allocator; tests reach only a few of them.", "anchors": ["varlen/src/vbox.rs:VBox::new", "varlen/src/seq.rs:grow_storage", "varlen/src/seq.rs:Seq::offset_of", "varlen/src/seq.rs:Seq::from_offset_unchecked", "varlen/src/seq.rs:Seq::from_offset_unchecked_mut"]}
{"id": "C49", "title": "The code define_varlen generates behaves as the struct the user wrote", "statement": "For every struct definition the macro and rustc accept, the generated calculate_layout, calculate_layout_cautious, ALIGN, NEEDS_VDROP, vdrop, initialize (including what is dropped when a field initializer panics), the drop glue of Init, refs, muts and try_set_layout_controllers do, on every state, exactly what the struct type means: each field gets the offset, length, initializer, destructor and accessor of its own declaration, looked up by its own name, whatever the names, order and kinds of the fields are, and no generated name captures another.", "quantifier": "every list of field declarations whose generated names are distinct (as rustc requires), every meaning of their types and length expressions, every state and initializer", "why_tests_cant": "The generated code depends on the number, order, kinds and names of the fields; tests expand a few structs.", "anchors": ["varlen_macro/src/lib.rs:define_varlen_impl", "varlen_macro/src/lib.rs:mk_layout_ident", "varlen_macro/src/lib.rs:mk_init_ident", "varlen/src/macro_support.rs"]}
{"id": "C50", "title": "In a whole program every value with a destructor is destroyed exactly once", "statement": "Take any program over the safe API: it creates, moves, clones, mutates, pushes, drains and drops any number of VBox, Owned and Seq values, in any order, with any panics caught. At every point, each value with a destructor that entered (passed by value, or made by a closure, iterator, Default or Clone while an initializer ran) is, exactly as many times as it entered, either still held, or destroyed, or lost because client code called by an initializer panicked or because it was passed to mem::forget. No value is destroyed more often than it entered, nothing is lost when no such client code panicked and nothing was forgotten, and when such a program has given up everything, the destructors that ran are exactly those of the values that entered.", "quantifier": "every program (sequence of operations), every type, every initializer expression, every history of panics and allocation failures", "why_tests_cant": "Double drops and leaks appear for particular interleavings of moves, panics and drops across several owners; tests run a few programs.", "anchors": ["varlen/src/vbox.rs:VBox", "varlen/src/owned.rs:Owned", "varlen/src/seq.rs:Seq", "varlen/src/lib.rs:Initializer", "varlen/src/macro_support.rs:init_array"]}
{"id": "C51", "title": "Panicking destructors never break memory safety or cause a double drop", "statement": "Let destructors of element, header and FixedLen values panic in any pattern. Dropping a VBox, an Owned, a Seq or the elements taken out of a Seq (all at once or one by one while the program does other things with them), assigning over a field, and replacing the layout controllers of a struct, then ends in one of three ways: it returns after running every destructor; or it panics after destroying a prefix (in the usual order) of the values, completing the array in which the panic happened and leaking the rest together with the storage of that box or sequence; or the process aborts, exactly when two destructors of the same array panic or a destructor panics while another panic is unwinding. Assignment has stored the new value, a drained Seq is empty and usable. Replacing controllers is covered except for the defect of C37: when the destructor of one old controller panics, the controllers up to that one are new and the others old, and if such a mixture gives an array another length the object is broken. A program that catches such panics and goes on never runs into undefined behaviour, reads back unchanged everything it still holds, destroys no value more often than it entered, and leaks at most one heap block per panicking drop, VBox::new or mem::forget.", "quantifier": "all predicates saying which destructors panic, all types and values, all programs (sequences of allowed operations of the safe API), all allocators", "why_tests_cant": "which destructors panic, in which object and after which history is unbounded, and a double drop or a lost update shows only for particular combinations", "anchors": ["varlen/src/vbox.rs: Drop for VBox", "varlen/src/owned.rs: Drop for Owned", "varlen/src/seq.rs: take_elems, Drop for OwnedElems, Drop for Seq", "varlen/src/macro_support.rs: drop_array, vdrop_field", "varlen/src/tuple.rs: vdrop", "varlen_macro/src/lib.rs: vdrop, drop_field snippets", "varlen/src/seq.rs: Iterator for OwnedElems", "varlen_macro/src/lib.rs: try_set_layout_controllers"]}
{"id": "C52", "title": "Every Str a program can reach is UTF-8, whatever it does", "statement": "Take any program over the safe API (as in C45) that in addition reads the text of Str values and changes it through mut_slice() in any way a &mut str permits. At every point, every Str inside any VBox, Owned or Seq, at any depth of the type, holds well-formed UTF-8, and reading its text yields exactly those bytes; from_utf8_unchecked is never called on anything else, and no step has undefined behaviour. A change through mut_slice() reads back changed, runs no destructor, and leaves every other box, owned value and sequence as it was.", "quantifier": "all programs (sequences of allowed operations, panics caught), all types with Str anywhere inside, all texts, all UTF-8 preserving edits, all allocators", "why_tests_cant": "The UTF-8 invariant is what makes the unsafe from_utf8_unchecked sound; it must survive every history of copies, clones, pushes, moves, growth and edits, of which tests run a few.", "anchors": ["varlen/src/str.rs:Str, Deref, mut_slice, copy, try_copy, StrCloner", "varlen/src/newtype.rs:define_varlen_newtype", "varlen/src/array.rs:Array"]}
{"id": "C53", "title": "Generic structs: construction and access agree on the header", "statement": "For a generic struct defined with define_varlen, the layout used when an object is constructed starts from the size of the struct with its default generics, the layout used by every later access from the size of the actual instance. For every definition whose expansion compiles, these are the same for every instance: no header field type and no length expression can depend on a generic parameter.", "quantifier": "every struct definition (any generics, fields and types) whose expansion resolves, every two instances of it, every size rustc may give to a list of header field types", "why_tests_cant": "The sizes are those of two different instances of a user-written type; a test sees a few definitions and instances only.", "anchors": ["varlen_macro/src/lib.rs:define_varlen_impl (size_of::<#tyname>, Init, LayoutControllers, lengths)", "varlen_macro/src/lib.rs:parse_generics"]}
{"id": "C54", "title": "The expansion declares every generic it names", "statement": "Every generic parameter named in an item generated by define_varlen is declared by that item, so a struct may use its generics in any field. (Refuted: projections such as T::Item, const parameters in expressions, parameters in header fields or length expressions, where clauses on parameters that only arrays use, parameters without default, and a lifetime called 'a all break it.) Exactly: the layout type declares the parameters that occur as a plain name or lifetime in the type of some varlen field.", "quantifier": "every struct definition: any list of generic parameters with bounds, any where clause, any fields and types", "why_tests_cant": "Which generics must be declared depends on the syntax of user-written types of any depth.", "anchors": ["varlen_macro/src/lib.rs:GenericRefs", "varlen_macro/src/lib.rs:parse_generics", "varlen_macro/src/lib.rs:push_varlen"]}
{"id": "C55", "title": "Pinned objects stay where they are", "statement": "A reference to an object (or to a part of it) that lives in a VBox, an Owned or a Seq stays valid: the object keeps its address, type and shape under every operation that neither consumes its owner nor pushes to its sequence, whether the operation returns or panics; the address is the pointer of the owner plus an offset determined by the shapes alone; a push that fits in the capacity moves no element; and the memory of an object with destructors is neither freed nor used for another object before one has run - except that (refuted, although the API hands out Pin<&mut T> to these objects) a push that grows the storage moves all elements, a VBox used as an initializer moves its contents, and the memory of an element that take_elems() gave as an Owned and that was passed to mem::forget is used for the next element.", "quantifier": "every reachable state of every client program, every place (any nesting depth, any element, any offset), every operation or run of operations", "why_tests_cant": "Stability of addresses must hold for every history of operations on any number of owners and for every allocator behaviour; tests never compare addresses.", "anchors": ["varlen/src/vbox.rs:VBox::as_mut", "varlen/src/owned.rs:Owned::as_mut", "varlen/src/seq.rs:Seq::iter_mut", "varlen/src/seq.rs:Seq::push", "varlen/src/vbox.rs:Initializer for VBox"]}
{"id": "C56", "title": "Threads with separate references do not interfere", "statement": "Objects, or separate parts of objects (different boxes, different elements of a Seq, different fields of a struct or tuple), may be handed to different threads by reference, and one object to any number of reading threads. Under every schedule there is no undefined behaviour; each thread gets exactly the results and leaves exactly the value it would alone; the destructor calls are those each thread makes alone; everything else is unchanged; the program is in an ordinary state afterwards; the order of scheduling does not matter. The reason: a call on a reference (refs()/read, assignment through muts(), try_set_layout_controllers) reads and writes only bytes of the object it is given and neither allocates nor frees.", "quantifier": "every reachable state of a client program, every list of threads with references the borrow rules allow together, every list of calls per thread, every schedule (interleaving of calls), including calls that panic", "why_tests_cant": "Interleavings of arbitrarily many threads over arbitrary object layouts cannot be enumerated; a call that touched a neighbouring byte (padding of an adjacent element, a bitmask) would be a data race that tests do not observe.", "anchors": ["varlen/src/lib.rs:VarLen", "varlen/src/seq.rs:Seq::iter_mut", "varlen/src/vbox.rs:VBox::as_mut", "varlen_macro/src/lib.rs:define_varlen_impl (refs, muts, try_set_layout_controllers)"]}
{"id": "C57", "title": "Swapping values, and which types are Unpin", "statement": "mem::swap (or slice::swap) on references obtained from muts(), mut_slice() and FixedLen exchanges exactly the two values: nothing is destroyed, leaked or read uninitialized, every other object reads as before, and the program state stays valid; an index out of range panics and changes nothing. Whole objects can be swapped by safe code only if their type is Unpin. Every type with an array or a variable-length field, and every type whose objects have different sizes, is not Unpin, whatever the fixed-length types are; all objects of an Unpin type consist of their header only, so swapping size_of::<T>() bytes exchanges them completely.", "quantifier": "every reachable state of a client program, all pairs of places that do not contain each other, all leaves of equal type, all types and any choice of which fixed-length types are Unpin", "why_tests_cant": "A type that is Unpin although its objects have a tail is a soundness hole that no passing test shows: the test would have to swap two objects of different length, for each way of composing types.", "anchors": ["varlen/src/marker.rs:FieldMarker", "varlen/src/marker.rs:ArrayMarker", "varlen/src/array.rs:Array", "varlen/src/tuple.rs:define_tuple", "varlen/src/newtype.rs:define_varlen_newtype", "varlen/src/lib.rs:FixedLen", "varlen_macro/src/lib.rs:define_varlen_impl"]}
{"id": "C58", "title": "Initializing from a slice of an existing object", "statement": "CopyFrom and CloneFrom accept a slice borrowed from an object that already exists (the refs() of a field, an array dereferenced to a slice, any sub-range of them), nested to any depth. The new array has exactly those elements (for CloneFrom: each cloned once, in order), the object the slice was borrowed from reads as before, nothing else changes and nothing is dropped. A slice whose length differs from the length of the new array, or a clone that panics, makes the construction panic; the source is still unchanged.", "quantifier": "every reachable state of a client program, every object in it, every sub-range of every array in it, every destination (a box, an element of a sequence, a field of a larger object)", "why_tests_cant": "Source and destination are raw memory in the same heap; that they never overlap, that the source is still allocated when it is read (a push may move the storage of a sequence) and that no length combination reads past its end are statements about all heaps and all programs.", "anchors": ["varlen/src/array_init.rs:CopyFrom", "varlen/src/array_init.rs:CloneFrom", "varlen/src/array.rs:Array", "varlen/src/array.rs:SizedInit", "varlen/src/macro_support.rs:init_array", "varlen/src/macro_support.rs:ref_array"]}
{"id": "C59", "title": "Elements taken out of a sequence, used while the program goes on", "statement": "A program may keep the iterator returned by take_elems, and the owned elements next() returned, in variables and do anything else meanwhile: change, swap, clone, read, forget or drop elements already taken, create and drop boxes, push to other sequences, take elements of other sequences at the same time. Every element taken is the value the sequence held at that position and stays intact until the program changes it; nothing else is affected by what is done to it; dropping the iterator destroys exactly the elements not taken; forgetting it destroys nothing and leaks no allocation. When the iterator and the taken elements are gone the sequence is usable again: empty, with the same storage and capacity. There is no undefined behaviour and no allocation is lost or freed twice.", "quantifier": "every program over the safe API with any number of live iterators and taken elements, every interleaving of its operations, every element type without zero-size values, both indexing modes, every answer of the allocator, panics included", "why_tests_cant": "Every interleaving is a different history; the elements are owned values lying inside an allocation that belongs to someone else, and whether they are disjoint from everything the other operations write, allocate or free is a statement about all heaps and all programs.", "anchors": ["varlen/src/seq.rs:take_elems", "varlen/src/seq.rs:OwnedElems", "varlen/src/owned.rs:Owned", "varlen/src/seq.rs:Seq::push", "varlen/src/seq.rs:Seq::drop"]}
{"id": "C60", "title": "The allocator is used correctly", "statement": "Every request to the global allocator has a valid layout: a size greater than zero, a power of two as alignment, and a size that does not exceed isize::MAX when rounded up. Every dealloc and realloc names an allocation that exists and was not given back before, with exactly the size and alignment it was last allocated with. So no address is freed twice without having been handed out again in between. A program that has dropped everything it made, forgot nothing and saw no VBox::new panic has given every allocation back.", "quantifier": "every program: any sequence of operations on boxes, owned values, sequences, take_elems iterators, strings, each returning or panicking, with destructors that may panic, or with user code that itself uses the crate; every answer of the allocator including refusals", "why_tests_cant": "The sizes passed to dealloc are recomputed from headers and lengths that the program may have changed, and from a bitmap extension of the layout; a mismatch shows only under particular histories and is not observable with most allocators. It must hold for the whole sequence of calls of every program.", "anchors": ["varlen/src/vbox.rs:VBox::new", "varlen/src/vbox.rs:VBox::drop", "varlen/src/seq.rs:alloc_storage", "varlen/src/seq.rs:grow_storage", "varlen/src/seq.rs:try_realloc", "varlen/src/seq.rs:Seq::drop"]}
{"id": "C61", "title": "User code may use the crate while the crate is running it", "statement": "Closures passed to FillSequentially, iterators, Clone and Default implementations and destructors are called in the middle of VBox::new, Owned::new_in, Seq::push, drops, assignments, drains. Such code may itself create, change, read, drop and drain other boxes, owned values and sequences of the program, allocate and free, push to other sequences and make them grow, catch panics, and its operations may call user code again, to any depth. Whatever it does to values that the running operation neither owns nor borrows, there is no undefined behaviour, every operation at every level returns or panics as it does when no user code interferes, with the same result, calling the same user code and running the same destructors in the same order; afterwards every value reads back as expected and every heap block is held by a value, except one for each value forgotten and each VBox::new that panicked.", "quantifier": "every program, every script of user code for every call of user code in it, nested to any depth; every type, initializer, sequence state; every answer of the allocator", "why_tests_cant": "What user code does at a call, and how deep calls nest, is unbounded; a stale pointer, length or capacity kept across a call shows only when the call reallocates or frees just the right block at just the right moment.", "anchors": ["varlen/src/array_init.rs:FillSequentially", "varlen/src/array_init.rs:FromIterPrefix", "varlen/src/array_init.rs:CloneFrom", "varlen/src/vbox.rs:VBox::new", "varlen/src/vbox.rs:VBox::drop", "varlen/src/owned.rs:Owned::new_in", "varlen/src/seq.rs:try_push", "varlen/src/seq.rs:OwnedElems::drop", "varlen_macro/src/lib.rs:try_set_layout_controllers"]}
{"id": "C62", "title": "Which field names define_varlen accepts, and that generated names capture nothing", "statement": "define_varlen makes up names (size, lengths, x_layout, x_len, InitX) that live in the same scopes as the field names the user wrote. For a struct that the macro accepts, the generated code passes the compiler's rules on names (no duplicate field, function, variable or type parameter in one item; every name used is declared, with the type its use needs) if and only if: the module is not named like the struct or a keyword; the field names are distinct; no varlen or varlen_array field is called size, or like an array field followed by _len or a nested field followed by _layout; a varlen or varlen_array field called lengths is not declared before an array field; no two of these fields have the same UpperCamel form. Header fields may have any names. And whenever the compiler accepts, every generated name denotes what it was made for, so the generated code means what the macro documents (C49).", "quantifier": "every struct definition the macro accepts: any number, order, names and kinds of fields; every name of the struct and its module", "why_tests_cant": "The names, number and order of fields are unbounded, and a capture that still type-checks (two usize locals, say) would give a wrong offset silently only for one combination of names.", "anchors": ["varlen_macro/src/lib.rs:define_varlen_impl", "varlen_macro/src/lib.rs:mk_layout_ident", "varlen_macro/src/lib.rs:mk_init_ident", "varlen_macro/src/lib.rs:push_varlen", "varlen_macro/src/lib.rs:push_varlen_array"]}
{"id": "C63", "title": "The crate's types never extend a lifetime and let nothing cross threads that must not", "statement": "Safe code may coerce the crate's types in their lifetimes as the compiler derives it from their fields. Owners (VBox, Owned, Seq, OwnedElems) and readers (&T, Iter, VCopier, Refs) can be coerced exactly as their element types, mutable borrowers (Pin<&mut T>, IterMut, the writable fields of Muts) only to the same element type, and the lifetime parameter only be shortened. So however an object is passed between owners, borrowed, coerced and written to, what is read from it through a handle has a type that coerces to the element type of the handle, no lifetime in it being extended, and no borrow lasts longer than what it is borrowed from. Threads: VBox, Owned, Seq and the iterators are neither Send nor Sync whatever they hold; an object type is Send (Sync) exactly if all the values stored in its objects, at any depth, are; Refs can be sent exactly if all stored values are Sync, Muts exactly if the writable ones are Send and the layout controllers Sync. An object type is Unpin exactly as C57 assumes.", "quantifier": "every object type (any nesting), every user type with any variance and auto traits, every lifetime order, every sequence of coercions, moves, borrows, returns and writes", "why_tests_cant": "A wrong marker (PhantomData<&'a [T]> where &'a mut [T] is needed) compiles and passes all tests; it shows only for a client that combines a coercion, a write and a later read at just the right types.", "anchors": ["varlen/src/vbox.rs:VBox", "varlen/src/owned.rs:Owned", "varlen/src/seq.rs:Seq", "varlen/src/seq.rs:Iter", "varlen/src/seq.rs:IterMut", "varlen/src/seq.rs:OwnedElems", "varlen/src/marker.rs:FieldMarker", "varlen/src/marker.rs:ArrayMarker", "varlen/src/array.rs:Array", "varlen/src/tuple.rs:Muts", "varlen_macro/src/lib.rs:mut_ty"]}
{"id": "C64", "title": "The references the crate hands out obey Rust's aliasing rules", "statement": "However a client that follows the borrow checker's rules borrows from boxes, owned objects and sequences - shared or mutable references to whole objects, refs(), muts(), Deref and mut_slice of arrays, inner and inner_mut, iterators over a sequence and the elements they gave, at any depth and interleaved in any way - and whatever bytes it reads and writes through references that are still in use, no access made by it or by the crate (calculating layouts, copying, setting layout controllers, running destructors, deallocating, initializing) is undefined under the Tree Borrows rules. Two references in use of which one is mutable share no byte unless one was made from the other. refs() and muts() give a reference to every part of a record; those of muts() are mutable except to the layout controllers, whose bytes no mutable one covers. The crate does rely on references to an object being good for its tail: if they were good for size_of bytes only, as under Stacked Borrows, Deref of an Array would be undefined exactly when the array has at least one byte.", "quantifier": "every object type, every value, every client program of borrows, reads, writes and calls of any length that the borrow checker accepts, every choice of Unpin user types", "why_tests_cant": "Aliasing violations do not change what a test observes unless the optimizer uses them; Miri checks single executions.", "anchors": ["varlen/src/macro_support.rs:cat_field_fast", "varlen/src/macro_support.rs:ref_field", "varlen/src/macro_support.rs:mut_field", "varlen/src/macro_support.rs:ref_array", "varlen/src/macro_support.rs:mut_array", "varlen/src/macro_support.rs:vdrop_field", "varlen/src/tuple.rs:muts", "varlen/src/array.rs:deref", "varlen/src/array.rs:mut_slice", "varlen/src/seq.rs:IterMut", "varlen_macro/src/lib.rs:muts", "varlen_macro/src/lib.rs:try_set_layout_controllers"]}
{"id": "C65", "title": "The layout of a live object changes only through try_set_layout_controllers", "statement": "No safe code changes the layout (the sizes and positions of the parts) of a live object except by try_set_layout_controllers, which accepts only the same layout. In particular: if leaf values have interior mutability and are set through shared references (refs(), Deref, direct access to the header fields), or if a program swaps whole objects of types it defined itself, all later operations on all objects stay free of undefined behaviour and read back the expected values. What holds: setting any leaf changes just its bytes, and on everything but layout controllers it is the assignment through muts(); the layout is kept exactly if the object with the new value is still a value of its type; swapping two objects exchanges their headers and keeps a layout exactly if the header that an object gets suits its tail; programs that do both, keeping the layouts, are safe. What does not: layout controllers may have interior mutability, and the user may write impl Unpin for a type made by define_varlen or define_varlen_newtype, both without unsafe.", "quantifier": "every well-formed object type, every value and leaf, every new value, every pair of separate objects, every program of any length with such steps in between", "why_tests_cant": "It concerns what any client may do to any object; a test uses a few types, and none with interior mutability or a hand-written Unpin.", "anchors": ["varlen_macro/src/lib.rs:define_varlen_impl", "varlen_macro/src/lib.rs:try_set_layout_controllers", "varlen_macro/src/lib.rs:len_fn", "varlen/src/newtype.rs:define_varlen_newtype", "varlen/src/marker.rs", "varlen/src/lib.rs:VarLen"]}
{"id": "C66", "title": "Threads that own separate values", "statement": "Any number of threads, each with its own boxes, owned values and sequences (VBox, Owned and Seq stay on their thread), may use the crate at the same time: create, push, clone, assign, take, drop, forget, anything safe Rust allows. Whatever the interleaving, even between single memory accesses of their calls: there is no undefined behaviour (but VBox::new when the allocator gives no memory) and no data race; each thread gets exactly the outcomes, destructor calls and values that some run of it alone gives (only the addresses come from the shared allocator); no thread's values are changed or moved by another; every heap allocation has exactly one owner in one thread and is given back when it is dropped.", "quantifier": "every number of threads, started at any time; every list of allowed operations per thread with any initializers, including ones that panic; every interleaving, at the granularity of operations and of single memory accesses and allocator calls; every behaviour of the allocator", "why_tests_cant": "Interleavings of accesses of arbitrary programs cannot be enumerated; hidden shared state in the crate or one access outside a thread's own allocations would be a data race that shows in no test.", "anchors": ["varlen/src/vbox.rs:VBox", "varlen/src/owned.rs:Owned", "varlen/src/seq.rs:Seq", "varlen/src/seq.rs:seq_inner", "varlen/src/lib.rs:VarLen"]}
{"id": "C67", "title": "define_varlen either generates code or explains the first thing it does not support", "statement": "#[define_varlen] generates code for a declaration exactly when it is a struct with named fields whose visibility and fields are supported (at most one of the attributes varlen, varlen_array, controls_layout per field, an array type under varlen_array, no pub(in path)) and whose derived names are identifiers. Otherwise the declaration is left as it was, with exactly one compile error next to it; its message and position name a real problem of the declaration, and no earlier part of the declaration has a problem. The macro itself never panics.", "quantifier": "every item the attribute may be put on, with any visibility and any list of fields with any attributes, types and names", "why_tests_cant": "The declarations are unbounded; the shouldfail tests check one example of each message, not which of several problems is reported, that every problem is, or that nothing else is refused.", "anchors": ["varlen_macro/src/lib.rs:define_varlen", "varlen_macro/src/lib.rs:define_varlen_impl", "varlen_macro/src/lib.rs:parse_fields", "varlen_macro/src/lib.rs:SimpleVisibility::try_parse", "varlen_macro/src/lib.rs:mk_init_ident"]}
{"id": "C68", "title": "VBox, Owned and Seq work for every type that keeps the documented contract of VarLen", "statement": "Take any type with any implementation of the unsafe traits VarLen, Layout and Initializer, written by hand or generated, that keeps the documented contract: calculate_layout reports the real size, the object is no more than its bytes, initialize stays within the layout and leaves a valid object with a matching layout, vdrop stays within the object, an unused initializer can be dropped. If its objects are not zero-sized, then every program that creates, fills, iterates, indexes, drains, forgets and drops boxes, Owned values and sequences of that type, catching panics, finds in every one of them exactly the values put there, drops each of them once, frees each block with the layout it was allocated with, leaks nothing but what it forgets (or a panicking initializer leaves in VBox::new), and has no undefined behaviour (except VBox::new when the allocator fails). When extend panics, the items left in the iterator are dropped and none is leaked. VBox<T> itself keeps the contract as an initializer of T, and so does every type the crate or its macros define.", "quantifier": "every type, implementation, meaning of its bytes and initializers satisfying the contract, every allocator, every world and every history of operations", "why_tests_cant": "The traits are public and unsafe to implement: the containers are generic over implementations no test of the crate contains, and the claim is about every one that follows the documentation.", "anchors": ["varlen/src/lib.rs:VarLen", "varlen/src/lib.rs:Layout", "varlen/src/lib.rs:Initializer", "varlen/src/vbox.rs:VBox", "varlen/src/owned.rs:Owned", "varlen/src/seq.rs:Seq", "varlen/src/seq.rs:OwnedElems"]}
