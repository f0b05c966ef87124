# Formal model of varlen-rs in Rocq (Coq 8.16.1)

## Approach

`varlen` is unsafe pointer code. We model it at byte level as *executable* Gallina
functions in a small state/outcome monad:

* a **world** holds a byte memory (`N -> cell`, a cell is a byte or uninitialised), the list of
  live allocations (base, size, alignment), an arbitrary allocator strategy (which address, or
  failure, each request gets - completely unconstrained, but invalid answers count as failure),
  and an event log (destructor runs, clones, closure calls, allocator traffic);
* an operation returns `Ok value world`, `Panic world` (unwinding, with the cleanup that unwinding
  performs already applied) or `UB reason` (out-of-bounds, misaligned, null, read of uninitialised
  length/bitmap bytes, bad dealloc layout, zero-size alloc, overlapping copy, overflow of a plain
  `+`/`*`).

All variable-length types that the crate can build are covered by one *deep embedding* `vty`
(`FixedLen`, `Array`, tuples, newtypes - hence `Str` -, `define_varlen` structs with arbitrary
header layout, length expressions and nesting). Initializers are a deep embedding `init`.
Length expressions are arbitrary functions of the controllers and may panic (a result that is no
usize stands for a panic). So "for every type" is a real Coq quantifier and proofs are inductions over `vty`.

The **specification** (`Spec.v`, `ProgSpec.v`) is separate and purely mathematical: unbounded
sizes, sequential placement with rounding up, a predicate `repr` saying that bytes at an address
represent a value. No model function is used in it; it shares only the data types
(`vty`, `init`, `world`, the Seq record) with the model.

## Files (rocq/theories)

| file | content |
|---|---|
| Base.v | usize arithmetic (wrapping/checked/masks), bytes, little-endian integers |
| Machine.v | world, outcome monad, memory accesses, allocator |
| Types.v | fixed types, `vty`, values, ALIGN, NEEDS_VDROP, layout objects |
| Layout.v | macro_support.rs cat_* functions, calculate_layout |
| Init.v | array_init.rs, all Initializer impls, dropping initializers, unwinding |
| Access.v | refs/muts/deref, vclone, vcopy, try_set_layout_controllers, constructors |
| Boxes.v | vbox.rs, owned.rs |
| SeqModel.v | seq.rs |
| MacroFront.v | varlen_macro: parse_fields, attributes, SimpleVisibility, generated field fragments |
| MacroSem.v | varlen_macro: the quote! template of define_varlen_impl, executed (names as strings) |
| MacroGenerics.v | varlen_macro: GenericRefs, parse_generics, the scope of each generated item, instantiation |
| Debug.v | the debug build: debug_assert!s and overflow checks |
| Program.v | whole programs: a machine with a table of VBox/Owned/Seq handles |
| DropPanic.v | destructors that panic, process abort |
| MacroNames.v | varlen_macro: the names in the expansion and rustc's rules about them |
| TypeModel.v | the struct definitions as the type system sees them: coercions, Send, Sync, Unpin |
| AliasModel.v | the references the crate makes, as retags and accesses of Tree Borrows |
| ThreadSpec.v, FineSpec.v | threads that own values, interleaved by operations and by accesses |
| MacroEntry.v | varlen_macro/src/lib.rs 143-187, 246, 535-594, 926-945, 1020-1066: entry point and errors of define_varlen |
| ContractModel.v | varlen/src/lib.rs 331-423, 548-551, 619-659 as parameters; vbox.rs 54-69, 147-155, 179-200, owned.rs 184-205, seq.rs 583-1054, 1131-1340 over them |
| CellModel.v | interior mutability and mem::swap of whole objects by client code |
| StrModel.v | str.rs: Deref, mut_slice, the UTF-8 contract of from_utf8_unchecked; programs with them |
| SessModel.v | programs that keep take_elems iterators and taken elements while they go on |
| ReenterModel.v | user code that uses the crate while an operation of the crate runs |
| ParModel.v | threads that hold references to objects of a program; schedules |
| Spec.v, ProgSpec.v, AccountSpec.v, DropPanicSpec.v, StrSpec.v, GenericsSpec.v, PlaceSpec.v, ParSpec.v, SessSpec.v, TraceSpec.v, ReenterSpec.v, AliasSpec.v | specification |
| Arith, Mem, Read, Repr, View, InitLayout, Build, Construct, Initialize, Ownership, Strip, CloneProofs, BoxProofs, Locate, MutTyping, Setters, Sources, SubObj, SeqBase, SeqPush, SeqIter, SeqDrop, SeqExtend, History, LayoutFacts, BoxFacts, SeqHist, Ghost, ProgInv, ProgEval, ProgTake, Places, ProgSteps, PlaceAddr, DropPanicProofs, Sim, Hidden, SessInv, SessSteps, SessOpen, SessLock, SessDone, Trace, Local, Reenter, ReenterCalls, ReenterInv, ReenterSteps, ReenterMain | proofs |
| Examples.v | concrete types and worlds used by the non-vacuity examples |
| Props*.v | the property theorems `Cnn_...`, each with `Print Assumptions` and with a concrete, non-trivial instance of its hypotheses beside it (`Example`) |

## Per property: what is modelled, how it is proved

| id | property | how | status | theorems |
|---|---|---|---|---|
| C01 | Cautious layout is exact and detects every overflow | init_layout (calculate_layout_cautious) vs unbounded sp_lay; induction over types and initializers. | proved | `C01_cautious_layout_exact` |
| C02 | Layout reported by an object agrees with the layout promised by its initializer | initialize then calc_layout; both equal sp_lay of the built value's shape. | proved | `C02_layout_of_built_object` |
| C03 | Initialization writes only inside the object | Hoare-style lemma for initialize by mutual induction over vty/flds, covering Ok and Panic; same_outside + no UB. | proved | `C03_writes_only_inside` |
| C04 | Construct/read round trip | initialize establishes repr of the described value; view reads repr back. | proved | `C04_construct_read` |
| C05 | Fields are inside the object, disjoint, and correctly aligned | arithmetic of the spec layout: parts inside, disjoint, aligned, in declaration order. | proved | `C05_parts_inside_disjoint_aligned`, `C05_promised_parts`, `C05_declaration_order` |
| C06 | Mutable access to one part changes only that part | locate finds exactly the spec leaf; assign changes only those bytes; controllers are not assignable; layout fixed. | proved | `C06_mutation_is_local`, `C06_controllers_not_mutable`, `C06_layout_fixed` |
| C07 | vcopy makes an identical object and leaves the source alone | instance of C03/C04 for ICopy. | proved | `C07_vcopy` |
| C08 | vclone clones every part exactly once and leaves the source alone | vclone builds an initializer whose description is the clone of every leaf; log of EClone events is exact. | proved | `C08_vclone` |
| C09 | VBox releases exactly what it allocated | vbox_new allocator events; drop frees the same block with the same size/alignment after any assignments. | proved | `C09_vbox_new_requests`, `C09_vbox_drop_matches` |
| C10 | Dropping an object drops each contained value exactly once | vdrop emits exactly vdrops (spec list) in order. | proved | `C10_vdrop_each_once`, `C10_vbox_drop_each_once` |
| C11 | Moving a VBox into a container moves the contents once | IBox initializer: bytes moved, block freed once, no destructor event. | proved | `C11_vbox_moves`, `C11_boxes_inside` |
| C12 | Moving an Owned into a container moves exactly the object | refuted by computation on concrete types; partial for header size 1. | partial | `C12_owned_moves_refuted`, `C12_owned_tuple_refuted`, `C12_owned_moves_partial`, `C12_owned_moves_exact` |
| C13 | Owned::leak never runs the destructor | refuted by computation; partial for types without destructors. | partial | `C13_leak_refuted`, `C13_leak_partial`, `C13_leak_exact` |
| C14 | Dropping an Owned destroys the contents but not the storage | owned_drop events and blocks; raw round trip. | proved | `C14_owned_drop`, `C14_raw_round_trip` |
| C15 | Seq behaves as a list under push | Seq invariant relating storage to a list of values, preserved by push, lifted to histories by induction. | proved | `C15_seq_is_list`, `C15_pushed_values`, `C15_push_defined` |
| C16 | Offsets are stable and cumulative | cumulative offsets in the invariant. | proved | `C16_offset_is_cumulative`, `C16_offset_before_push`, `C16_push_keeps_offsets` |
| C17 | offset_of and from_offset_unchecked are inverse; foreign references panic | iterator addresses, offset_of, from_offset_unchecked against the cumulative offsets. | proved | `C17_offset_of_inverse`, `C17_foreign_reference` |
| C18 | Checked indexing accepts exactly the element starts (no element has been taken out) | bitmap part of the invariant: bit set iff element start. | proved | `C18_checked_exact`, `C18_every_element` |
| C19 | Checked indexing stays exact after take_elems | refuted by computation of a push/take_elems/push history; partial: exact up to stale offsets. | partial | `C19_taken_offsets_exact`, `C19_taken_offsets_refuted`, `C19_taken_offsets_partial` |
| C20 | Growth policy | try_realloc result against the closed formula; capacity in the invariant. | proved | `C20_growth_policy`, `C20_capacity_monotone` |
| C21 | push is amortised O(1) | potential argument on the allocator log over all push histories. | proved | `C21_amortised`, `C21_from_new` |
| C22 | take_elems hands out every element exactly once | take_elems + iterator + drop of the rest; events exact. | proved | `C22_take_elems`, `C22_drain`, `C22_taken_element_drop` |
| C23 | Dropping a Seq drops every element once and frees its storage with the right layout | seq_drop events, dealloc layout equal to the last allocation's. | proved | `C23_seq_drop` |
| C24 | Zero-size elements: every element is dropped | zero-size element sequences: drop proved to do nothing (refutation) for every such type. | partial | `C24_drop_exact`, `C24_drop_does_nothing`, `C24_zst_drop_refuted`, `C24_zst_misaligned_refuted`, `C24_zst_partial` |
| C25 | Zero-size elements: checked push is memory safe | every type of ALIGN-size zero: checked push is UB (refutation); unchecked push safe. | partial | `C25_zst_checked_push_refuted`, `C25_checked_push_exact`, `C25_zst_push_partial`, `C25_types_covered` |
| C26 | A failed push leaves the Seq unchanged | all panic paths of seq_push keep the invariant with the same list. | proved | `C26_failed_push` |
| C27 | VBox::new survives allocation failure | refuted by an allocator that fails; partial when it succeeds. | partial | `C27_vbox_new_oom_refuted`, `C27_vbox_new_partial`, `C27_vbox_new_exact` |
| C28 | The global allocator is never asked for zero bytes | refuted for VBox; proved for all Seq operations. | partial | `C28_vbox_zero_size_refuted`, `C28_vbox_partial`, `C28_vbox_zero_size_exact`, `C28_seq_requests` |
| C29 | Iterator limits and length hints are exact | iterator invariants: len/size_hint/limited_to exact at every point. | proved | `C29_iterators_exact`, `C29_limited_to` |
| C30 | iter_mut visits every element once and mutations stay within their element | disjoint element ranges; assign in one element leaves the rest of the invariant alone. | proved | `C30_elements_disjoint`, `C30_mutation_local` |
| C31 | extend, collect and seq! are iterated push | extend/collect as iterated push, including panics. | proved | `C31_extend`, `C31_collect` |
| C32 | Length conversion is lossless or refused | from_usize boundary and round trip of the length field. | proved | `C32_refused_iff_too_long`, `C32_str_refused_iff_too_long`, `C32_usize_always_fits`, `C32_length_kept` |
| C33 | Str always holds exactly the bytes it was given (valid UTF-8 stays valid) | Str = newtype of u8 array; deref bytes exact for direct, copied, cloned, boxed, in Seq. | proved | `C33_deref`, `C33_str_bytes`, `C33_seq_of_str` |
| C34 | Array initializers fill every slot in order or panic | ainit_run against arun (spec): slots, events, panics. | proved | `C34_producers_fill`, `C34_producers_panic`, `C34_copy_move_fill`, `C34_clone_fill`, `C34_length_mismatch`, `C34_user_defined`, `C34_new_array` |
| C35 | No value is dropped twice when construction panics | multiset of drop events on panic against the values owned by the initializer. | proved | `C35_no_double_drop`, `C35_unused_initializer` |
| C36 | Layout-controlling fields can be set only without changing the layout | try_set result iff equal lengths; effect on repr. | proved | `C36_try_set_controllers`, `C36_length_panics` |
| C37 | Setting layout controllers is panic-safe | refuted by a panicking destructor; partial statements. | partial | `C37_try_set_panic_exact`, `C37_try_set_panic_refuted`, `C37_try_set_panic_partial`, `C37_single_controller` |
| C38 | Skipping vdrop when it is reported unnecessary changes nothing | needs_vdrop false implies vdrop is a no-op. | proved | `C38_no_vdrop_needed`, `C38_skipping_elements` |
| C39 | Newtypes are transparent | TNew functions equal those of the inner type. | proved | `C39_newtype_transparent` |
| C40 | define_varlen accepts at most one kind attribute per field | parse_fields attribute classification. | proved | `C40_one_kind_attribute` |
| C41 | Generated inner items keep the visibility the user asked for | SimpleVisibility against a semantic model of module visibility. | proved | `C41_same_region`, `C41_accessible`, `C41_rejected` |
| C42 | Bitmap memory overhead | exact size of the bitmap; pushes stay inside the block. | proved | `C42_bitmap_overhead`, `C42_push_stays_inside` |
| C43 | Storage-size arithmetic of checked sequences cannot overflow | arithmetic; proved for the isize rule, refuted for the usize rule. | partial | `C43_overflow_exact`, `C43_no_overflow_partial`, `C43_old_rule_refuted` |
| C44 | VBox::clone is independent of the original | clone in a separate allocation; frame property for both. | proved | `C44_vbox_clone`, `C44_boxes_independent` |
| C45 | Whole-program memory safety of the safe API | machine with handle table (Program.v) simulated by an abstract machine on values (ProgSpec.v); invariant by induction on programs. | proved | `C45_program_safe`, `C45_reads_back`, `C45_no_leak`, `C45_all_freed` |
| C46 | Arena allocation | bump arena variant of VBox::new. | proved | `C46_owned_new_in` |
| C47 | define_varlen generates, for every field, the code of its kind, in declaration order | parse result against a per-field specification of generated fragments. | proved | `C47_fields_grouped`, `C47_controllers_shared` |
| C48 | Debug assertions never fire | Debug.v: debug-build versions of the asserting functions, proved equal to the release versions on all reachable states (push, from_offset: on all states). | proved | `C48_push_never_asserts`, `C48_vbox_new_never_asserts`, `C48_offset_of_never_asserts`, `C48_from_offset_never_asserts`, `C48_from_offset_unchecked_never_asserts` |
| C49 | The code define_varlen generates behaves as the struct the user wrote | MacroSem.v: the quote! template executed with names as strings (scoping, shadowing, moves); proved equal, on all states, to the struct type of the model built from the field kinds. | proved | `C49_calculate_layout`, `C49_constants`, `C49_vdrop`, `C49_layouts`, `C49_refs`, `C49_muts`, `C49_calculate_layout_cautious`, `C49_layouts_cautious`, `C49_drop_init`, `C49_initialize`, `C49_try_set` |
| C50 | In a whole program every value with a destructor is destroyed exactly once | Book-keeping over the reachable states of C45: brings/held (AccountSpec.v); step lemma by cases over astep with multiset counting, ownership of initializer runs from Ownership.v; induction over the history. | proved | `C50_accounted`, `C50_balance`, `C50_no_double_drop`, `C50_all_dropped` |
| C51 | Panicking destructors never break memory safety or cause a double drop | Model of all destructor-running functions with an arbitrary panic predicate and a fourth outcome, abort (DropPanic.v); spec: groups of values (DropPanicSpec.v); structural induction over types for one object, then the program invariant of C45 and the book-keeping of C50 again for programs with panicking destructors. | proved | `C51_no_panics`, `C51_drop_owned`, `C51_drop_box`, `C51_no_panics_take`, `C51_program_safe`, `C51_aborts_exactly`, `C51_reads_back`, `C51_bounded_leak`, `C51_no_double_drop`, `C51_accounted` |
| C52 | Every Str a program can reach is UTF-8, whatever it does | Model of Deref/mut_slice with bytes that are not UTF-8 as undefined behaviour (StrModel.v); which programs safe Rust allows, given that Str's constructor and inner array are private, and what they do (StrSpec.v); invariant over histories on top of C45's: every Str in the program's values is UTF-8. | proved | `C52_always_utf8`, `C52_program_safe`, `C52_edit` |
| C53 | Generic structs: construction and access agree on the header | MacroGenerics.v: a syntax of types, paths and expressions, the scope of each generated item and substitution of generics; structural induction shows that a type without parameters is unchanged by every instance, and name resolution of Init and the length functions forces the header and length expressions to be such. | proved | `C53_generic_header` |
| C54 | The expansion declares every generic it names | The visitor is modelled as a recursive function and compared with a specification that lists all mentioned names (GenericsSpec.v), by mutual induction over the syntax; exact characterisation of the definitions that resolve, and concrete ones that do not. | partial | `C54_params_split`, `C54_layout_generics`, `C54_resolves_exact`, `C54_resolves_partial`, `C54_generics_refuted` |
| C55 | Pinned objects stay where they are | Over the states of whole programs (Program.v): PlaceSpec.v gives the address of every place as owner pointer plus shape-determined offset; address equality by the program invariant and structural induction; two concrete programs refute the rest. | partial | `C55_address`, `C55_stays`, `C55_stays_run`, `C55_push_in_place`, `C55_memory_kept`, `C55_not_reused`, `C55_seq_growth_refuted`, `C55_box_moved_refuted`, `C55_forgotten_reused_refuted` |
| C56 | Threads with separate references do not interfere | ParModel.v runs any schedule of threads, each a reference and a list of calls, over the machine of Program.v; ParSpec.v says what a thread computes alone and when two places are separate; induction on the schedule with the program invariant, places compared by owner, element and path. | proved | `C56_footprint`, `C56_threads`, `C56_schedule`, `C56_readers` |
| C57 | Swapping values, and which types are Unpin | Three swap operations are added to Program.v (mem_swap on the bytes); the step lemma in ProgSteps.v uses that a write of equal shape keeps every address (Places.v); Unpin types have no tail, by induction on the type. | proved | `C57_header_only`, `C57_varying_not_unpin`, `C57_tail_not_unpin`, `C57_swap_objects`, `C57_swap_leaves`, `C57_swap_within` |
| C58 | Initializing from a slice of an existing object | Slices carry an address in Init.v (ACopyAt, ACloneAt), read when the initializer runs; Program.v borrows them from places. SubObj.v shows where the slice lies inside its object, Strip.v that ghost contents do not influence a run, ProgEval.v that source and destination are apart; then ainit_run_ok and the step lemma of C45. | proved | `C58_copy_slice`, `C58_clone_slice`, `C58_slice_mismatch`, `C58_box_of_slice`, `C58_push_slice` |
| C59 | Elements taken out of a sequence, used while the program goes on | SessModel.v adds iterators to the programs of Program.v. A program with iterators is simulated by a program without: the storage of a borrowed sequence is divided into one owned block per element and one for the bitmap (Sim.v: the code of the crate does the same in the divided world), and the elements not yet taken are values the program does not mention (Hidden.v). SessInv.v: the invariant, and any operation of Program.v keeps it; SessSteps.v: next, len, drop, forget; SessOpen.v, SessLock.v: dividing and merging the storage when the borrow begins and ends; SessDone.v: histories. | proved | `C59_session_safe`, `C59_reads_back`, `C59_no_leak`, `C59_all_freed`, `C59_storage_back` |
| C60 | The allocator is used correctly | TraceSpec.v: the contract of the allocator as a relation on the calls alone. Trace.v: every function of the model keeps the invariant that the calls so far are correct and leave the allocations the machine has (wf_blocks gives that an address names one allocation); from_size_align checks in the code give valid requests. PropsTrace.v: histories. | proved | `C60_calls_correct`, `C60_plain_programs`, `C60_text_programs`, `C60_panicking_destructors`, `C60_reentrant_programs`, `C60_all_returned`, `C60_no_double_free` |
| C61 | User code may use the crate while the crate is running it | ReenterModel.v: the model with hooks. ReenterSpec.v: the account. Local.v, Reenter.v: the functions of the crate depend only on the memory they own, so the operation in a world that other code changes simulates the operation alone, for any relation closed under the primitives and the hooks. ReenterInv.v, ReenterSteps.v: that relation for a world restricted to the blocks of the operation. ReenterCalls.v: which user code an operation calls. ReenterMain.v: induction over the nesting of user code, with the invariant of C45 extended by a list of protected blocks; PropsReenter.v. | proved | `C61_reentrant`, `C61_reads_back`, `C61_no_user_code` |
| C62 | Which field names define_varlen accepts, and that generated names capture nothing | MacroNames.v: the checks of rustc on the expansion, executable. PropsMacroNames.v: names_rule as the user's rule; the expansion's lists of names are rewritten with the lemmas of PropsMacroSem.v, and the chain of let patterns is handled by induction over the tail fields with the static environment as the state. | proved | `C62_names_exact`, `C62_no_capture` |
| C63 | The crate's types never extend a lifetime and let nothing cross threads that must not | TypeModel.v: types, subtyping, auto traits, the struct definitions, the transition system of handles. PropsTypes.v: inversion of the subtyping derivations; mutual induction over object types; an invariant of the stack of handles (each borrow has the lender's type if it can write, a supertype otherwise). | proved | `C63_coercions`, `C63_coercions_owner`, `C63_object_coercions`, `C63_handles_stay`, `C63_object_threads`, `C63_object_unpin`, `C63_refs_threads`, `C63_refs_coercions`, `C63_no_extension` |
| C64 | The references the crate hands out obey Rust's aliasing rules | AliasModel.v: permissions per tag and byte, retagging, the crate's functions, clients. AliasProofs.v: how reads and writes through a tag and its descendants change what others may do; mutual induction over types for each function; an invariant over the borrows in use (each can still do what its kind allows; any two are related, apart, or both shared). PropsAlias.v: the theorems. | proved | `C64_no_alias_ub`, `C64_mutable_is_unique`, `C64_refs_all`, `C64_muts_all`, `C64_needs_wide_references` |
| C65 | The layout of a live object changes only through try_set_layout_controllers | CellModel.v: locating a leaf through shared references, Cell::set, mem::swap of whole objects. CellSpec.v: leaves shared references lead to, a value with the header of another. CellProofs.v: mutual induction over types: where the leaf is and what the memory represents after a write there; calculate_layout gives the old layout only if the represented value is one of the type. PropsCell.v: the theorems; whole programs by the invariant of C45. | partial | `C65_cell_set_exact`, `C65_cell_is_assign`, `C65_only_controllers`, `C65_swap_headers_exact`, `C65_programs_safe_partial`, `C65_programs_read_partial`, `C65_cell_refuted`, `C65_unpin_impl_refuted` |
| C66 | Threads that own separate values | ThreadSpec.v: threads with their own slots over one world; FineSpec.v: operations as trees of machine accesses, threads interleaved at every access. Generic.v: any relation that the machine primitives keep is kept by every function of the crate. ThreadProofs.v: the real world restricted to one thread's blocks is a world of a program with this thread only; the allocator of that world answers as the real one does, or not at all where the real answer would hit another thread's block. FineCode.v: every function of the model is a tree of accesses. Induction over the interleaving. | proved | `C66_decomposes`, `C66_fine_safe`, `C66_no_race`, `C66_fine_as_if_alone`, `C66_fine_reads_back`, `C66_fine_no_leak`, `C66_fine_covers`, `C66_threads_safe`, `C66_as_if_alone`, `C66_reads_back`, `C66_undisturbed`, `C66_no_leak`, `C66_all_freed` |
| C67 | define_varlen either generates code or explains the first thing it does not support | MacroEntry.v: the entry point, the error paths of parse_fields and try_parse and the calls of format_ident!, over the grouping of MacroFront.v. The specification is a list of what can be wrong with a declaration, and where. Induction over the attributes of a field and over the fields. | partial | `C67_accepts`, `C67_refuses`, `C67_problem_reported`, `C67_panics_exact`, `C67_no_panic_partial`, `C67_no_panic_refuted` |
| C68 | VBox, Owned and Seq work for every type that keeps the documented contract of VarLen | ContractModel.v: the containers' code with the trait items as parameters. ContractSpec.v: what an implementation means and the contract. The bitmap and growth lemmas of SeqPush/SeqIter are reused by seeing any storage as a sequence of units of ALIGN bytes. An inductive predicate lists the histories of boxes and sequences; induction on it. | proved | `C68_same_code`, `C68_crate_types`, `C68_boxes`, `C68_user_type`, `C68_vbox`, `C68_vbox_drop`, `C68_owned_drop`, `C68_owned_new`, `C68_push`, `C68_extend`, `C68_extend_owning`, `C68_iter`, `C68_from_offset`, `C68_offset_of`, `C68_take_elems`, `C68_drain`, `C68_seq_drop`, `C68_history`, `C68_no_leak`, `C68_all_freed`, `C68_no_UB` |

## Trusted base

* **Coq's kernel** (8.16.1, including `vm_compute`, which is used only to evaluate the model on
  concrete examples and witnesses).
* **Axioms: none.** `Print Assumptions` prints "Closed under the global context" for every theorem
  named in MANIFEST.json (each Props file prints it during the build).
* **The model** (next sections) is a hand transcription of the Rust code; each definition cites the
  file and lines it models. That the transcription is right is trusted, as are the statements in
  Spec.v / ProgSpec.v and the theorem statements.

### What is modelled

| Rust source | model |
|---|---|
| varlen/src/lib.rs: FixedLen, FixedLenCloner, VCopier, VarLen/Initializer/VClone/VCopy impls | Types, Layout, Init, Access |
| varlen/src/macro_support.rs: all `cat_*`, `ref_array`, `mut_array`, `drop_array`, `init_array`, `init_field`, `drop_field`, `array_max`, `or_any` | Layout, Init, Access, Types |
| varlen/src/array.rs: Array, SizedInit, ArrayLen, copy/try_copy/clone_from_slice/..., len, len_short, mut_slice | Types..Access |
| varlen/src/array_init.rs: FillSequentially, FillWithDefault, FromIterPrefix, CopyFrom, CloneFrom, MoveFrom, new_array | Init, Access |
| varlen/src/str.rs: Str construction, deref, clone | Access (`TStr`) |
| varlen/src/newtype.rs: define_varlen_newtype expansion | the `TNew` cases |
| varlen/src/tuple.rs: the macro_rules expansion for all arities | the `TRec KTuple` cases |
| varlen/src/vbox.rs: new, drop, clone, as initializer, into_raw/from_raw | Boxes, Init |
| varlen/src/owned.rs: drop, as initializer, leak, into_raw/from_raw, new_in | Boxes, Init |
| varlen/src/seq.rs: both indexing modes, new, push/try_push, growth, iter/iter_mut/take_elems, limited_to, offsets, checked access, extend, collect, seq!, Drop | SeqModel |
| OwnedElems kept alive, elements held as Owned, interleaved with everything else | SessModel |
| Drop impls, vdrop, take_elems, assignments, with panicking destructors | DropPanic |
| str.rs: `Str` contents as text, `&mut str` edits | StrModel |
| references to separate objects used from several threads | ParModel |
| boxes, owned values and sequences owned by several threads (one memcpy, typed access or allocator call is one step; C66_no_race shows that nothing depends on that) | ThreadSpec, FineSpec |
| entry point, errors and panics of define_varlen | MacroEntry |
| the traits VarLen, Layout, Initializer with arbitrary implementations; VBox, Owned, Seq generic over them | ContractModel |
| user code (destructors, closures, iterators, Clone, Default) that uses the crate while the crate is running | ReenterModel |
| varlen_macro/src/lib.rs: parse_fields, attribute kinds, SimpleVisibility, per-field groups | MacroFront |
| varlen_macro/src/lib.rs:264-511 quote! template: VarLen impl, Init, Muts, Refs, LayoutControllers | MacroSem |
| varlen_macro/src/lib.rs:264-511 names in the template, scopes and clashes | MacroNames |
| the places where references and raw pointers are made and used: Deref, as_mut, refs, muts, next, calculate_layout, vdrop, vcopy, initialize, try_set_layout_controllers | AliasModel |
| shared references to leaves: refs (controllers included), Deref, inner; Cell::set through them; mem::swap of whole objects | CellModel |
| the struct definitions of all crates: fields, markers, lifetimes | TypeModel |
| varlen_macro/src/lib.rs: the code the macro generates (calculate_layout, initialize, vdrop, refs, muts, try_set_layout_controllers) | the `TRec KStruct` cases |

### Simplifications (also noted at the definitions)

* Target: 64-bit little-endian, `usize` = 64 bits, size_of = align_of for the integer length types.
* A value of a fixed-size leaf type is its bytes; its destructor and clone are observed through the
  event log. Leaf clones may panic. Leaf destructors do not panic in the main
  model, except in `try_set_layout_controllers` (C37); DropPanic.v models all functions that run
  destructors, and whole programs, with panicking destructors and process aborts (C51).
* The allocator is an arbitrary function of the request number, size and alignment; an answer that
  is null, misaligned, out of the address space or overlaps a live block counts as failure.
  `handle_alloc_error`/OOM aborts are modelled as a panic. Bump arenas are storage that is never
  freed individually (C46).
* A slice given to CopyFrom or CloneFrom is either part of an object of the program (then the initializer holds its address and the elements are read from memory when it runs: ACopyAt, ACloneAt) or a slice elsewhere (a static, the stack), for which a snapshot of its contents stands; nobody can write to it while it is borrowed.
  Iterators and closures are functions of the call number; the destructor of the closure or
  iterator itself is not modelled. The items left in an iterator when `extend` unwinds are only dropped
  in the generic model (C68_extend_owning; the buffer of the iterator itself is not modelled).
  Hand-written implementations of VarLen and Initializer are only modelled in ContractModel.v (C68), as
  functions on the machine that keep the documented contract; the other properties are about the types
  of the crate and its macros.
  User-written `ArrayInitializer`s are modelled as any list of slot writes (per array length) that covers
  every slot, ending in a return or a panic (`AUser`); their other side effects are not.
* Aliasing rules are modelled separately (C64, Tree Borrows, without memory contents), data races
  and exposed provenance are not modelled; elsewhere a reference is checked to be non-null, aligned and in live storage at the moment it is created (`check_ref`).
* The `debug_assert`s of seq.rs:249,259,770,809,850 and vbox.rs:66 are absent from the release
  model; C48 treats them separately.
* `UB UType` stands for a call that does not type-check in Rust.
* `*leaf = new` with a panicking index expression does not drop `new` in the model.
* Writing through `&mut str` (std's str methods) is any edit that keeps the bytes UTF-8 (C52).
* Of the procedural macro, token streams are modelled per field (which fragment of code, for which
  field, in which list). Generics are modelled separately (C53, C54: which names each generated item
  declares and mentions), with field types as syntax; the semantic models (C49 and the rest) take the
  types of one instance. Trait bounds are only names there (whether a bound holds is not modelled), and
  doc attributes are not modelled.

## Findings in the code

The following properties are **false** of the code; the `_refuted` theorem is the counterexample
the `_partial` theorem is the part that holds, and the `_exact` theorems (PropsExact.v) say when
the property holds and when it does not:

1. C12: `Owned::initialize` (owned.rs:215) copies `layout.size()` *elements of T*, not bytes.
2. C13: `Owned::leak` (owned.rs:164) drops the object it leaks.
3. C19: `take_elems` (seq.rs:904) zeroes `occupied` before `clear_bitmasks`, so stale offsets stay
   valid.
4. C24/C25: Seq of zero-size elements: Drop returns early and runs no destructor; a checked push
   writes its bitmap bit through a dangling pointer; zero-size tuples may be misaligned.
5. C27/C28: `VBox::new` (vbox.rs:54) does not check for null and may request zero bytes.
6. C37: `try_set_layout_controllers` is not panic-safe.
7. C43: `add_bitmask_to_layout` adds without overflow check; safe only under the isize::MAX rule
   for `Layout`.
8. C54: the expansion of define_varlen does not declare every generic it names: projections
   (`T::Item`), const parameters in expressions, parameters in header fields or length expressions,
   where clauses on parameters that only arrays use, missing defaults, a lifetime called `'a`. All of
   these are compile errors, not unsoundness (C53).
9. C55: growth of a Seq, and a VBox used as initializer, move objects that were handed out as
   `Pin<&mut T>`; and `mem::forget` of an `Owned` (which is a `Pin<&mut T>` for its owner) lets the
   storage be reused without running the destructor, against the drop guarantee of Pin.
10. C65: a `#[controls_layout]` field may have interior mutability (the macro puts no bound on its type),
   so safe code can change the layout of a live object through `refs()` or `&s.field`. (The length
   expression is in a `const fn`; it can read a cell through a `const fn` of the field's type.)
11. C65: `Unpin` is a safe trait and neither macro generates an impl that would rule out another, so safe
   code can write `impl Unpin for S {}` for its own define_varlen or define_varlen_newtype type and
   then `mem::swap` the headers of two objects of different lengths.

Compile-time only: name clashes in the macro expansion (C62). Aliasing: accesses to the tail through
`&Self` are outside the provenance of the reference under Stacked Borrows, and fine under Tree Borrows
(C64).
