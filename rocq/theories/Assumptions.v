(** Assumptions.v - prints the assumptions of every theorem named in MANIFEST.json. Each answer is
    "Closed under the global context". *)
From Verif Require PropsAccount PropsAlias PropsArray PropsBox PropsCell PropsContract PropsDebug PropsDropPanic PropsExact PropsFine PropsLayout PropsMacro PropsMacroEntry PropsMacroGen PropsMacroNames PropsMacroSem PropsMut PropsPar PropsPin PropsProgram PropsReenter PropsSeq PropsSeq2 PropsSeq3 PropsSess PropsStr PropsThreads PropsTrace PropsTypes PropsUnpin PropsZst.
Print Assumptions PropsAccount.C50_accounted.
Print Assumptions PropsAccount.C50_balance.
Print Assumptions PropsAccount.C50_no_double_drop.
Print Assumptions PropsAccount.C50_all_dropped.
Print Assumptions PropsAlias.C64_no_alias_ub.
Print Assumptions PropsAlias.C64_mutable_is_unique.
Print Assumptions PropsAlias.C64_refs_all.
Print Assumptions PropsAlias.C64_muts_all.
Print Assumptions PropsAlias.C64_needs_wide_references.
Print Assumptions PropsArray.C34_producers_fill.
Print Assumptions PropsArray.C34_producers_panic.
Print Assumptions PropsArray.C34_copy_move_fill.
Print Assumptions PropsArray.C34_clone_fill.
Print Assumptions PropsArray.C34_length_mismatch.
Print Assumptions PropsArray.C34_user_defined.
Print Assumptions PropsArray.C34_new_array.
Print Assumptions PropsArray.C58_copy_slice.
Print Assumptions PropsArray.C58_clone_slice.
Print Assumptions PropsArray.C58_slice_mismatch.
Print Assumptions PropsArray.C32_refused_iff_too_long.
Print Assumptions PropsArray.C32_str_refused_iff_too_long.
Print Assumptions PropsArray.C32_usize_always_fits.
Print Assumptions PropsArray.C32_length_kept.
Print Assumptions PropsArray.C33_deref.
Print Assumptions PropsArray.C33_str_bytes.
Print Assumptions PropsArray.C33_seq_of_str.
Print Assumptions PropsBox.C07_vcopy.
Print Assumptions PropsBox.C08_vclone.
Print Assumptions PropsBox.C09_vbox_new_requests.
Print Assumptions PropsBox.C09_vbox_drop_matches.
Print Assumptions PropsBox.C10_vdrop_each_once.
Print Assumptions PropsBox.C10_vbox_drop_each_once.
Print Assumptions PropsBox.C11_vbox_moves.
Print Assumptions PropsBox.C12_owned_moves_refuted.
Print Assumptions PropsBox.C12_owned_tuple_refuted.
Print Assumptions PropsBox.C12_owned_moves_partial.
Print Assumptions PropsBox.C13_leak_refuted.
Print Assumptions PropsBox.C13_leak_partial.
Print Assumptions PropsBox.C14_owned_drop.
Print Assumptions PropsBox.C14_raw_round_trip.
Print Assumptions PropsBox.C27_vbox_new_oom_refuted.
Print Assumptions PropsBox.C27_vbox_new_partial.
Print Assumptions PropsBox.C28_vbox_zero_size_refuted.
Print Assumptions PropsBox.C28_vbox_partial.
Print Assumptions PropsBox.C35_no_double_drop.
Print Assumptions PropsBox.C35_unused_initializer.
Print Assumptions PropsBox.C44_vbox_clone.
Print Assumptions PropsBox.C44_boxes_independent.
Print Assumptions PropsBox.C46_owned_new_in.
Print Assumptions PropsCell.C65_cell_set_exact.
Print Assumptions PropsCell.C65_cell_is_assign.
Print Assumptions PropsCell.C65_only_controllers.
Print Assumptions PropsCell.C65_swap_headers_exact.
Print Assumptions PropsCell.C65_programs_safe_partial.
Print Assumptions PropsCell.C65_programs_read_partial.
Print Assumptions PropsCell.C65_cell_refuted.
Print Assumptions PropsCell.C65_unpin_impl_refuted.
Print Assumptions PropsContract.C68_same_code.
Print Assumptions PropsContract.C68_crate_types.
Print Assumptions PropsContract.C68_boxes.
Print Assumptions PropsContract.C68_user_type.
Print Assumptions PropsContract.C68_vbox.
Print Assumptions PropsContract.C68_vbox_drop.
Print Assumptions PropsContract.C68_owned_drop.
Print Assumptions PropsContract.C68_owned_new.
Print Assumptions PropsContract.C68_push.
Print Assumptions PropsContract.C68_extend.
Print Assumptions PropsContract.C68_extend_owning.
Print Assumptions PropsContract.C68_iter.
Print Assumptions PropsContract.C68_from_offset.
Print Assumptions PropsContract.C68_offset_of.
Print Assumptions PropsContract.C68_take_elems.
Print Assumptions PropsContract.C68_drain.
Print Assumptions PropsContract.C68_seq_drop.
Print Assumptions PropsContract.C68_history.
Print Assumptions PropsContract.C68_no_leak.
Print Assumptions PropsContract.C68_all_freed.
Print Assumptions PropsContract.C68_no_UB.
Print Assumptions PropsDebug.C48_push_never_asserts.
Print Assumptions PropsDebug.C48_vbox_new_never_asserts.
Print Assumptions PropsDebug.C48_offset_of_never_asserts.
Print Assumptions PropsDebug.C48_from_offset_never_asserts.
Print Assumptions PropsDebug.C48_from_offset_unchecked_never_asserts.
Print Assumptions PropsDropPanic.C51_no_panics.
Print Assumptions PropsDropPanic.C51_drop_owned.
Print Assumptions PropsDropPanic.C51_drop_box.
Print Assumptions PropsDropPanic.C51_no_panics_take.
Print Assumptions PropsDropPanic.C51_program_safe.
Print Assumptions PropsDropPanic.C51_aborts_exactly.
Print Assumptions PropsDropPanic.C51_reads_back.
Print Assumptions PropsDropPanic.C51_bounded_leak.
Print Assumptions PropsDropPanic.C51_no_double_drop.
Print Assumptions PropsDropPanic.C51_accounted.
Print Assumptions PropsExact.C12_owned_moves_exact.
Print Assumptions PropsExact.C13_leak_exact.
Print Assumptions PropsExact.C27_vbox_new_exact.
Print Assumptions PropsExact.C28_vbox_zero_size_exact.
Print Assumptions PropsExact.C24_drop_exact.
Print Assumptions PropsExact.C43_overflow_exact.
Print Assumptions PropsExact.C37_try_set_panic_exact.
Print Assumptions PropsExact.C19_taken_offsets_exact.
Print Assumptions PropsFine.C66_decomposes.
Print Assumptions PropsFine.C66_fine_safe.
Print Assumptions PropsFine.C66_no_race.
Print Assumptions PropsFine.C66_fine_as_if_alone.
Print Assumptions PropsFine.C66_fine_reads_back.
Print Assumptions PropsFine.C66_fine_no_leak.
Print Assumptions PropsFine.C66_fine_covers.
Print Assumptions PropsLayout.C01_cautious_layout_exact.
Print Assumptions PropsLayout.C02_layout_of_built_object.
Print Assumptions PropsLayout.C03_writes_only_inside.
Print Assumptions PropsLayout.C04_construct_read.
Print Assumptions PropsLayout.C05_parts_inside_disjoint_aligned.
Print Assumptions PropsLayout.C05_promised_parts.
Print Assumptions PropsLayout.C05_declaration_order.
Print Assumptions PropsLayout.C38_no_vdrop_needed.
Print Assumptions PropsLayout.C38_skipping_elements.
Print Assumptions PropsLayout.C39_newtype_transparent.
Print Assumptions PropsMacro.C40_one_kind_attribute.
Print Assumptions PropsMacro.C41_same_region.
Print Assumptions PropsMacro.C41_accessible.
Print Assumptions PropsMacro.C41_rejected.
Print Assumptions PropsMacro.C47_fields_grouped.
Print Assumptions PropsMacro.C47_controllers_shared.
Print Assumptions PropsMacroEntry.C67_accepts.
Print Assumptions PropsMacroEntry.C67_refuses.
Print Assumptions PropsMacroEntry.C67_problem_reported.
Print Assumptions PropsMacroEntry.C67_panics_exact.
Print Assumptions PropsMacroEntry.C67_no_panic_partial.
Print Assumptions PropsMacroEntry.C67_no_panic_refuted.
Print Assumptions PropsMacroGen.C53_generic_header.
Print Assumptions PropsMacroGen.C54_params_split.
Print Assumptions PropsMacroGen.C54_layout_generics.
Print Assumptions PropsMacroGen.C54_resolves_exact.
Print Assumptions PropsMacroGen.C54_resolves_partial.
Print Assumptions PropsMacroGen.C54_generics_refuted.
Print Assumptions PropsMacroNames.C62_names_exact.
Print Assumptions PropsMacroNames.C62_no_capture.
Print Assumptions PropsMacroSem.C49_calculate_layout.
Print Assumptions PropsMacroSem.C49_constants.
Print Assumptions PropsMacroSem.C49_vdrop.
Print Assumptions PropsMacroSem.C49_layouts.
Print Assumptions PropsMacroSem.C49_refs.
Print Assumptions PropsMacroSem.C49_muts.
Print Assumptions PropsMacroSem.C49_calculate_layout_cautious.
Print Assumptions PropsMacroSem.C49_layouts_cautious.
Print Assumptions PropsMacroSem.C49_drop_init.
Print Assumptions PropsMacroSem.C49_initialize.
Print Assumptions PropsMacroSem.C49_try_set.
Print Assumptions PropsMut.C06_mutation_is_local.
Print Assumptions PropsMut.C06_controllers_not_mutable.
Print Assumptions PropsMut.C06_layout_fixed.
Print Assumptions PropsMut.C36_try_set_controllers.
Print Assumptions PropsMut.C36_length_panics.
Print Assumptions PropsMut.C37_try_set_panic_refuted.
Print Assumptions PropsMut.C37_try_set_panic_partial.
Print Assumptions PropsMut.C37_single_controller.
Print Assumptions PropsPar.C56_footprint.
Print Assumptions PropsPar.C56_threads.
Print Assumptions PropsPar.C56_schedule.
Print Assumptions PropsPar.C56_readers.
Print Assumptions PropsPin.C55_address.
Print Assumptions PropsPin.C55_stays.
Print Assumptions PropsPin.C55_stays_run.
Print Assumptions PropsPin.C55_push_in_place.
Print Assumptions PropsPin.C55_memory_kept.
Print Assumptions PropsPin.C55_not_reused.
Print Assumptions PropsPin.C55_seq_growth_refuted.
Print Assumptions PropsPin.C55_box_moved_refuted.
Print Assumptions PropsPin.C55_forgotten_reused_refuted.
Print Assumptions PropsProgram.C45_program_safe.
Print Assumptions PropsProgram.C45_reads_back.
Print Assumptions PropsProgram.C45_no_leak.
Print Assumptions PropsProgram.C45_all_freed.
Print Assumptions PropsProgram.C58_box_of_slice.
Print Assumptions PropsProgram.C58_push_slice.
Print Assumptions PropsProgram.C11_boxes_inside.
Print Assumptions PropsReenter.C61_reentrant.
Print Assumptions PropsReenter.C61_reads_back.
Print Assumptions PropsReenter.C61_no_user_code.
Print Assumptions PropsSeq.C15_seq_is_list.
Print Assumptions PropsSeq.C15_pushed_values.
Print Assumptions PropsSeq.C15_push_defined.
Print Assumptions PropsSeq.C16_offset_is_cumulative.
Print Assumptions PropsSeq.C16_offset_before_push.
Print Assumptions PropsSeq.C16_push_keeps_offsets.
Print Assumptions PropsSeq.C17_offset_of_inverse.
Print Assumptions PropsSeq.C17_foreign_reference.
Print Assumptions PropsSeq.C18_checked_exact.
Print Assumptions PropsSeq.C18_every_element.
Print Assumptions PropsSeq.C19_taken_offsets_refuted.
Print Assumptions PropsSeq.C19_taken_offsets_partial.
Print Assumptions PropsSeq2.C20_growth_policy.
Print Assumptions PropsSeq2.C20_capacity_monotone.
Print Assumptions PropsSeq2.C21_amortised.
Print Assumptions PropsSeq2.C21_from_new.
Print Assumptions PropsSeq2.C22_take_elems.
Print Assumptions PropsSeq2.C22_drain.
Print Assumptions PropsSeq2.C22_taken_element_drop.
Print Assumptions PropsSeq2.C23_seq_drop.
Print Assumptions PropsSeq3.C26_failed_push.
Print Assumptions PropsSeq3.C28_seq_requests.
Print Assumptions PropsSeq3.C29_iterators_exact.
Print Assumptions PropsSeq3.C29_limited_to.
Print Assumptions PropsSeq3.C30_elements_disjoint.
Print Assumptions PropsSeq3.C30_mutation_local.
Print Assumptions PropsSeq3.C31_extend.
Print Assumptions PropsSeq3.C31_collect.
Print Assumptions PropsSeq3.C42_bitmap_overhead.
Print Assumptions PropsSeq3.C42_push_stays_inside.
Print Assumptions PropsSeq3.C43_no_overflow_partial.
Print Assumptions PropsSeq3.C43_old_rule_refuted.
Print Assumptions PropsSess.C59_session_safe.
Print Assumptions PropsSess.C59_reads_back.
Print Assumptions PropsSess.C59_no_leak.
Print Assumptions PropsSess.C59_all_freed.
Print Assumptions PropsSess.C59_storage_back.
Print Assumptions PropsStr.C52_always_utf8.
Print Assumptions PropsStr.C52_program_safe.
Print Assumptions PropsStr.C52_edit.
Print Assumptions PropsThreads.C66_threads_safe.
Print Assumptions PropsThreads.C66_as_if_alone.
Print Assumptions PropsThreads.C66_reads_back.
Print Assumptions PropsThreads.C66_undisturbed.
Print Assumptions PropsThreads.C66_no_leak.
Print Assumptions PropsThreads.C66_all_freed.
Print Assumptions PropsTrace.C60_calls_correct.
Print Assumptions PropsTrace.C60_plain_programs.
Print Assumptions PropsTrace.C60_text_programs.
Print Assumptions PropsTrace.C60_panicking_destructors.
Print Assumptions PropsTrace.C60_reentrant_programs.
Print Assumptions PropsTrace.C60_all_returned.
Print Assumptions PropsTrace.C60_no_double_free.
Print Assumptions PropsTypes.C63_coercions.
Print Assumptions PropsTypes.C63_coercions_owner.
Print Assumptions PropsTypes.C63_object_coercions.
Print Assumptions PropsTypes.C63_handles_stay.
Print Assumptions PropsTypes.C63_object_threads.
Print Assumptions PropsTypes.C63_object_unpin.
Print Assumptions PropsTypes.C63_refs_threads.
Print Assumptions PropsTypes.C63_refs_coercions.
Print Assumptions PropsTypes.C63_no_extension.
Print Assumptions PropsUnpin.C57_header_only.
Print Assumptions PropsUnpin.C57_varying_not_unpin.
Print Assumptions PropsUnpin.C57_tail_not_unpin.
Print Assumptions PropsUnpin.C57_swap_objects.
Print Assumptions PropsUnpin.C57_swap_leaves.
Print Assumptions PropsUnpin.C57_swap_within.
Print Assumptions PropsZst.C24_drop_does_nothing.
Print Assumptions PropsZst.C24_zst_drop_refuted.
Print Assumptions PropsZst.C24_zst_misaligned_refuted.
Print Assumptions PropsZst.C24_zst_partial.
Print Assumptions PropsZst.C25_zst_checked_push_refuted.
Print Assumptions PropsZst.C25_checked_push_exact.
Print Assumptions PropsZst.C25_zst_push_partial.
Print Assumptions PropsZst.C25_types_covered.
