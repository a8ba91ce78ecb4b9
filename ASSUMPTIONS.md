# What `Print Assumptions` lists for each theorem

Generated by `tools/assumptions.py`. "closed": no axioms at all.

| file | theorems | axioms |
|---|---|---|
| `PropsAgain.v` | C108_restyled_partial, C108_removed_refuted, C108_singles_partial, C108_untouched, C108_expanded_partial | closed |
| `PropsArc.v` | C61_connected, C61_ends, C61_runs, C62_error_partial, C63_circle, C63_given_centre, C64_angle_partial, C64_quarters, C65_collapse, C66_helix_partial, C67_rounding, C82_few_lines, C69_align_partial, C69_coord_system_partial, C69_align_refuted, C80_default_refuted, C64_angle_refuted, C62_error_refuted, C65_full_circle_refuted, C81_errors_refuted | `ClassicalDedekindReals.sig_forall_dec`, `ClassicalDedekindReals.sig_not_dec`, `Classical_Prop.classic`, `FunctionalExtensionality.functional_extensionality_dep` |
| `PropsArc.v` | C68_projection, C81_errors_partial | `ClassicalDedekindReals.sig_forall_dec`, `ClassicalDedekindReals.sig_not_dec`, `FunctionalExtensionality.functional_extensionality_dep` |
| `PropsBlock.v` | C24_reprint_partial, C24_exact_partial, C24_refuted, C24_unreadable_refuted, C16_reprint_partial, C16_grows, C16_refuted | closed |
| `PropsBlock2.v` | C101_attribute, C101_value_partial, C101_refuted, C101_truth, C101_length | closed |
| `PropsBuild.v` | C103_readback_partial, C103_default, C103_exact_partial, C103_program_partial, C103_number, C103_refused, C103_refuted, C103_word_refuted | closed |
| `PropsCanned.v` | C49_ends, C49_float, C49_no_r | closed |
| `PropsDrill.v` | C59_commands, C59_machine, C58_ends_partial, C58_return_differs, C58_zero_differs, C60_pecks_partial, C79_once_partial, C60_float_partial, C60_stuck, C59_refuted, C58_refuted, C60_refuted, C79_refuted | closed |
| `PropsFloatArc.v` | C92_moves, C92_absolute, C92_incremental, C92_increments, binary64_within, exact_within, C92_inexact | closed |
| `PropsFloatArc2.v` | C93_outcome, C81_half_circle_refuted | closed |
| `PropsFloatArc3.v` | C92_decimal, C92_exact | closed |
| `PropsFloatArc4.v` | C95_path, C95_increments, C95_binary64, C95_library | `ClassicalDedekindReals.sig_forall_dec`, `ClassicalDedekindReals.sig_not_dec`, `Classical_Prop.classic`, `FunctionalExtensionality.functional_extensionality_dep` |
| `PropsFloatArc5.v` | C95_center | `ClassicalDedekindReals.sig_forall_dec`, `ClassicalDedekindReals.sig_not_dec`, `Classical_Prop.classic`, `FunctionalExtensionality.functional_extensionality_dep` |
| `PropsFuel.v` | C106_turns, C106_plain, C106_arcs, C106_exact, C106_float, C106_stuck, C106_endless | closed |
| `PropsGCode.v` | C17_unique, C17_lookup, C17_letters, C17_import, C75_codes, C76_order, C77_groups, C77_nonmodal, C18_nothing_lost, C18_order, C19_grouping, C19_unique, C19_exists, C20_legal, C20_constructor, C20_words, C21_regroup, C22_text, C22_errors, C23_verify, C23_error, C25_sorted, C25_only_order, C26_split, C27_modal_copy, C28_read, C28_assign, C28_bad_value, C28_other_letter, C29_print, C29_suppressed | closed |
| `PropsHeap.v` | C100_assigned, C100_other_lines, C100_mode_partial, C100_mode_follows_partial, C100_refuted, C100_lines_as_read, C100_mode_as_processed | closed |
| `PropsLine.v` | C05_clean_up, C05_clean_up_total, C05_same_words_refuted, C05_same_words_partial, C05_block_words_partial, C12_semicolon, C12_semicolon_total, C12_no_comment, C13_brackets, C13_brackets_total, C14_semicolon_partial, C14_brackets_partial, C14_comment_percent_refuted, C14_comment_semicolon_refuted, C15_split, C15_lossless, C15_unique, C15_accepts, C15_rejects, C15_errors | closed |
| `PropsMach.v` | C40_sound, C40_text, C40_sync, C40_absolute, C40_float, C41_incremental, C41_float, C41_program, C42_work_abs, C42_abs_work, C42_assign, C42_float, C42_refuted, C43_box, C43_new, C44_still, C45_select | closed |
| `PropsMach2.v` | C46_bare, C47_refused, C47_accepted, C47_ignored, C47_refuted, C54_kept, C54_succeeds, C55_one_by_one, C55_split, C55_program | closed |
| `PropsMach3.v` | C50_cancelled, C50_replaced, C51_copy_partial, C51_refuted, C51_index_refuted, C52_units_partial, C52_refuted, C53_as_motion, C53_stays_partial, C53_refuted, C48_refuted | closed |
| `PropsMode.v` | C30_groups, C30_invariant, C30_wrong_group, C31_last, C31_none, C31_cancelled, C32_others, C32_modal_params, C33_replay, C33_gcodes, C34_mode, C34_origin | closed |
| `PropsPlace.v` | C107_alike, C107_level, C107_named, C107_displaced, C107_g91 | closed |
| `PropsPos.v` | C35_add, C35_add_mismatch, C35_sub, C35_sub_mismatch, C35_mul, C35_div, C35_sub_add, C35_add_comm, C35_add_assoc, C35_div_mul, C36_setter_partial, C36_setter_roundtrip_partial, C36_equality_partial, C36_symmetric_partial, C36_same_place_partial, C36_setter_float_partial, C36_setter_refuted, C36_refuted, C37_same_unit_partial, C37_iff_partial, C37_refuted, C38_min_partial, C38_max_partial, C38_other_axes, C38_refuted, C39_assign, C39_sequence | closed |
| `PropsPos2.v` | C102_numbers, C102_assigned, C102_unchanged_partial, C102_seen, C102_refuted, C102_operand_refuted | closed |
| `PropsPrint.v` | C06_arith, C06_digits, C06_error, C06_exact, C07_readback_refuted, C07_line_number_refuted, C07_readback_partial, C08_codes, C08_integers, C08_texts | closed |
| `PropsResend.v` | C109_resend_partial, C109_incremental_refuted, C109_ignored_refuted | closed |
| `PropsScripts.v` | C83_accepted, C83_only, C83_rejected, C83_unambiguous, C70_cropped, C70_front, C70_numbers, C74_refuted, C74_always | closed |
| `PropsScripts10.v` | C90_increments_partial, C90_half_circle_refuted, C90_rounding_refuted | closed |
| `PropsScripts11.v` | C94_approach_partial, C94_decimals_refuted | closed |
| `PropsScripts12.v` | C96_cuts | `ClassicalDedekindReals.sig_forall_dec`, `ClassicalDedekindReals.sig_not_dec`, `Classical_Prop.classic`, `FunctionalExtensionality.functional_extensionality_dep` |
| `PropsScripts13.v` | C97_drilling | closed |
| `PropsScripts14.v` | C98_rounded, C98_counted, C98_places, C98_again, C98_drift | closed |
| `PropsScripts15.v` | C99_crop | closed |
| `PropsScripts16.v` | C104_pieces_partial, C104_motion_refuted, C104_incremental_refuted | closed |
| `PropsScripts2.v` | C72_printed, C72_program_partial, C72_again_partial, C72_order_refuted, C72_numbers_refuted, C72_unreadable_refuted, C73_program_partial, C73_printed, C73_refuted, C73_macro_refuted | closed |
| `PropsScripts3.v` | C71_preamble_partial, C71_crop_partial, C71_motion_refuted, C71_incremental_refuted, C71_decimals_refuted, C71_speed_refuted, C71_canned_refuted | closed |
| `PropsScripts4.v` | C84_final_partial, C84_program_partial, C84_height_refuted, C84_end_refuted | closed |
| `PropsScripts5.v` | C85_ends, C85_program_partial, C86_program_partial, C86_whitespace, C87_lines_partial, C85_name_refuted, C85_mode_refuted, C86_name_refuted, C87_implied_refuted | closed |
| `PropsScripts6.v` | C88_accepted, C88_only, C88_rejected_partial, C88_case_refuted, C89_list, C89_elements, C89_back, C89_default | closed |
| `PropsScripts7.v` | C90_whole_partial, C90_outcome_partial, C90_cycles_partial, C90_return_refuted, C90_macro_refuted, C90_dwell_refuted, C90_codes_refuted | closed |
| `PropsScripts8.v` | C91_outcome, C91_program_partial, C91_same, C91_ahead_refuted, C91_twice_refuted, C91_order_refuted | closed |
| `PropsScripts9.v` | C90_arcs_partial, C90_circle_refuted | closed |
| `PropsSim.v` | C48_words_partial, C48_gcodes_partial, C48_incompatible_refuted, C48_observed, C48_forever, C78_equal, C78_print, C78_process, C78_equivalence | closed |
| `PropsStop.v` | C105_line, C105_line_errors, C105_command, C105_block, C105_program, C105_no_g99, C105_ignoring | closed |
| `PropsSwap.v` | C110_swap, C110_default | closed |
| `PropsTrans.v` | C56_path, C56_absolute, C56_refused, C57_words, C57_refuted, C57_effect_partial, C57_canned_refuted | closed |
| `PropsWords.v` | C01_tokeniser, C01_unique, C01_errors, C02_spelling, C03_junk_rejected_refuted, C03_junk_rejected_partial, C03_no_letter, C04_case, C09_wf, C09_eq, C09_hash, C09_order, C09_order_meaning, C10_words2dict, C10_keys_once, C11_str2word | closed |
