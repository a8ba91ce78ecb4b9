{
 "claims": [
  {
   "property": "C01",
   "status": "proved",
   "theorems": [
    "C01_tokeniser",
    "C01_unique",
    "C01_errors"
   ],
   "note": ""
  },
  {
   "property": "C02",
   "status": "proved",
   "theorems": [
    "C02_spelling"
   ],
   "note": ""
  },
  {
   "property": "C03",
   "status": "partial",
   "theorems": [
    "C03_junk_rejected_refuted",
    "C03_junk_rejected_partial",
    "C03_no_letter"
   ],
   "note": "False as stated: junk before a letter is skipped (refuted). Proved: junk after the last value is always refused; a text without letters is accepted only if blank."
  },
  {
   "property": "C04",
   "status": "proved",
   "theorems": [
    "C04_case"
   ],
   "note": ""
  },
  {
   "property": "C05",
   "status": "partial",
   "theorems": [
    "C05_clean_up",
    "C05_clean_up_total",
    "C05_same_words_refuted",
    "C05_same_words_partial",
    "C05_block_words_partial"
   ],
   "note": "False for words with letters O and T, whose values keep blanks (refuted). Proved for all texts without O and T; the clean-up itself is characterised for all texts."
  },
  {
   "property": "C06",
   "status": "proved",
   "theorems": [
    "C06_arith",
    "C06_digits",
    "C06_error",
    "C06_exact"
   ],
   "note": ""
  },
  {
   "property": "C07",
   "status": "partial",
   "theorems": [
    "C07_readback_refuted",
    "C07_line_number_refuted",
    "C07_readback_partial"
   ],
   "note": "False for more than six significant digits and for seven-digit line numbers (refuted). Proved within that range, for every accurate rounding arithmetic."
  },
  {
   "property": "C08",
   "status": "proved",
   "theorems": [
    "C08_codes",
    "C08_integers",
    "C08_texts"
   ],
   "note": ""
  },
  {
   "property": "C09",
   "status": "proved",
   "theorems": [
    "C09_wf",
    "C09_eq",
    "C09_hash",
    "C09_order",
    "C09_order_meaning"
   ],
   "note": ""
  },
  {
   "property": "C10",
   "status": "proved",
   "theorems": [
    "C10_words2dict",
    "C10_keys_once"
   ],
   "note": ""
  },
  {
   "property": "C11",
   "status": "proved",
   "theorems": [
    "C11_str2word"
   ],
   "note": ""
  },
  {
   "property": "C12",
   "status": "proved",
   "theorems": [
    "C12_semicolon",
    "C12_semicolon_total",
    "C12_no_comment"
   ],
   "note": ""
  },
  {
   "property": "C13",
   "status": "proved",
   "theorems": [
    "C13_brackets",
    "C13_brackets_total"
   ],
   "note": ""
  },
  {
   "property": "C14",
   "status": "partial",
   "theorems": [
    "C14_semicolon_partial",
    "C14_brackets_partial",
    "C14_comment_percent_refuted",
    "C14_comment_semicolon_refuted"
   ],
   "note": "False when the comment contains '%' or when a line has both ';' and brackets (refuted). Proved for all other comments."
  },
  {
   "property": "C15",
   "status": "proved",
   "theorems": [
    "C15_split",
    "C15_lossless",
    "C15_unique",
    "C15_accepts",
    "C15_rejects",
    "C15_errors"
   ],
   "note": ""
  },
  {
   "property": "C16",
   "status": "partial",
   "theorems": [
    "C16_reprint_partial",
    "C16_grows",
    "C16_refuted"
   ],
   "note": "False for lines with parameters before their gcode, and for a ';' comment followed by a macro, which grows at every reprint (C16_grows). Proved otherwise."
  },
  {
   "property": "C17",
   "status": "proved",
   "theorems": [
    "C17_unique",
    "C17_lookup",
    "C17_letters",
    "C17_import"
   ],
   "note": ""
  },
  {
   "property": "C18",
   "status": "proved",
   "theorems": [
    "C18_nothing_lost",
    "C18_order"
   ],
   "note": ""
  },
  {
   "property": "C19",
   "status": "proved",
   "theorems": [
    "C19_grouping",
    "C19_unique",
    "C19_exists"
   ],
   "note": ""
  },
  {
   "property": "C20",
   "status": "proved",
   "theorems": [
    "C20_legal",
    "C20_constructor",
    "C20_words"
   ],
   "note": ""
  },
  {
   "property": "C21",
   "status": "proved",
   "theorems": [
    "C21_regroup"
   ],
   "note": ""
  },
  {
   "property": "C22",
   "status": "proved",
   "theorems": [
    "C22_text",
    "C22_errors"
   ],
   "note": ""
  },
  {
   "property": "C23",
   "status": "proved",
   "theorems": [
    "C23_verify",
    "C23_error"
   ],
   "note": ""
  },
  {
   "property": "C24",
   "status": "partial",
   "theorems": [
    "C24_reprint_partial",
    "C24_exact_partial",
    "C24_refuted",
    "C24_unreadable_refuted"
   ],
   "note": "False when leftover words stand before a gcode that takes them, and for words whose printed value is not their value (refuted, also unreadable output). Proved otherwise."
  },
  {
   "property": "C25",
   "status": "proved",
   "theorems": [
    "C25_sorted",
    "C25_only_order"
   ],
   "note": ""
  },
  {
   "property": "C26",
   "status": "proved",
   "theorems": [
    "C26_split"
   ],
   "note": ""
  },
  {
   "property": "C27",
   "status": "proved",
   "theorems": [
    "C27_modal_copy"
   ],
   "note": ""
  },
  {
   "property": "C28",
   "status": "proved",
   "theorems": [
    "C28_read",
    "C28_assign",
    "C28_bad_value",
    "C28_other_letter"
   ],
   "note": ""
  },
  {
   "property": "C29",
   "status": "proved",
   "theorems": [
    "C29_print",
    "C29_suppressed"
   ],
   "note": ""
  },
  {
   "property": "C30",
   "status": "proved",
   "theorems": [
    "C30_groups",
    "C30_invariant",
    "C30_wrong_group"
   ],
   "note": ""
  },
  {
   "property": "C31",
   "status": "proved",
   "theorems": [
    "C31_last",
    "C31_none",
    "C31_cancelled"
   ],
   "note": ""
  },
  {
   "property": "C32",
   "status": "proved",
   "theorems": [
    "C32_others",
    "C32_modal_params"
   ],
   "note": ""
  },
  {
   "property": "C33",
   "status": "proved",
   "theorems": [
    "C33_replay",
    "C33_gcodes"
   ],
   "note": ""
  },
  {
   "property": "C34",
   "status": "proved",
   "theorems": [
    "C34_mode",
    "C34_origin"
   ],
   "note": ""
  },
  {
   "property": "C35",
   "status": "proved",
   "theorems": [
    "C35_add",
    "C35_add_mismatch",
    "C35_sub",
    "C35_sub_mismatch",
    "C35_mul",
    "C35_div",
    "C35_sub_add",
    "C35_add_comm",
    "C35_add_assoc",
    "C35_div_mul"
   ],
   "note": ""
  },
  {
   "property": "C36",
   "status": "partial",
   "theorems": [
    "C36_setter_partial",
    "C36_setter_roundtrip_partial",
    "C36_equality_partial",
    "C36_symmetric_partial",
    "C36_same_place_partial",
    "C36_setter_float_partial",
    "C36_setter_refuted",
    "C36_refuted"
   ],
   "note": "False: Position.__setattr__ intercepts `p.unit = u`, so the property's setter never runs; the assignment changes nothing, and == between units compares bare numbers: 1 inch differs from 25.4 mm and equals 1 mm (C36_refuted, exact arithmetic). Proved: == compares axes and numbers, is symmetric, means the same place within one unit and only at zero across units; the setter function itself, when called by name, converts and is reversible exactly, with rounding up to a stated relative error (exactly is refuted in binary64)."
  },
  {
   "property": "C37",
   "status": "partial",
   "theorems": [
    "C37_same_unit_partial",
    "C37_iff_partial",
    "C37_refuted"
   ],
   "note": "False: units of the second operand are ignored (refuted). Proved: correct exactly when the units agree or the second operand is zero."
  },
  {
   "property": "C38",
   "status": "partial",
   "theorems": [
    "C38_min_partial",
    "C38_max_partial",
    "C38_other_axes",
    "C38_refuted"
   ],
   "note": "False for positions in different units: nothing is converted (C38_refuted: the smaller of 1 inch and 2 mm is 1 inch). Proved when the units agree; the axes of the result and the errors in any units."
  },
  {
   "property": "C39",
   "status": "proved",
   "theorems": [
    "C39_assign",
    "C39_sequence"
   ],
   "note": ""
  },
  {
   "property": "C40",
   "status": "proved",
   "theorems": [
    "C40_sound",
    "C40_text",
    "C40_sync",
    "C40_absolute",
    "C40_float"
   ],
   "note": ""
  },
  {
   "property": "C41",
   "status": "proved",
   "theorems": [
    "C41_incremental",
    "C41_float",
    "C41_program"
   ],
   "note": ""
  },
  {
   "property": "C42",
   "status": "partial",
   "theorems": [
    "C42_work_abs",
    "C42_abs_work",
    "C42_assign",
    "C42_float",
    "C42_refuted"
   ],
   "note": "Exact arithmetic: fully proved. With rounding: proved without offsets; false with offsets in binary64 (refuted)."
  },
  {
   "property": "C43",
   "status": "proved",
   "theorems": [
    "C43_box",
    "C43_new"
   ],
   "note": ""
  },
  {
   "property": "C44",
   "status": "proved",
   "theorems": [
    "C44_still"
   ],
   "note": ""
  },
  {
   "property": "C45",
   "status": "proved",
   "theorems": [
    "C45_select"
   ],
   "note": ""
  },
  {
   "property": "C46",
   "status": "proved",
   "theorems": [
    "C46_bare"
   ],
   "note": ""
  },
  {
   "property": "C47",
   "status": "partial",
   "theorems": [
    "C47_refused",
    "C47_accepted",
    "C47_ignored",
    "C47_refuted"
   ],
   "note": "Refusal and acceptance fully characterised; the claim that unusable words do nothing is false with ignore_invalid_modal (refuted)."
  },
  {
   "property": "C48",
   "status": "partial",
   "theorems": [
    "C48_refuted",
    "C48_words_partial",
    "C48_gcodes_partial",
    "C48_incompatible_refuted",
    "C48_observed",
    "C48_forever"
   ],
   "note": "False: a word before its gcode is not its parameter, and two gcodes of one group depend on order (refuted). Proved for clear words and compatible gcodes, with the equivalence shown unobservable forever."
  },
  {
   "property": "C49",
   "status": "proved",
   "theorems": [
    "C49_ends",
    "C49_float",
    "C49_no_r"
   ],
   "note": ""
  },
  {
   "property": "C50",
   "status": "proved",
   "theorems": [
    "C50_cancelled",
    "C50_replaced"
   ],
   "note": ""
  },
  {
   "property": "C51",
   "status": "partial",
   "theorems": [
    "C51_copy_partial",
    "C51_refuted",
    "C51_index_refuted"
   ],
   "note": "False: offsets and selected system are lost by the copy (refuted). Proved: everything else is copied."
  },
  {
   "property": "C52",
   "status": "partial",
   "theorems": [
    "C52_units_partial",
    "C52_refuted"
   ],
   "note": "False: later coordinates are not read in the new unit (refuted). Proved: the position is converted."
  },
  {
   "property": "C53",
   "status": "partial",
   "theorems": [
    "C53_as_motion",
    "C53_stays_partial",
    "C53_refuted"
   ],
   "note": "False: axis words of G92 and the like move the machine (refuted). Proved: without axis words nothing moves; exact description with them (C53_as_motion)."
  },
  {
   "property": "C54",
   "status": "proved",
   "theorems": [
    "C54_kept",
    "C54_succeeds"
   ],
   "note": ""
  },
  {
   "property": "C55",
   "status": "proved",
   "theorems": [
    "C55_one_by_one",
    "C55_split",
    "C55_program"
   ],
   "note": ""
  },
  {
   "property": "C56",
   "status": "proved",
   "theorems": [
    "C56_path",
    "C56_absolute",
    "C56_refused"
   ],
   "note": ""
  },
  {
   "property": "C57",
   "status": "partial",
   "theorems": [
    "C57_words",
    "C57_refuted",
    "C57_effect_partial",
    "C57_canned_refuted"
   ],
   "note": "The hidden words are exactly characterised. Effect proved without canned cycles; with them it is false or an exception (refuted)."
  },
  {
   "property": "C58",
   "status": "partial",
   "theorems": [
    "C58_ends_partial",
    "C58_return_differs",
    "C58_zero_differs",
    "C58_refuted"
   ],
   "note": "Proved in exact arithmetic (axes X, Y, Z; at least one hole; one hole if G91 with G99). False for G91 G99 with several holes (for every such cycle, C58_return_differs) and for L0 (C58_zero_differs)."
  },
  {
   "property": "C59",
   "status": "partial",
   "theorems": [
    "C59_commands",
    "C59_machine",
    "C59_refuted"
   ],
   "note": "Commanded moves: proved for every monotone, idempotent, odd rounding, absolute mode. Machine moves: proved in exact arithmetic, both modes. Both need the start not below the bottom of the hole; without that it is false (refuted)."
  },
  {
   "property": "C60",
   "status": "partial",
   "theorems": [
    "C60_pecks_partial",
    "C60_float_partial",
    "C60_stuck",
    "C60_refuted"
   ],
   "note": "Exact: terminates for Q <> 0 with ceil(depth/Q) pecks. Rounding: terminates for steps of 0.001 or more within a million units. False for Q0 and for steps lost in rounding (C60_stuck, refuted)."
  },
  {
   "property": "C61",
   "status": "proved",
   "theorems": [
    "C61_connected",
    "C61_ends",
    "C61_runs"
   ],
   "note": "Real arithmetic. All planes for the chain and the end; totality in the XY plane (C61_runs)."
  },
  {
   "property": "C62",
   "status": "partial",
   "theorems": [
    "C62_error_partial",
    "C62_error_refuted"
   ],
   "note": "Proved for the XY plane, and in ZX and YZ for all lines but the last; refuted there (C62_error_refuted): a half turn in G18 becomes one line through the centre. Relative moves: for the exact vertices, which the emitted moves follow up to the rounding of C67. Real arithmetic."
  },
  {
   "property": "C63",
   "status": "proved",
   "theorems": [
    "C63_circle",
    "C63_given_centre"
   ],
   "note": ""
  },
  {
   "property": "C64",
   "status": "partial",
   "theorems": [
    "C64_angle_partial",
    "C64_quarters",
    "C64_angle_refuted"
   ],
   "note": "Proved in the XY plane; refuted in ZX; in ZX and YZ the computed angle is always a multiple of a quarter turn (C64_quarters)."
  },
  {
   "property": "C65",
   "status": "partial",
   "theorems": [
    "C65_collapse",
    "C65_full_circle_refuted"
   ],
   "note": "Refuted: C65_collapse shows it for every full circle in every plane, a single line or ZeroDivisionError; C65_full_circle_refuted is a witness."
  },
  {
   "property": "C66",
   "status": "partial",
   "theorems": [
    "C66_helix_partial"
   ],
   "note": "All planes for the vertices between the ends, with the angle the code computes; this is the angle of the arc in the XY plane only (see C64)."
  },
  {
   "property": "C67",
   "status": "proved",
   "theorems": [
    "C67_rounding"
   ],
   "note": ""
  },
  {
   "property": "C68",
   "status": "proved",
   "theorems": [
    "C68_projection"
   ],
   "note": ""
  },
  {
   "property": "C69",
   "status": "partial",
   "theorems": [
    "C69_align_partial",
    "C69_coord_system_partial",
    "C69_align_refuted"
   ],
   "note": "Proved unless the vectors (in either of the two steps) are opposite; then the result is not a rotation (C69_align_refuted)."
  },
  {
   "property": "C70",
   "status": "proved",
   "theorems": [
    "C70_cropped",
    "C70_front",
    "C70_numbers"
   ],
   "note": "Which lines are printed, for all conditions that can be evaluated; C70_numbers for ranges of line numbers. A reversed range 200:100 prints to the end of the file."
  },
  {
   "property": "C71",
   "status": "partial",
   "theorems": [
    "C71_preamble_partial",
    "C71_crop_partial",
    "C71_motion_refuted",
    "C71_incremental_refuted",
    "C71_decimals_refuted",
    "C71_speed_refuted",
    "C71_canned_refuted",
    "C71_plane_refuted"
   ],
   "note": "The preamble always exists and restores place and modes but the motion mode (C71_preamble_partial); the kept lines then do the same when they name their motion first or G0 was in force (C71_crop_partial). Missing, and refuted: motion mode relied on (C71_motion_refuted), G91 (C71_incremental_refuted), more than three decimals (C71_decimals_refuted), G96 (C71_speed_refuted), a canned cycle in force, which is drilled again (C71_canned_refuted), planes UV, WU, VW (C71_plane_refuted)."
  },
  {
   "property": "C72",
   "status": "partial",
   "theorems": [
    "C72_printed",
    "C72_program_partial",
    "C72_again_partial",
    "C72_order_refuted",
    "C72_numbers_refuted",
    "C72_unreadable_refuted"
   ],
   "note": "Without options. Missing: numbers with more decimals or digits than are printed, leftover words in front of a gcode that would take them; there it is false (C72_order_refuted, C72_numbers_refuted, C72_unreadable_refuted). C72_printed gives the output for every file."
  },
  {
   "property": "C73",
   "status": "partial",
   "theorems": [
    "C73_program_partial",
    "C73_printed",
    "C73_refuted",
    "C73_macro_refuted"
   ],
   "note": "With --singles only. Missing: lines of several gcodes with leftover words or a macro: both are dropped (C73_refuted, C73_macro_refuted), and words that do not print exactly (see C72). C73_printed gives the output for every file."
  },
  {
   "property": "C74",
   "status": "partial",
   "theorems": [
    "C74_refuted",
    "C74_always"
   ],
   "note": "False: the assignment in set_default is to a local variable (C74_refuted); the default never changes (C74_always)."
  },
  {
   "property": "C75",
   "status": "proved",
   "theorems": [
    "C75_codes"
   ],
   "note": ""
  },
  {
   "property": "C76",
   "status": "proved",
   "theorems": [
    "C76_order"
   ],
   "note": ""
  },
  {
   "property": "C77",
   "status": "proved",
   "theorems": [
    "C77_groups",
    "C77_nonmodal"
   ],
   "note": ""
  },
  {
   "property": "C78",
   "status": "proved",
   "theorems": [
    "C78_equal",
    "C78_print",
    "C78_process",
    "C78_equivalence"
   ],
   "note": ""
  },
  {
   "property": "C79",
   "status": "partial",
   "theorems": [
    "C79_once_partial",
    "C79_refuted"
   ],
   "note": "Proved in exact arithmetic; false in binary64: G81 Z-4 R0.1 drills twice (refuted)."
  },
  {
   "property": "C80",
   "status": "partial",
   "theorems": [
    "C80_default_refuted"
   ],
   "note": "False for every input: the name of the default method is not defined, so NameError is raised (C80_default_refuted)."
  },
  {
   "property": "C81",
   "status": "partial",
   "theorems": [
    "C81_errors_partial",
    "C81_errors_refuted",
    "C81_half_circle_refuted"
   ],
   "note": "Which exception is raised is characterized (C81_errors_partial); missing or contradictory parameters raise NameError instead of GCodeParameterError (C81_errors_refuted). Over the reals an arc given by its centre is never out of reach; in floating point exact half circles such as G2 X0.09 I0.04 at X0.01 are rejected, whatever the method and precision, with correctly rounded squares and roots (C81_half_circle_refuted)."
  },
  {
   "property": "C82",
   "status": "proved",
   "theorems": [
    "C82_few_lines"
   ],
   "note": "XY plane, real arithmetic."
  },
  {
   "property": "C83",
   "status": "proved",
   "theorems": [
    "C83_accepted",
    "C83_only",
    "C83_rejected",
    "C83_unambiguous"
   ],
   "note": "Texts without a newline character (an argument on one line)."
  },
  {
   "property": "C84",
   "status": "partial",
   "theorems": [
    "C84_final_partial",
    "C84_program_partial",
    "C84_height_refuted",
    "C84_end_refuted"
   ],
   "note": "Proved when the lines of the program are faithful (as in C72) and the safety height is printed exactly; the machine of the script starts with the mode its position agrees with. Refuted without: a safety height of 0.0004 prints as Z0 (C84_height_refuted), and in a program ending with M30/M2 the final actions are printed behind the end of the program (C84_end_refuted)."
  },
  {
   "property": "C85",
   "status": "partial",
   "theorems": [
    "C85_ends",
    "C85_program_partial",
    "C85_name_refuted",
    "C85_mode_refuted"
   ],
   "note": "That the script ends well exactly for executable files holds for all (C85_ends). The program is proved unchanged for lines that print without loss (restylable): words readable as in C07, no ';' comment kept before a macro (C16), leftover words only without a motion word in the line, a program name with no other gcode than a line number. Without that: 'G21 O1234' is printed 'O1234 G21', where the name takes the G21 (C85_name_refuted); 'X10 G0' in G1 mode is printed 'G00 G01 X10', which cannot be read (C85_mode_refuted)."
  },
  {
   "property": "C86",
   "status": "partial",
   "theorems": [
    "C86_program_partial",
    "C86_whitespace",
    "C86_name_refuted"
   ],
   "note": "C86_whitespace is for all files; the program is proved unchanged for lines that print without loss (restylable). Without that: --rm_whitespace changes a program name with blanks (C86_name_refuted)."
  },
  {
   "property": "C87",
   "status": "partial",
   "theorems": [
    "C87_lines_partial",
    "C87_implied_refuted"
   ],
   "note": "Proved for lines that print without loss (restylable). Commands implied by the motion mode are not removed without --full, and then run under another mode (C87_implied_refuted); the help text says so."
  },
  {
   "property": "C88",
   "status": "partial",
   "theorems": [
    "C88_accepted",
    "C88_only",
    "C88_rejected_partial",
    "C88_case_refuted"
   ],
   "note": "Which texts are accepted and what they mean holds for all. Refusal with ArgumentTypeError is proved for texts without the capital letters I, O, M: the pattern ignores case, the table does not, so that a capital letter ends in a KeyError (C88_case_refuted)."
  },
  {
   "property": "C89",
   "status": "proved",
   "theorems": [
    "C89_list",
    "C89_elements",
    "C89_back",
    "C89_default"
   ],
   "note": "mk_word_str is the constructor Word(text), whose letters and values are those of C01-C04."
  },
  {
   "property": "C90",
   "status": "partial",
   "theorems": [
    "C90_increments_partial",
    "C90_half_circle_refuted",
    "C90_rounding_refuted",
    "C90_whole_partial",
    "C90_outcome_partial",
    "C90_cycles_partial",
    "C90_return_refuted",
    "C90_macro_refuted",
    "C90_dwell_refuted",
    "C90_codes_refuted",
    "C90_arcs_partial",
    "C90_circle_refuted"
   ],
   "note": "For programs whose lines print without loss and whose replacing moves lead where the command leads (tractable); for drilling cycles under G98 in the XY plane this is proved with exact arithmetic (C90_cycles_partial). False under G99 (C90_return_refuted), for macros on the line of a cycle (C90_macro_refuted), for G82 (C90_dwell_refuted), for codes that are no cycles (C90_codes_refuted). For arcs in absolute mode, whose end points print without loss and whose moves stay within +-999999, this is proved for every accurate arithmetic and whatever the functions of math return (C90_arcs_partial; the geometry of the points in between is C61-C63, C67). Arcs under G91 whose words are thousandths: proved with exact arithmetic (C90_increments_partial); in binary64 the end may be a rounding error aside (C90_rounding_refuted). A full circle without end point makes the script fail (C90_circle_refuted), rounding may too (C90_half_circle_refuted)."
  },
  {
   "property": "C91",
   "status": "partial",
   "theorems": [
    "C91_outcome",
    "C91_program_partial",
    "C91_same",
    "C91_ahead_refuted",
    "C91_twice_refuted",
    "C91_order_refuted"
   ],
   "note": "C91_outcome and C91_same hold for every file; C91_program_partial for lines that print without loss (tidily; C91_order_refuted otherwise). Not all that is removed is not understood: coordinates ahead of the motion word of a line are dropped (C91_ahead_refuted); two leftover words of one letter, accepted without the option, make the script fail with it (C91_twice_refuted)."
  },
  {
   "property": "C92",
   "status": "proved",
   "theorems": [
    "C92_moves",
    "C92_absolute",
    "C92_incremental",
    "C92_increments",
    "C92_inexact",
    "C92_decimal",
    "C92_exact"
   ],
   "note": "In absolute mode exactly, for floats; the functions of math, ** and the rotations of euclid3 are arbitrary (only sqrt(1) = 1, 0**2 = 0, 1**2 = 1 are used), so nothing is said here about the points in between (their geometry over the reals is C61-C63, C67). In incremental mode for rounding errors u on numbers up to B (binary64_within: 2^-33 up to 2^20; exact_within: 0); the sum is not always exact (C92_inexact); when the arc leads a whole number of thousandths, the thousandths in the words of the moves add up to it as integers (C92_decimal; without rounding, C92_exact, with no bound)."
  },
  {
   "property": "C93",
   "status": "proved",
   "theorems": [
    "C93_outcome"
   ],
   "note": "Squares are rounded squares (as x ** 2 is), roots not negative; all other functions arbitrary."
  },
  {
   "property": "C94",
   "status": "partial",
   "theorems": [
    "C94_approach_partial",
    "C94_decimals_refuted"
   ],
   "note": "Missing: G91, a canned cycle in force, G96, the planes UV, WU, VW (see C71 for each of these), and coordinates of more than three decimals or above 999999 (refuted: the height is rounded and may be below what was reached)."
  },
  {
   "property": "C95",
   "status": "proved",
   "theorems": [
    "C95_path",
    "C95_increments",
    "C95_binary64",
    "C95_library",
    "C95_center"
   ],
   "note": "The path: the XY plane only (in ZX and YZ the angle itself is wrong, C64; the centre and the radius are right in all three planes, C95_center) in absolute mode (C95_path) and in incremental mode (C95_increments; there the moves are rounded to thousandths, C92, and the bounds are wider accordingly). That the functions of math are right up to u is a hypothesis (close_to_real); it is proved for a library on binary64 (Lib64.v, u = 2^-46: correctly rounded squares and roots, pi, exact remainders, the others some rational number close to the real function), and rounding, squares and roots of binary64 are proved right up to 2^-53 (C95_binary64). Where the centre given by I, J is nearly as close to both possible centres (half circles) the centre taken may be up to 10 sqrt(u) M further away than the other one."
  },
  {
   "property": "C96",
   "status": "proved",
   "theorems": [
    "C96_cuts"
   ],
   "note": "The conditions of C90_arcs_partial (words that print without loss, no other options of the script, arcs the function accepts) are hypotheses; arcs not in absolute mode or the XY plane, with ends closer than 2000 u M or coordinates beyond 249000 are left to C90. close_to_real as in C95."
  },
  {
   "property": "C97",
   "status": "proved",
   "theorems": [
    "C97_drilling"
   ],
   "note": "Cycles in incremental mode, other planes, under G99, or starting below their bottom are left to C90; that the expansion ends (fuel) is a hypothesis, see C60. How much a peck may exceed Q by printing is not bounded here."
  },
  {
   "property": "C98",
   "status": "proved",
   "theorems": [
    "C98_rounded",
    "C98_counted",
    "C98_places",
    "C98_again"
   ],
   "note": "The error is counted from the numbers as read, in units of unit_error M; Example C98_drift shows that in incremental mode it really adds up (ten moves by 0.0004 are printed as moves by 0). Words with letter O beside other words and lines whose words would join another gcode when printed are not legible (see C72). C98_again: a second run changes nothing more; numbers between -0.0005 and 0 are left out there, since they print as -0 and the model has no sign of zero."
  },
  {
   "property": "C99",
   "status": "proved",
   "theorems": [
    "C99_crop"
   ],
   "note": "The quantifier leaves out what C71 refutes: G91, canned cycle, G96 and the planes G17.1, G18.1, G19.1 in force where the kept lines start. As in C71 the kept lines must name their motion before they rely on it, or G0 be in force. Heights: pos_getattr (m_max m) is the largest coordinate reached (C43)."
  },
  {
   "property": "C100",
   "status": "partial",
   "theorems": [
    "C100_assigned",
    "C100_other_lines",
    "C100_mode_partial",
    "C100_mode_follows_partial",
    "C100_refuted",
    "C100_lines_as_read",
    "C100_mode_as_processed"
   ],
   "note": "False in full: modal_copy shares the Word objects of the copied parameters, so a machine that has processed a canned cycle remembers words that are those of the line; assigning Z of the line's gcode after processing changes the depth the machine remembers, and lines processed later drill to it (C100_refuted, binary64). Proved for every history: the gcode assigned becomes what C28 says, everything else in all lines stays; the machine keeps its modes unless the letter is a parameter canned cycles keep (C100_mode_partial), and then exactly that parameter of the remembered gcode follows (C100_mode_follows_partial). C100_lines_as_read and C100_mode_as_processed tie the model with shared objects to the one without. Not modelled: assigning gcode.word, gcode.params, word.letter or the gcodes inside machine.mode directly."
  },
  {
   "property": "C101",
   "status": "partial",
   "theorems": [
    "C101_attribute",
    "C101_value_partial",
    "C101_refuted",
    "C101_truth",
    "C101_length"
   ],
   "note": "The part about the value is false in general: block.X is the first X of the line, and in 'G10 L2 P1 X5 G0 X7' that is 5 while the move goes to 7 (C101_refuted); proved where the letter occurs once. The rest is proved in full. C101_ex_assigned: a parameter assigned later that was not in the text is printed by the block but is not one of its attributes."
  },
  {
   "property": "C102",
   "status": "partial",
   "theorems": [
    "C102_numbers",
    "C102_assigned",
    "C102_unchanged_partial",
    "C102_seen",
    "C102_refuted",
    "C102_operand_refuted"
   ],
   "note": "False in full: _value is a defaultdict, so p.vector of a position without X, Y or Z inserts the missing keys; two equal positions are no longer equal after the vector of one was read, and Position.min raises AttributeError (C102_refuted); p + q inserts hidden keys into q (C102_operand_refuted). Proved for every program: attributes, axes, unit and words of a position change only by assigning to it (C102_numbers, C102_assigned); in programs that give positions coordinates of their own axes only and ask only positions with X, Y and Z for their vector, no object changes at all (C102_unchanged_partial)."
  },
  {
   "property": "C103",
   "status": "partial",
   "theorems": [
    "C103_readback_partial",
    "C103_default",
    "C103_exact_partial",
    "C103_program_partial",
    "C103_number",
    "C103_refused",
    "C103_refuted",
    "C103_word_refuted"
   ],
   "note": "False in full: numbers from 1000000 on are printed with an exponent and negative line numbers with a sign, neither can be read (C103_refuted); the constructor takes a word that means another class (C103_word_refuted). Proved for everything made in code whose numbers and texts print well (below 1000000, no negative number that rounds to zero, plain texts); words given by the classes themselves always do (C103_default). GCodeSelectTool and GCodeProgramName of a float are not modelled (str of a float). Programs (C103_program_partial): gcodes that print without loss; for other decimals see C98."
  },
  {
   "property": "C104",
   "status": "partial",
   "theorems": [
    "C104_pieces_partial",
    "C104_motion_refuted",
    "C104_incremental_refuted"
   ],
   "note": "False in full: a piece that begins with coordinates alone moves rapidly (C104_motion_refuted), and cut in incremental mode the pieces lead elsewhere (C104_incremental_refuted); the other gaps are those of C71 (canned cycle or G96 in force, planes UV, WU, VW, more than three decimals; refuted there). Proved for any number of pieces that begin in absolute mode in a state the preamble can restore, name their motion (or follow a G0) and print without loss; nothing is asked of the first piece but that it prints without loss."
  },
  {
   "property": "C105",
   "status": "proved",
   "theorems": [
    "C105_line",
    "C105_line_errors",
    "C105_command",
    "C105_block",
    "C105_program",
    "C105_no_g99",
    "C105_ignoring"
   ],
   "note": "Both directions. After a cycle that cannot be done the machine has not moved, but the cycle is its motion mode (C105_command), so that the next coordinates alone fail again (C105_ex). The texts have no negative zero, infinities or overflow (DESIGN, section 4)."
  },
  {
   "property": "C106",
   "status": "proved",
   "theorems": [
    "C106_turns",
    "C106_plain",
    "C106_arcs",
    "C106_exact",
    "C106_float",
    "C106_stuck",
    "C106_endless"
   ],
   "note": "The loop of simplify_canned_cycle is the only one in the model that takes a bound on its turns (Transform.v drill_loop); the theorems speak of all bounds at once (FuelSpec.v finishes, never_finishes). C106_endless: with --canned_expand a run need not end."
  },
  {
   "property": "C107",
   "status": "proved",
   "theorems": [
    "C107_alike",
    "C107_level",
    "C107_named",
    "C107_displaced",
    "C107_g91"
   ],
   "note": "Where two machines are compared only their mode, state, axes and ignore flag are assumed equal; the recorded range may differ and never matters. C107_displaced and C107_g91 are about exact arithmetic: with rounding the distance kept is only approximate."
  },
  {
   "property": "C108",
   "status": "partial",
   "theorems": [
    "C108_restyled_partial",
    "C108_removed_refuted",
    "C108_singles_partial",
    "C108_untouched",
    "C108_expanded_partial"
   ],
   "note": "Missing: lines that do not print without loss (restylable, faithful, tractable, as in C72, C85 and C90). With --rm_gcodes the second run may stop, as C108_removed_refuted shows: a line of words that belonged to a removed command. C108_untouched has no such restriction and holds for any rounding."
  },
  {
   "property": "C109",
   "status": "partial",
   "theorems": [
    "C109_resend_partial",
    "C109_incremental_refuted",
    "C109_ignored_refuted"
   ],
   "note": "Canned cycles included. Missing: machines with offsets set, and bare words with an L for a drilling cycle (which remembers all its parameters but L). C109_incremental_refuted: in G91 the line moves twice. C109_ignored_refuted: on a machine without motion mode that ignores bare words, a line that sets the motion mode has its bare words executed the second time only."
  },
  {
   "property": "C110",
   "status": "proved",
   "theorems": [
    "C110_swap",
    "C110_default"
   ],
   "note": "C110_level_needed shows that the exception for the planes XZ and YZ is needed (a drilling cycle leaves the axis normal to the plane alone)."
  }
 ]
}