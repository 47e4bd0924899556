{
 "claims": [
  {
   "property": "C01",
   "status": "proved",
   "theorems": [
    "C01_or_is_ordered_choice"
   ],
   "note": ""
  },
  {
   "property": "C02",
   "status": "proved",
   "theorems": [
    "C02_or_errors",
    "C02_or_errors_once"
   ],
   "note": ""
  },
  {
   "property": "C03",
   "status": "proved",
   "theorems": [
    "C03_optional"
   ],
   "note": ""
  },
  {
   "property": "C04",
   "status": "proved",
   "theorems": [
    "C04_join_is_sequence",
    "C04_join_associative"
   ],
   "note": ""
  },
  {
   "property": "C05",
   "status": "proved",
   "theorems": [
    "C05_map",
    "C05_map_err",
    "C05_and_then",
    "C05_unify",
    "C05_unify_err",
    "C05_ref_boxed",
    "C05_map_compose",
    "C05_map_once",
    "C05_map_err_once",
    "C05_and_then_once",
    "C05_unify_once",
    "C05_unify_err_once",
    "C05_map_compose_once"
   ],
   "note": ""
  },
  {
   "property": "C06",
   "status": "proved",
   "theorems": [
    "C06_bin_expr",
    "C06_parse_once_is_parse",
    "C06_iterative_once_is_iterative"
   ],
   "note": "Ordinary combinators (P_Comb), iterative adapters (P_Iter), BinExprParser (P_BinExpr)."
  },
  {
   "property": "C07",
   "status": "proved",
   "theorems": [
    "C07_repeat_maximal_munch",
    "C07_repeat_budget_irrelevant"
   ],
   "note": ""
  },
  {
   "property": "C08",
   "status": "proved",
   "theorems": [
    "C08_repeat_terminates",
    "C08_repeat_diverges"
   ],
   "note": ""
  },
  {
   "property": "C09",
   "status": "proved",
   "theorems": [
    "C09_bin_expr",
    "C09_budget_irrelevant",
    "C09_terminates"
   ],
   "note": ""
  },
  {
   "property": "C10",
   "status": "proved",
   "theorems": [
    "C10_unique_tree",
    "C10_builds_the_tree"
   ],
   "note": ""
  },
  {
   "property": "C11",
   "status": "proved",
   "theorems": [
    "C11_no_panic"
   ],
   "note": ""
  },
  {
   "property": "C12",
   "status": "partial",
   "theorems": [
    "C12_usize_max_refuted",
    "C12_usize_max_partial"
   ],
   "note": "REFUTED: C12_usize_max_refuted, for every value of usize::MAX (panic with overflow checks, right grouping without). Right-associative operators may use the whole range (C12_usize_max_partial)."
  },
  {
   "property": "C13",
   "status": "proved",
   "theorems": [
    "C13_bin_expr_fatal_not_swallowed",
    "C13_fatal_not_swallowed"
   ],
   "note": ""
  },
  {
   "property": "C14",
   "status": "partial",
   "theorems": [
    "C14_collect_never_fails",
    "C14_collect_reports_fatal_refuted"
   ],
   "note": "REFUTED: collect never fails (C14_collect_never_fails), so a terminating error is returned inside a successful result."
  },
  {
   "property": "C15",
   "status": "proved",
   "theorems": [
    "C15_collect",
    "C15_collect_any_collection",
    "C15_collect_only_runs"
   ],
   "note": ""
  },
  {
   "property": "C16",
   "status": "proved",
   "theorems": [
    "C16_fold",
    "C16_fold_only_runs"
   ],
   "note": ""
  },
  {
   "property": "C17",
   "status": "proved",
   "theorems": [
    "C17_map_each",
    "C17_map_each_compose",
    "C17_scan",
    "C17_map_while",
    "C17_try_map_each",
    "C17_calls"
   ],
   "note": ""
  },
  {
   "property": "C18",
   "status": "proved",
   "theorems": [
    "C18_take",
    "C18_take_exhausted",
    "C18_calls"
   ],
   "note": ""
  },
  {
   "property": "C19",
   "status": "partial",
   "theorems": [
    "C19_fold_collect_remainders",
    "C19_same_remainder_partial",
    "C19_same_remainder_refuted"
   ],
   "note": "REFUTED as stated: fold keeps the position the ending step left, collect rewinds to before that step (C19_fold_collect_remainders is exact; witness uses map_while). They agree for repeat (C19_same_remainder_partial)."
  },
  {
   "property": "C20",
   "status": "proved",
   "theorems": [
    "C20_optional_iterative",
    "C20_repeat_iterative",
    "C20_repeat_collected"
   ],
   "note": ""
  },
  {
   "property": "C21",
   "status": "proved",
   "theorems": [
    "C21_bin_expr",
    "C21_failure_location_unobservable"
   ],
   "note": ""
  },
  {
   "property": "C22",
   "status": "proved",
   "theorems": [
    "C22_bin_expr",
    "C22_forward"
   ],
   "note": ""
  },
  {
   "property": "C23",
   "status": "proved",
   "theorems": [
    "C23_any_item",
    "C23_any_char",
    "C23_segmentations_are_lawful",
    "C23_slices_are_lawful",
    "C23_strs_are_lawful"
   ],
   "note": ""
  },
  {
   "property": "C24",
   "status": "proved",
   "theorems": [
    "C24_the_item",
    "C24_the_char"
   ],
   "note": ""
  },
  {
   "property": "C25",
   "status": "proved",
   "theorems": [
    "C25_atom_decides_prefix"
   ],
   "note": ""
  },
  {
   "property": "C26",
   "status": "partial",
   "theorems": [
    "C26_atom_consumption_exact",
    "C26_atom_consumes_pattern_partial",
    "C26_atom_consumes_pattern_refuted"
   ],
   "note": "REFUTED as stated: C26_atom_consumes_pattern_refuted. The exact consumption of the code is proved for every segmentation (C26_atom_consumption_exact); the claim itself is proved when the first segment covers the pattern."
  },
  {
   "property": "C27",
   "status": "partial",
   "theorems": [
    "C27_atom_str_exact",
    "C27_atom_ascii_partial",
    "C27_atom_text_success",
    "C27_atom_str_never_panics_refuted"
   ],
   "note": "REFUTED as stated: atom panics on a str when the shorter length is not a char boundary. Exact behaviour, including the panics, is proved (C27_atom_str_exact); no panic on ASCII."
  },
  {
   "property": "C28",
   "status": "proved",
   "theorems": [
    "C28_slice_advance",
    "C28_slice_advance_additive",
    "C28_slice_rewind_restores",
    "C28_slice_rewind_forward_panics",
    "C28_slice_is_lawful",
    "C28_slice_zero_sized_panics"
   ],
   "note": ""
  },
  {
   "property": "C29",
   "status": "proved",
   "theorems": [
    "C29_str_advance",
    "C29_str_advance_additive"
   ],
   "note": ""
  },
  {
   "property": "C30",
   "status": "partial",
   "theorems": [
    "C30_str_rewind_iff",
    "C30_str_is_lawful_partial",
    "C30_str_rewind_past_end_refuted"
   ],
   "note": "REFUTED past the end (rewind after an advance that left the text is undefined behaviour). The exact condition under which rewind restores is proved (C30_str_rewind_iff)."
  },
  {
   "property": "C31",
   "status": "proved",
   "theorems": [
    "C31_measured_slice",
    "C31_measured_str",
    "C31_measured_slice_vs_plain",
    "C31_usize_counts"
   ],
   "note": ""
  },
  {
   "property": "C32",
   "status": "partial",
   "theorems": [
    "C32_measured_str_exact",
    "C32_measured_str_refuted"
   ],
   "note": "REFUTED inside a character: the measured str panics where the plain str yields the empty string. Exact agreement condition proved."
  },
  {
   "property": "C33",
   "status": "proved",
   "theorems": [
    "C33_cut_independent",
    "C33_total_count",
    "C33_measured_str"
   ],
   "note": ""
  },
  {
   "property": "C34",
   "status": "proved",
   "theorems": [
    "C34_lines_exist_unique",
    "C34_lf_lines",
    "C34_cr_lines"
   ],
   "note": ""
  },
  {
   "property": "C35",
   "status": "partial",
   "theorems": [
    "C35_crlf_lines_partial",
    "C35_crlf_never_more_lines",
    "C35_crlf_lines_refuted"
   ],
   "note": "REFUTED: CR CR LF is not recognised (witness). C35_crlf_lines_partial says exactly for which texts the claim holds; lines are never over-counted."
  },
  {
   "property": "C36",
   "status": "partial",
   "theorems": [
    "C36_along_a_text",
    "C36_total_preorder",
    "C36_arbitrary_refuted",
    "C36_exact"
   ],
   "note": "Proved along any one text; the order is a total preorder. For arbitrary values REFUTED: cmp looks at total_count only, eq at all three fields."
  },
  {
   "property": "C37",
   "status": "partial",
   "theorems": [
    "C37_resume_lf_partial",
    "C37_resume_cr_partial",
    "C37_resume_crlf_partial",
    "C37_resume_refuted"
   ],
   "note": "REFUTED: LineColumnMeter::new always starts a new line. The exact condition is proved for LF, CR and CRLF."
  },
  {
   "property": "C38",
   "status": "proved",
   "theorems": [
    "C38_is_a_stack",
    "C38_no_panic"
   ],
   "note": ""
  },
  {
   "property": "C39",
   "status": "proved",
   "theorems": [
    "C39_freed_once"
   ],
   "note": ""
  },
  {
   "property": "C40",
   "status": "proved",
   "theorems": [
    "C40_no_allocation",
    "C40_new",
    "C40_capacity",
    "C40_logarithmic"
   ],
   "note": ""
  },
  {
   "property": "C41",
   "status": "partial",
   "theorems": [
    "C41_any_size_inline_partial",
    "C41_zero_sized_refuted",
    "C41_zero_sized_exact"
   ],
   "note": "REFUTED for every inline size N: pushing N+1 zero-sized values asks the allocator for zero bytes. C41_zero_sized_exact: a session on zero-sized elements is undefined behaviour iff it ever asks for more than the inline space. Safe (any element size) while everything fits inline."
  },
  {
   "property": "C42",
   "status": "proved",
   "theorems": [
    "C42_ready_means_sent",
    "C42_sent_means_ready",
    "C42_stays_ready"
   ],
   "note": ""
  },
  {
   "property": "C43",
   "status": "proved",
   "theorems": [
    "C43_no_lost_wakeup"
   ],
   "note": ""
  },
  {
   "property": "C44",
   "status": "proved",
   "theorems": [
    "C44_exclusive",
    "C44_remove_never_fails",
    "C44_no_deadlock",
    "C44_completes"
   ],
   "note": ""
  },
  {
   "property": "C45",
   "status": "proved",
   "theorems": [
    "C45_flat_list",
    "C45_advance_while_committing",
    "C45_advance_goes_on"
   ],
   "note": ""
  },
  {
   "property": "C46",
   "status": "proved",
   "theorems": [
    "C46_iterator_is_a_queue"
   ],
   "note": ""
  },
  {
   "property": "C47",
   "status": "proved",
   "theorems": [
    "C47_nothing_lost",
    "C47_load_info",
    "C47_commit_never_fails"
   ],
   "note": ""
  },
  {
   "property": "C48",
   "status": "partial",
   "theorems": [
    "C48_commits_partial",
    "C48_kept_whole_partial",
    "C48_half_lost_partial",
    "C48_lossless_refuted",
    "C48_growth_partial"
   ],
   "note": "REFUTED: C48_lossless_refuted. Request::capacity() is the free space, not the capacity, so push_item refuses items once half of an even free space is used and IteratorSource drops them silently. C48_commits_partial gives exactly what is committed for every chunk list and strategy, C48_kept_whole_partial the exact condition per chunk. C48_growth_partial: nothing is lost of any chunks exactly if the buffer grows to the least odd number."
  },
  {
   "property": "C49",
   "status": "partial",
   "theorems": [
    "C49_program_partial",
    "C49_even_partial",
    "C49_odd_partial",
    "C49_out_of_bounds_partial",
    "C49_out_of_bounds_refuted"
   ],
   "note": "REFUTED: C49_out_of_bounds_refuted. With an odd free space push_item never sees the buffer as full and writes past it (C49_out_of_bounds_partial, for every such writer). C49_even_partial and C49_odd_partial give the exact behaviour otherwise. C49_program_partial: the exact outcome of every program of writer calls (what is kept, handed back, panics or is undefined)."
  },
  {
   "property": "C50",
   "status": "partial",
   "theorems": [
    "C50_cancel_partial",
    "C50_cancel_loses_partial",
    "C50_cancel_refuted"
   ],
   "note": "REFUTED: C50_cancel_refuted. When the request replaced the buffer, cancel drops to_append, so all items buffered before are lost (C50_cancel_loses_partial); in place, or without a writer, nothing changes (C50_cancel_partial)."
  },
  {
   "property": "C51",
   "status": "proved",
   "theorems": [
    "C51_valid",
    "C51_conserved"
   ],
   "note": ""
  },
  {
   "property": "C52",
   "status": "proved",
   "theorems": [
    "C52_no_error",
    "C52_all_passed_on",
    "C52_chunks"
   ],
   "note": ""
  },
  {
   "property": "C53",
   "status": "proved",
   "theorems": [
    "C53_sound",
    "C53_prompt",
    "C53_exact"
   ],
   "note": ""
  },
  {
   "property": "C54",
   "status": "partial",
   "theorems": [
    "C54_silent_partial",
    "C54_four_bytes_partial",
    "C54_truncated_refuted"
   ],
   "note": "REFUTED: C54_truncated_refuted. Control::finish ignores the held-back bytes. Exact, for every chunk list and conforming control: up to three trailing bytes at which no character starts are dropped without a report, also bytes that begin no text such as FF (C54_silent_partial); four or more are always reported (C54_four_bytes_partial)."
  },
  {
   "property": "C55",
   "status": "partial",
   "theorems": [
    "C55_safe_partial",
    "C55_chunk_exact_partial",
    "C55_lost_refuted",
    "C55_panic_refuted",
    "C55_run_partial",
    "C55_whole_partial",
    "C55_every_growth_refuted",
    "C55_segments_valid",
    "C55_after_error_partial",
    "C55_error_loses_refuted"
   ],
   "note": "REFUTED: C55_lost_refuted (text lost without an error) and C55_panic_refuted (subtraction overflow). Writer::capacity subtracts the held-back bytes from what is already the free space. C55_chunk_exact_partial says for every reachable state and chunk what is kept or that it panics; what is committed is always valid and in order (C55_safe_partial), and each segment is valid on its own, also after errors of the source or the validator (C55_segments_valid). C55_run_partial says what all chunks of a source leave committed, or that a load panics or reports an error; C55_every_growth_refuted that no buffer strategy makes it lossless, and C55_whole_partial which strategies do when chunks end where characters do. After an error no segment and none of the held bytes changes, and the buffer is as before or empty (C55_after_error_partial); that it can be empty, so that text accepted before the error is lost, is C55_error_loses_refuted."
  },
  {
   "property": "C56",
   "status": "proved",
   "theorems": [
    "C56_in_order",
    "C56_none_skipped",
    "C56_no_panic"
   ],
   "note": ""
  },
  {
   "property": "C57",
   "status": "partial",
   "theorems": [
    "C57_end_partial",
    "C57_race_refuted"
   ],
   "note": "REFUTED as stated: an append and done between the second iter.next() and the load of the done flag (segments.rs:95-100) make next() return None with a segment undelivered (C57_race_refuted, for every version width). Proved instead: at every None the source is done and everything appended before that poll's second look was returned; if done was set before that look, nothing is missing ever after."
  },
  {
   "property": "C58",
   "status": "proved",
   "theorems": [
    "C58_seen",
    "C58_woken",
    "C58_then_returns"
   ],
   "note": ""
  },
  {
   "property": "C59",
   "status": "partial",
   "theorems": [
    "C59_exact_partial",
    "C59_enough_partial",
    "C59_done_partial",
    "C59_no_panic_partial",
    "C59_short_refuted"
   ],
   "note": "REFUTED as stated: advance.rs:50 leaves 0 in this.remain and never stores the leftover back, so an advance that went pending once returns short (C59_short_refuted). Proved: the exact distance (min of n and the items there when the first look ended), hence correctness when enough items are there by then, or the source was done by then; no panic before the future has finished."
  },
  {
   "property": "C60",
   "status": "proved",
   "theorems": [
    "C60_error_algebra"
   ],
   "note": ""
  },
  {
   "property": "C61",
   "status": "proved",
   "theorems": [
    "C61_exact",
    "C61_budget_irrelevant",
    "C61_no_crash",
    "C61_deterministic",
    "C61_once"
   ],
   "note": ""
  },
  {
   "property": "C62",
   "status": "proved",
   "theorems": [
    "C62_round_trip",
    "C62_only_expressions",
    "C62_longest",
    "C62_unambiguous",
    "C62_str_instance",
    "C62_pieces_instance"
   ],
   "note": ""
  },
  {
   "property": "C63",
   "status": "proved",
   "theorems": [
    "C63_exactly_the_matching",
    "C63_rejected_first"
   ],
   "note": ""
  },
  {
   "property": "C64",
   "status": "proved",
   "theorems": [
    "C64_woken",
    "C64_then_finishes"
   ],
   "note": ""
  },
  {
   "property": "C65",
   "status": "proved",
   "theorems": [
    "C65_display_round_trip"
   ],
   "note": ""
  },
  {
   "property": "C66",
   "status": "partial",
   "theorems": [
    "C66_answers_partial",
    "C66_exact_partial",
    "C66_large_number_panics",
    "C66_never_panics_refuted"
   ],
   "note": "REFUTED: C66_never_panics_refuted ('\u00e9': atom(\"(\") splits str inside a character) and C66_large_number_panics (unwrap of from_str_radix). Proved instead: on every text it answers, unless the text has a character outside ASCII or a numeral above usize::MAX (C66_answers_partial). C66_exact_partial: without empty segments the texts it panics on, accepts and refuses are exactly: those that break it (inductive `breaks`), of the others those that start with an expression, and the rest."
  },
  {
   "property": "C67",
   "status": "partial",
   "theorems": [
    "C67_segmentation_refuted",
    "C67_segmentation_partial"
   ],
   "note": "REFUTED: C67_segmentation_refuted (the integer loop of bin_expr.rs:199-220 stops at an empty segment). Proved for all pairs of sequences in which no empty segment comes before text: same expression, same rest; same refusal; same panic (C67_segmentation_partial)."
  },
  {
   "property": "C68",
   "status": "partial",
   "theorems": [
    "C68_left_over",
    "C68_nothing_lost_partial",
    "C68_buffered_lost",
    "C68_interrupted",
    "C68_drop_refuted",
    "C68_half_written_kept"
   ],
   "note": "REFUTED as stated: request_writer moves the buffered items out of the loader when the requested size does not fit, so a load dropped after that loses them (C68_drop_refuted, with IteratorSource: calling load() and dropping the future unpolled). C68_left_over says exactly what is left at every point; C68_nothing_lost_partial and C68_buffered_lost give the two cases."
  },
  {
   "property": "C69",
   "status": "proved",
   "theorems": [
    "C69_or_associative",
    "C69_left_factor",
    "C69_right_factor",
    "C69_or_idempotent",
    "C69_optional_is_or",
    "C69_repeat_unrolls",
    "C69_repeat_is_greedy",
    "C69_repeat_again",
    "C69_right_factor_only_one_way"
   ],
   "note": ""
  },
  {
   "property": "C70",
   "status": "proved",
   "theorems": [
    "C70_or",
    "C70_join",
    "C70_map",
    "C70_map_err",
    "C70_and_then",
    "C70_unify",
    "C70_unify_err",
    "C70_ref_boxed",
    "C70_optional",
    "C70_repeat",
    "C70_optional_iter",
    "C70_repeat_iter",
    "C70_map_each",
    "C70_map_while",
    "C70_try_map_each",
    "C70_scan",
    "C70_take",
    "C70_fold",
    "C70_collect",
    "C70_bin_expr",
    "C70_pending_or",
    "C70_pending_join",
    "C70_prompt_or",
    "C70_prompt_optional",
    "C70_prompt_repeat",
    "C70_prompt_iter",
    "C70_prompt_collect",
    "C70_prompt_bin_expr",
    "C70_prompt_others",
    "C70_pending_mappings",
    "C70_pending_or_once",
    "C70_pending_join_once",
    "C70_pending_optional",
    "C70_pending_repeat",
    "C70_pending_adaptors",
    "C70_pending_fold",
    "C70_pending_collect",
    "C70_pending_bin_expr",
    "C70_waits_unique"
   ],
   "note": ""
  },
  {
   "property": "C71",
   "status": "partial",
   "theorems": [
    "C71_empty_array_refuted",
    "C71_always_partial",
    "C71_panics_iff",
    "C71_unwrap"
   ],
   "note": "REFUTED: C71_empty_array_refuted. The impl for [T; N] includes N = 0, and [Never; 0] has a value. Proved for all marked types without a zero-length array (C71_always_partial); C71_panics_iff is exact."
  },
  {
   "property": "C72",
   "status": "partial",
   "theorems": [
    "C72_woken_once",
    "C72_list_exact",
    "C72_ready_leaves_nothing",
    "C72_send_wakes_all",
    "C72_one_entry_per_wait_refuted"
   ],
   "note": "REFUTED in its last clause: polling one Wait n times without a send leaves n wakers in the list (C72_one_entry_per_wait_refuted, any n). All other clauses are proved over all reachable states of the thread model."
  },
  {
   "property": "C73",
   "status": "proved",
   "theorems": [
    "C73_len",
    "C73_boundary",
    "C73_advance",
    "C73_split_at",
    "C73_eq",
    "C73_measured",
    "C73_atom"
   ],
   "note": ""
  },
  {
   "property": "C74",
   "status": "partial",
   "theorems": [
    "C74_send_returns",
    "C74_send_stuck",
    "C74_send_unwinds",
    "C74_send_returns_iff",
    "C74_send_returns_refuted",
    "C74_poisoned_for_good",
    "C74_usable",
    "C74_after_send"
   ],
   "note": "REFUTED: the lock is held while wakers run. Exact: on a healthy Notify send returns iff every call made inside wake makes a Wait or polls a Wait older than the send (C74_send_returns_iff); the first other call, in order of registration, either never returns (send, or poll of a newer Wait) or unwinds; after an unwinding all later sends and polls of current Waits panic (C74_poisoned_for_good). A healthy Notify is usable: current Waits answer Pending and keep the waker, overtaken ones Ready (C74_usable), also right after a send (C74_after_send)."
  },
  {
   "property": "C75",
   "status": "proved",
   "theorems": [
    "C75_wait_under_sequence",
    "C75_never_dangling",
    "C75_returned_clean",
    "C75_field_order"
   ],
   "note": ""
  },
  {
   "property": "C76",
   "status": "proved",
   "theorems": [
    "C76_repeated_word",
    "C76_empty_word",
    "C76_example"
   ],
   "note": ""
  },
  {
   "property": "C77",
   "status": "proved",
   "theorems": [
    "C77_round_trip",
    "C77_only_expressions",
    "C77_longest",
    "C77_exact",
    "C77_nested",
    "C77_unambiguous",
    "C77_segmentation"
   ],
   "note": ""
  },
  {
   "property": "C78",
   "status": "proved",
   "theorems": [
    "C78_checked",
    "C78_checked_panics",
    "C78_wrapping",
    "C78_wrapping_panics",
    "C78_wrapping_exact",
    "C78_agree",
    "C78_bounded",
    "C78_main",
    "C78_main_only"
   ],
   "note": ""
  },
  {
   "property": "C79",
   "status": "partial",
   "theorems": [
    "C79_taken",
    "C79_missed_partial",
    "C79_waits",
    "C79_any_item",
    "C79_any_item_missed_partial",
    "C79_the_item",
    "C79_the_item_missed_partial",
    "C79_atom_partial",
    "C79_atom_covered_partial",
    "C79_atom_missed_partial",
    "C79_any_item_complete",
    "C79_the_item_complete",
    "C79_atom_complete",
    "C79_no_panic",
    "C79_finishes",
    "C79_missed_refuted",
    "C79_bounded",
    "C79_must_finish",
    "C79_answer_stays",
    "C79_progress",
    "C79_told_finishes",
    "C79_signal_needed",
    "C79_own_partial",
    "C79_own_no_panic"
   ],
   "note": "REFUTED as stated, by the two defects already found: the race of C57 makes any_item miss although an item was appended before done (C79_missed_refuted, every version width), and atom over several segments takes the wrong number of items (C79_atom_partial says exactly which). Everything else is proved: what a success consumes, that a miss consumes nothing and which texts can cause it, agreement with the sequential parser on a source that is done, no panic, no deadlock. On a source that is done the answer comes within 8n+13 of the parser's own steps, and one that was waiting when the source became done answers within 9n+16 steps of the signal (C79_must_finish, C79_told_finishes); without that signal it polls for ever (C79_signal_needed). Parsers of the user's own that may also succeed on hearing the end are covered too (honest): their answer is that on what was there and the first of what has come, the rest being still ahead (C79_own_partial; that it be all that has come is false by the same race), and they do not panic (C79_own_no_panic); the bounds on the steps (C79_progress, C79_bounded, C79_must_finish, C79_told_finishes) hold for them as well."
  },
  {
   "property": "C80",
   "status": "partial",
   "theorems": [
    "C80_slice_exact_partial",
    "C80_slice_same_end_partial",
    "C80_slice_accepted_partial",
    "C80_slice_undefined_refuted",
    "C80_slice_accepted_refuted",
    "C80_str_exact_partial",
    "C80_str_same_end_partial",
    "C80_str_accepted_partial",
    "C80_str_undefined_refuted",
    "C80_measured_slice_partial",
    "C80_measured_str_partial",
    "C80_measured_refuted"
   ],
   "note": "REFUTED as stated: an anchor into another allocation is undefined behaviour (offset_from) for slices and strings (C80_slice_undefined_refuted, C80_str_undefined_refuted); within one allocation a foreign anchor is accepted exactly when the position lies in it and the two end in different places (C80_slice_accepted_partial, C80_str_accepted_partial, witness C80_slice_accepted_refuted); measured sequences accept anything (C80_measured_refuted). Proved: for sequences with a common end exactly the own anchors are accepted and the rest panic."
  },
  {
   "property": "C81",
   "status": "proved",
   "theorems": [
    "C81_as_slice",
    "C81_as_mut_slice",
    "C81_push_item",
    "C81_spare_capacity",
    "C81_shrink_to",
    "C81_program",
    "C81_validator",
    "C81_request_repaired"
   ],
   "note": ""
  },
  {
   "property": "C82",
   "status": "partial",
   "theorems": [
    "C82_join_written",
    "C82_took",
    "C82_failed_partial",
    "C82_starts",
    "C82_no_panic",
    "C82_complete",
    "C82_finishes",
    "C82_failed_refuted",
    "C82_counted",
    "C82_progress",
    "C82_bounded",
    "C82_must_finish",
    "C82_own_complete",
    "C82_own_no_panic",
    "C82_own_finishes",
    "C82_own_refuted"
   ],
   "note": "REFUTED as stated, by the race of C57: the second of two any_item misses although both items are there (C82_failed_refuted, every version width). C82_failed_partial is exact about it: a failure is the failure on what was there and a first part of what has come, and the rest is still ahead. Successes (C82_took), a source done at the start (C82_complete), absence of panics and termination are proved in full; on a source that is done C82_bounded gives an explicit bound on the parser's own steps however loaders' steps fall between them, and C82_must_finish that at that bound the answer is there. The bound counts the primitive parsers that the parser starts on what is there (leaves), so it covers async functions whose length depends on the items read. Join's bounds ask for a RewindSequence, which the runner's sequence is not: there a join is the async function that does what join.rs does (C82_join_written). Primitive parsers of the user's own are covered (PLook) if they never take more than they saw, give up at the end and pass over empty segments (well_made; C82_case_refuses shows two that are left out). Parsers of the user's own that may succeed on hearing the end (all_honest) are covered on a source that is done (C82_own_complete, C82_own_finishes) and never panic (C82_own_no_panic), C82_progress, C82_bounded and C82_must_finish included; while the loader runs even their successes can be wrong, and one joined with any_item can give an answer that it gives on no list of segments at all (C82_own_refuted)."
  },
  {
   "property": "C83",
   "status": "partial",
   "theorems": [
    "C83_same_unless_panic",
    "C83_same_unless_panic_utf8",
    "C83_checked_is_model",
    "C83_checked_is_model_utf8",
    "C83_program_partial",
    "C83_program_utf8_partial",
    "C83_request_wraps_partial",
    "C83_chunks_partial",
    "C83_undefined_refuted",
    "C83_differs_refuted"
   ],
   "note": "REFUTED. C83_undefined_refuted: a source that pushes two items into three cells and then asks for spare_capacity panics with checks and is handed a slice outside the buffer without (control.rs:82 reports the free cells, buffer_writer.rs:36 subtracts what is written from it). C83_differs_refuted: a character cut after three bytes panics in Utf8Validator's capacity with checks and is loaded whole without. Proved: every history that does not panic with checks is the same without (C83_same_unless_panic, _utf8); with checks it is the loader of C47-C55 (C83_checked_is_model, _utf8); exactly what any program on a requested writer comes to in either build (C83_program_partial, C83_program_utf8_partial); without checks an iterator of chunks through Utf8Validator never panics and what is kept of each chunk (C83_chunks_partial); a request that overflows with the bytes held back panics with checks and without them asks for what it wraps to, writing out of bounds when that is too little (C83_request_wraps_partial). The other subtraction of the generic sequence (buffer.rs:38) cannot overflow: C45, C75."
  },
  {
   "property": "C84",
   "status": "partial",
   "theorems": [
    "C84_fields_refuted",
    "C84_took_partial",
    "C84_failed_partial",
    "C84_loaded_partial",
    "C84_text_partial",
    "C84_frame",
    "C84_frame_done",
    "C84_lossy_refuted",
    "C84_race_refuted",
    "C84_cut_refuted",
    "C84_line",
    "C84_line_done",
    "C84_own_loaded_partial",
    "C84_while_done",
    "C84_while_partial",
    "C84_while_refuted"
   ],
   "note": "REFUTED in three independent ways: the loader loses an item of the chunk [1; 2] (C84_lossy_refuted), the parser is told the end before the last segment (C84_race_refuted), and an atom cut by the end of a segment leaves its first items (C84_cut_refuted). Exact otherwise: with no matching atom cut, a success is the success on the text that the loader keeps (C84_took_partial), a failure is the failure on an initial part of it that ends with a segment (C84_failed_partial), and once the loader is done there is an answer and it is that on the text kept (C84_loaded_partial). With a buffer that grows to the next odd size and atoms of one item nothing is lost or cut, so it is the answer on the whole text for every chunking (C84_text_partial). Example of use: a count followed by so many items (C84_frame, C84_frame_done). A parser of the user's own: the items up to a separator, over any number of segments (C84_line, C84_line_done). For parsers that may succeed on hearing the end C84_own_loaded_partial gives the answer once the loader is done; the longest run of wanted items is taken exactly then (C84_while_done), and before that it is the longest run of a first part of the text (C84_while_partial, C84_while_refuted). Splitting a text at a separator while it is loaded can lose an item (C84_fields_refuted: the one field [6; 7] is read as [6] and an empty one); C110 says that this is all that can happen."
  },
  {
   "property": "C85",
   "status": "partial",
   "theorems": [
    "C85_as_list",
    "C85_done_partial",
    "C85_after_done_partial",
    "C85_fused_partial",
    "C85_done_utf8_partial",
    "C85_done_refuted"
   ],
   "note": "REFUTED: IteratorSource asks its iterator again after None, and neither it nor the loader remembers the end, so an iterator that is not fused (mpsc try_iter) gets items added after done (C85_done_refuted). Exact otherwise: what is added after done is what the later writes were told was accepted (C85_after_done_partial); a source that stays finished, in particular any fused iterator, adds only empty segments and every load reports done (C85_done_partial, C85_fused_partial), through Utf8Validator too (C85_done_utf8_partial). C85_as_list: any iterator goes as the list of its chunks up to its first None."
  },
  {
   "property": "C86",
   "status": "proved",
   "theorems": [
    "C86_or",
    "C86_join",
    "C86_one_call",
    "C86_unify",
    "C86_optional",
    "C86_repeat",
    "C86_bin_expr",
    "C86_noted",
    "C86_optional_iterative",
    "C86_repeat_iterative",
    "C86_sessions",
    "C86_fold",
    "C86_collect",
    "C86_repeat_count",
    "C86_bin_count"
   ],
   "note": "Every combinator run over a sequence that carries a record, to which watched parsers and rewinds add, returns what it returns without and adds what the relations of S_Calls say; with counts for repeat and BinExprParser."
  },
  {
   "property": "C87",
   "status": "proved",
   "theorems": [
    "C87_linear",
    "C87_local",
    "C87_exact"
   ],
   "note": "The unchanged grammar is run over a text that carries the list of moves made; the relations of C86 are composed along the grammar and bounded by induction on the depth. Moves are advances and rewinds; reading segments is not counted."
  },
  {
   "property": "C88",
   "status": "proved",
   "theorems": [
    "C88_linear",
    "C88_exact",
    "C88_nested"
   ],
   "note": "As C87, for the grammar of cache.rs; C88_exact gives the number of moves exactly for every expression. Moves are advances and rewinds; reading segments is not counted."
  },
  {
   "property": "C89",
   "status": "proved",
   "theorems": [
    "C89_round_trip",
    "C89_only_expressions",
    "C89_longest",
    "C89_exact",
    "C89_gives_back",
    "C89_no_chars_left",
    "C89_chars_left",
    "C89_unambiguous",
    "C89_segmentation"
   ],
   "note": "The budgets exceed the length of the text, so they are never exhausted; call-stack depth is not modelled. usize_max > 2 so that the precedences are representable."
  },
  {
   "property": "C90",
   "status": "partial",
   "theorems": [
    "C90_lines",
    "C90_total_partial",
    "C90_column_partial",
    "C90_ascii",
    "C90_lines_exist_unique",
    "C90_every_text_refuted",
    "C90_never_more"
   ],
   "note": "REFUTED for non-ASCII texts: on \"\u00e9\" str.len() is 2 and the meter counts 1 (C90_every_text_refuted). Exact: the line always agrees (C90_lines); the total count agrees iff the text is ASCII, the column iff the last line is (C90_total_partial, C90_column_partial); otherwise the meter counts less (C90_never_more)."
  },
  {
   "property": "C91",
   "status": "proved",
   "theorems": [
    "C91_live_waits",
    "C91_live_refine",
    "C91_live_taken",
    "C91_live_missed",
    "C91_segments_refine",
    "C91_segments_woken",
    "C91_segments_no_panic",
    "C91_segments_moves",
    "C91_segments_unlocked",
    "C91_segments_kept",
    "C91_advance_refine",
    "C91_advance_woken",
    "C91_advance_no_panic",
    "C91_advance_moves",
    "C91_advance_kept"
   ],
   "note": ""
  },
  {
   "property": "C92",
   "status": "proved",
   "theorems": [
    "C92_next_waits",
    "C92_next_done",
    "C92_advance_waits",
    "C92_advance_done",
    "C92_advance_enough"
   ],
   "note": ""
  },
  {
   "property": "C93",
   "status": "partial",
   "theorems": [
    "C93_session_partial",
    "C93_drop_partial",
    "C93_leak_refuted"
   ],
   "note": "REFUTED in its last clause: drop_in_place unwinds past the dealloc of shortvec.rs:178-184, so the heap block of a spilled vector is leaked (C93_leak_refuted). C93_drop_partial is exact: the drop returns and frees everything iff no destructor panics, unwinds after dropping every element iff exactly one does, and what stays allocated then is exactly the vector's own block. C93_session_partial proves the rest for every sequence of calls with all panics caught."
  },
  {
   "property": "C94",
   "status": "partial",
   "theorems": [
    "C94_program_partial",
    "C94_account_partial",
    "C94_repaired",
    "C94_agrees",
    "C94_double_drop_refuted"
   ],
   "note": "REFUTED: shrink_to (buffer_writer.rs:65-80) drops the tail before set_len, so when a destructor panics the loader's Vec goes on counting items that are gone and dropping it drops them again (C94_double_drop_refuted). C94_program_partial is exact for every program: what is held and dropped, whether the run answers, unwinds or aborts (by the number of panicking items), and that dropping the buffer is undefined exactly after such a shrink_to. C94_account_partial: every item is held or dropped once. C94_repaired: with set_len first the whole property holds. C94_agrees: without panics this is the writer of C49."
  },
  {
   "property": "C95",
   "status": "proved",
   "theorems": [
    "C95_safe",
    "C95_once",
    "C95_readable",
    "C95_settled",
    "C95_settles"
   ],
   "note": "proved for every interleaving at the granularity of single reference count operations; the count of a node is shown to be the number of references there are. C95_settles: nothing keeps the calls from ending."
  },
  {
   "property": "C96",
   "status": "partial",
   "theorems": [
    "C96_bound_partial",
    "C96_call_partial",
    "C96_drop_partial",
    "C96_bounded_refuted"
   ],
   "note": "REFUTED: the destructor of a Node drops its next inside its own, so every depth is reached (C96_bounded_refuted), by dropping the buffer with that many segments left: C96_drop_partial is exact. C96_call_partial: an advance nests at most as many as the segments it passes, whatever the loader does meanwhile, so consuming segment by segment is safe. C96_bound_partial: a commit nests at most one."
  },
  {
   "property": "C97",
   "status": "proved",
   "theorems": [
    "C97_items_pieces",
    "C97_text_pieces",
    "C97_items_measured",
    "C97_text_measured",
    "C97_text",
    "C97_text_panics",
    "C97_text_exact",
    "C97_text_ascii",
    "C97_text_once",
    "C97_segmented"
   ],
   "note": "proved. For meters that mind where the pieces end (not compositional) the pieces are shown to make up exactly what was read (C97_items_pieces, C97_text_pieces); segmented sequences without patterns, since atom goes wrong across segments (C26)."
  },
  {
   "property": "C98",
   "status": "proved",
   "theorems": [
    "C98_every_combinator",
    "C98_measured_items",
    "C98_measured_text",
    "C98_moved_items",
    "C98_moved_text",
    "C98_segmented"
   ],
   "note": "proved. Leaves of the last claim are any_item and the_item only (atom goes wrong across segments, C26)."
  },
  {
   "property": "C99",
   "status": "proved",
   "theorems": [
    "C99_interchangeable_is_same",
    "C99_inside",
    "C99_fold",
    "C99_collect",
    "C99_map_each_id",
    "C99_map_each_map_each",
    "C99_map_each_map_while",
    "C99_map_while_map_each",
    "C99_map_while_map_while",
    "C99_map_each_is_map_while",
    "C99_map_while_is_try_map_each",
    "C99_map_each_try_map_each",
    "C99_map_each_is_scan",
    "C99_map_each_scan",
    "C99_scan_map_each",
    "C99_scan_scan",
    "C99_take_take",
    "C99_take_map_each",
    "C99_take_scan",
    "C99_take_map_while",
    "C99_take_try_map_each",
    "C99_fold_map_each",
    "C99_fold_scan",
    "C99_collect_map_each",
    "C99_map_repeat",
    "C99_map_optional",
    "C99_take_one",
    "C99_take_map_while_not_past_the_end",
    "C99_take_one_not_past_the_end"
   ],
   "note": "proved. That the two exceptions really hold only up to the end is shown by witnesses (C99_take_map_while_not_past_the_end, C99_take_one_not_past_the_end). C99_take_one assumes that the parser does the same borrowed and consumed (C06), since a consumed repeat still borrows it. Closures are functions without effects, so how often a closure runs is not seen."
  },
  {
   "property": "C100",
   "status": "proved",
   "theorems": [
    "C100_answered_iff",
    "C100_never_iff",
    "C100_depth",
    "C100_orderly",
    "C100_text",
    "C100_text_orderly"
   ],
   "note": "proved, for slices and for text (which may panic besides, C97). The criterion of the last sentence is sufficient only; the first sentence is exact."
  },
  {
   "property": "C101",
   "status": "proved",
   "theorems": [
    "C101_slices",
    "C101_one_record",
    "C101_without_recursion",
    "C101_with_recursion",
    "C101_text",
    "C101_exponential_reached",
    "C101_no_polynomial",
    "C101_linear",
    "C101_linear_text"
   ],
   "note": "proved, for slices; the record and linear time also for text (where atom may panic, C97). The criterion for linear time is sufficient only."
  },
  {
   "property": "C102",
   "status": "proved",
   "theorems": [
    "C102_reads_words",
    "C102_exact",
    "C102_words",
    "C102_unambiguous",
    "C102_linear",
    "C102_text",
    "C102_linear_text",
    "C102_order_and_greed"
   ],
   "note": "proved, for slices, and for text whose patterns do not make atom panic (C97). C102_order_and_greed shows why the condition is needed."
  },
  {
   "property": "C103",
   "status": "proved",
   "theorems": [
    "C103_exact",
    "C103_budget_irrelevant",
    "C103_deterministic",
    "C103_same_answer",
    "C103_blame_is_just",
    "C103_reasons_are_just",
    "C103_fatal_if_made_fatal"
   ],
   "note": "proved, for slices. The errors are renamed by map_err into one recursive type, since a recursive Rust parser needs a nameable error type; L_Why.renamed shows that the names classify as the crate's Miss, Either, EitherBoth and Fatal do. The place where an earlier alternative stopped is not kept by the code (C103_case_place)."
  },
  {
   "property": "C104",
   "status": "proved",
   "theorems": [
    "C104_same_answer",
    "C104_found",
    "C104_both_end",
    "C104_needs_one_side"
   ],
   "note": "proved, for budgets that are not exhausted; C104_both_end gives such budgets where every operator-term pair reads something."
  },
  {
   "property": "C105",
   "status": "proved",
   "theorems": [
    "C105_every_combinator",
    "C105_text",
    "C105_items",
    "C105_text_cut",
    "C105_text_as_items",
    "C105_grammar",
    "C105_reasons",
    "C105_budget_irrelevant",
    "C105_no_panic"
   ],
   "note": "proved, for parsers of single items; a fixed pattern over text that is cut is C25 to C27, over a slice or a str C97."
  },
  {
   "property": "C106",
   "status": "partial",
   "theorems": [
    "C106_same_answer_partial",
    "C106_heap_exact_partial",
    "C106_inline",
    "C106_four_levels",
    "C106_zero_sized_exact",
    "C106_right_edge",
    "C106_zero_sized_refuted"
   ],
   "note": "REFUTED for entries of size zero (an expression type without content and a single operator): the fifth waiting operator makes ShortVec allocate zero bytes, undefined behaviour from safe code (C106_zero_sized_refuted); C106_zero_sized_exact says when. Proved for entries of any other size, and for size zero up to four waiting operators."
  },
  {
   "property": "C107",
   "status": "proved",
   "theorems": [
    "C107_unambiguous",
    "C107_fewest",
    "C107_reads",
    "C107_found",
    "C107_longest",
    "C107_whole",
    "C107_round_trip",
    "C107_slices"
   ],
   "note": "proved, for budgets above the number of tokens; the lexical parsers are any that read one token each (C107_slices: any_item with and_then)."
  },
  {
   "property": "C108",
   "status": "proved",
   "theorems": [
    "C108_fields",
    "C108_took",
    "C108_failed",
    "C108_no_panic",
    "C108_progress",
    "C108_complete",
    "C108_ends",
    "C108_bounded",
    "C108_must_finish",
    "C108_pipeline",
    "C108_text",
    "C108_text_failed",
    "C108_until"
   ],
   "note": "proved. Repeat, Optional and Collect need a RewindSequence, which the runner's sequence is not, so they cannot be iterated there. C108_pipeline says that the adaptors act as in C17 and C18; C108_until is a use: items up to a terminator, however many, are taken iff the text has them. The parts about a source that is done, panics and progress also hold when parse_next uses parsers of the user's own that may succeed on hearing the end (all_honest). C108_fields is a use of those: splitting the text at a separator gives exactly its fields, however the source is cut, always ends and never fails."
  },
  {
   "property": "C109",
   "status": "partial",
   "theorems": [
    "C109_took_partial",
    "C109_done_partial",
    "C109_whole_partial",
    "C109_read_back_refuted",
    "C109_lost_refuted",
    "C109_seen_valid",
    "C109_all_valid",
    "C109_once_partial",
    "C109_before_done_partial"
   ],
   "note": "REFUTED as stated: C109_read_back_refuted shows that for every buffer strategy there is a valid text that a parser does not read back (a load of it panics, or something is lost), and C109_lost_refuted that with an exact buffer a text fed byte by byte vanishes without an error. Proved: the answer is that on exactly what the code keeps (keeps_utf8), which is valid UTF-8; it is the text itself when chunks end where characters do and the buffer grows to the least odd number, which by C55_whole_partial is the only growth that loses nothing then. Beside a running loader: every segment handed out is valid UTF-8 at any time (C109_seen_valid), a parser that takes all there is never gets part of a character even if told of the end too early (C109_all_valid), any answer given before the loader is done is that on the whole of what is let through (C109_before_done_partial), and at most one primitive parser is told too early (C109_once_partial, which like C110_once assumes that the loader sets its flag after its last commit)."
  },
  {
   "property": "C110",
   "status": "proved",
   "theorems": [
    "C110_once",
    "C110_before_done",
    "C110_whole",
    "C110_fold",
    "C110_fold_before_done",
    "C110_fields",
    "C110_reached"
   ],
   "note": "C110_before_done, C110_fold_before_done: before the done flag is set every answer is that on the text the loader keeps in the end. C110_once, C110_fold: afterwards one primitive parser at most was told of the end too early (may_read of S_Early; C110_whole says that it is the plain reading when none was). The bound is reached by every parser that waits for more: C110_reached (for any first part of any text after which it waits there is a run in which it answers as on that part alone), C110_case_reached, C84_fields_refuted. C110_fields: splitting at a separator while the text is loaded. Assumes that the loader sets the flag after its last commit."
  }
 ]
}