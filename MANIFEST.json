{
 "claims": [
  {
   "property": "C01",
   "status": "proved",
   "theorems": [
    "C01_gcounter_merge_laws",
    "C01_gcounter_counts_known_increments",
    "C01_gcounter_converges",
    "C01_gcounter_total"
   ],
   "note": "Counters are unbounded naturals; 64-bit overflow is not modelled."
  },
  {
   "property": "C02",
   "status": "proved",
   "theorems": [
    "C02_pncounter_merge_laws",
    "C02_pncounter_counts_known_operations",
    "C02_pncounter_converges",
    "C02_pncounter_total",
    "C02_pncounter_delta_is_complete"
   ],
   "note": "Counters are unbounded naturals; 64-bit overflow is not modelled."
  },
  {
   "property": "C03",
   "status": "proved",
   "theorems": [
    "C03_dominates_is_pointwise",
    "C03_dominates_preorder",
    "C03_merge_is_least_upper_bound",
    "C03_merge_laws",
    "C03_increment_strictly_later",
    "C03_concurrent_iff_incomparable"
   ],
   "note": ""
  },
  {
   "property": "C04",
   "status": "proved",
   "theorems": [
    "C04_seen_exactly_what_was_told",
    "C04_merge_is_union",
    "C04_issued_events_are_fresh",
    "C04_issued_fresh_needs_proviso_refuted",
    "C04_merge_structurally_commutative_refuted"
   ],
   "note": "Freshness of issued events needs the proviso that nobody else invents events of that replica; the counterexample without it is proved too. Structural equality of merged contexts depends on merge order (refutation); the reported seen-set does not."
  },
  {
   "property": "C05",
   "status": "partial",
   "theorems": [
    "C05_lww_merge_laws_partial",
    "C05_lww_commutative_refuted",
    "C05_lww_converges_refuted",
    "C05_lww_backward_clock_refuted",
    "C05_lww_holds_latest_partial",
    "C05_lww_converges_partial"
   ],
   "note": "False as stated: with equal timestamps merge is not commutative and two replicas swap values forever (C05_lww_converges_refuted); a write stamped by a clock that went backwards is lost (C05_lww_backward_clock_refuted). Proved: associativity, idempotence, greatest timestamp kept for all states; convergence in every run whose timestamps are distinct and increase along causality."
  },
  {
   "property": "C06",
   "status": "proved",
   "theorems": [
    "C06_mv_merge_keeps_maximal",
    "C06_mv_reads_unoverwritten_writes",
    "C06_mv_set_overwrites",
    "C06_mv_converges",
    "C06_mv_merge_laws"
   ],
   "note": ""
  },
  {
   "property": "C07",
   "status": "proved",
   "theorems": [
    "C07_orset_membership",
    "C07_orset_concurrent_add_survives",
    "C07_orset_observed_add_removed",
    "C07_orset_converges",
    "C07_orset_merge_laws",
    "C07_orset_len"
   ],
   "note": ""
  },
  {
   "property": "C08",
   "status": "partial",
   "theorems": [
    "C08_remove_wins_converges_refuted",
    "C08_remove_wins_associative_refuted",
    "C08_remove_wins_comm_idemp_partial",
    "C08_remove_wins_removal_beats_add_partial"
   ],
   "note": "False as stated: C08_remove_wins_converges_refuted gives a run in which two replicas with the same knowledge disagree; merge is not associative on reachable states. Proved: commutativity, idempotence, and the outcome of a single merge."
  },
  {
   "property": "C09",
   "status": "proved",
   "theorems": [
    "C09_ormap_keys",
    "C09_ormap_key_merge_laws",
    "C09_ormap_value_merge_laws",
    "C09_counter_map_reads_known_changes",
    "C09_counter_map_keys",
    "C09_counter_map_history",
    "C09_counter_map_converges"
   ],
   "note": ""
  },
  {
   "property": "C10",
   "status": "proved",
   "theorems": [
    "C10_rga_converges",
    "C10_rga_merge_laws",
    "C10_rga_one_order",
    "C10_rga_shows_live_elements",
    "C10_rga_removed_stays_removed",
    "C10_rga_local_edits",
    "C10_rga_insert_past_end_goes_first",
    "C10_yata_converges",
    "C10_yata_merge_laws",
    "C10_yata_one_order",
    "C10_yata_local_edits"
   ],
   "note": "Timestamps and clocks are unbounded naturals. Out-of-range inserts go to the head of the list (proved as C10_rga_insert_past_end_goes_first)."
  },
  {
   "property": "C11",
   "status": "partial",
   "theorems": [
    "C11_buffer_answers_completely_refuted",
    "C11_buffer_answers_completely_partial",
    "C11_buffer_bounded"
   ],
   "note": "False as stated: C11_buffer_answers_completely_refuted (a peer version concurrent with an evicted one is answered incompletely). Proved when versions are pushed in causal order and the peer's version is comparable with each."
  },
  {
   "property": "C12",
   "status": "partial",
   "theorems": [
    "C12_mv_delta_equals_merge",
    "C12_orset_delta_equals_merge_refuted",
    "C12_orset_sent_delta_equals_merge_refuted",
    "C12_orset_delta_adds_partial",
    "C12_ormap_delta_adds_partial",
    "C12_ormap_delta_equals_merge_refuted",
    "C12_ormap_removal_lost_refuted",
    "C12_pncounter_delta_equals_merge",
    "C12_rga_delta_equals_merge_refuted",
    "C12_rga_sent_delta_equals_merge_refuted",
    "C12_rga_delta_brings_all_elements_partial",
    "C12_rga_delta_equals_merge_partial",
    "C12_yata_sent_delta_equals_merge",
    "C12_yata_delta_equals_merge_refuted"
   ],
   "note": "True for up/down counters and multi-value registers. False for sets, maps and sequences: removals and in-place changes do not reach a peer by delta (…_refuted). Proved for sets, maps and sequences: a delta brings every added element the full state would bring and loses nothing; for sequences it equals a full merge when no removal is news to the receiver."
  },
  {
   "property": "C13",
   "status": "proved",
   "theorems": [
    "C13_prefix",
    "C13_whole",
    "C13_damage",
    "C13_restart",
    "C13_crash",
    "C13_any_mutation_refuted",
    "C13_gcounter_content"
   ],
   "note": "Any value type with a faithful codec; entries below 4 GiB. CRC-32 is computed, not assumed: damage within four neighbouring payload bytes is always detected. Live recovery (C13_restart, C13_crash) is about the observable content and about mutations that only add; others are acknowledged and lost on restart (C13_any_mutation_refuted). Instance: GCounter."
  },
  {
   "property": "C14",
   "status": "partial",
   "theorems": [
    "C14_refuted",
    "C14_behind_torn_lost",
    "C14_compacted_partial",
    "C14_clean_partial"
   ],
   "note": "False in general (C14_refuted, C14_behind_torn_lost): the torn bytes stay in the file. Holds after a compaction or a cut between entries."
  },
  {
   "property": "C15",
   "status": "partial",
   "theorems": [
    "C15_compact",
    "C15_crash",
    "C15_maybe",
    "C15_distributed_bounded",
    "C15_concurrent_refuted",
    "C15_concurrent_partial"
   ],
   "note": "Holds for calls one after another, including crashes. With several tasks an append between the copy and the rename is lost (C15_concurrent_refuted); without such an overlap every acknowledged change is recovered (C15_concurrent_partial)."
  },
  {
   "property": "C16",
   "status": "proved",
   "theorems": [
    "C16_replay",
    "C16_replay_run",
    "C16_truncated",
    "C16_divergence"
   ],
   "note": "Any tasks, policy, configuration and host calls. A shortened trace makes the replay panic; a decision of another kind or size does too."
  },
  {
   "property": "C17",
   "status": "proved",
   "theorems": [
    "C17_slices",
    "C17_stable",
    "C17_agree"
   ],
   "note": "Any slicing from any state, including panics and repeated calls after an outcome."
  },
  {
   "property": "C18",
   "status": "partial",
   "theorems": [
    "C18_from_channel_refuted",
    "C18_once_in_order_partial",
    "C18_capacity_partial",
    "C18_from_channel_partial"
   ],
   "note": "False for a select naming a channel twice (C18_from_channel_refuted). Proved for every run without such selects and without tasks aborting themselves; messages of blocked senders that are aborted are dropped."
  },
  {
   "property": "C19",
   "status": "partial",
   "theorems": [
    "C19_no_panic_refuted",
    "C19_ready_refuted",
    "C19_ready_partial",
    "C19_waiting_partial",
    "C19_registered_partial",
    "C19_outcome_partial",
    "C19_deadlock_partial",
    "C19_no_panic_partial"
   ],
   "note": "False for a select naming a channel twice (C19_ready_refuted, C19_no_panic_refuted). Proved for every run without such selects and without tasks aborting themselves, including the exact outcome reported and what each task waits for."
  },
  {
   "property": "C20",
   "status": "partial",
   "theorems": [
    "C20_one_arm_partial",
    "C20_only_selects_partial",
    "C20_deregistered_partial"
   ],
   "note": "False for a select naming a channel twice (C19_no_panic_refuted, C18_from_channel_refuted: the second registration survives). Proved for every run without such selects and without tasks aborting themselves."
  },
  {
   "property": "C21",
   "status": "partial",
   "theorems": [
    "C21_exit_once_refuted",
    "C21_ended_refuted",
    "C21_result_partial",
    "C21_ended_partial",
    "C21_exit_once_partial",
    "C21_results_partial"
   ],
   "note": "False for a task aborting itself (C21_ended_refuted) and after a select naming a channel twice (C21_exit_once_refuted). Proved for every other run."
  },
  {
   "property": "C22",
   "status": "proved",
   "theorems": [
    "C22_encode",
    "C22_systematic",
    "C22_any_k",
    "C22_subset",
    "C22_fewer",
    "C22_nothing",
    "C22_short_first_refuted"
   ],
   "note": "Packets are (index, bytes) pairs; usable entries must be genuine. decode takes the shard length from the first entry, so a damaged first entry makes it drop all good ones (C22_short_first_refuted)."
  },
  {
   "property": "C23",
   "status": "proved",
   "theorems": [
    "C23_header",
    "C23_frames_iff_encodes",
    "C23_reconstruct",
    "C23_one",
    "C23_long_payload_refuted",
    "C23_inconsistent_first_refuted",
    "C23_truncated_first_refuted"
   ],
   "note": "Payload below 4 GiB (longer ones come back cut, C23_long_payload_refuted). The documentation also says header-inconsistent shards are ignored; a stray or truncated first packet with the same id blocks the message (C23_inconsistent_first_refuted, C23_truncated_first_refuted)."
  },
  {
   "property": "C24",
   "status": "proved",
   "theorems": [
    "C24_roundtrip",
    "C24_zigzag",
    "C24_signed",
    "C24_size",
    "C24_self_delimiting",
    "C24_truncated",
    "C24_prefix_free",
    "C24_overflow_refuted"
   ],
   "note": "C24_overflow_refuted: a ten-byte encoding of more than 64 bits is accepted although the documentation says it is refused."
  },
  {
   "property": "C25",
   "status": "proved",
   "theorems": [
    "C25_roundtrip",
    "C25_injective",
    "C25_truncated",
    "C25_decode_total",
    "C25_decode_local",
    "C25_decode_typed",
    "C25_type_name_refuted"
   ],
   "note": "Values of the built-in codecs and of generated enum codecs. C25_type_name_refuted: the generated decoder checks neither the type name nor the argument count."
  },
  {
   "property": "C26",
   "status": "proved",
   "theorems": [
    "C26_constants",
    "C26_ring",
    "C26_div_rem",
    "C26_div_by_zero",
    "C26_pow",
    "C26_order",
    "C26_signs"
   ],
   "note": "Exponents below 2^32 (the argument is a u32)."
  },
  {
   "property": "C27",
   "status": "proved",
   "theorems": [
    "C27_canonical",
    "C27_every_integer",
    "C27_equality",
    "C27_eq_ord",
    "C27_to_i64",
    "C27_i64_roundtrip",
    "C27_bytes",
    "C27_from_bytes",
    "C27_show",
    "C27_parse",
    "C27_text_roundtrip",
    "C27_text_unique"
   ],
   "note": "Texts are byte lists. Formatting flags (width, padding) are not modelled."
  },
  {
   "property": "C28",
   "status": "proved",
   "theorems": [
    "C28_lowest_terms",
    "C28_new",
    "C28_constants",
    "C28_ring",
    "C28_div",
    "C28_recip",
    "C28_signs",
    "C28_pow",
    "C28_equality",
    "C28_order",
    "C28_integers",
    "C28_floor_ceil",
    "C28_round",
    "C28_parse",
    "C28_text_roundtrip"
   ],
   "note": "Exponents of pow are i32. Trimming is modelled for ASCII white space only. to_f64 is not modelled."
  },
  {
   "property": "C29",
   "status": "partial",
   "theorems": [
    "C29_add_sub",
    "C29_mul_partial",
    "C29_scale_overflow_refuted",
    "C29_signs",
    "C29_to_rational",
    "C29_modes_determined",
    "C29_less_than_one_ulp",
    "C29_from_rational",
    "C29_rescale",
    "C29_div",
    "C29_equality",
    "C29_hash",
    "C29_order",
    "C29_eq_ord",
    "C29_bytes",
    "C29_parse",
    "C29_text_roundtrip"
   ],
   "note": "Everything proved except multiplication when the scales add up to 2^32 or more: the sum wraps (C29_scale_overflow_refuted); C29_mul_partial is the claim below that."
  },
  {
   "property": "C30",
   "status": "partial",
   "theorems": [
    "C30_gregorian_days",
    "C30_gregorian_dates",
    "C30_gregorian_successor",
    "C30_gregorian_order",
    "C30_month_lengths",
    "C30_julian_days_partial",
    "C30_julian_dates_partial",
    "C30_julian_refuted"
   ],
   "note": "Gregorian: proved for every day number and every valid date. Julian: proved from 1 March of year -4800 on; before that truncating division gives invalid dates (C30_julian_refuted). Integers are unbounded."
  },
  {
   "property": "C31",
   "status": "proved",
   "theorems": [
    "C31_weekday_advances",
    "C31_iso_week",
    "C31_iso_week_dates",
    "C31_business_days_between",
    "C31_add_business_days"
   ],
   "note": "Integers are unbounded."
  },
  {
   "property": "C32",
   "status": "partial",
   "theorems": [
    "C32_tick_partial",
    "C32_recv_partial",
    "C32_counter_overflow_refuted",
    "C32_causality_partial"
   ],
   "note": "The logical counter is a wrapping u32: proved while counters are below the maximum, refuted at the maximum (C32_counter_overflow_refuted)."
  },
  {
   "property": "C33",
   "status": "partial",
   "theorems": [
    "C33_local_and_back",
    "C33_fixed_offset",
    "C33_gap_partial",
    "C33_gap_refuted"
   ],
   "note": "Round trip, overlaps and fixed offsets proved for every table. Gaps: the zone's extreme offsets decide, which is right for two offsets and wrong when a third offset exists elsewhere in the table (C33_gap_refuted)."
  },
  {
   "property": "C34",
   "status": "partial",
   "theorems": [
    "C34_get",
    "C34_range",
    "C34_set",
    "C34_set_then_get",
    "C34_text_partial",
    "C34_text_refuted",
    "C34_text_range_refuted",
    "C34_text_from_end_refuted",
    "C34_map"
   ],
   "note": "Sequences and maps: proved. Texts: proved when every character before the indexed one is a single byte; refuted otherwise, because the fast path takes the byte position for the character position (C34_text_refuted, C34_text_range_refuted, C34_text_from_end_refuted)."
  },
  {
   "property": "C35",
   "status": "proved",
   "theorems": [
    "C35_stable",
    "C35_injective",
    "C35_lookup",
    "C35_empty_string_refuted"
   ],
   "note": "Fewer than 2^32-1 intern calls assumed (the u32 index would wrap). C35_empty_string_refuted: the empty string gets a second symbol."
  },
  {
   "property": "C36",
   "status": "proved",
   "theorems": [
    "C36_classes",
    "C36_find_pure",
    "C36_union_reports",
    "C36_depth",
    "C36_out_of_range"
   ],
   "note": ""
  },
  {
   "property": "C37",
   "status": "proved",
   "theorems": [
    "C37_step_sound",
    "C37_refutation_sound",
    "C37_step_exact",
    "C37_trace_exact",
    "C37_order_irrelevant"
   ],
   "note": "Soundness needs no hypothesis; exactness is against unit propagation stated as an inductive closure."
  },
  {
   "property": "C38",
   "status": "proved",
   "theorems": [
    "C38_answers",
    "C38_sat",
    "C38_unsat",
    "C38_decides",
    "C38_certificates",
    "C38_solution_check",
    "C38_out_of_range_refuted"
   ],
   "note": "C38_sat and C38_decides are for clauses whose variables are in range; C38_out_of_range_refuted shows what happens otherwise."
  },
  {
   "property": "C39",
   "status": "proved",
   "theorems": [
    "C39_answers",
    "C39_sat",
    "C39_unsat",
    "C39_decides",
    "C39_certificates",
    "C39_model_check",
    "C39_body_out_of_range_refuted",
    "C39_head_out_of_range_refuted"
   ],
   "note": "For clauses whose variables are in range; the two out_of_range theorems show what happens otherwise."
  },
  {
   "property": "C40",
   "status": "proved",
   "theorems": [
    "C40_sound",
    "C40_complete",
    "C40_decides",
    "C40_order_invariant",
    "C40_goal",
    "C40_goal_decides"
   ],
   "note": "Completeness needs expressions without stored zero coefficients, as every constructor of the module yields (C40_zero_coefficient_refuted otherwise); the goal-level theorems assume no SVar index at or below -1000000, where the interner's own indices lie (C40_goal_refuted otherwise)."
  },
  {
   "property": "C41",
   "status": "proved",
   "theorems": [
    "C41_goal_decides",
    "C41_sound",
    "C41_rational",
    "C41_order_invariant",
    "C41_goal",
    "C41_complete_refuted",
    "C41_goal_complete_refuted",
    "C41_strict_refuted"
   ],
   "note": "Also shown: on non-strict systems the verdict is exactly rational unsatisfiability. The stronger claim of the module documentation (2x = 5 is refuted) is false: C41_complete_refuted."
  },
  {
   "property": "C42",
   "status": "proved",
   "theorems": [
    "C42_operations",
    "C42_canonical",
    "C42_decides",
    "C42_rejects",
    "C42_collision_refuted"
   ],
   "note": "Goal-level theorem for expressions without SVar indices at or below -1000000 (C42_collision_refuted otherwise)."
  },
  {
   "property": "C43",
   "status": "proved",
   "theorems": [
    "C43_total",
    "C43_sound",
    "C43_egraph_sound",
    "C43_egraph_decides",
    "C43_decides",
    "C43_complete_refuted"
   ],
   "note": "Soundness for every goal and every order of insertions and merges; completeness where every term is present before the first merge. The unrestricted 'iff' of the module documentation is false: C43_complete_refuted."
  },
  {
   "property": "C44",
   "status": "proved",
   "theorems": [
    "C44_fast_division_exact"
   ],
   "note": ""
  },
  {
   "property": "C45",
   "status": "proved",
   "theorems": [
    "C45_position",
    "C45_position_clamps",
    "C45_position_panics_inside",
    "C45_roundtrip",
    "C45_monotone",
    "C45_offset_total",
    "C45_offset_past_last_line",
    "C45_offset_inside",
    "C45_past_line_end_refuted",
    "C45_utf16_length"
   ],
   "note": "For offsets on character boundaries; an offset inside a character panics (C45_position_panics_inside). C45_past_line_end_refuted: a column past the end of a line gives the start of the next line."
  },
  {
   "property": "C46",
   "status": "proved",
   "theorems": [
    "C46_chunks",
    "C46_past_end",
    "C46_huge_index_refuted",
    "C46_manifest"
   ],
   "note": "C46_huge_index_refuted: index * chunk_size wraps in a release build."
  },
  {
   "property": "C47",
   "status": "proved",
   "theorems": [
    "C47_instants",
    "C47_date_times",
    "C47_add_months",
    "C47_add_days",
    "C47_months_between",
    "C47_intermediate_fits_refuted"
   ],
   "note": "Unbounded integers; C47_intermediate_fits_refuted shows the i64 product leaves the range in the first partial day of the range."
  },
  {
   "property": "C48",
   "status": "proved",
   "theorems": [
    "C48_tai_and_back",
    "C48_tt_and_back",
    "C48_tai_monotone"
   ],
   "note": ""
  },
  {
   "property": "C49",
   "status": "proved",
   "theorems": [
    "C49_merge_laws",
    "C49_merge_sound",
    "C49_merge_narrows",
    "C49_merge_stamp",
    "C49_observe"
   ],
   "note": ""
  },
  {
   "property": "C50",
   "status": "proved",
   "theorems": [
    "C50_nth_weekday",
    "C50_change_instants",
    "C50_daylight_saving",
    "C50_registry"
   ],
   "note": "Zones identified by definitions; the name lookup is not modelled."
  },
  {
   "property": "C51",
   "status": "partial",
   "theorems": [
    "C51_constants",
    "C51_ring",
    "C51_i_squared",
    "C51_conjugate_norm",
    "C51_recip",
    "C51_div",
    "C51_pow_partial",
    "C51_pow_least_refuted",
    "C51_equality",
    "C51_text_roundtrip"
   ],
   "note": "Everything proved except powers with exponent i32::MIN of a nonzero number, which recurse for ever (C51_pow_least_refuted); C51_pow_partial is the claim for all other exponents."
  },
  {
   "property": "C52",
   "status": "proved",
   "theorems": [
    "C52_new",
    "C52_from_i64",
    "C52_ring",
    "C52_negated",
    "C52_pow",
    "C52_inverse",
    "C52_inverse_complete",
    "C52_div",
    "C52_equality"
   ],
   "note": "Display is not modelled."
  },
  {
   "property": "C53",
   "status": "proved",
   "theorems": [
    "C53_exact_value",
    "C53_cmp_rational",
    "C53_cmp_bigint",
    "C53_cmp_i64",
    "C53_trichotomy"
   ],
   "note": "Floats are bit patterns; fval is the IEEE 754 value. i as f64 is modelled where the code uses it, for |i| at most 2^53."
  },
  {
   "property": "C54",
   "status": "proved",
   "theorems": [
    "C54_coherent",
    "C54_integers",
    "C54_spread"
   ],
   "note": "Sentinels for NaN and infinities are fixed constants and may collide with integers, which the claim allows."
  },
  {
   "property": "C55",
   "status": "partial",
   "theorems": [
    "C55_plain_inside",
    "C55_leading_ups_inside",
    "C55_inside_refuted",
    "C55_middle_refuted",
    "C55_write_read",
    "C55_append_read",
    "C55_append_only",
    "C55_write_only_partial",
    "C55_temp_gone",
    "C55_write_only_refuted"
   ],
   "note": "False in general: C55_inside_refuted, C55_middle_refuted, C55_write_only_refuted. Holds for paths without '..' names and for leading '../'; writes leave all but the temporary name alone. Symbolic links are not modelled."
  },
  {
   "property": "C56",
   "status": "proved",
   "theorems": [
    "C56_forward_refuted",
    "C56_advance",
    "C56_request",
    "C56_forward"
   ],
   "note": "The bound on the delays is needed: C56_forward_refuted."
  },
  {
   "property": "C57",
   "status": "proved",
   "theorems": [
    "C57_order",
    "C57_priority",
    "C57_no_starvation"
   ],
   "note": "For any program, including those excluded from C18 to C21. Under Lifo tasks do starve (C57_lifo_starves)."
  },
  {
   "property": "C58",
   "status": "proved",
   "theorems": [
    "C58_total",
    "C58_sound",
    "C58_scope",
    "C58_most_general",
    "C58_complete",
    "C58_complete_refuted",
    "C58_apply_refuted"
   ],
   "note": "Completeness holds when no variable shares its name with a bound name (C58_complete_refuted otherwise). Applying a substitution that binds a variable to itself never ends (C58_apply_refuted)."
  },
  {
   "property": "C59",
   "status": "proved",
   "theorems": [
    "C59_compose",
    "C59_extend",
    "C59_cycle_refuted",
    "C59_chain_refuted"
   ],
   "note": "Without the disjointness condition the composition can be cyclic (C59_cycle_refuted) or lose the order (C59_chain_refuted)."
  },
  {
   "property": "C60",
   "status": "partial",
   "theorems": [
    "C60_alpha",
    "C60_alpha_refuted",
    "C60_shadow_refuted",
    "C60_quantified",
    "C60_escape_refuted",
    "C60_capture_refuted",
    "C60_total",
    "C60_sound",
    "C60_complete",
    "C60_most_general",
    "C60_reflexive_refuted",
    "C60_world_refuted",
    "C60_alpha_truth"
   ],
   "note": "Quantifier-free: sound, complete, most general, up to world annotations (C60_world_refuted) and for supported forms (C60_reflexive_refuted). With quantifiers: C60_quantified under the stated freshness conditions; shadowing, escape and capture break it (C60_alpha_refuted, C60_shadow_refuted, C60_escape_refuted, C60_capture_refuted)."
  },
  {
   "property": "C61",
   "status": "proved",
   "theorems": [
    "C61_term",
    "C61_term_complete",
    "C61_expr",
    "C61_expr_complete",
    "C61_meaning",
    "C61_capture_refuted",
    "C61_temporal_refuted"
   ],
   "note": "Exactness for terms and for expressions whose pattern does not bind outside variables under a quantifier (C61_capture_refuted otherwise); temporal and other rigid forms are compared literally (C61_temporal_refuted)."
  },
  {
   "property": "C62",
   "status": "proved",
   "theorems": [
    "C62_sound",
    "C62_reflexive",
    "C62_arithmetic",
    "C62_assumption_refuted",
    "C62_orientation_refuted",
    "C62_depth_refuted",
    "C62_steps_refuted"
   ],
   "note": "Interpretations are arbitrary applicative structures. Not claimed: use of hypotheses with the variable on the right (C62_orientation_refuted), overridden hypotheses (C62_assumption_refuted), deeper nesting (C62_depth_refuted). The fuel does not bound the work (C62_steps_refuted)."
  },
  {
   "property": "C63",
   "status": "proved",
   "theorems": [
    "C63_exact",
    "C63_never_miss",
    "C63_cross_refuted"
   ],
   "note": "The candidates are characterised exactly. The documented claim that term and expression patterns never cross-match is false (C63_cross_refuted)."
  },
  {
   "property": "C64",
   "status": "partial",
   "theorems": [
    "C64_embedded",
    "C64_round_trip",
    "C64_prefix_free",
    "C64_never_larger",
    "C64_progression",
    "C64_runs",
    "C64_window",
    "C64_answers",
    "C64_answers_refuted"
   ],
   "note": "The encoder panics on some columns of six or more large values (C64_answers_refuted); it answers on values up to 2^30 in magnitude and on shorter columns (C64_answers). Columns over 2^28 values, the documented cap of the decoder, are not covered."
  },
  {
   "property": "C65",
   "status": "proved",
   "theorems": [
    "C65_round_trip",
    "C65_refused",
    "C65_sandbox",
    "C65_prefix_free",
    "C65_found"
   ],
   "note": ""
  },
  {
   "property": "C66",
   "status": "partial",
   "theorems": [
    "C66_local",
    "C66_values",
    "C66_length",
    "C66_cap_refuted",
    "C66_cap_dict_refuted",
    "C66_cap_runs_refuted",
    "C66_depth"
   ],
   "note": "The cap is kept by the plain and generator kinds; the byte and delta kinds are bounded by the input, runs by 2^28, the packed kinds by eight values per byte unless constant (C66_length). Constant packed columns ignore the cap (C66_cap_refuted, C66_cap_dict_refuted), runs exceed a smaller one (C66_cap_runs_refuted)."
  },
  {
   "property": "C67",
   "status": "proved",
   "theorems": [
    "C67_map",
    "C67_table",
    "C67_capacity",
    "C67_set",
    "C67_narrow",
    "C67_narrow_set",
    "C67_narrow_refuted"
   ],
   "note": "Outside the i32 range the narrow variants alias keys and change values (C67_narrow_refuted); the compiler's range analysis that selects them is not modelled."
  },
  {
   "property": "C68",
   "status": "proved",
   "theorems": [
    "C68_map",
    "C68_set",
    "C68_bare",
    "C68_bare_refuted"
   ],
   "note": "The variant without presence bits reads absent keys as zero and its len counts inserts (C68_bare_refuted), as its comments say; the compiler's analysis that selects it is not modelled."
  },
  {
   "property": "C69",
   "status": "proved",
   "theorems": [
    "C69_sound",
    "C69_decodes",
    "C69_complete",
    "C69_entails",
    "C69_certified",
    "C69_answers",
    "C69_size",
    "C69_world_refuted",
    "C69_group_refuted"
   ],
   "note": "Names must be free of the key punctuation and atoms free of worlds and groups; otherwise distinct atoms share a variable and entailment is claimed wrongly (C69_world_refuted, C69_group_refuted)."
  },
  {
   "property": "C70",
   "status": "proved",
   "theorems": [
    "C70_at_most_sound",
    "C70_at_least_sound",
    "C70_exactly_sound",
    "C70_at_most",
    "C70_at_least",
    "C70_exactly",
    "C70_prefix_refuted",
    "C70_certified_bound"
   ],
   "note": "Operands must not mention the introduced atoms. Distinct prefixes do not keep two constraints apart when one is exactly (C70_prefix_refuted)."
  },
  {
   "property": "C71",
   "status": "proved",
   "theorems": [
    "C71_parity_sound",
    "C71_order_irrelevant",
    "C71_refutation_sound",
    "C71_solve_certified",
    "C71_solve_decides"
   ],
   "note": "Variables outside 0..n in an equation are ignored, as in the code."
  },
  {
   "property": "C72",
   "status": "proved",
   "theorems": [
    "C72_inconsistent",
    "C72_solutions",
    "C72_invertible",
    "C72_width_refuted"
   ],
   "note": "With 64 unknowns, which the coefficient mask provides for, the shift by 64 overflows (C72_width_refuted)."
  },
  {
   "property": "C73",
   "status": "proved",
   "theorems": [
    "C73_step_sound",
    "C73_refutation_sound",
    "C73_fast_agrees",
    "C73_assignment_exact",
    "C73_substitution_exact",
    "C73_automorphism",
    "C73_automorphism_refuted",
    "C73_fast_refuted",
    "C73_compose"
   ],
   "note": "The indexed checker panics on a permutation shorter than the number of variables, where the plain one answers (C73_fast_refuted); a map that is not injective passes the automorphism check without being one, which does not affect acceptance of proofs (C73_automorphism_refuted)."
  },
  {
   "property": "C74",
   "status": "partial",
   "theorems": [
    "C74_at_least",
    "C74_add_exact",
    "C74_multiply_exact",
    "C74_divide_sound",
    "C74_saturate_exact_partial",
    "C74_saturate_refuted",
    "C74_contradiction_exact",
    "C74_normal",
    "C74_derivation_sound_partial",
    "C74_pigeonhole",
    "C74_refute_partial",
    "C74_refute_refuted",
    "C74_theory_new",
    "C74_theory_entailed",
    "C74_theory_unit",
    "C74_theory_complete",
    "C74_symmetry_sound",
    "C74_generators_sound",
    "C74_generators_complete"
   ],
   "note": "False of the code: with a negative degree saturation makes a valid constraint contradictory (C74_saturate_refuted), so refute_clausal, and with it prove_unsat, reports satisfiable formulas as refuted (C74_refute_refuted). Proved for a non-negative degree. Overflow of coefficients is not modelled."
  },
  {
   "property": "C75",
   "status": "partial",
   "theorems": [
    "C75_total",
    "C75_feasible",
    "C75_valid_exact",
    "C75_infeasible",
    "C75_decides",
    "C75_hall_sound_partial",
    "C75_hall_refuted",
    "C75_capacitated",
    "C75_capacity_witness_partial",
    "C75_capacity_sound_partial",
    "C75_capacity_refuted"
   ],
   "note": "The witness check counts a repeated item twice and accepts a witness for a feasible instance (C75_hall_refuted); proved for different items, which the solver returns. With a slot of capacity zero the returned capacity witness fails its own check (C75_capacity_refuted); proved for positive capacities."
  },
  {
   "property": "C76",
   "status": "partial",
   "theorems": [
    "C76_sound",
    "C76_hall",
    "C76_counting",
    "C76_exact_partial",
    "C76_recognised",
    "C76_self_refuted",
    "C76_certify_exact"
   ],
   "note": "The documented equivalence fails on a recognised formula with an atom excluding itself (C76_self_refuted)."
  },
  {
   "property": "C77",
   "status": "partial",
   "theorems": [
    "C77_check_sound",
    "C77_certificate_checks",
    "C77_sound",
    "C77_formula_sound_partial",
    "C77_formula_refuted",
    "C77_complete_refuted"
   ],
   "note": "Atoms differing only in their world share a variable, so a true expression is reported refuted (C77_formula_refuted); a core is missed if an unrelated positive clause comes first (C77_complete_refuted). Variables are below u32::MAX."
  },
  {
   "property": "C78",
   "status": "partial",
   "theorems": [
    "C78_extract_equivalent",
    "C78_extract_complete",
    "C78_group",
    "C78_verdict",
    "C78_sound_partial",
    "C78_sound_refuted"
   ],
   "note": "Soundness of the refuter needs the clause variables below the declared count (C78_sound_partial); a variable beyond it is dropped and a satisfiable formula is refuted (C78_sound_refuted). Variables are below 2^31."
  },
  {
   "property": "C79",
   "status": "partial",
   "theorems": [
    "C79_fold",
    "C79_fold_again",
    "C79_integers",
    "C79_mixed_refuted",
    "C79_text_refuted",
    "C79_sequence_refuted",
    "C79_nan_refuted",
    "C79_floor_refuted",
    "C79_big_refuted",
    "C79_undefined_refuted",
    "C79_negative_zero_refuted"
   ],
   "note": "Holds for regular evaluations (C79_fold, C79_fold_again) and for integer arithmetic outright (C79_integers); each condition is needed: the refuted theorems give programs whose outcome the folding changes. Closures, interpolated strings, shared sequences and the tail-call depth are not modelled."
  },
  {
   "property": "C80",
   "status": "partial",
   "theorems": [
    "C80_fold",
    "C80_collect",
    "C80_program",
    "C80_booleans",
    "C80_loop_refuted",
    "C80_function_refuted",
    "C80_parameter_refuted"
   ],
   "note": "C80_fold holds for regular executions, where symbols taken for booleans hold booleans; C80_program derives that for programs without functions whose loop variables are not such symbols. A loop variable, a function that sets a global, or an unchecked Bool parameter break it (refuted theorems)."
  },
  {
   "property": "C81",
   "status": "partial",
   "theorems": [
    "C81_eliminate",
    "C81_depth",
    "C81_inline",
    "C81_stores",
    "C81_kept",
    "C81_scope_refuted",
    "C81_call_refuted",
    "C81_break_refuted",
    "C81_shadow_refuted",
    "C81_error_refuted",
    "C81_unread_refuted"
   ],
   "note": "C81_eliminate holds for executions that end well when the code between two stores is harmless (tidy); C81_stores and C81_kept say exactly which stores go. Each condition is needed: six refuted theorems give programs whose outcome changes. Closures, Inspect, Zone, Concurrent and Parallel are not modelled."
  },
  {
   "property": "C82",
   "status": "partial",
   "theorems": [
    "C82_propagate",
    "C82_untouched",
    "C82_block",
    "C82_loop_refuted",
    "C82_rebound_refuted",
    "C82_function_refuted"
   ],
   "note": "C82_propagate needs programs that do not bind a name again within its scope and functions that do not set main variables; the refuted theorems show each to be needed. Regularity is that of C80."
  },
  {
   "property": "C83",
   "status": "proved",
   "theorems": [
    "C83_stamp",
    "C83_stamp_eq",
    "C83_v1",
    "C83_v6",
    "C83_v7",
    "C83_v6_order",
    "C83_v7_order",
    "C83_v1_order_refuted",
    "C83_v7_wrap_refuted",
    "C83_encode",
    "C83_parse",
    "C83_simd",
    "C83_simd_more",
    "C83_simd_refuted",
    "C83_prefix_refuted",
    "C83_round",
    "C83_many",
    "C83_many_round",
    "C83_many_empty_refuted"
   ],
   "note": "Parsing is modelled after the trim of Unicode white space; the hashes of v3 and v5 ids are inputs. The SSSE3 path agrees with the portable one on strings without the bytes 16-25; C83_simd_refuted shows that it accepts those as digits. C83_prefix_refuted, C83_v1_order_refuted, C83_v7_wrap_refuted and C83_many_empty_refuted mark the other limits."
  },
  {
   "property": "C84",
   "status": "proved",
   "theorems": [
    "C84_codes",
    "C84_of",
    "C84_add_sub",
    "C84_scale",
    "C84_ratio",
    "C84_equal",
    "C84_rates",
    "C84_convert",
    "C84_convert_error",
    "C84_convert_mono",
    "C84_convert_same",
    "C84_round_trip",
    "C84_lossless_refuted",
    "C84_split_refuted",
    "C84_scale_refuted",
    "C84_ambient"
   ],
   "note": "The three refuted theorems mark the limits: a round trip through a coarser currency can lose money, conversion is not additive, and hand-made currencies with equal codes and different scales compare equal."
  },
  {
   "property": "C85",
   "status": "proved",
   "theorems": [
    "C85_new",
    "C85_unique",
    "C85_exponents",
    "C85_overflow_refuted",
    "C85_overflow_panic_refuted",
    "C85_mul_div",
    "C85_recip",
    "C85_power",
    "C85_root",
    "C85_root_power",
    "C85_commutative",
    "C85_associative",
    "C85_identity",
    "C85_inverse",
    "C85_room"
   ],
   "note": "i32 arithmetic wraps (release build); the laws are for intermediate numbers that fit, which C85_room gives for parts below 2^15. C85_overflow_refuted and C85_overflow_panic_refuted show what happens beyond."
  },
  {
   "property": "C86",
   "status": "proved",
   "theorems": [
    "C86_of",
    "C86_in_unit",
    "C86_round",
    "C86_lossless",
    "C86_add_sub",
    "C86_mul_div",
    "C86_linear_sum",
    "C86_affine_sum_refuted",
    "C86_best"
   ],
   "note": "Units with a nonzero scale. C86_affine_sum_refuted: readings in an affine unit (Celsius) do not add up. The table of units is not modelled."
  },
  {
   "property": "C87",
   "status": "proved",
   "theorems": [
    "C87_registers",
    "C87_no_leak",
    "C87_start",
    "C87_accessors",
    "C87_float",
    "C87_change_refuted",
    "C87_address_refuted"
   ],
   "note": "Feature narrow-value. The allocator gives addresses below 2^48 or none (then the program aborts); all NaNs are kept as one. C87_address_refuted: an address of 2^48 or more is cut off in a release build. C87_change_refuted: after an in-place change a boolean or float sits in a heap cell, where as_bool and as_float no longer find it."
  },
  {
   "property": "C88",
   "status": "proved",
   "theorems": [
    "C88_values",
    "C88_no_alias",
    "C88_push_field_refuted",
    "C88_place_refuted",
    "C88_reference_mode_refuted"
   ],
   "note": "Statements that change variables; maps, sets and mutable parameters are not modelled. C88_push_field_refuted and C88_place_refuted: Push to a structure's field, and Push and Set on an item of a list, skip the copy and are seen through other variables. C88_reference_mode_refuted is the mode without copy-on-write."
  },
  {
   "property": "C89",
   "status": "proved",
   "theorems": [
    "C89_decides",
    "C89_equiv",
    "C89_operations",
    "C89_instance",
    "C89_stable",
    "C89_mark_refuted",
    "C89_prop_refuted",
    "C89_sprop_refuted",
    "C89_wrap_refuted"
   ],
   "note": "For names without the mark U+2726 the case split uses; instances that take the successor of Prop or make the greater side SProp are excluded. C89_mark_refuted: a name with the mark collides with a fresh one and a false inequality is accepted. C89_prop_refuted and C89_sprop_refuted: accepted inequalities that fail at Prop and SProp. C89_wrap_refuted: Type 2^32-1 has successor Type 0 in a release build."
  },
  {
   "property": "C90",
   "status": "partial",
   "theorems": [
    "C90_substitute",
    "C90_alpha",
    "C90_substitution_lemma",
    "C90_total",
    "C90_equal_sound_partial",
    "C90_equal_complete",
    "C90_shadow_refuted",
    "C90_capture_refuted",
    "C90_eta_refuted",
    "C90_hole_refuted",
    "C90_let_refuted"
   ],
   "note": "Substitution in full, without MutualFix. The comparison is complete but for let and sound where no binder of the first term takes the name of a free variable of the second or of a binder around it; otherwise it is false: C90_shadow_refuted (closed types forall A A, A -> A and forall P Q, P -> Q are equal), C90_capture_refuted, C90_eta_refuted, C90_hole_refuted, C90_let_refuted."
  },
  {
   "property": "C91",
   "status": "partial",
   "theorems": [
    "C91_sound_partial",
    "C91_certificate_partial",
    "C91_capture_refuted",
    "C91_false_refuted",
    "C91_compare_refuted"
   ],
   "note": "For terms without let, hole and placeholder in which no binder hides a name in scope, and for a sound comparison of types; reduction is a parameter. Otherwise false: C91_capture_refuted (infer_type gives fun A h A => h the type forall A, A -> forall A, A), C91_false_refuted (a certificate of forall A, A passes), C91_compare_refuted (so does one of forall P Q, P -> Q whose term hides no name)."
  },
  {
   "property": "C92",
   "status": "partial",
   "theorems": [
    "C92_beta",
    "C92_mutual_partial",
    "C92_alpha",
    "C92_accepts",
    "C92_agree",
    "C92_round_trip_partial",
    "C92_mutual_refuted",
    "C92_fix_name_refuted"
   ],
   "note": "In full but for two parts. Mutual blocks are unfolded correctly if they have no free variable; otherwise not (C92_mutual_refuted). Printing is undone by reading for terms without fixpoints; a fixpoint is printed under another name than its uses (C92_fix_name_refuted). Conversion and printing leave out MutualFix."
  },
  {
   "property": "C93",
   "status": "partial",
   "theorems": [
    "C93_sound_partial",
    "C93_agreed_partial",
    "C93_catches",
    "C93_reject_refuted"
   ],
   "note": "For sorts, variables, globals, products, abstractions, lets and applications; match, fixpoints, literals, constants at levels and structure eta are left out. C93_catches: the terms of C91_capture_refuted and C91_false_refuted make the kernels disagree. C93_reject_refuted: agreement is also reported when both kernels reject."
  },
  {
   "property": "C94",
   "status": "partial",
   "theorems": [
    "C94_feasible",
    "C94_infeasible",
    "C94_decides",
    "C94_peak",
    "C94_valid_schedule",
    "C94_empty_refuted",
    "C94_witness_partial",
    "C94_witness_refuted",
    "C94_certified",
    "C94_allocated",
    "C94_spill",
    "C94_allocation_refuted",
    "C94_spill_refuted"
   ],
   "note": "In full for tasks that take time and for certificates without repetitions. A task that ends where it starts may make the assignment wrong (C94_empty_refuted). is_overflow_witness and is_spill_certificate accept one task twice (C94_witness_refuted, C94_spill_refuted). is_valid_allocation accepts an allocation that leaves a variable out (C94_allocation_refuted)."
  },
  {
   "property": "C95",
   "status": "partial",
   "theorems": [
    "C95_rup",
    "C95_complete",
    "C95_satisfiable",
    "C95_support",
    "C95_tautology_refuted",
    "C95_gadget",
    "C95_xor"
   ],
   "note": "For clauses in which no variable occurs both ways, and equations with fewer than 32 different variables. A clause with a literal and its negation may lead to a proof of a satisfiable formula (C95_tautology_refuted); the checker rejects it. emit_modp_drat is not modelled."
  },
  {
   "property": "C96",
   "status": "partial",
   "theorems": [
    "C96_exact",
    "C96_literals",
    "C96_in_range",
    "C96_comment",
    "C96_round_trip",
    "C96_reread",
    "C96_mangled_refuted",
    "C96_round_trip_refuted"
   ],
   "note": "In full for reading and for printing formulas in range. Literals are the ones written if the header declares at most 2^31 variables (C96_literals); beyond that a literal may be read as another (C96_mangled_refuted). A formula with a variable out of range is printed but not read back (C96_round_trip_refuted)."
  },
  {
   "property": "C97",
   "status": "proved",
   "theorems": [
    "C97_lrat_sound",
    "C97_agree",
    "C97_emit_exact",
    "C97_lrat_accepted",
    "C97_drat_reads",
    "C97_dpr_accepted",
    "C97_dpr_total",
    "C97_dpr_exact",
    "C97_drat_accepted"
   ],
   "note": "Texts are lists of characters and clause numbers are unbounded in the model of emission; reading back needs variables below 2^31 (the ones a literal can hold) and numbers below 2^63. emit_sr and the size-limited writers are not modelled."
  },
  {
   "property": "C98",
   "status": "partial",
   "theorems": [
    "C98_exact",
    "C98_depth",
    "C98_monotone",
    "C98_least",
    "C98_mutual",
    "C98_universes",
    "C98_block_universes",
    "C98_result_refuted",
    "C98_again_refuted",
    "C98_steal_refuted",
    "C98_unfold_refuted",
    "C98_redex_refuted",
    "C98_refused_refuted"
   ],
   "note": "The check does what it says on the syntax of types, and the monotone reading is for types without dependence. It does not unfold definitions or reduce (C98_unfold_refuted, C98_redex_refuted), and registration does not check that a constructor ends in its inductive, that its name is new or that the inductive is: C98_result_refuted, C98_again_refuted and C98_steal_refuted."
  },
  {
   "property": "C99",
   "status": "partial",
   "theorems": [
    "C99_identities",
    "C99_certificate",
    "C99_reflection",
    "C99_values",
    "C99_frame",
    "C99_available_refuted",
    "C99_start_refuted",
    "C99_negative_refuted",
    "C99_bound_refuted",
    "C99_ranges_refuted",
    "C99_literal_refuted",
    "C99_position_refuted"
   ],
   "note": "The identities hold for all widths, and the two intended families of programs keep their result. The recogniser accepts programs without the symmetry, which then return something else: C99_available_refuted, C99_start_refuted, C99_negative_refuted, C99_bound_refuted, C99_ranges_refuted, C99_literal_refuted, C99_position_refuted."
  },
  {
   "property": "C100",
   "status": "partial",
   "theorems": [
    "C100_inline",
    "C100_capture_refuted",
    "C100_unused_refuted",
    "C100_cse",
    "C100_frame",
    "C100_assigned_refuted",
    "C100_loop_refuted",
    "C100_redeclared_refuted",
    "C100_guard_refuted"
   ],
   "note": "Inlining is proved for all programs of the fragment (C100_inline). Elimination is proved for functions without loops that declare each name once, with no short-circuit operator in a declared value, and assign only parameters and variables declared with a literal or a name (C100_cse); outside that it is false: C100_assigned_refuted, C100_loop_refuted, C100_redeclared_refuted, C100_guard_refuted. Inlining can also turn a failing call into a returning one (C100_capture_refuted, C100_unused_refuted)."
  },
  {
   "property": "C101",
   "status": "proved",
   "theorems": [
    "C101_roundtrip",
    "C101_damage",
    "C101_accepted",
    "C101_header_refuted",
    "C101_length_refuted",
    "C101_view_refuted",
    "C101_alias_refuted"
   ],
   "note": "Round trip, damage and acceptance; C101_header_refuted, C101_length_refuted, C101_view_refuted and C101_alias_refuted record what the checksum does not cover."
  },
  {
   "property": "C102",
   "status": "proved",
   "theorems": [
    "C102_profile",
    "C102_profile_prefix",
    "C102_profile_accepted",
    "C102_handshake",
    "C102_kinds",
    "C102_negotiate",
    "C102_conservative",
    "C102_end_to_end",
    "C102_features_refuted"
   ],
   "note": "C102_features_refuted: a feature word beyond 32 bits is truncated, not refused."
  },
  {
   "property": "C103",
   "status": "proved",
   "theorems": [
    "C103_chunking",
    "C103_delivery",
    "C103_complete",
    "C103_same_varint",
    "C103_stuck_refuted",
    "C103_unbounded_refuted"
   ],
   "note": "C103_stuck_refuted and C103_unbounded_refuted: the memory bound the module documents does not hold against a malformed or unbounded length."
  },
  {
   "property": "C104",
   "status": "proved",
   "theorems": [
    "C104_decreasing",
    "C104_first_order",
    "C104_same",
    "C104_params_refuted",
    "C104_poly_refuted",
    "C104_box_refuted",
    "C104_annotation_refuted",
    "C104_shadow_refuted"
   ],
   "note": "C104_decreasing, C104_first_order and C104_same. The claim that the guard makes recursion terminate in general is false: C104_params_refuted and C104_poly_refuted give closed, endless terms of type False; C104_annotation_refuted, C104_box_refuted and C104_shadow_refuted record smaller gaps."
  },
  {
   "property": "C105",
   "status": "proved",
   "theorems": [
    "C105_reductions",
    "C105_simd",
    "C105_forward",
    "C105_inverse",
    "C105_inverse_back",
    "C105_product",
    "C105_to_mont",
    "C105_transformed_product",
    "C105_word16",
    "C105_add_sub",
    "C105_unreduced_refuted"
   ],
   "note": "C105_reductions, C105_simd, C105_forward, C105_inverse, C105_inverse_back, C105_product, C105_to_mont, C105_transformed_product, C105_word16, C105_add_sub; C105_unreduced_refuted records that the base multiply silently truncates unreduced input in a release build."
  },
  {
   "property": "C106",
   "status": "proved",
   "theorems": [
    "C106_compress_error",
    "C106_compress_inverse",
    "C106_compress_wide_refuted",
    "C106_encode",
    "C106_decode",
    "C106_round_trip",
    "C106_round_trip_back",
    "C106_encode_wide_refuted",
    "C106_decode_zero_refuted",
    "C106_word16",
    "C106_noise",
    "C106_sample",
    "C106_sample_range",
    "C106_sample_blocks",
    "C106_vector_block"
   ],
   "note": "C106_compress_error, C106_compress_inverse, C106_encode, C106_decode, C106_round_trip, C106_round_trip_back, C106_word16, C106_noise, C106_sample, C106_sample_range, C106_sample_blocks, C106_vector_block; limits recorded as C106_compress_wide_refuted, C106_encode_wide_refuted, C106_decode_zero_refuted. The extendable-output function is an arbitrary sequence of blocks."
  },
  {
   "property": "C107",
   "status": "proved",
   "theorems": [
    "C107_walsh_hadamard",
    "C107_self_inverse",
    "C107_spectrum",
    "C107_nonlinearity",
    "C107_best",
    "C107_immunity",
    "C107_anf",
    "C107_degree",
    "C107_autocorrelation"
   ],
   "note": "C107_walsh_hadamard, C107_self_inverse, C107_spectrum (with Parseval), C107_nonlinearity, C107_best, C107_immunity, C107_anf, C107_degree, C107_autocorrelation. Coefficients are integers without overflow: they stay below 2^n in absolute value, the squares of the autocorrelation below 4^n, so i64 suffices for n up to 31 (larger tables do not fit in memory)."
  },
  {
   "property": "C108",
   "status": "proved",
   "theorems": [
    "C108_gf2_field",
    "C108_gf256_field",
    "C108_shortest",
    "C108_unique",
    "C108_predicts",
    "C108_replay",
    "C108_bytes",
    "C108_detect"
   ],
   "note": "C108_shortest, C108_unique, C108_predicts, C108_replay for every field; C108_gf2_field and C108_gf256_field show that the two instances are fields; C108_bytes, C108_detect."
  },
  {
   "property": "C109",
   "status": "proved",
   "theorems": [
    "C109_generate",
    "C109_reconstruct",
    "C109_complexity_bound",
    "C109_congruence_refuted",
    "C109_recovers",
    "C109_detect",
    "C109_maximal_order",
    "C109_below_linear",
    "C109_below_two_adic_refuted"
   ],
   "note": "C109_generate, C109_reconstruct, C109_complexity_bound, C109_recovers, C109_detect, C109_maximal_order, C109_below_linear; C109_congruence_refuted and C109_below_two_adic_refuted refute two documented statements."
  },
  {
   "property": "C110",
   "status": "proved",
   "theorems": [
    "C110_monomials",
    "C110_solve",
    "C110_kernel",
    "C110_generate",
    "C110_recurrence",
    "C110_complexity",
    "C110_nonzero",
    "C110_verify",
    "C110_immunity",
    "C110_verify_vars_refuted"
   ],
   "note": "C110_monomials, C110_solve, C110_kernel, C110_generate, C110_recurrence, C110_complexity, C110_nonzero, C110_verify, C110_immunity; C110_verify_vars_refuted shows a verified witness below the immunity in a variable that the table does not have."
  },
  {
   "property": "C111",
   "status": "proved",
   "theorems": [
    "C111_resolve",
    "C111_eliminate_extends",
    "C111_eliminate",
    "C111_eliminate_steps",
    "C111_eliminate_refuted",
    "C111_bve",
    "C111_bve_fixed",
    "C111_bucket_sound",
    "C111_bucket_complete",
    "C111_bucket_refuted",
    "C111_vivify_clause",
    "C111_vivify_clause_none",
    "C111_vivify"
   ],
   "note": "C111_resolve, C111_eliminate_extends, C111_eliminate, C111_eliminate_steps, C111_bve, C111_bve_fixed, C111_bucket_sound, C111_bucket_complete, C111_vivify_clause, C111_vivify; C111_eliminate_refuted and C111_bucket_refuted show that with a tautological clause the documented invariance fails: a satisfiable formula is reduced to the empty clause with steps that are not accepted."
  },
  {
   "property": "C112",
   "status": "proved",
   "theorems": [
    "C112_inverse",
    "C112_satisfies",
    "C112_refutation_sound",
    "C112_solve",
    "C112_exact",
    "C112_space",
    "C112_cycle",
    "C112_out_of_range_refuted",
    "C112_composite_refuted"
   ],
   "note": "C112_inverse, C112_satisfies, C112_refutation_sound, C112_solve, C112_exact, C112_space, C112_cycle; C112_out_of_range_refuted and C112_composite_refuted give witnesses that the preconditions (variables below num_vars, prime modulus) are needed."
  },
  {
   "property": "C113",
   "status": "proved",
   "theorems": [
    "C113_certificate",
    "C113_combine_sound",
    "C113_complete",
    "C113_exact",
    "C113_parse",
    "C113_sub",
    "C113_comparisons",
    "C113_unpruned_refuted"
   ],
   "note": "C113_certificate, C113_combine_sound, C113_complete, C113_exact, C113_parse, C113_sub, C113_comparisons; C113_unpruned_refuted shows the documented invariant (zero coefficients pruned) is needed, as the fields are public."
  },
  {
   "property": "C114",
   "status": "proved",
   "theorems": [
    "C114_well_founded",
    "C114_countdown",
    "C114_canonical",
    "C114_duality",
    "C114_path",
    "C114_dangling_refuted"
   ],
   "note": "C114_well_founded, C114_countdown, C114_canonical, C114_duality, C114_path; C114_dangling_refuted is the case the duality leaves out (a successor that is no state)."
  },
  {
   "property": "C115",
   "status": "proved",
   "theorems": [
    "C115_precedes",
    "C115_extensions",
    "C115_canonical",
    "C115_connected",
    "C115_cubes",
    "C115_cyclic_euler_refuted",
    "C115_permutations",
    "C115_bernstein",
    "C115_bernstein_exact",
    "C115_bernstein_converse_refuted",
    "C115_deterministic",
    "C115_trace_schedules",
    "C115_all_orders"
   ],
   "note": "C115_precedes, C115_extensions, C115_canonical, C115_connected, C115_cubes, C115_permutations, C115_bernstein, C115_bernstein_exact, C115_deterministic, C115_trace_schedules, C115_all_orders; C115_bernstein_converse_refuted and C115_cyclic_euler_refuted are the two limits."
  },
  {
   "property": "C116",
   "status": "proved",
   "theorems": [
    "C116_gcd",
    "C116_mod_inverse",
    "C116_mod_inverse_negative_refuted",
    "C116_modpow",
    "C116_isqrt",
    "C116_nth_root",
    "C116_crt",
    "C116_probable",
    "C116_prime_passes",
    "C116_pseudoprime_refuted",
    "C116_next_prime",
    "C116_next_prime_refuted"
   ],
   "note": "C116_gcd, C116_mod_inverse, C116_modpow, C116_isqrt, C116_nth_root, C116_crt, C116_probable, C116_prime_passes, C116_next_prime; C116_mod_inverse_negative_refuted, C116_pseudoprime_refuted and C116_next_prime_refuted are the limits named in the statement."
  },
  {
   "property": "C117",
   "status": "proved",
   "theorems": [
    "C117_verify",
    "C117_sound",
    "C117_prime_survives",
    "C117_trial",
    "C117_fermat",
    "C117_p_minus_1",
    "C117_smooth_refuted",
    "C117_hastad",
    "C117_low_exponent",
    "C117_common_modulus",
    "C117_common_modulus_refuses"
   ],
   "note": "C117_verify, C117_sound, C117_prime_survives, C117_trial, C117_fermat, C117_p_minus_1, C117_hastad, C117_low_exponent, C117_common_modulus, C117_common_modulus_refuses; C117_smooth_refuted is the limit. Completeness of Pollard rho and of Wiener's attack is not claimed."
  },
  {
   "property": "C118",
   "status": "proved",
   "theorems": [
    "C118_distinct_primes",
    "C118_order",
    "C118_order_found",
    "C118_bound_refuted",
    "C118_modulus_one_refuted",
    "C118_factor_from_order",
    "C118_factor_via_order",
    "C118_even_prime_refuted"
   ],
   "note": "C118_distinct_primes, C118_order, C118_order_found, C118_factor_from_order, C118_factor_via_order; C118_bound_refuted, C118_modulus_one_refuted and C118_even_prime_refuted are the limits."
  },
  {
   "property": "C119",
   "status": "proved",
   "theorems": [
    "C119_sound",
    "C119_related",
    "C119_unit_divisor",
    "C119_unrelated_refuted"
   ],
   "note": "C119_sound, C119_related, C119_unit_divisor; C119_unrelated_refuted is the witness that the attack does not terminate."
  },
  {
   "property": "C120",
   "status": "proved",
   "theorems": [
    "C120_result",
    "C120_minimum",
    "C120_not_monotone_refuted"
   ],
   "note": "C120_result, C120_minimum; C120_not_monotone_refuted shows why monotonicity is needed. The decision procedure is a parameter."
  },
  {
   "property": "C121",
   "status": "proved",
   "theorems": [
    "C121_degree",
    "C121_sound",
    "C121_sound_real",
    "C121_repeated_refuted",
    "C121_empty_clause",
    "C121_witness",
    "C121_resample_local"
   ],
   "note": "C121_degree, C121_sound (the symmetric local lemma), C121_sound_real (for the documented inequality; uses the axioms of the standard library's reals), C121_empty_clause, C121_witness, C121_resample_local; C121_repeated_refuted is the certified unsatisfiable set. The expected number of resamplings is not treated."
  },
  {
   "property": "C122",
   "status": "proved",
   "theorems": [
    "C122_closure",
    "C122_terminates",
    "C122_refutes",
    "C122_check_sound",
    "C122_check_complete",
    "C122_refutable_unsat",
    "C122_min_width",
    "C122_min_width_terminates",
    "C122_undeclared_refuted"
   ],
   "note": "C122_closure, C122_terminates, C122_refutes, C122_check_sound, C122_check_complete, C122_refutable_unsat, C122_min_width, C122_min_width_terminates; C122_undeclared_refuted shows why the variables must be declared. Loops take fuel; the theorems give a sufficient amount."
  },
  {
   "property": "C123",
   "status": "proved",
   "theorems": [
    "C123_issued",
    "C123_sound",
    "C123_check",
    "C123_refute"
   ],
   "note": "C123_issued (exactly when), C123_sound, C123_check, C123_refute."
  },
  {
   "property": "C124",
   "status": "proved",
   "theorems": [
    "C124_issued",
    "C124_bound",
    "C124_certify"
   ],
   "note": "C124_issued, C124_bound, C124_certify. The PR checker is a Boolean input here."
  },
  {
   "property": "C125",
   "status": "proved",
   "theorems": [
    "C125_act",
    "C125_act_identity",
    "C125_act_compose",
    "C125_orbits",
    "C125_num_orbits",
    "C125_orbit_size"
   ],
   "note": "C125_act, C125_act_identity, C125_act_compose, C125_orbits (union-find with path compression), C125_num_orbits, C125_orbit_size."
  },
  {
   "property": "C126",
   "status": "proved",
   "theorems": [
    "C126_group",
    "C126_orbit_stabilizer",
    "C126_same_orbit",
    "C126_capped_refuted"
   ],
   "note": "C126_group, C126_same_orbit, C126_orbit_stabilizer; C126_capped_refuted shows that the cap matters."
  },
  {
   "property": "C127",
   "status": "proved",
   "theorems": [
    "C127_symmetric",
    "C127_sound",
    "C127_final_check",
    "C127_try_add",
    "C127_progress"
   ],
   "note": "C127_sound (totality and verdicts), C127_final_check, C127_try_add, C127_symmetric, C127_progress; the solver and the generators are arbitrary parameters."
  },
  {
   "property": "C128",
   "status": "proved",
   "theorems": [
    "C128_find",
    "C128_discover",
    "C128_solve",
    "C128_refute",
    "C128_fallback_refuted"
   ],
   "note": "C128_find, C128_discover, C128_solve, C128_refute; C128_fallback_refuted shows that the fallback proof is not checked. The solver and the generators are arbitrary parameters."
  },
  {
   "property": "C129",
   "status": "proved",
   "theorems": [
    "C129_inverse",
    "C129_cyclic",
    "C129_homomorphism",
    "C129_kernel_image",
    "C129_cokernel",
    "C129_faces",
    "C129_horns2"
   ],
   "note": "C129_inverse, C129_cyclic, C129_homomorphism, C129_kernel_image, C129_cokernel, C129_faces (every degree), C129_horns2 (degree 2 only)."
  },
  {
   "property": "C130",
   "status": "proved",
   "theorems": [
    "C130_lift_holds",
    "C130_check_sound",
    "C130_certificate_checks",
    "C130_refutes_sound",
    "C130_undeclared_refuted",
    "C130_wrapped_refuted",
    "C130_empty_clause",
    "C130_pairs"
   ],
   "note": "C130_lift_holds, C130_check_sound, C130_certificate_checks and C130_refutes_sound (declared variables), C130_empty_clause, C130_pairs; C130_undeclared_refuted and C130_wrapped_refuted are the failing cases."
  },
  {
   "property": "C131",
   "status": "proved",
   "theorems": [
    "C131_canon",
    "C131_cofactor",
    "C131_shannon",
    "C131_check_sound",
    "C131_dag_checks",
    "C131_dag_none",
    "C131_cycle_refuted",
    "C131_canon_idempotent"
   ],
   "note": "C131_canon, C131_canon_idempotent, C131_cofactor, C131_shannon, C131_dag_checks, C131_dag_none, C131_check_sound (no cycle); C131_cycle_refuted is an accepted cycle."
  },
  {
   "property": "C132",
   "status": "proved",
   "theorems": [
    "C132_twist",
    "C132_quotient_sound",
    "C132_twist_refuted",
    "C132_cycle_refuted",
    "C132_unit_propagate",
    "C132_pure",
    "C132_subsume",
    "C132_reduce",
    "C132_reduce_ends"
   ],
   "note": "C132_twist, C132_quotient_sound (no cycle, injective renamings), C132_unit_propagate, C132_pure, C132_subsume, C132_reduce, C132_reduce_ends; C132_twist_refuted and C132_cycle_refuted are accepted wrong diagrams."
  },
  {
   "property": "C133",
   "status": "proved",
   "theorems": [
    "C133_cup",
    "C133_cup_square",
    "C133_bockstein",
    "C133_coboundary_squared",
    "C133_is_coboundary",
    "C133_coboundary_cocycle",
    "C133_coboundary_value"
   ],
   "note": "C133_coboundary_value, C133_coboundary_squared, C133_is_coboundary, C133_coboundary_cocycle, C133_cup, C133_cup_square, C133_bockstein."
  },
  {
   "property": "C134",
   "status": "proved",
   "theorems": [
    "C134_boundary_squared",
    "C134_even",
    "C134_faces",
    "C134_cells",
    "C134_closed",
    "C134_raise"
   ],
   "note": ""
  }
 ]
}