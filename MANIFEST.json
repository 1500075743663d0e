{
 "claims": [
  {
   "property": "C01",
   "status": "proved",
   "theorems": [
    "C01_add_exact_or_saturating",
    "C01_add_commutative",
    "C01_add_zero",
    "C01_add_monotone",
    "C01_sub_exact",
    "C01_add_sub_cancel",
    "C01_neg"
   ],
   "note": "Proved as stated, for all pairs of valid durations."
  },
  {
   "property": "C02",
   "status": "proved",
   "theorems": [
    "C02_just_after",
    "C02_just_before",
    "C02_inverse"
   ],
   "note": "Proved as stated."
  },
  {
   "property": "C03",
   "status": "partial",
   "theorems": [
    "C03_unit_constructors_partial",
    "C03_unit_constructors_refuted",
    "C03_below_range_wraps",
    "C03_lowest_refuted"
   ],
   "note": "Proved for every i64 count whose value is above -(2^33) seconds. False below: the shift wraps around (C03_below_range_wraps describes the result, C03_unit_constructors_refuted gives a witness). C03_lowest_refuted: from_secs can make i64::MIN, whose queries panic in debug."
  },
  {
   "property": "C04",
   "status": "partial",
   "theorems": [
    "C04_subsec_constructors_partial",
    "C04_subsec_monotone_partial",
    "C04_subsec_constructors_refuted",
    "C04_exactly"
   ],
   "note": "Proved for every count above -(2^33-1) seconds; false below (C04_subsec_constructors_refuted), where C04_exactly gives the result and when debug builds panic."
  },
  {
   "property": "C05",
   "status": "partial",
   "theorems": [
    "C05_floor",
    "C05_ceil_partial",
    "C05_ceil_wrong_exactly",
    "C05_ceil_refuted",
    "C05_floor_exactly",
    "C05_ceil_exactly"
   ],
   "note": "floor proved as stated. ceil proved for t > 0 and, for t <= 0, when the period does not divide 1-t; otherwise it is wrong and C05_ceil_wrong_exactly gives the wrong value. C05_floor_exactly and C05_ceil_exactly treat all periods, null and negative ones and multiples out of range included."
  },
  {
   "property": "C06",
   "status": "proved",
   "theorems": [
    "C06_as_secs",
    "C06_subsec_nanos",
    "C06_subsec_micros_millis",
    "C06_subsec_monotone",
    "C06_nanos_round_trip",
    "C06_nanos_exact_round_trip_refuted"
   ],
   "note": "Proved as stated (n or n-1). C06_nanos_exact_round_trip_refuted shows that n-1 does occur."
  },
  {
   "property": "C07",
   "status": "partial",
   "theorems": [
    "C07_to_chrono_floor",
    "C07_of_chrono_partial",
    "C07_of_chrono_refuted",
    "C07_chrono_round_trip",
    "C07_chrono_infinite_refuted",
    "C07_to_std",
    "C07_of_std_partial",
    "C07_of_std_refuted",
    "C07_to_datetime_total",
    "C07_datetime_round_trip",
    "C07_of_datetime_total"
   ],
   "note": "Proved: exact floor to chrono, std with panics exactly on negatives, round trips. From chrono: all values above -(2^33-1) seconds, false below. From std: exact up to 2^31-1 seconds; false beyond, where the code gives +oo (C07_of_std_refuted). C07_chrono_infinite_refuted: an infinite duration becomes a finite chrono one. chrono and std durations are modelled as their (seconds, nanoseconds) content. From date-times: panic if out of 64 bits of nanoseconds, rounded value above -(2^33-1) seconds (C07_of_datetime_total)."
  },
  {
   "property": "C08",
   "status": "partial",
   "theorems": [
    "C08_trunc_partial",
    "C08_secs",
    "C08_trunc_refuted",
    "C08_months_partial",
    "C08_integer_clamp",
    "C08_exactly"
   ],
   "note": "Proved for t >= 0 and for t < 0 when the unit does not divide 1-t (ceil defect of C05); false otherwise (C08_trunc_refuted: months() truncates to whole years, millis() of one second is not one second because a millisecond is not a whole number of ticks, nanos() of a negative value may move away from zero). C08_exactly gives the value for all durations."
  },
  {
   "property": "C09",
   "status": "proved",
   "theorems": [
    "C09_torsor",
    "C09_translation_order"
   ],
   "note": "Proved as stated."
  },
  {
   "property": "C10",
   "status": "proved",
   "theorems": [
    "C10_sum_exact",
    "C10_sum_no_panic",
    "C10_sum_nonneg"
   ],
   "note": "Proved as stated."
  },
  {
   "property": "C11",
   "status": "partial",
   "theorems": [
    "C11_new",
    "C11_simple_constructors",
    "C11_constructors_proper",
    "C11_convex_bounds",
    "C11_is_empty_partial",
    "C11_is_empty_refuted",
    "C11_interval_queries",
    "C11_bounded_on_empty_refuted"
   ],
   "note": "Proved for all constructors and ranges; is_empty of a convex window with finite ends is exact, false for infinite points (C11_is_empty_refuted); is_low_bounded of an empty interval is true although documented false (C11_bounded_on_empty_refuted)."
  },
  {
   "property": "C12",
   "status": "partial",
   "theorems": [
    "C12_is_empty_partial",
    "C12_and_is_empty",
    "C12_is_empty_refuted"
   ],
   "note": "Proved for intervals with ordered bounds or in the empty form; exact value for a & b; false in general for & (C12_is_empty_refuted: the intersection of the disjoint [1,2] and [5,6] is [5,2], which reports not to be empty)."
  },
  {
   "property": "C13",
   "status": "proved",
   "theorems": [
    "C13_and",
    "C13_and_assign",
    "C13_point_and",
    "C13_assign_agrees",
    "C13_laws"
   ],
   "note": "Proved as stated."
  },
  {
   "property": "C14",
   "status": "partial",
   "theorems": [
    "C14_or_partial",
    "C14_point_or_partial",
    "C14_or_refuted"
   ],
   "note": "Proved when the operand has a point or reports to be empty; false for an infinite time point, which is stored as an extra empty interval (C14_or_refuted)."
  },
  {
   "property": "C15",
   "status": "partial",
   "theorems": [
    "C15_point_not",
    "C15_interval_not",
    "C15_not_of_and_refuted",
    "C15_agrees",
    "C15_ends"
   ],
   "note": "Proved for all points and all proper intervals; false for an inverted interval made by & (C15_not_of_and_refuted)."
  },
  {
   "property": "C16",
   "status": "partial",
   "theorems": [
    "C16_interval_truncate_before",
    "C16_interval_truncate_after",
    "C16_interval_truncate_proper_partial",
    "C16_interval_truncate_refuted",
    "C16_set_truncate_before_partial",
    "C16_set_truncate_after_partial",
    "C16_set_truncate_refuted"
   ],
   "note": "Intervals: points and reports proved; the result stays proper for finite times. Sets: proved for all times except +oo (before) and -oo (after), where it is false."
  },
  {
   "property": "C17",
   "status": "partial",
   "theorems": [
    "C17_contains",
    "C17_overlaps_partial",
    "C17_overlaps_refuted"
   ],
   "note": "contains proved as stated; overlaps characterised exactly: it is wrong only between an empty interval and ]-oo,+oo[ (C17_overlaps_refuted)."
  },
  {
   "property": "C18",
   "status": "proved",
   "theorems": [
    "C18_lt_interval",
    "C18_order_laws",
    "C18_partial_cmp",
    "C18_eq_interval",
    "C18_lt_empty_refuted",
    "C18_set_lt",
    "C18_set_lt_trans",
    "C18_set_partial_cmp"
   ],
   "note": "Proved as stated (non-empty windows). C18_lt_empty_refuted shows that non-emptiness is needed."
  },
  {
   "property": "C19",
   "status": "partial",
   "theorems": [
    "C19_add_span",
    "C19_sub_span",
    "C19_add_v",
    "C19_sub_v",
    "C19_v_sub",
    "C19_dates",
    "C19_add_infinite",
    "C19_assign_partial",
    "C19_assign_refuted",
    "C19_assign_span_partial",
    "C19_assign_span_exactly"
   ],
   "note": "Proved for + and - in all forms. The assigning forms panic exactly on single points (inverted assertion): C19_assign_refuted; C19_assign_span_exactly gives the exact condition and the exact result otherwise."
  },
  {
   "property": "C20",
   "status": "partial",
   "theorems": [
    "C20_mul_partial",
    "C20_mul_refuted",
    "C20_div_partial",
    "C20_div_infinite_refuted",
    "C20_span_mul_partial",
    "C20_span_div",
    "C20_span_div_0",
    "C20_span_div_infinite_refuted",
    "C20_mul_exactly",
    "C20_span_mul_exactly"
   ],
   "note": "Proved for all factors up to 2^63-1 in absolute value, and beyond for positive durations; false for larger factors with a negative or null duration (C20_mul_exactly and C20_span_mul_exactly say exactly when and what comes out), and for infinite / n."
  },
  {
   "property": "C21",
   "status": "partial",
   "theorems": [
    "C21_centered",
    "C21_centered_points",
    "C21_centered_infinite_refuted",
    "C21_enlarge",
    "C21_enlarge_points",
    "C21_neg",
    "C21_duration",
    "C21_duration_unbounded",
    "C21_duration_empty",
    "C21_duration_total"
   ],
   "note": "Proved; false for an infinite centre (C21_centered_infinite_refuted)."
  },
  {
   "property": "C22",
   "status": "partial",
   "theorems": [
    "C22_constructors",
    "C22_from_convex_partial",
    "C22_singleton_refuted",
    "C22_neg"
   ],
   "note": "Canonical form is proved for the constructors, negation and, in the theorems of the other properties, for union (C23), complement (C25), truncation (C16), translation (C28), scaling (C29), collection (C30), restriction (C31). False for the singleton of an infinite time point and for & (C24_and_refuted)."
  },
  {
   "property": "C23",
   "status": "partial",
   "theorems": [
    "C23_or_partial",
    "C23_or_exactly",
    "C23_or_refuted",
    "C23_or_convex_partial",
    "C23_or_empty_convex",
    "C23_or_convex_exactly"
   ],
   "note": "Canonical, sound, and contains the second operand for all canonical sets; exact when each piece of the first operand but the last ends before the end of the second one; C23_or_exactly says what is lost; false in general (C23_or_refuted). C23_or_convex_exactly gives the exact result when the second operand is convex."
  },
  {
   "property": "C24",
   "status": "partial",
   "theorems": [
    "C24_and_points",
    "C24_and_canonical_partial",
    "C24_and_refuted",
    "C24_and_convex",
    "C24_cut"
   ],
   "note": "Points exact for all canonical sets. Canonical form and emptiness exactly when the operands are never side by side; false otherwise (C24_and_refuted)."
  },
  {
   "property": "C25",
   "status": "proved",
   "theorems": [
    "C25_not",
    "C25_not_not",
    "C25_not_involutive",
    "C25_de_morgan"
   ],
   "note": "Proved as stated."
  },
  {
   "property": "C26",
   "status": "proved",
   "theorems": [
    "C26_compl_iter"
   ],
   "note": "Proved as stated."
  },
  {
   "property": "C27",
   "status": "partial",
   "theorems": [
    "C27_excl_partial",
    "C27_excl_refuted"
   ],
   "note": "Points exact; it yields nothing iff each point at distance at most one of a is in b; false as stated (C27_excl_refuted)."
  },
  {
   "property": "C28",
   "status": "partial",
   "theorems": [
    "C28_add_v",
    "C28_add_v_partial",
    "C28_add_v_refuted",
    "C28_same_translation",
    "C28_ts_sub_spans",
    "C28_assign_partial",
    "C28_assign_refuted",
    "C28_add_span",
    "C28_add_span_panics",
    "C28_sub_span",
    "C28_add_spans_partial",
    "C28_add_spans_single",
    "C28_spans_refuted",
    "C28_sub_spans_partial",
    "C28_iterator_partial",
    "C28_iterator_refuted",
    "C28_assign_exactly",
    "C28_iterator_exactly",
    "C28_ts_sub_spans_exactly",
    "C28_add_spans_panics",
    "C28_add_spans_refuted"
   ],
   "note": "Exact when no piece leaves the representable range, for durations, spans and sets of spans whose sums come in order; panics / release results characterised; false otherwise (refutations for translated sets of spans, assigning forms, iterator). Prop_TranslAll says, for every canonical set, exactly when the assigning forms, the iterator, date minus spans and sums of sets panic, and what they give otherwise."
  },
  {
   "property": "C29",
   "status": "partial",
   "theorems": [
    "C29_mul_partial",
    "C29_mul_refuted",
    "C29_mul_zero_empty",
    "C29_div",
    "C29_div_0",
    "C29_div_infinite_refuted",
    "C29_iterator_partial",
    "C29_iterator_refuted",
    "C29_mul_exactly",
    "C29_mul_zero",
    "C29_iterator_exactly",
    "C29_div_exactly"
   ],
   "note": "Proved for factors up to 2^63-1; division proved; 0 * s gives an EMPTY interval, not {0} (C29_mul_refuted), infinite bounds become finite by division. C29_mul_exactly, C29_mul_zero, C29_iterator_exactly and C29_div_exactly describe the results for all factors and unbounded sets."
  },
  {
   "property": "C30",
   "status": "partial",
   "theorems": [
    "C30_collect_partial",
    "C30_collect_canonical_id",
    "C30_collect_refuted",
    "C30_collect_sets_partial",
    "C30_collect_sets_refuted",
    "C30_collect_step",
    "C30_collect_nil"
   ],
   "note": "Proved for non-empty intervals none of which lies entirely before an earlier one; canonical and sound in general; false otherwise (C30_collect_refuted). C30_collect_nil and C30_collect_step give the exact result for every sequence of intervals, one step at a time."
  },
  {
   "property": "C31",
   "status": "partial",
   "theorems": [
    "C31_and_assign_partial",
    "C31_agrees_with_and",
    "C31_and_assign_refuted"
   ],
   "note": "Proved for windows with a point and for the documented empty interval; false for inverted windows."
  },
  {
   "property": "C32",
   "status": "partial",
   "theorems": [
    "C32_contains_convex",
    "C32_contains_set",
    "C32_convex_contains_set",
    "C32_overlaps_convex",
    "C32_overlaps_set",
    "C32_empty_interval_refuted"
   ],
   "note": "Proved for canonical sets and non-empty windows; false for empty intervals (C32_empty_interval_refuted)."
  },
  {
   "property": "C33",
   "status": "proved",
   "theorems": [
    "C33_set_eq",
    "C33_set_eq_convex",
    "C33_bounds",
    "C33_empty_bounds",
    "C33_queries",
    "C33_is_singleton"
   ],
   "note": "Proved as stated."
  },
  {
   "property": "C34",
   "status": "partial",
   "theorems": [
    "C34_inter_hint",
    "C34_union_hint_partial",
    "C34_union_hint_refuted",
    "C34_compl_hint_partial",
    "C34_compl_hint_refuted",
    "C34_compl_hint_started",
    "C34_exhausted_hint"
   ],
   "note": "Intersection: proved. Union: right before the first call, at most one too small later (refuted). Complement: right before the first call, refuted later. Graph iterators: see C47 and C48. C34_compl_hint_started says exactly when the upper hint of a started complement is too small; C34_exhausted_hint: once None was returned the hints are zero."
  },
  {
   "property": "C35",
   "status": "proved",
   "theorems": [
    "C35_terminates",
    "C35_fused"
   ],
   "note": "Proved as stated."
  },
  {
   "property": "C36",
   "status": "proved",
   "theorems": [
    "C36_cells",
    "C36_all_cells_used",
    "C36_write_read",
    "C36_timespan"
   ],
   "note": "Proved as stated."
  },
  {
   "property": "C37",
   "status": "partial",
   "theorems": [
    "C37_no_ub_partial",
    "C37_no_overflow_partial",
    "C37_shrink_to",
    "C37_large_refuted"
   ],
   "note": "Proved for graphs up to 65535 instants (all sequences of public calls); false from 65536 on (C37_large_refuted: u32 overflow of the index, undefined behaviour in release builds)."
  },
  {
   "property": "C38",
   "status": "proved",
   "theorems": [
    "C38_with_size",
    "C38_reset",
    "C38_grow",
    "C38_outside"
   ],
   "note": "Proved as stated (after any calls that ended without a fatal inconsistency; see C46 for the other ones)."
  },
  {
   "property": "C39",
   "status": "partial",
   "theorems": [
    "C39_extend",
    "C39_merge",
    "C39_propagate_partial",
    "C39_propagate_new",
    "C39_saturated_refuted",
    "C39_new_instant_refuted",
    "C39_history"
   ],
   "note": "extend, merge: proved for all constraints. propagate: proved between instants of the graph without saturated bounds, and for a new instant; false with saturated bounds and for a new instant with itself. Without limits for the solutions that durations can tell: C97."
  },
  {
   "property": "C40",
   "status": "partial",
   "theorems": [
    "C40_minimal_partial",
    "C40_solutions_partial",
    "C40_growth_refuted"
   ],
   "note": "Proved for histories of accepted constraints (instants may be removed, see C98) whose bounds leave room (room: 4(N+1)B < +oo, as in C51); false on graphs grown by propagate (C40_growth_refuted). Without margins: C110; with (N-1)B below infinity: C118."
  },
  {
   "property": "C41",
   "status": "partial",
   "theorems": [
    "C41_recovered",
    "C41_exact_partial",
    "C41_empty",
    "C41_growth_refuted"
   ],
   "note": "Refusal is sound on every graph (C41_recovered); exact on the histories of C40; false on graphs grown by propagate."
  },
  {
   "property": "C42",
   "status": "partial",
   "theorems": [
    "C42_exact_partial",
    "C42_growth_refuted"
   ],
   "note": "Proved on the histories of C40; false on graphs grown by propagate. Without margins: C117."
  },
  {
   "property": "C43",
   "status": "partial",
   "theorems": [
    "C43_histories_partial",
    "C43_sets_partial",
    "C43_permutation_partial",
    "C43_growth_refuted"
   ],
   "note": "Proved on the histories of C40, including acceptance of every order; false on graphs grown by propagate. Without margins: C109_order, C110_same."
  },
  {
   "property": "C44",
   "status": "partial",
   "theorems": [
    "C44_fatal",
    "C44_merge_fatal",
    "C44_extend_partial",
    "C44_merge_partial",
    "C44_empty_refuted"
   ],
   "note": "Fatal is right for all graphs and constraints; the equality with one-by-one propagation is proved on the histories of C40. An empty constraint is not refused by extend (C44_empty_refuted). Without margins: C109_steps."
  },
  {
   "property": "C45",
   "status": "partial",
   "theorems": [
    "C45_fresh_partial",
    "C45_refuted"
   ],
   "note": "Proved when neither instant has constraints yet; false otherwise (C45_refuted)."
  },
  {
   "property": "C46",
   "status": "partial",
   "theorems": [
    "C46_emptied",
    "C46_stale_refuted",
    "C46_reset_partial"
   ],
   "note": "No instant left: proved for all graphs. False for what reappears when instants are added again (C46_stale_refuted); reset then clears it (C46_reset_partial)."
  },
  {
   "property": "C47",
   "status": "partial",
   "theorems": [
    "C47_exact",
    "C47_once",
    "C47_items",
    "C47_fused",
    "C47_hint",
    "C47_hint_refuted",
    "C47_rebuild_partial"
   ],
   "note": "Order, exactness, items and hints proved on all graphs; the rebuilding is proved on the histories of C40; size_hint after exhaustion underflows (C47_hint_refuted). The rebuilding without margins: C113."
  },
  {
   "property": "C48",
   "status": "partial",
   "theorems": [
    "C48_from_partial",
    "C48_from_exact",
    "C48_outside",
    "C48_to",
    "C48_to_partial",
    "C48_first_refuted",
    "C48_fused",
    "C48_hint_partial",
    "C48_hint_refuted"
   ],
   "note": "Exact but for (i,0), always yielded first (C48_first_refuted); hints proved while items remain, refuted after."
  },
  {
   "property": "C49",
   "status": "partial",
   "theorems": [
    "C49_instant_cmp_partial",
    "C49_distinct_partial",
    "C49_constraint",
    "C49_growth_refuted"
   ],
   "note": "Proved on the histories of C40; false on graphs grown by propagate."
  },
  {
   "property": "C50",
   "status": "partial",
   "theorems": [
    "C50_resize_partial",
    "C50_shrink_partial",
    "C50_growth_refuted"
   ],
   "note": "Proved on the histories of C40; false on graphs grown by propagate. Without margins: C116."
  },
  {
   "property": "C51",
   "status": "proved",
   "theorems": [
    "C51_no_panic",
    "C51_bounds"
   ],
   "note": "Proved, with the exact margin 4(N+1)B < +oo, for histories of with_size, resize, reset, propagate (inside, or between unconstrained instants), extend and merge."
  },
  {
   "property": "C52",
   "status": "proved",
   "theorems": [
    "C52_history_proper",
    "C52_retain",
    "C52_remove",
    "C52_deadline",
    "C52_startline",
    "C52_shrinks",
    "C52_safe",
    "C52_total"
   ],
   "note": "Proved for all windows, also non convex ones."
  },
  {
   "property": "C53",
   "status": "proved",
   "theorems": [
    "C53_unchanged",
    "C53_recovered"
   ],
   "note": "Proved as stated."
  },
  {
   "property": "C54",
   "status": "partial",
   "theorems": [
    "C54_overflow_refuted",
    "C54_nonempty_partial",
    "C54_feasible_partial",
    "C54_retain_partial",
    "C54_exact_partial"
   ],
   "note": "Proved for windows with finite bounds at most W and graphs of C51, with a margin 2W+2X+7NB < +oo for dates at most X; false without margin (C54_overflow_refuted)."
  },
  {
   "property": "C55",
   "status": "partial",
   "theorems": [
    "C55_refuted",
    "C55_empty_refuted",
    "C55_own_partial",
    "C55_convex_partial"
   ],
   "note": "False: three accepted restrictions leave an instant without date (C55_refuted); an empty range is accepted (C55_empty_refuted). True with intervals only (C55_convex_partial), and the restricted instant keeps a date if it had one in the window (C55_own_partial)."
  },
  {
   "property": "C56",
   "status": "partial",
   "theorems": [
    "C56_deadline_partial",
    "C56_startline_partial",
    "C56_latest",
    "C56_earliest",
    "C56_none_refuted",
    "C56_panic_refuted",
    "C56_deadline_convex_partial",
    "C56_startline_convex_partial"
   ],
   "note": "Proved for finite deadlines of calls that return, and exactly for convex sessions; infinite deadlines and non-convex sessions panic (C56_panic_refuted), and latest_beginning / earliest_ending panic on an empty graph (C56_none_refuted)."
  },
  {
   "property": "C57",
   "status": "partial",
   "theorems": [
    "C57_items",
    "C57_created_partial",
    "C57_created_refuted",
    "C57_periods_partial",
    "C57_periods_refuted"
   ],
   "note": "Items proved. Creation returns iff the previous date is finite too (C57_created_refuted); forward_periods right where ceil is (C57_periods_refuted)."
  },
  {
   "property": "C58",
   "status": "partial",
   "theorems": [
    "C58_items_partial",
    "C58_start_refuted",
    "C58_periods_partial"
   ],
   "note": "False: the sequence starts at t-2p (C58_start_refuted); the actual items are proved."
  },
  {
   "property": "C59",
   "status": "partial",
   "theorems": [
    "C59_fwd_nth_partial",
    "C59_bwd_nth_partial",
    "C59_nth_refuted",
    "C59_nth_infinite_refuted",
    "C59_fwd_count_partial",
    "C59_bwd_count_partial",
    "C59_fwd_count_refuted",
    "C59_fwd_last_refuted",
    "C59_bwd_count_refuted",
    "C59_bwd_last_refuted",
    "C59_fwd_count_exactly",
    "C59_bwd_count_exactly",
    "C59_nth_zero",
    "C59_fwd_nth_beyond",
    "C59_bwd_nth_beyond"
   ],
   "note": "False: nth is late by one, may return an infinite timestamp, counts are wrong on the far side of the origin; the exact behaviour is proved on the good side. C59_fwd_count_exactly and C59_bwd_count_exactly say exactly when the counts are right; they are never too small; C59_fwd_nth_beyond and C59_bwd_nth_beyond treat nth past the end."
  },
  {
   "property": "C60",
   "status": "partial",
   "theorems": [
    "C60_text_partial",
    "C60_precision",
    "C60_infinite",
    "C60_timepoint_partial",
    "C60_determines",
    "C60_limit_refuted",
    "C60_timepoint_refuted"
   ],
   "note": "Proved with the limits 1000us and 1000ns, which do occur (C60_limit_refuted); the text determines sign, seconds and nanoseconds; format_timepoint prints infinities as numbers (C60_timepoint_refuted)."
  },
  {
   "property": "C61",
   "status": "partial",
   "theorems": [
    "C61_forward",
    "C61_backward",
    "C61_exhausted_refuted",
    "C61_backward_increment",
    "C61_forward_increment_opposite",
    "C61_forward_increment_refuted"
   ],
   "note": "Items proved; increment() of a forward sequence has the wrong sign; a reversed exhausted backward sequence yields -oo for ever."
  },
  {
   "property": "C62",
   "status": "proved",
   "theorems": [
    "C62_moves",
    "C62_dual"
   ],
   "note": "Proved as stated."
  },
  {
   "property": "C63",
   "status": "proved",
   "theorems": [
    "C63_sound",
    "C63_complete",
    "C63_improper_unrecognised",
    "C63_equivalence"
   ],
   "note": "Proved as stated. C63_improper_unrecognised: constraints that exclude nothing, or of an instant with itself, are not recognised as equivalent."
  },
  {
   "property": "C64",
   "status": "proved",
   "theorems": [
    "C64_duration",
    "C64_timestamp",
    "C64_interval",
    "C64_set",
    "C64_constraint"
   ],
   "note": "Proved as stated."
  },
  {
   "property": "C65",
   "status": "partial",
   "theorems": [
    "C65_partial",
    "C65_refuted",
    "C65_interval",
    "C65_total"
   ],
   "note": "Proved for non-empty sets; false for the empty one (\"{{}}\" instead of \"{}\")."
  },
  {
   "property": "C66",
   "status": "partial",
   "theorems": [
    "C66_own_dates",
    "C66_supported",
    "C66_exact",
    "C66_regular",
    "C66_refuted"
   ],
   "note": "Proved for the dates of the restricted instant (C66_own_dates) and that supported dates are kept (C66_supported), both for every session; exactness (C66_exact) proved when the restricted slot has no superfluous piece, which holds for interval windows on a canonical slot (C66_regular). False otherwise: a superfluous piece supports dates (C66_refuted)."
  },
  {
   "property": "C67",
   "status": "proved",
   "theorems": [
    "C67_special",
    "C67_valid",
    "C67_opposite",
    "C67_monotone",
    "C67_exact",
    "C67_integer",
    "C67_one",
    "C67_infinite",
    "C67_accuracy",
    "C67_div_valid",
    "C67_div_special",
    "C67_div_opposite",
    "C67_div_monotone",
    "C67_div_pow2",
    "C67_div_accuracy"
   ],
   "note": "Proved as stated, for f32 and f64. The float arithmetic is the model Float.v (round to nearest even, subnormals), checked on samples against SpecFloat (FloatCheck.v)."
  },
  {
   "property": "C68",
   "status": "proved",
   "theorems": [
    "C68_mul",
    "C68_div",
    "C68_div_minus_zero"
   ],
   "note": "Proved as stated."
  },
  {
   "property": "C69",
   "status": "proved",
   "theorems": [
    "C69_assign",
    "C69_div_assign",
    "C69_integer"
   ],
   "note": "Proved as stated."
  },
  {
   "property": "C70",
   "status": "partial",
   "theorems": [
    "C70_refuted"
   ],
   "note": "False: 1.0 does not keep large durations, 0.5*oo is finite, 49/49.0 is 0 (C70_refuted). True on the durations of C67_one, C67_infinite."
  },
  {
   "property": "C71",
   "status": "partial",
   "theorems": [
    "C71_mul_partial",
    "C71_refuted",
    "C71_exactly",
    "C71_agree",
    "C71_div_exactly"
   ],
   "note": "False: s*f is not canonical and differs from s*=f when |f|<1 (the test on |f| is inverted); *=1.0 and NaN are not canonical either (C71_refuted). The elements of s*f are right for |f|<1 (C71_mul_partial), and both agree for the integers of C69_integer. C71_exactly, C71_agree and C71_div_exactly give the elements, the panics and the canonical cases for every factor and divisor."
  },
  {
   "property": "C72",
   "status": "proved",
   "theorems": [
    "C72_debug",
    "C72_text"
   ],
   "note": "Proved as stated."
  },
  {
   "property": "C73",
   "status": "proved",
   "theorems": [
    "C73_display"
   ],
   "note": "Proved as stated."
  },
  {
   "property": "C74",
   "status": "proved",
   "theorems": [
    "C74_debug",
    "C74_display",
    "C74_format"
   ],
   "note": "Proved as stated; the texts of the dates after 1970 (chrono) are a parameter assumed not to panic."
  },
  {
   "property": "C75",
   "status": "partial",
   "theorems": [
    "C75_extend_partial",
    "C75_collect_partial",
    "C75_refuted"
   ],
   "note": "Proved for constraints bounded as in C51, but for one constraint of an instant with itself (or, for extend, with an instant outside the graph, see C45) from an iterator whose hint is 1: there an impossible constraint is accepted (C75_refuted)."
  },
  {
   "property": "C76",
   "status": "partial",
   "theorems": [
    "C76_schedules",
    "C76_order",
    "C76_dates_partial",
    "C76_dates_order_partial",
    "C76_dates_refuted"
   ],
   "note": "Proved for the schedules, for all restrictions (C76_schedules, C76_order). Possible dates: proved for restrictions by intervals with the margins of C54; false for sets (C76_dates_refuted: the order changes the dates)."
  },
  {
   "property": "C77",
   "status": "partial",
   "theorems": [
    "C77_completed_partial",
    "C77_grows_partial",
    "C77_short_refuted"
   ],
   "note": "Proved with the margins of C40, for graphs that were complete before they grew and iterators that do not announce 0 or 1 constraint (C77_completed_partial, C77_grows_partial). False for the others: nothing is completed (C77_short_refuted). Without margins: C111_completed."
  },
  {
   "property": "C78",
   "status": "partial",
   "theorems": [
    "C78_queries_partial",
    "C78_empty_ranges",
    "C78_all_refuted"
   ],
   "note": "Proved for the windows with a point (C78_queries_partial) and for the empty ranges but for is_all (C78_empty_ranges). False for is_all, which is true on an empty range and on an infinite date (C78_all_refuted); for intervals see C11."
  },
  {
   "property": "C79",
   "status": "proved",
   "theorems": [
    "C79_contract",
    "C79_filter",
    "C79_while",
    "C79_while_first",
    "C79_skip_take",
    "C79_step",
    "C79_step_zero"
   ],
   "note": "Proved for all chains and closures; the adapters themselves are those of std, modelled on lists."
  },
  {
   "property": "C80",
   "status": "proved",
   "theorems": [
    "C80_durations",
    "C80_windows",
    "C80_sequences",
    "C80_graphs",
    "C80_schedulers",
    "C80_texts"
   ],
   "note": "Proved for all arguments of the public functions with a profile in the model; their internal helpers are lemmas of the same file, and the functions without profile do not depend on it."
  },
  {
   "property": "C81",
   "status": "partial",
   "theorems": [
    "C81_reverse",
    "C81_distinct_cmp",
    "C81_self_partial",
    "C81_triangle_partial",
    "C81_cmp_partial",
    "C81_refuted"
   ],
   "note": "Proved for any stored graph: the opposite and the agreement of are_distinct_instants and instant_cmp. Partial: the triangle inequality, {0} on the diagonal and the order laws need the limits of room and history. C81_refuted: a graph grown by propagate has 0<1, 1<0 and 1<1 after an impossible constraint was accepted."
  },
  {
   "property": "C82",
   "status": "partial",
   "theorems": [
    "C82_propagate",
    "C82_loop_refuted",
    "C82_merge_self",
    "C82_merge",
    "C82_extend_partial",
    "C82_retain",
    "C82_retain_refuted",
    "C82_deadline",
    "C82_startline"
   ],
   "note": "Proved for propagate, merge, and for retain with an interval, set_deadline and set_startline in any session. Partial: extend within the limits of history, and it answers Propagated. set_deadline and set_startline need a date left to each instant. C82_loop_refuted: a constraint of a new instant with itself is accepted twice with different graphs. C82_retain_refuted: with a set of dates the answer can stay Propagated."
  },
  {
   "property": "C83",
   "status": "proved",
   "theorems": [
    "C83_interval",
    "C83_undo",
    "C83_undo_refuted",
    "C83_set",
    "C83_undo_set",
    "C83_scale_value",
    "C83_scale_twice",
    "C83_scale_sum",
    "C83_scale_span",
    "C83_scale_set",
    "C83_minus_one",
    "C83_scale_refuted"
   ],
   "note": "Proved where no bound reaches an infinity and no product saturates. C83_undo_refuted and C83_scale_refuted: a bound or a duration that saturates does not come back, nor does an infinite duration from a scaling."
  },
  {
   "property": "C84",
   "status": "partial",
   "theorems": [
    "C84_earliest_partial",
    "C84_latest_partial",
    "C84_deadline_partial",
    "C84_startline_partial",
    "C84_ending_partial",
    "C84_beginning_partial",
    "C84_choice_partial",
    "C84_choices_partial",
    "C84_refuted"
   ],
   "note": "Proved for restrictions by intervals within W and graphs with the margins of room. C84_refuted: with sets of dates the first dates may not be a schedule and all the schedules may end after earliest_ending. With margins on the reported bounds only, whatever the number of instants: C115_dates_partial."
  },
  {
   "property": "C85",
   "status": "partial",
   "theorems": [
    "C85_extends_partial",
    "C85_latest_partial",
    "C85_earliest_partial",
    "C85_growth_refuted"
   ],
   "note": "Proved for graphs of histories within room. C85_growth_refuted: false if propagate adds an instant to a constrained one. Without margins: C107_extends, C107_rows."
  },
  {
   "property": "C86",
   "status": "partial",
   "theorems": [
    "C86_narrower_partial",
    "C86_local_partial",
    "C86_one_refuted"
   ],
   "note": "Proved for graphs of histories within room and constraints between instants of the graph. C86_one_refuted: being unrelated to one of the two instants is not enough. Without margins: C112_local."
  },
  {
   "property": "C87",
   "status": "partial",
   "theorems": [
    "C87_equivalence",
    "C87_points",
    "C87_hash",
    "C87_order",
    "C87_refuted"
   ],
   "note": "Proved for intervals with ordered bounds or empty, canonical sets, and for the order with a point in each. C87_refuted: the singleton set of an infinite date equals the empty interval in one order only, and partial_cmp of the empty interval with itself answers Less."
  },
  {
   "property": "C88",
   "status": "partial",
   "theorems": [
    "C88_round_trip",
    "C88_fields",
    "C88_pieces",
    "C88_refuted"
   ],
   "note": "Round trips and the exact inputs of an interval are proved. C88_refuted: what is read is not checked, so sets out of order, crossed bounds and i64::MIN are read. The derived code of serde is modelled on its data model; formats are not modelled."
  },
  {
   "property": "C89",
   "status": "partial",
   "theorems": [
    "C89_agree_partial",
    "C89_right_partial",
    "C89_readme",
    "C89_agree_refuted",
    "C89_readme_refuted"
   ],
   "note": "The example of the README is proved for all canonical sets (C89_readme), other expressions if no intersection inside has operands side by side. C89_agree_refuted: otherwise they may differ. C89_readme_refuted: the test answers no for disjoint sets side by side."
  },
  {
   "property": "C90",
   "status": "proved",
   "theorems": [
    "C90_propagate",
    "C90_global",
    "C90_merge",
    "C90_extend",
    "C90_one_by_one"
   ],
   "note": "Additions of time values are counted, in every call that returns; comparisons, reads and the cells written by a resize are not counted. The counting functions are proved to return what the functions of Graph.v return."
  },
  {
   "property": "C91",
   "status": "partial",
   "theorems": [
    "C91_now_partial",
    "C91_before_epoch",
    "C91_monotone",
    "C91_elapsed_partial",
    "C91_after_2038",
    "C91_2038_refuted"
   ],
   "note": "The clock is an input of the model. Proved until 19 January 2038 (2^31 seconds); monotone and panic before the epoch for all readings. C91_2038_refuted: from then on now() is +oo and elapsed() since it panics (C91_after_2038: always)."
  },
  {
   "property": "C92",
   "status": "partial",
   "theorems": [
    "C92_and_comm",
    "C92_and_assoc",
    "C92_and_subset",
    "C92_and_units",
    "C92_or_subset",
    "C92_or_units",
    "C92_absorption_and",
    "C92_absorption_or",
    "C92_not_not",
    "C92_excluded_middle",
    "C92_contradiction_partial",
    "C92_or_assoc_refuted",
    "C92_absorption_refuted",
    "C92_absorption_dual_refuted",
    "C92_distributive_refuted",
    "C92_de_morgan_refuted"
   ],
   "note": "Proved as equalities of lists: all laws of &, the units and zeros of both, idempotence, a & b = a and a | b = b for a within b, absorption with the absorbing set as second operand of |, excluded middle, !!a = a (iff the infinite ends are written as such). a & !a has no point but is the empty set only for the empty and the full set. Refuted: | is not commutative (C23_or_refuted) nor associative, distributivity, absorption the other way round, De Morgan."
  },
  {
   "property": "C93",
   "status": "proved",
   "theorems": [
    "C93_fewest",
    "C93_inter_turns",
    "C93_union_turns",
    "C93_collect",
    "C93_or",
    "C93_and",
    "C93_or_convex",
    "C93_and_convex",
    "C93_not",
    "C93_neg",
    "C93_truncate",
    "C93_restrict",
    "C93_translate",
    "C93_add_span",
    "C93_add_spans",
    "C93_scale"
   ],
   "note": "Proved as stated."
  },
  {
   "property": "C94",
   "status": "partial",
   "theorems": [
    "C94_comm_partial",
    "C94_assoc_partial",
    "C94_unchanged",
    "C94_implied_partial",
    "C94_unit_partial",
    "C94_extend_partial"
   ],
   "note": "Unchanged law proved for all graphs of the public calls without shrink_to_fit. Missing in the other laws: histories whose sums of bounds leave the limit of room (for the law with extend, the margin is asked of the bounds the iterator gives, up to N+1 times the given ones). Without margins: C113_commutes, C113_associates, C113_idempotent, C113_extend."
  },
  {
   "property": "C95",
   "status": "partial",
   "theorems": [
    "C95_calendar",
    "C95_dates_ordered",
    "C95_text",
    "C95_sorted",
    "C95_total",
    "C95_determines",
    "C95_format_partial",
    "C95_format_refuted"
   ],
   "note": "Proved for Display, and for format_timepoint with a format that gives all the fields. C95_format_refuted: format_timepoint gives infinite timestamps a date, and an incomplete specifier panics. The calendar of chrono is modelled from its documentation, and of its formats only %Y %m %d %H %M %S %f %%."
  },
  {
   "property": "C96",
   "status": "partial",
   "theorems": [
    "C96_durations",
    "C96_timestamps",
    "C96_scheduler_text",
    "C96_scheduler",
    "C96_exact_refuted"
   ],
   "note": "Proved, up to one tick; that the text tells the sets exactly is false (C96_exact_refuted: two ticks in the same nanosecond). The dates are those of C95."
  },
  {
   "property": "C97",
   "status": "proved",
   "theorems": [
    "C97_kept",
    "C97_exact",
    "C97_refused",
    "C97_unchanged",
    "C97_accepted",
    "C97_schedules",
    "C97_no_plan_refuted"
   ],
   "note": "Proved. C97_no_plan_refuted: the converse fails, constraints without plan may be accepted (an instant at least 2^63 ticks after another)."
  },
  {
   "property": "C98",
   "status": "partial",
   "theorems": [
    "C98_reported_partial",
    "C98_go_on_partial"
   ],
   "note": "Proved on the histories of C40, with its margins; the reported bounds may be N times the given ones, and the margins are asked for them too. Without margins: C110 (Resize)."
  },
  {
   "property": "C99",
   "status": "proved",
   "theorems": [
    "C99_sets",
    "C99_convex",
    "C99_relations",
    "C99_add",
    "C99_scheduler",
    "C99_bounds",
    "C99_margin_refuted"
   ],
   "note": "Proved for bounds away from the ends of the range by the move plus one tick (for a session: plus two ticks and twice the largest bound of the graph for each restricted instant). C99_margin_refuted shows that a margin is needed: a bound that reaches the end of the range becomes infinite."
  },
  {
   "property": "C100",
   "status": "partial",
   "theorems": [
    "C100_sets",
    "C100_not",
    "C100_or_refuted",
    "C100_or_partial",
    "C100_relations",
    "C100_add",
    "C100_graph_partial",
    "C100_scheduler_partial",
    "C100_deadline_partial"
   ],
   "note": "False for unions: C100_or_refuted, a consequence of the points lost by C23 (the loss depends on the side); C100_or_partial gives the points when no operand loses any on either side. Proved for intersection, exclusion, complement, relations and translation. Graphs and schedulers: within the margins of room, convex windows."
  },
  {
   "property": "C101",
   "status": "partial",
   "theorems": [
    "C101_slots_partial",
    "C101_retain_partial",
    "C101_limits_partial"
   ],
   "note": "Proved for windows that are intervals within B, graphs within room and 16(N+1)B+10 < +oo. Missing: larger bounds. It cannot hold for sets of dates, which no graph expresses."
  },
  {
   "property": "C102",
   "status": "proved",
   "theorems": [
    "C102_inter",
    "C102_union",
    "C102_compl",
    "C102_chain",
    "C102_inter_begins",
    "C102_compl_begins",
    "C102_inter_stops",
    "C102_inter_stops_sym",
    "C102_hint"
   ],
   "note": "Proved. The next of a combinator runs at most k turns, for every k above the number of intervals of its sources, so it comes back. For unions nothing is said of sources of which only a beginning is known."
  },
  {
   "property": "C103",
   "status": "partial",
   "theorems": [
    "C103_graph_partial",
    "C103_scheduler_partial"
   ],
   "note": "Partial: graphs within the margins of `room` and `history`; schedulers restricted by intervals with bounds within W or infinite. Graphs without margins: C112_rename."
  },
  {
   "property": "C104",
   "status": "partial",
   "theorems": [
    "C104_graph_partial",
    "C104_scheduler_partial"
   ],
   "note": "Partial: graphs within the margins of `room` and `history` for the finer ticks; schedulers restricted by intervals with bounds within W or infinite. Graphs without margins: C114."
  },
  {
   "property": "C105",
   "status": "partial",
   "theorems": [
    "C105_watched_partial",
    "C105_propagate_partial",
    "C105_extend_partial",
    "C105_merge_partial",
    "C105_feasible_partial",
    "C105_calls_partial",
    "C105_exact_partial",
    "C105_limits_partial",
    "C105_third_refuted"
   ],
   "note": "Partial: the reported intervals and the constraint are bounded by a third of the time values (about 97 years), which is the exact limit: just above it the result may not be minimal (C105_third_refuted). extend, merge and a first constraint on new instants need the margins of `room` for the reported intervals only, not for the constraints given before; schedulers restricted by intervals within W, dates within X."
  },
  {
   "property": "C106",
   "status": "partial",
   "theorems": [
    "C106_dateless",
    "C106_overlaps",
    "C106_contains",
    "C106_restrict",
    "C106_retain",
    "C106_propagate_partial",
    "C106_extend_partial",
    "C106_propagate_refuted"
   ],
   "note": "Partial: for graphs the reported intervals and the bounds of the constraint are at most a thirty-second of the time values, and extend has the margins of `room`. The witness of C106_propagate_refuted is the intersection of [1,6] and [8,9] on a graph that reports [5,10]."
  },
  {
   "property": "C107",
   "status": "partial",
   "theorems": [
    "C107_cmp",
    "C107_distinct",
    "C107_laws",
    "C107_extends",
    "C107_rows",
    "C107_local_partial"
   ],
   "note": "Proved for every minimal graph with a solution, without limits on its size (up to 65535 instants) or its bounds; partial only for propagate (C107_local_partial), where the reported intervals and the constraint are bounded by a third of the time values. C105 says which graphs are minimal."
  },
  {
   "property": "C108",
   "status": "proved",
   "theorems": [
    "C108_refused",
    "C108_unchanged",
    "C108_exact",
    "C108_sequence"
   ],
   "note": "Proved, without margins. C105_third_refuted is a case where the differences are no intervals of time values."
  },
  {
   "property": "C109",
   "status": "proved",
   "theorems": [
    "C109_extend",
    "C109_from_iter",
    "C109_merge",
    "C109_order",
    "C109_steps",
    "C109_contradiction_refuted"
   ],
   "note": "Proved when there is a common solution, without margins: C109_extend, C109_from_iter, C109_merge, C109_order, C109_steps. Without a common solution it is false: C109_contradiction_refuted (five constraints that contradict each other, accepted)."
  },
  {
   "property": "C110",
   "status": "proved",
   "theorems": [
    "C110_program",
    "C110_timespan",
    "C110_same",
    "C110_profiles"
   ],
   "note": "Proved without margins: C110_program (exact graph, no failure), C110_timespan (the reported intervals are exactly the possible differences), C110_same, C110_profiles. A constraint between an instant of the graph and a new one is left out, since the graph is then not minimal (C77_short_refuted); contradictory constraints given to extend are left out as well (C109_contradiction_refuted)."
  },
  {
   "property": "C111",
   "status": "proved",
   "theorems": [
    "C111_program",
    "C111_completed",
    "C111_timespan"
   ],
   "note": "Proved without margins: C111_program, C111_completed, C111_timespan. Removing instants from a graph that is not minimal and propagating between two of its instants are left out."
  },
  {
   "property": "C112",
   "status": "proved",
   "theorems": [
    "C112_differences",
    "C112_monotone",
    "C112_reverse",
    "C112_rename",
    "C112_local"
   ],
   "note": "Proved without margins for the programs of C110: C112_differences, C112_monotone, C112_reverse, C112_rename, C112_local."
  },
  {
   "property": "C113",
   "status": "proved",
   "theorems": [
    "C113_read",
    "C113_rebuild",
    "C113_normal",
    "C113_extend",
    "C113_commutes",
    "C113_associates",
    "C113_idempotent"
   ],
   "note": "Proved without margins for the programs of C110: C113_read, C113_rebuild, C113_normal (two instants or more), C113_extend (a graph of two instants or more, not larger than the one extended), C113_commutes, C113_associates, C113_idempotent."
  },
  {
   "property": "C114",
   "status": "proved",
   "theorems": [
    "C114_ticks",
    "C114_dates"
   ],
   "note": "Proved without margins when both programs are programs of C110 and the finite bounds given stay finite: C114_ticks, C114_dates. The differences that are not multiples of c are covered by the reported intervals."
  },
  {
   "property": "C115",
   "status": "partial",
   "theorems": [
    "C115_plan_partial",
    "C115_request_partial",
    "C115_dates_partial"
   ],
   "note": "Proved when the finite bounds reported by the graph are within C, those of the requests within W, with 4W+9C (and 2W+2X+7C for a date within X) a time value, whatever the number of instants and the margins used while the graph was built: C115_plan_partial, C115_request_partial, C115_dates_partial. Missing: requests by sets of dates, for which it is false (C55_refuted), and larger bounds, for which it is false at the ends of the time values (C54_overflow_refuted)."
  },
  {
   "property": "C116",
   "status": "proved",
   "theorems": [
    "C116_resize",
    "C116_shrink",
    "C116_program"
   ],
   "note": "Proved for all minimal consistent graphs without margins; C50 gives the counterexample on graphs that are not minimal (C50_growth_refuted)."
  },
  {
   "property": "C117",
   "status": "proved",
   "theorems": [
    "C117_add",
    "C117_again",
    "C117_more",
    "C117_merge",
    "C117_all"
   ],
   "note": "Proved without margins on sizes and bounds. Fatal of extend is not exact without margins (C109_contradiction_refuted); reports on graphs grown by propagate between an old and a new instant are not exact (C42_growth_refuted)."
  },
  {
   "property": "C118",
   "status": "proved",
   "theorems": [
    "C118_spread",
    "C118_reported",
    "C118_program",
    "C118_from_iter",
    "C118_limit_refuted"
   ],
   "note": "C118_spread is the condition, on the given bounds only, under which C108 to C117 apply; C118_program and C118_from_iter are its consequences; C118_limit_refuted shows that the limit is the exact one (8 instants, bounds of a seventh of infinity). The limit of C40 was 4(n+1)B."
  },
  {
   "property": "C119",
   "status": "partial",
   "theorems": [
    "C119_whole_partial",
    "C119_next_partial",
    "C119_from_iter_partial"
   ],
   "note": "The conditions are only on what is given; in C115 they were on what the graph reports, and the outcome of each request was part of the hypotheses. C119_from_iter_partial is the same for compatible constraints given at once. Missing: requests by sets of dates, for which it is false (C55_refuted), and larger bounds, for which it is false at the ends of the time values (C54_overflow_refuted)."
  }
 ]
}