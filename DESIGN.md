# Formal model of chronologic — design

The model is written in Gallina (Coq 8.16.1, standard library only) from the text of `/repo/src`.
Every definition of the model cites the file and lines it follows. The theorems hold for all
inputs, all states and all executions of the model: lists, graphs and sequences of calls are of
any length, and numbers are those of the Rust types.

## 1. How the code is modelled

* **Numbers.** An `i64` is a `Z`. Where the code can overflow, the model uses explicit machine
  operations (`Machine.v`): saturating, wrapping, or checked. They depend on a build `profile`:
  in `Debug` an overflow is a panic and `debug_assert!` is active, in `Release` it wraps around and
  `debug_assert!` is ignored. `+oo` is `i64::MAX`, `-oo` is `-i64::MAX`; a *valid* time value is
  any `i64` but `i64::MIN`. `usize` is 64 bits, `u32` arithmetic of the graph is explicit.
* **Floats.** `f32` and `f64` are NaN, two infinities, and signed multiples of the smallest positive
  value (`Float.v`), rounded to nearest even. `FloatCheck.v` compares these operations with Coq's
  `SpecFloat` on samples.
* **Effects.** A call returns an `outcome`: `Ret a`, `Panic` (a Rust panic), `Ub` (an unchecked access
  outside its vector) or `NoFuel` (a loop of the model ran out of fuel). Theorems say `= Ret …` or
  exclude `NoFuel`, so termination is part of what is proved.
* **Time points.** `TimeValue` and `Timestamp` are two newtypes over the same `i64`; the generic code
  (`TimeInterval<T>`, `TimeSet<T>`) is modelled once over `Z`.
* **Windows.** An interval is a record `lower`, `upper`; ranges (`a..b`, `a..`, …) and points are the
  type `cx`. A set is the list of its intervals, as the `Vec` in `TimeSet`.
* **Iterators** are state machines. One *turn* is one round of the Rust `loop`; `next` repeats turns and
  `collect` repeats `next`. The source iterators are finite lists; `Lazy` models any other source (another combinator, endless, not fused) and C102 relates the two.
* **Graph.** A record with `size : u32` and the vector `data`, with the real flattened index of each
  pair of instants, resizing, stale cells and all. Unchecked accesses may be `Ub`.
* **Scheduler.** A graph and one set of timestamps per instant.
* **Sequences.** A period, the next date and the last item, as in `src/seq`.
* **Texts.** `Display` and `Debug` write `string`s; decimal numbers are written digit by digit.

| Model file | Code |
|---|---|
| `Machine` | integer operations, outcomes, build profiles |
| `TimeValue`, `Convert` | `wins/timevalue.rs`, `wins/timestamp.rs`, `wins/convert.rs` |
| `Interval`, `TimeSet`, `Relns` | `wins/timeinterval.rs`, `wins/timeset.rs`, `wins/mod.rs`, `ops/{intersect,union,compl,range}.rs`, `relns/*.rs` |
| `Iter`, `Lazy`, `Adapt` | `iter/{intersect,union,compl,excl,mod}.rs` |
| `Transl`, `Scaling`, `Float` | `ops/transl.rs`, `iter/transl.rs`, `ops/scaling.rs`, `iter/scaling.rs` |
| `Graph` | `graph/{storage,mod,propagation,constraints}.rs` |
| `Scheduler` | `graph/scheduler.rs` |
| `Seq` | `seq/{forward,backward,mod}.rs` |
| `Format`, `GraphText` | `wins/format.rs`, Debug and Display of constraints, graphs, schedulers |
| `Derive` | the attributes `derive(Hash)` and `derive(serde::…)` of `wins/*.rs` |

Specification vocabulary is kept apart from the algorithms: `Spec` (valid and finite values, clamping,
rounding), `SpecSets` (points of an interval and of a set, canonical form), `SpecGraph` (constraints,
solutions, histories of calls), `SpecSched` (schedules, sessions), `SpecScale` (values of the floats).
A finite date belongs to a set iff it is between the bounds of one of its intervals; a set is canonical
iff its intervals are non-empty, increasing, with at least one missing tick between two of them;
a solution of a graph assigns an integer to each instant.

The other files are proofs; the theorems `Cnn_…` about property Cnn are in `Prop_*.v`, each followed
by an `Example` (`Cnn_…case`) which meets its hypotheses on non-trivial data.

`Replay` evaluates the assertions of the tests of the repository in the model: all of them hold.

When a property is false of the code the model stays faithful. There is then a theorem
`Cnn_…_refuted` with a witness, and a theorem `Cnn_…_partial` for the largest part that was proved.

## 2. Findings

Defects of the code met while proving, each with a witness in the theorem named.

* Time values: constructors wrap around below -2^33 s instead of giving -oo (C03, C04, C07); `ceil`
  is wrong for some non-positive values, so `nanos()` … round the wrong way (C05, C08); `floor` and `ceil` by a negative period are two periods off, and overflow near the ends of the range (C05); `months()`
  truncates to whole years (C08); std durations above 2^31-1 s become +oo (C07).
* Intervals: the intersection of two disjoint intervals is an inverted interval which reports not to be
  empty (C12) and has a wrong complement (C15); `is_low_bounded` of an empty interval is true although
  documented false (C11); `+=`, `-=` panic on single points (C19, C28: the assertion is inverted).
* Sets: union loses points when an interval of the first operand is followed by another one and both
  go beyond the second operand (C23), hence collecting too (C30); intersection may hold inverted
  intervals and report not to be empty (C24, C27); `0 * s` is an empty interval instead of {0} (C29);
  an empty range and an infinite date
  report `is_all` (C78); infinite/n is finite (C20, C29); size hints are wrong after the first item (C34);
  from 19 January 2038 on `Timestamp::now()` is +oo and `elapsed()` since such a timestamp panics (C91); `|` on sets is neither commutative nor associative, does not distribute over `&`, and De Morgan's laws and half of the absorption laws fail (C92); `((I | J) & K).is_empty()`, the example of the README, answers no for disjoint sets side by side (C89); `==` is not symmetric between the empty interval and the singleton set of an infinite date, and `partial_cmp` of the
  empty interval with itself is `Less` (C87); deserialisation accepts sets out of order, crossed bounds and `i64::MIN` (C88).
* Floats: `s * f` joins adjacent intervals for |f| > 1 instead of |f| < 1 and disagrees with `s *= f`
  (C71); `span / -0.0` panics (C68); `49/49.0 = 0`, `oo * 0.5` is finite (C70).
* Graph: from 65536 instants on the u32 index overflows, which is undefined behaviour in release builds
  (C37); growing by `propagate` does not propagate the older constraints (C40–C45, C49, C50; one `extend` of unknown length repairs it, C77); an
  inconsistent `extend`/`merge` leaves stale constraints which reappear with new instants (C46);
  `extend` does not see that a constraint is empty (C44); a new instant accepts `[5,7]` with itself (C39);
  saturated bounds lose solutions (C39); `extend` may accept constraints that contradict each other when sums are no time values (C109); the intersection of two disjoint intervals may be accepted as a constraint and leaves no solution (C106); iterators underflow in `size_hint` after the last item (C47, C48);
  `constraints_from(i)` always yields (i,0) first (C48); collecting one impossible constraint of an instant
  with itself is accepted if the iterator knows its length (C75);
  a graph grown by `propagate` may accept an impossible constraint, then an instant is before itself (C81); a
  constraint of a new instant with itself, accepted twice, changes the graph twice (C82); `shrink_to(n)` overflows for n >= 65536 (C37).
* Scheduler: an accepted restriction may leave an instant without date (C55), the intersection of two disjoint intervals may be accepted and removes all dates of the related instants (C106), translating inverted
  intervals adds dates (C66); the possible dates depend on the order of the restrictions (C76); `retain` with the same set of dates may
  answer `Propagated` for ever (C82); with sets of dates all schedules may end after `earliest_ending` (C84); deadlines at -oo/+oo panic, as do `latest_beginning`/`earliest_ending`
  on an empty graph (C56).
* Sequences: backward sequences start at t-2p (C58), `nth` is late by one, `nth` and `last` may
  return an infinite date (C59), `forward_periods` may start before t (C57), creation panics if
  t-p is infinite (C57), reversing an exhausted backward sequence yields -oo for ever and the increment of
  a forward sequence has the wrong sign (C61).
* Texts: "1000us" and "1000ns" do occur, `format_timepoint` prints infinities as numbers (C60) and infinite timestamps as dates of 1697 and 2242 (C95), an
  empty set prints "{{}}" with `format_timeset` (C65).

## 3. Property by property

For each property: what is modelled, how the theorems are proved, what the status means.
Theorems `…_refuted` are findings: the statement, or the named part of it, is false of the code.

### C01 — Duration arithmetic is exact or saturates, never wraps (proved)

* Modelled: `TimeValue`: tv_add, tv_sub, tv_neg over saturating i64.
* Proof: the functions are shown equal to "panic on opposite infinities, else clamp of the exact result"; then linear arithmetic.
* Theorems (Prop_TimeValue.v): `C01_add_exact_or_saturating`, `C01_add_commutative`, `C01_add_zero`, `C01_add_monotone`, `C01_sub_exact`, `C01_add_sub_cancel`, `C01_neg`.
* Proved as stated, for all pairs of valid durations.

### C02 — just_after / just_before are the discrete successor and predecessor (proved)

* Modelled: `TimeValue`: just_after, just_before.
* Proof: case analysis.
* Theorems (Prop_TimeValue.v): `C02_just_after`, `C02_just_before`, `C02_inverse`.
* Proved as stated.

### C03 — Whole-second unit constructors are exact or saturate with the right sign (partial)

* Modelled: `TimeValue`: from_secs and the unit constructors, with the 64-bit shift.
* Proof: div/mod; below -2^33 s the wrapped value is computed exactly and a witness given.
* Theorems (Prop_Edge.v, Prop_TimeValue.v): `C03_unit_constructors_partial`, `C03_unit_constructors_refuted`, `C03_below_range_wraps`, `C03_lowest_refuted`.
* Proved for every i64 count whose value is above -(2^33) seconds. False below: the shift wraps around (C03_below_range_wraps describes the result, C03_unit_constructors_refuted gives a witness). C03_lowest_refuted: from_secs can make i64::MIN, whose queries panic in debug.

### C04 — Sub-second constructors truncate toward zero and are monotone (partial)

* Modelled: `TimeValue`: from_millis, from_micros, from_nanos.
* Proof: div/mod by 10^3, 10^6, 10^9 and a shift by 30.
* Theorems (Prop_Below.v, Prop_TimeValue.v): `C04_subsec_constructors_partial`, `C04_subsec_monotone_partial`, `C04_subsec_constructors_refuted`, `C04_exactly`.
* Proved for every count above -(2^33-1) seconds; false below (C04_subsec_constructors_refuted), where C04_exactly gives the result and when debug builds panic.

### C05 — floor and ceil round to the enclosing multiples of the period (partial)

* Modelled: `TimeValue`: tv_floor, tv_ceil.
* Proof: div/mod; ceil is characterised on its whole domain, including the wrong part.
* Theorems (Prop_RoundAll.v, Prop_TimeValue.v): `C05_floor`, `C05_ceil_partial`, `C05_ceil_wrong_exactly`, `C05_ceil_refuted`, `C05_floor_exactly`, `C05_ceil_exactly`.
* floor proved as stated. ceil proved for t > 0 and, for t <= 0, when the period does not divide 1-t; otherwise it is wrong and C05_ceil_wrong_exactly gives the wrong value. C05_floor_exactly and C05_ceil_exactly treat all periods, null and negative ones and multiples out of range included.

### C06 — Sub-second accessors stay in range and agree with the ticks (proved)

* Modelled: `TimeValue`: as_secs, subsec_*.
* Proof: shift and mask as div/mod, rounding to nearest as an inequality.
* Theorems (Prop_TimeValue.v): `C06_as_secs`, `C06_subsec_nanos`, `C06_subsec_micros_millis`, `C06_subsec_monotone`, `C06_nanos_round_trip`, `C06_nanos_exact_round_trip_refuted`.
* Proved as stated (n or n-1). C06_nanos_exact_round_trip_refuted shows that n-1 does occur.

### C07 — Conversions to and from std and chrono durations are faithful (partial)

* Modelled: `Convert`: TimeDelta and std Duration as pairs (seconds, nanoseconds), with the checks of their constructors.
* Proof: div/mod; round trips by composing the exact values.
* Theorems (Prop_Edge.v, Prop_TimeValue.v): `C07_to_chrono_floor`, `C07_of_chrono_partial`, `C07_of_chrono_refuted`, `C07_chrono_round_trip`, `C07_chrono_infinite_refuted`, `C07_to_std`, `C07_of_std_partial`, `C07_of_std_refuted`, `C07_to_datetime_total`, `C07_datetime_round_trip`, `C07_of_datetime_total`.
* Proved: exact floor to chrono, std with panics exactly on negatives, round trips. From chrono: all values above -(2^33-1) seconds, false below. From std: exact up to 2^31-1 seconds; false beyond, where the code gives +oo (C07_of_std_refuted). C07_chrono_infinite_refuted: an infinite duration becomes a finite chrono one. chrono and std durations are modelled as their (seconds, nanoseconds) content. From date-times: panic if out of 64 bits of nanoseconds, rounded value above -(2^33-1) seconds (C07_of_datetime_total).

### C08 — Unit truncation of a duration (partial)

* Modelled: `TimeValue`: weeks() … nanos().
* Proof: reduction to floor/ceil (C05).
* Theorems (Prop_RoundAll.v, Prop_TimeValue.v): `C08_trunc_partial`, `C08_secs`, `C08_trunc_refuted`, `C08_months_partial`, `C08_integer_clamp`, `C08_exactly`.
* Proved for t >= 0 and for t < 0 when the unit does not divide 1-t (ceil defect of C05); false otherwise (C08_trunc_refuted: months() truncates to whole years, millis() of one second is not one second because a millisecond is not a whole number of ticks, nanos() of a negative value may move away from zero). C08_exactly gives the value for all durations.

### C09 — Timestamps and durations form a torsor away from the infinities (proved)

* Modelled: `TimeValue`: Timestamp ± duration, Timestamp - Timestamp.
* Proof: C01.
* Theorems (Prop_TimeValue.v): `C09_torsor`, `C09_translation_order`.
* Proved as stated.

### C10 — Summing durations (proved)

* Modelled: `TimeValue`: Sum as a left fold.
* Proof: induction on the list, with the exact partial sums.
* Theorems (Prop_TimeValue.v): `C10_sum_exact`, `C10_sum_no_panic`, `C10_sum_nonneg`.
* Proved as stated.

### C11 — Interval constructors denote the documented sets (partial)

* Modelled: `Interval`: constructors, ranges (cx), bounds and tests.
* Proof: case analysis over the kinds of convex windows.
* Theorems (Prop_Interval.v): `C11_new`, `C11_simple_constructors`, `C11_constructors_proper`, `C11_convex_bounds`, `C11_is_empty_partial`, `C11_is_empty_refuted`, `C11_interval_queries`, `C11_bounded_on_empty_refuted`.
* Proved for all constructors and ranges; is_empty of a convex window with finite ends is exact, false for infinite points (C11_is_empty_refuted); is_low_bounded of an empty interval is true although documented false (C11_bounded_on_empty_refuted).

### C12 — An interval reports is_empty exactly when it holds no time point (partial)

* Modelled: `Interval`: is_empty.
* Proof: case analysis; inverted intersections are the witness.
* Theorems (Prop_Interval.v): `C12_is_empty_partial`, `C12_and_is_empty`, `C12_is_empty_refuted`.
* Proved for intervals with ordered bounds or in the empty form; exact value for a & b; false in general for & (C12_is_empty_refuted: the intersection of the disjoint [1,2] and [5,6] is [5,2], which reports not to be empty).

### C13 — Interval intersection is set intersection (proved)

* Modelled: `Interval`: & and &= of intervals, ranges, points.
* Proof: case analysis and linear arithmetic; laws by extensionality.
* Theorems (Prop_Interval.v): `C13_and`, `C13_and_assign`, `C13_point_and`, `C13_assign_agrees`, `C13_laws`.
* Proved as stated.

### C14 — Interval union is set union, in canonical form (partial)

* Modelled: `Interval`: | of intervals and points (result is a set).
* Proof: case analysis (apart, adjacent, overlapping).
* Theorems (Prop_Interval.v): `C14_or_partial`, `C14_point_or_partial`, `C14_or_refuted`.
* Proved when the operand has a point or reports to be empty; false for an infinite time point, which is stored as an extra empty interval (C14_or_refuted).

### C15 — Complement of a point or an interval (partial)

* Modelled: `Interval`: ! of a point and an interval.
* Proof: case analysis on the infinite bounds.
* Theorems (Prop_Interval.v, Prop_Laws.v): `C15_point_not`, `C15_interval_not`, `C15_not_of_and_refuted`, `C15_agrees`, `C15_ends`.
* Proved for all points and all proper intervals; false for an inverted interval made by & (C15_not_of_and_refuted).

### C16 — Truncation keeps exactly the requested side and reports changes truthfully (partial)

* Modelled: `Interval`, `TimeSet`: truncate_before/after.
* Proof: intervals by cases; sets by induction on the list with a canonical tail.
* Theorems (Prop_Interval.v, Prop_TimeSet.v): `C16_interval_truncate_before`, `C16_interval_truncate_after`, `C16_interval_truncate_proper_partial`, `C16_interval_truncate_refuted`, `C16_set_truncate_before_partial`, `C16_set_truncate_after_partial`, `C16_set_truncate_refuted`.
* Intervals: points and reports proved; the result stays proper for finite times. Sets: proved for all times except +oo (before) and -oo (after), where it is false.

### C17 — contains / overlaps on intervals decide set inclusion and intersection (partial)

* Modelled: `Relns`: contains, overlaps.
* Proof: linear arithmetic.
* Theorems (Prop_Interval.v): `C17_contains`, `C17_overlaps_partial`, `C17_overlaps_refuted`.
* contains proved as stated; overlaps characterised exactly: it is wrong only between an empty interval and ]-oo,+oo[ (C17_overlaps_refuted).

### C18 — Comparison of windows (proved)

* Modelled: `Relns`: partial_cmp, lt ….
* Proof: linear arithmetic; sets through their bounds.
* Theorems (Prop_Interval.v, Prop_TimeSet.v): `C18_lt_interval`, `C18_order_laws`, `C18_partial_cmp`, `C18_eq_interval`, `C18_lt_empty_refuted`, `C18_set_lt`, `C18_set_lt_trans`, `C18_set_partial_cmp`.
* Proved as stated (non-empty windows). C18_lt_empty_refuted shows that non-emptiness is needed.

### C19 — Translation of intervals is the Minkowski sum or difference (partial)

* Modelled: `Transl`: + and - of intervals, durations, timestamps.
* Proof: Minkowski sum on intervals of unbounded integers, then clamping.
* Theorems (Prop_Transl.v, Prop_TranslAll.v): `C19_add_span`, `C19_sub_span`, `C19_add_v`, `C19_sub_v`, `C19_v_sub`, `C19_dates`, `C19_add_infinite`, `C19_assign_partial`, `C19_assign_refuted`, `C19_assign_span_partial`, `C19_assign_span_exactly`.
* Proved for + and - in all forms. The assigning forms panic exactly on single points (inverted assertion): C19_assign_refuted; C19_assign_span_exactly gives the exact condition and the exact result otherwise.

### C20 — Integer scaling of durations and spans (partial)

* Modelled: `Scaling`: three groups of integer factors.
* Proof: div/mod, monotonicity of the quotient.
* Theorems (Prop_Scaling.v, Prop_ScalingAll.v): `C20_mul_partial`, `C20_mul_refuted`, `C20_div_partial`, `C20_div_infinite_refuted`, `C20_span_mul_partial`, `C20_span_div`, `C20_span_div_0`, `C20_span_div_infinite_refuted`, `C20_mul_exactly`, `C20_span_mul_exactly`.
* Proved for all factors up to 2^63-1 in absolute value, and beyond for positive durations; false for larger factors with a negative or null duration (C20_mul_exactly and C20_span_mul_exactly say exactly when and what comes out), and for infinite / n.

### C21 — centered, enlarge, negation and duration of intervals (partial)

* Modelled: `Interval`: centered, enlarge, negation, duration.
* Proof: linear arithmetic.
* Theorems (Prop_Interval.v): `C21_centered`, `C21_centered_points`, `C21_centered_infinite_refuted`, `C21_enlarge`, `C21_enlarge_points`, `C21_neg`, `C21_duration`, `C21_duration_unbounded`, `C21_duration_empty`, `C21_duration_total`.
* Proved; false for an infinite centre (C21_centered_infinite_refuted).

### C22 — Sets stay in canonical form (partial)

* Modelled: `TimeSet`: constructors, negation.
* Proof: induction; canonical form is also part of the theorems of each set operation.
* Theorems (Prop_TimeSet.v): `C22_constructors`, `C22_from_convex_partial`, `C22_singleton_refuted`, `C22_neg`.
* Canonical form is proved for the constructors, negation and, in the theorems of the other properties, for union (C23), complement (C25), truncation (C16), translation (C28), scaling (C29), collection (C30), restriction (C31). False for the singleton of an infinite time point and for & (C24_and_refuted).

### C23 — Union of sets contains exactly the points of both operands (partial)

* Modelled: `Iter`: the union iterator (turn by turn) and collection.
* Proof: invariant of the union loop relating what was yielded, the pending interval and the two remaining lists.
* Theorems (Prop_Exact.v, Prop_TimeSet.v): `C23_or_partial`, `C23_or_exactly`, `C23_or_refuted`, `C23_or_convex_partial`, `C23_or_empty_convex`, `C23_or_convex_exactly`.
* Canonical, sound, and contains the second operand for all canonical sets; exact when each piece of the first operand but the last ends before the end of the second one; C23_or_exactly says what is lost; false in general (C23_or_refuted). C23_or_convex_exactly gives the exact result when the second operand is convex.

### C24 — Intersection of sets contains exactly the common points, and is empty iff there are none (partial)

* Modelled: `Iter`: the intersection iterator.
* Proof: invariant of the loop; induction on the total length of the operands.
* Theorems (Prop_Scheduler.v, Prop_TimeSet.v): `C24_and_points`, `C24_and_canonical_partial`, `C24_and_refuted`, `C24_and_convex`, `C24_cut`.
* Points exact for all canonical sets. Canonical form and emptiness exactly when the operands are never side by side; false otherwise (C24_and_refuted).

### C25 — Complement of a set (proved)

* Modelled: `TimeSet`: set_not.
* Proof: induction with a lower bound on the remaining pieces.
* Theorems (Prop_TimeSet.v): `C25_not`, `C25_not_not`, `C25_not_involutive`, `C25_de_morgan`.
* Proved as stated.

### C26 — The complement iterator agrees with the complement operator (proved)

* Modelled: `Iter`: complement iterator.
* Proof: both are shown equal to the list of gaps.
* Theorems (Prop_TimeSet.v): `C26_compl_iter`.
* Proved as stated.

### C27 — Exclusion iterator is set difference (partial)

* Modelled: `Iter`: exclusion = intersection with the complement iterator.
* Proof: C24 and C26.
* Theorems (Prop_TimeSet.v): `C27_excl_partial`, `C27_excl_refuted`.
* Points exact; it yields nothing iff each point at distance at most one of a is in b; false as stated (C27_excl_refuted).

### C28 — Translation of a set by a duration, a span or a set of spans (partial)

* Modelled: `Transl`: sets translated by durations, spans, sets of spans.
* Proof: piecewise C19, plus order of the translated pieces, plus C23 for the union of translated sets.
* Theorems (Prop_Transl.v, Prop_TranslAll.v): `C28_add_v`, `C28_add_v_partial`, `C28_add_v_refuted`, `C28_same_translation`, `C28_ts_sub_spans`, `C28_assign_partial`, `C28_assign_refuted`, `C28_add_span`, `C28_add_span_panics`, `C28_sub_span`, `C28_add_spans_partial`, `C28_add_spans_single`, `C28_spans_refuted`, `C28_sub_spans_partial`, `C28_iterator_partial`, `C28_iterator_refuted`, `C28_assign_exactly`, `C28_iterator_exactly`, `C28_ts_sub_spans_exactly`, `C28_add_spans_panics`, `C28_add_spans_refuted`.
* Exact when no piece leaves the representable range, for durations, spans and sets of spans whose sums come in order; panics / release results characterised; false otherwise (refutations for translated sets of spans, assigning forms, iterator). Prop_TranslAll says, for every canonical set, exactly when the assigning forms, the iterator, date minus spans and sums of sets panic, and what they give otherwise.

### C29 — Integer scaling of sets (partial)

* Modelled: `Scaling`: sets.
* Proof: piecewise C20; check_joined_inners by induction, order preserved by monotonicity of the quotient.
* Theorems (Prop_Scaling.v, Prop_ScalingAll.v): `C29_mul_partial`, `C29_mul_refuted`, `C29_mul_zero_empty`, `C29_div`, `C29_div_0`, `C29_div_infinite_refuted`, `C29_iterator_partial`, `C29_iterator_refuted`, `C29_mul_exactly`, `C29_mul_zero`, `C29_iterator_exactly`, `C29_div_exactly`.
* Proved for factors up to 2^63-1; division proved; 0 * s gives an EMPTY interval, not {0} (C29_mul_refuted), infinite bounds become finite by division. C29_mul_exactly, C29_mul_zero, C29_iterator_exactly and C29_div_exactly describe the results for all factors and unbounded sets.

### C30 — Collecting intervals builds their union (partial)

* Modelled: `TimeSet`: from_iter as a fold.
* Proof: the fold maintains canonical form; exact when each interval arrives in order (or extends the end).
* Theorems (Prop_Exact.v, Prop_TimeSet.v): `C30_collect_partial`, `C30_collect_canonical_id`, `C30_collect_refuted`, `C30_collect_sets_partial`, `C30_collect_sets_refuted`, `C30_collect_step`, `C30_collect_nil`.
* Proved for non-empty intervals none of which lies entirely before an earlier one; canonical and sound in general; false otherwise (C30_collect_refuted). C30_collect_nil and C30_collect_step give the exact result for every sequence of intervals, one step at a time.

### C31 — Restricting a set to a convex window in place (partial)

* Modelled: `TimeSet`: &= with a convex window.
* Proof: two truncations (C16).
* Theorems (Prop_TimeSet.v): `C31_and_assign_partial`, `C31_agrees_with_and`, `C31_and_assign_refuted`.
* Proved for windows with a point and for the documented empty interval; false for inverted windows.

### C32 — contains / overlaps on sets decide inclusion and intersection (partial)

* Modelled: `Relns`: contains/overlaps on sets.
* Proof: induction on the canonical list.
* Theorems (Prop_TimeSet.v): `C32_contains_convex`, `C32_contains_set`, `C32_convex_contains_set`, `C32_overlaps_convex`, `C32_overlaps_set`, `C32_empty_interval_refuted`.
* Proved for canonical sets and non-empty windows; false for empty intervals (C32_empty_interval_refuted).

### C33 — Set equality is extensional on canonical sets; bounds are the extreme points (proved)

* Modelled: `TimeSet`, `Relns`: equality, bounds, tests.
* Proof: a canonical list is determined by its points (induction).
* Theorems (Prop_TimeSet.v): `C33_set_eq`, `C33_set_eq_convex`, `C33_bounds`, `C33_empty_bounds`, `C33_queries`, `C33_is_singleton`.
* Proved as stated.

### C34 — Iterator size hints bound the number of remaining items (partial)

* Modelled: `Iter`: size_hint of each state.
* Proof: number of remaining items bounded by the lengths of the remaining lists, from the loop invariants.
* Theorems (Prop_Exact.v, Prop_TimeSet.v): `C34_inter_hint`, `C34_union_hint_partial`, `C34_union_hint_refuted`, `C34_compl_hint_partial`, `C34_compl_hint_refuted`, `C34_compl_hint_started`, `C34_exhausted_hint`.
* Intersection: proved. Union: right before the first call, at most one too small later (refuted). Complement: right before the first call, refuted later. Graph iterators: see C47 and C48. C34_compl_hint_started says exactly when the upper hint of a started complement is too small; C34_exhausted_hint: once None was returned the hints are zero.

### C35 — Set iterators terminate and are fused (proved)

* Modelled: `Iter`: next of each iterator.
* Proof: a measure decreasing at each turn; states after None stay at None.
* Theorems (Prop_TimeSet.v): `C35_terminates`, `C35_fused`.
* Proved as stated.

### C36 — The flattened constraint matrix gives each ordered pair of instants its own cell, stable under growth (proved)

* Modelled: `Graph`: the index of a pair of instants in u32 arithmetic.
* Proof: shell numbering: cells of index < n² are exactly the pairs below n.
* Theorems (Prop_Graph.v): `C36_cells`, `C36_all_cells_used`, `C36_write_read`, `C36_timespan`.
* Proved as stated.

### C37 — Unchecked accesses of the graph never leave its storage (partial)

* Modelled: `Graph`: every unchecked access is a checked `Ub` in the model.
* Proof: invariant "storage holds size² cells" for all calls, in both profiles.
* Theorems (Prop_Graph.v): `C37_no_ub_partial`, `C37_no_overflow_partial`, `C37_shrink_to`, `C37_large_refuted`.
* Proved for graphs up to 65535 instants (all sequences of public calls); false from 65536 on (C37_large_refuted: u32 overflow of the index, undefined behaviour in release builds).

### C38 — A fresh or reset graph is unconstrained (proved)

* Modelled: `Graph`: with_size, resize, reset.
* Proof: induction on the fill loops.
* Theorems (Prop_Graph.v): `C38_with_size`, `C38_reset`, `C38_grow`, `C38_outside`.
* Proved as stated (after any calls that ended without a fatal inconsistency; see C46 for the other ones).

### C39 — Propagation never loses nor adds a solution (partial)

* Modelled: `Graph`: propagate, extend, merge; `SpecGraph`: solutions.
* Proof: each update writes a consequence of the constraints; each accepted bound is in the matrix at the end.
* Theorems (Prop_Graph.v, Prop_Propagation.v): `C39_extend`, `C39_merge`, `C39_propagate_partial`, `C39_propagate_new`, `C39_saturated_refuted`, `C39_new_instant_refuted`, `C39_history`.
* extend, merge: proved for all constraints. propagate: proved between instants of the graph without saturated bounds, and for a new instant; false with saturated bounds and for a new instant with itself. Without limits for the solutions that durations can tell: C97.

### C40 — The graph is always minimal (partial)

* Modelled: `Graph` as in C39; `MaxPlus`: longest walks; `GraphTight`.
* Proof: the matrix equals the closure (longest walks) of the constraints: Floyd–Warshall invariant for extend/merge, one-bound update formula for propagate; solutions are extended one instant at a time.
* Theorems (Prop_Propagation.v): `C40_minimal_partial`, `C40_solutions_partial`, `C40_growth_refuted`.
* Proved for histories of accepted constraints (instants may be removed, see C98) whose bounds leave room (room: 4(N+1)B < +oo, as in C51); false on graphs grown by propagate (C40_growth_refuted). Without margins: C110; with (N-1)B below infinity: C118.

### C41 — Inconsistency is detected exactly and leaves the graph unchanged (partial)

* Modelled: `Graph` as in C39; `MaxPlus`: longest walks; `GraphTight`.
* Proof: the matrix equals the closure (longest walks) of the constraints: Floyd–Warshall invariant for extend/merge, one-bound update formula for propagate; solutions are extended one instant at a time.
* Theorems (Prop_Graph.v, Prop_Propagation.v): `C41_recovered`, `C41_exact_partial`, `C41_empty`, `C41_growth_refuted`.
* Refusal is sound on every graph (C41_recovered); exact on the histories of C40; false on graphs grown by propagate.

### C42 — Unchanged means already implied (partial)

* Modelled: `Graph` as in C39; `MaxPlus`: longest walks; `GraphTight`.
* Proof: the matrix equals the closure (longest walks) of the constraints: Floyd–Warshall invariant for extend/merge, one-bound update formula for propagate; solutions are extended one instant at a time.
* Theorems (Prop_Propagation.v): `C42_exact_partial`, `C42_growth_refuted`.
* Proved on the histories of C40; false on graphs grown by propagate. Without margins: C117.

### C43 — The resulting graph does not depend on the order of the constraints (partial)

* Modelled: `Graph` as in C39; `MaxPlus`: longest walks; `GraphTight`.
* Proof: the matrix equals the closure (longest walks) of the constraints: Floyd–Warshall invariant for extend/merge, one-bound update formula for propagate; solutions are extended one instant at a time.
* Theorems (Prop_Propagation.v): `C43_histories_partial`, `C43_sets_partial`, `C43_permutation_partial`, `C43_growth_refuted`.
* Proved on the histories of C40, including acceptance of every order; false on graphs grown by propagate. Without margins: C109_order, C110_same.

### C44 — Adding constraints in one shot equals adding them one by one (partial)

* Modelled: `Graph` as in C39; `MaxPlus`: longest walks; `GraphTight`.
* Proof: the matrix equals the closure (longest walks) of the constraints: Floyd–Warshall invariant for extend/merge, one-bound update formula for propagate; solutions are extended one instant at a time.
* Theorems (Prop_Graph.v, Prop_Propagation.v): `C44_fatal`, `C44_merge_fatal`, `C44_extend_partial`, `C44_merge_partial`, `C44_empty_refuted`.
* Fatal is right for all graphs and constraints; the equality with one-by-one propagation is proved on the histories of C40. An empty constraint is not refused by extend (C44_empty_refuted). Without margins: C109_steps.

### C45 — Growing on demand keeps the graph propagated (partial)

* Modelled: `Graph`: growth by propagate, fatal inconsistencies.
* Proof: unfolding of the calls; computed witnesses.
* Theorems (Prop_Propagation.v): `C45_fresh_partial`, `C45_refuted`.
* Proved when neither instant has constraints yet; false otherwise (C45_refuted).

### C46 — After a fatal inconsistency the graph is emptied (partial)

* Modelled: `Graph`: growth by propagate, fatal inconsistencies.
* Proof: unfolding of the calls; computed witnesses.
* Theorems (Prop_Propagation.v): `C46_emptied`, `C46_stale_refuted`, `C46_reset_partial`.
* No instant left: proved for all graphs. False for what reappears when instants are added again (C46_stale_refuted); reset then clears it (C46_reset_partial).

### C47 — Iterating over a graph yields exactly its relevant constraints (partial)

* Modelled: `Graph`: constraint iterators as state machines.
* Proof: position invariant; remaining items = constraints after the position.
* Theorems (Prop_GraphIter.v): `C47_exact`, `C47_once`, `C47_items`, `C47_fused`, `C47_hint`, `C47_hint_refuted`, `C47_rebuild_partial`.
* Order, exactness, items and hints proved on all graphs; the rebuilding is proved on the histories of C40; size_hint after exhaustion underflows (C47_hint_refuted). The rebuilding without margins: C113.

### C48 — constraints_from / constraints_to yield exactly the constraints at an instant (partial)

* Modelled: `Graph`: constraint iterators as state machines.
* Proof: position invariant; remaining items = constraints after the position.
* Theorems (Prop_GraphIter.v): `C48_from_partial`, `C48_from_exact`, `C48_outside`, `C48_to`, `C48_to_partial`, `C48_first_refuted`, `C48_fused`, `C48_hint_partial`, `C48_hint_refuted`.
* Exact but for (i,0), always yielded first (C48_first_refuted); hints proved while items remain, refuted after.

### C49 — Qualitative queries are sound and complete (partial)

* Modelled: `Graph`: instant_cmp, are_distinct, constraint.
* Proof: from minimality (C40): the bounds are reached by solutions.
* Theorems (Prop_Propagation.v): `C49_instant_cmp_partial`, `C49_distinct_partial`, `C49_constraint`, `C49_growth_refuted`.
* Proved on the histories of C40; false on graphs grown by propagate.

### C50 — Removing instants projects the solutions (partial)

* Modelled: `Graph`: resize down, shrink_to_fit.
* Proof: closure restricted to a subset of the instants is still the projection (C40).
* Theorems (Prop_Propagation.v): `C50_resize_partial`, `C50_shrink_partial`, `C50_growth_refuted`.
* Proved on the histories of C40; false on graphs grown by propagate. Without margins: C116.

### C51 — Propagation neither panics nor overflows on bounded problems (proved)

* Modelled: `Graph`: every sum of the propagation.
* Proof: walks of a consistent graph visit each instant at most once, so bounds stay within (N+1)B; a margin for the intermediate sums; for merge, whose given cells are already sums, `GraphPath` follows the walks over the constraints given to both graphs: the first positive loop is met before any sum leaves the margin, so that contradictory graphs are refused without a panic, and `GraphMono` bounds the accepted ones by monotony.
* Theorems (Prop_Propagation.v): `C51_no_panic`, `C51_bounds`.
* Proved, with the exact margin 4(N+1)B < +oo, for histories of with_size, resize, reset, propagate (inside, or between unconstrained instants), extend and merge.

### C52 — The scheduler never discards a possible schedule (proved)

* Modelled: `Scheduler`: retain, remove, set_deadline, …; `SpecSched`: schedules.
* Proof: each step keeps the dates supported by a remaining date; induction on the constraints of the instant.
* Theorems (Prop_Scheduler.v): `C52_history_proper`, `C52_retain`, `C52_remove`, `C52_deadline`, `C52_startline`, `C52_shrinks`, `C52_safe`, `C52_total`.
* Proved for all windows, also non convex ones.

### C53 — A refused restriction leaves the scheduler unchanged and was impossible (proved)

* Modelled: `Scheduler`: answers.
* Proof: unfolding; a refused window excludes all dates of an instant.
* Theorems (Prop_Scheduler.v): `C53_unchanged`, `C53_recovered`.
* Proved as stated.

### C54 — With convex windows every remaining date is feasible (partial)

* Modelled: `Scheduler` on convex sessions; `SchedConv`.
* Proof: the session is a graph with one more instant (an origin): slots are its bounds, then C40.
* Theorems (Prop_SchedConvex.v, Prop_Scheduler.v): `C54_overflow_refuted`, `C54_nonempty_partial`, `C54_feasible_partial`, `C54_retain_partial`, `C54_exact_partial`.
* Proved for windows with finite bounds at most W and graphs of C51, with a margin 2W+2X+7NB < +oo for dates at most X; false without margin (C54_overflow_refuted).

### C55 — Any accepted restriction leaves a feasible scheduler (partial)

* Modelled: `Scheduler`.
* Proof: computed witnesses; C54 for intervals.
* Theorems (Prop_SchedStep.v, Prop_Scheduler.v): `C55_refuted`, `C55_empty_refuted`, `C55_own_partial`, `C55_convex_partial`.
* False: three accepted restrictions leave an instant without date (C55_refuted); an empty range is accepted (C55_empty_refuted). True with intervals only (C55_convex_partial), and the restricted instant keeps a date if it had one in the window (C55_own_partial).

### C56 — Deadlines and startlines (partial)

* Modelled: `Scheduler`: deadlines, startlines, latest/earliest.
* Proof: C52/C54; witnesses for the panics.
* Theorems (Prop_SchedConvex.v, Prop_Scheduler.v): `C56_deadline_partial`, `C56_startline_partial`, `C56_latest`, `C56_earliest`, `C56_none_refuted`, `C56_panic_refuted`, `C56_deadline_convex_partial`, `C56_startline_convex_partial`.
* Proved for finite deadlines of calls that return, and exactly for convex sessions; infinite deadlines and non-convex sessions panic (C56_panic_refuted), and latest_beginning / earliest_ending panic on an empty graph (C56_none_refuted).

### C57 — Forward sequences enumerate an arithmetic progression (partial)

* Modelled: `Seq`: forward and backward sequences, overridden nth/last/count.
* Proof: closed form of the state after n calls, by induction.
* Theorems (Prop_Seq.v): `C57_items`, `C57_created_partial`, `C57_created_refuted`, `C57_periods_partial`, `C57_periods_refuted`.
* Items proved. Creation returns iff the previous date is finite too (C57_created_refuted); forward_periods right where ceil is (C57_periods_refuted).

### C58 — Backward sequences enumerate the descending progression from t (partial)

* Modelled: `Seq`: forward and backward sequences, overridden nth/last/count.
* Proof: closed form of the state after n calls, by induction.
* Theorems (Prop_Seq.v): `C58_items_partial`, `C58_start_refuted`, `C58_periods_partial`.
* False: the sequence starts at t-2p (C58_start_refuted); the actual items are proved.

### C59 — nth, count, last and size_hint of sequences agree with iterating (partial)

* Modelled: `Seq`: forward and backward sequences, overridden nth/last/count.
* Proof: closed form of the state after n calls, by induction.
* Theorems (Prop_Seq.v, Prop_SeqCount.v): `C59_fwd_nth_partial`, `C59_bwd_nth_partial`, `C59_nth_refuted`, `C59_nth_infinite_refuted`, `C59_fwd_count_partial`, `C59_bwd_count_partial`, `C59_fwd_count_refuted`, `C59_fwd_last_refuted`, `C59_bwd_count_refuted`, `C59_bwd_last_refuted`, `C59_fwd_count_exactly`, `C59_bwd_count_exactly`, `C59_nth_zero`, `C59_fwd_nth_beyond`, `C59_bwd_nth_beyond`.
* False: nth is late by one, may return an infinite timestamp, counts are wrong on the far side of the origin; the exact behaviour is proved on the good side. C59_fwd_count_exactly and C59_bwd_count_exactly say exactly when the counts are right; they are never too small; C59_fwd_nth_beyond and C59_bwd_nth_beyond treat nth past the end.

### C60 — Displayed durations denote the value (partial)

* Modelled: `Format`: Display of durations and format_timepoint.
* Proof: the printed fields are div/mod remainders; injectivity of decimal texts; reading back the text.
* Theorems (Prop_Format.v): `C60_text_partial`, `C60_precision`, `C60_infinite`, `C60_timepoint_partial`, `C60_determines`, `C60_limit_refuted`, `C60_timepoint_refuted`.
* Proved with the limits 1000us and 1000ns, which do occur (C60_limit_refuted); the text determines sign, seconds and nanoseconds; format_timepoint prints infinities as numbers (C60_timepoint_refuted).

### C61 — Reversing a sequence goes back over its items (partial)

* Modelled: `Seq`: forward and backward sequences, overridden nth/last/count.
* Proof: closed form of the state after n calls, by induction.
* Theorems (Prop_Seq.v): `C61_forward`, `C61_backward`, `C61_exhausted_refuted`, `C61_backward_increment`, `C61_forward_increment_opposite`, `C61_forward_increment_refuted`.
* Items proved; increment() of a forward sequence has the wrong sign; a reversed exhausted backward sequence yields -oo for ever.

### C62 — Sign tests agree with arithmetic and with negation (proved)

* Modelled: `TimeValue`: is_positive … .
* Proof: linear arithmetic.
* Theorems (Prop_Constraint.v): `C62_moves`, `C62_dual`.
* Proved as stated.

### C63 — equiv recognises the constraints with the same solutions (proved)

* Modelled: `Graph`: k_equiv.
* Proof: a pair of dates separates two different proper intervals.
* Theorems (Prop_Constraint.v): `C63_sound`, `C63_complete`, `C63_improper_unrecognised`, `C63_equivalence`.
* Proved as stated. C63_improper_unrecognised: constraints that exclude nothing, or of an instant with itself, are not recognised as equivalent.

### C64 — Debug texts tell the values apart (proved)

* Modelled: `Format`: Debug and Display of time values, intervals, sets, constraints.
* Proof: texts parse back: each piece ends at the first separator; induction on the list.
* Theorems (Prop_Format.v): `C64_duration`, `C64_timestamp`, `C64_interval`, `C64_set`, `C64_constraint`.
* Proved as stated.

### C65 — format_timeset agrees with Display on sets of durations (partial)

* Modelled: `Format`: Debug and Display of time values, intervals, sets, constraints.
* Proof: texts parse back: each piece ends at the first separator; induction on the list.
* Theorems (Prop_Format.v): `C65_partial`, `C65_refuted`, `C65_interval`, `C65_total`.
* Proved for non-empty sets; false for the empty one ("{{}}" instead of "{}").

### C66 — An accepted retain does exactly one propagation step (partial)

* Modelled: `Scheduler`: retain.
* Proof: exact translation of the restricted slot, intersection with the others (C24).
* Theorems (Prop_SchedStep.v): `C66_own_dates`, `C66_supported`, `C66_exact`, `C66_regular`, `C66_refuted`.
* Proved for the dates of the restricted instant (C66_own_dates) and that supported dates are kept (C66_supported), both for every session; exactness (C66_exact) proved when the restricted slot has no superfluous piece, which holds for interval windows on a canonical slot (C66_regular). False otherwise: a superfluous piece supports dates (C66_refuted).

### C67 — Durations scaled by floats (proved)

* Modelled: `Float`: binary32/binary64 as signed fixed-point integers with round to nearest even; `SpecScale`: the values.
* Proof: rounding is characterised by: representable, monotone, exact on representable values, nearest, relative error.
* Theorems (Prop_Float.v): `C67_special`, `C67_valid`, `C67_opposite`, `C67_monotone`, `C67_exact`, `C67_integer`, `C67_one`, `C67_infinite`, `C67_accuracy`, `C67_div_valid`, `C67_div_special`, `C67_div_opposite`, `C67_div_monotone`, `C67_div_pow2`, `C67_div_accuracy`.
* Proved as stated, for f32 and f64. The float arithmetic is the model Float.v (round to nearest even, subnormals), checked on samples against SpecFloat (FloatCheck.v).

### C68 — Spans scaled by floats (proved)

* Modelled: `Float`: spans and sets.
* Proof: C67 monotone ⇒ images of the bounds bound the images; joined pieces as in C29.
* Theorems (Prop_FloatSets.v): `C68_mul`, `C68_div`, `C68_div_minus_zero`.
* Proved as stated.

### C69 — Sets of durations scaled by floats (proved)

* Modelled: `Float`: spans and sets.
* Proof: C67 monotone ⇒ images of the bounds bound the images; joined pieces as in C29.
* Theorems (Prop_FloatSets.v): `C69_assign`, `C69_div_assign`, `C69_integer`.
* Proved as stated.

### C70 — Float scaling respects the identities of the numbers (partial)

* Modelled: `Float`.
* Proof: computed witnesses.
* Theorems (Prop_FloatSets.v): `C70_refuted`.
* False: 1.0 does not keep large durations, 0.5*oo is finite, 49/49.0 is 0 (C70_refuted). True on the durations of C67_one, C67_infinite.

### C71 — s * f and s *= f agree and are canonical (partial)

* Modelled: `Float`.
* Proof: computed witnesses.
* Theorems (Prop_FloatAll.v, Prop_FloatSets.v): `C71_mul_partial`, `C71_refuted`, `C71_exactly`, `C71_agree`, `C71_div_exactly`.
* False: s*f is not canonical and differs from s*=f when |f|<1 (the test on |f| is inverted); *=1.0 and NaN are not canonical either (C71_refuted). The elements of s*f are right for |f|<1 (C71_mul_partial), and both agree for the integers of C69_integer. C71_exactly, C71_agree and C71_div_exactly give the elements, the panics and the canonical cases for every factor and divisor.

### C72 — Debug text of a graph (proved)

* Modelled: `GraphText`: the Debug text of the matrix of bounds, padded to seven characters.
* Proof: a row is split at blanks and brackets; texts of time values are injective (C64).
* Theorems (Prop_GraphText.v): `C72_debug`, `C72_text`.
* Proved as stated.

### C73 — Display text of a graph (proved)

* Modelled: `GraphText`: the Display text; `Graph`: the iterator over the constraints.
* Proof: C47 gives the pairs; the texts of the intervals exist by C60.
* Theorems (Prop_GraphText.v): `C73_display`.
* Proved as stated.

### C74 — Texts of a scheduler (proved)

* Modelled: `GraphText`: the three texts of a scheduler.
* Proof: no slot text has an end of line, so the lines determine the slots (C64).
* Theorems (Prop_GraphText.v): `C74_debug`, `C74_display`, `C74_format`.
* Proved as stated; the texts of the dates after 1970 (chrono) are a parameter assumed not to panic.

### C75 — Collecting constraints in a graph (partial)

* Modelled: `Graph`: g_from_iter, g_extend_expect.
* Proof: C44 and C40 on the history of one extend; C45 for one constraint on the empty graph; computed witnesses.
* Theorems (Prop_GraphCollect.v): `C75_extend_partial`, `C75_collect_partial`, `C75_refuted`.
* Proved for constraints bounded as in C51, but for one constraint of an instant with itself (or, for extend, with an instant outside the graph, see C45) from an iterator whose hint is 1: there an impossible constraint is accepted (C75_refuted).

### C76 — A scheduler is determined by its accepted restrictions (partial)

* Modelled: `Scheduler`: all restrictions; `made` lists the accepted ones.
* Proof: C52 and C53 give one step, induction on the session; C54 for the dates; computed witness.
* Theorems (Prop_SchedOrder.v): `C76_schedules`, `C76_order`, `C76_dates_partial`, `C76_dates_order_partial`, `C76_dates_refuted`.
* Proved for the schedules, for all restrictions (C76_schedules, C76_order). Possible dates: proved for restrictions by intervals with the margins of C54; false for sets (C76_dates_refuted: the order changes the dates).

### C77 — A graph grown constraint by constraint is completed by one extend (partial)

* Modelled: `g_propagate` out of the graph, `g_extend`; any number of growing calls (`grown`).
* Proof: a growing `propagate` writes the same cells as `g_insert`, so `extend` is `extend` of all the constraints; then C44 and C40; computed witness.
* Theorems (Prop_GraphRepair.v): `C77_completed_partial`, `C77_grows_partial`, `C77_short_refuted`.
* Proved with the margins of C40, for graphs that were complete before they grew and iterators that do not announce 0 or 1 constraint (C77_completed_partial, C77_grows_partial). False for the others: nothing is completed (C77_short_refuted). Without margins: C111_completed.

### C78 — Queries on ranges and points (partial)

* Modelled: the `cx_…` queries of `Interval`, for each kind of window.
* Proof: each query is a test on the two bounds (C11_convex_bounds), then linear arithmetic; computed witnesses.
* Theorems (Prop_Windows.v): `C78_queries_partial`, `C78_empty_ranges`, `C78_all_refuted`.
* Proved for the windows with a point (C78_queries_partial) and for the empty ranges but for is_all (C78_empty_ranges). False for is_all, which is true on an empty range and on an infinite date (C78_all_refuted); for intervals see C11.

### C79 — Standard adapters keep the contract of convex iterators (proved)

* Modelled: `Adapt`: each adapter as a function on the list of items, closures with any state; chains as an inductive relation.
* Proof: each adapter keeps a sublist, a sublist of a canonical list is canonical, collecting a canonical list is the identity (C30).
* Theorems (Prop_Windows.v): `C79_contract`, `C79_filter`, `C79_while`, `C79_while_first`, `C79_skip_take`, `C79_step`, `C79_step_zero`.
* Proved for all chains and closures; the adapters themselves are those of std, modelled on lists.

### C80 — Debug and release builds agree unless debug panics (proved)

* Modelled: every function of the model with a profile argument.
* Proof: a relation between both outcomes (equal, or debug panics) is kept by bind and by the loops; it holds of the checked operations.
* Theorems (Prop_Profile.v): `C80_durations`, `C80_windows`, `C80_sequences`, `C80_graphs`, `C80_schedulers`, `C80_texts`.
* Proved for all arguments of the public functions with a profile in the model; their internal helpers are lemmas of the same file, and the functions without profile do not depend on it.

### C81 — The queries of a graph agree with each other (partial)

* Modelled: `Graph`: g_timespan, g_instant_cmp, g_are_distinct.
* Proof: the queries read two cells; a history is closed with zero diagonal (C40), then linear arithmetic; computed witness.
* Theorems (Prop_GraphQuery.v): `C81_reverse`, `C81_distinct_cmp`, `C81_self_partial`, `C81_triangle_partial`, `C81_cmp_partial`, `C81_refuted`.
* Proved for any stored graph: the opposite and the agreement of are_distinct_instants and instant_cmp. Partial: the triangle inequality, {0} on the diagonal and the order laws need the limits of room and history. C81_refuted: a graph grown by propagate has 0<1, 1<0 and 1<1 after an impossible constraint was accepted.

### C82 — Repeating an accepted call changes nothing (partial)

* Modelled: `Graph`: propagate, merge, extend; `Scheduler`: retain, set_deadline, set_startline.
* Proof: the accepted call leaves cells at least as tight as the constraint (any propagation only raises cells), and slots inside the interval (any propagation keeps pieces inside former pieces); then the first test of the call succeeds; computed witnesses.
* Theorems (Prop_Repeat.v): `C82_propagate`, `C82_loop_refuted`, `C82_merge_self`, `C82_merge`, `C82_extend_partial`, `C82_retain`, `C82_retain_refuted`, `C82_deadline`, `C82_startline`.
* Proved for propagate, merge, and for retain with an interval, set_deadline and set_startline in any session. Partial: extend within the limits of history, and it answers Propagated. set_deadline and set_startline need a date left to each instant. C82_loop_refuted: a constraint of a new instant with itself is accepted twice with different graphs. C82_retain_refuted: with a set of dates the answer can stay Propagated.

### C83 — Translations and scalings compose and undo each other (proved)

* Modelled: `Transl`: translations of intervals and sets; `Scaling`: products and quotients.
* Proof: each bound is shifted or clamped; shifts compose when the first does not clamp; the product of a piece has the scaled bounds, the quotient returns them, a canonical set joins nothing.
* Theorems (Prop_Cancel.v): `C83_interval`, `C83_undo`, `C83_undo_refuted`, `C83_set`, `C83_undo_set`, `C83_scale_value`, `C83_scale_twice`, `C83_scale_sum`, `C83_scale_span`, `C83_scale_set`, `C83_minus_one`, `C83_scale_refuted`.
* Proved where no bound reaches an infinity and no product saturates. C83_undo_refuted and C83_scale_refuted: a bound or a duration that saturates does not come back, nor does an infinite duration from a scaling.

### C84 — Earliest and latest schedules (partial)

* Modelled: `Scheduler`: earliest_ending, latest_beginning, set_deadline, set_startline, retain.
* Proof: each first date is part of a schedule (C54) and the first dates bound all schedules, so two schedules through the first dates of i and j give both bounds of t_j - t_i; the scheduler after the deadline has a schedule; choices are a session; computed witnesses.
* Theorems (Prop_SchedEarliest.v): `C84_earliest_partial`, `C84_latest_partial`, `C84_deadline_partial`, `C84_startline_partial`, `C84_ending_partial`, `C84_beginning_partial`, `C84_choice_partial`, `C84_choices_partial`, `C84_refuted`.
* Proved for restrictions by intervals within W and graphs with the margins of room. C84_refuted: with sets of dates the first dates may not be a schedule and all the schedules may end after earliest_ending. With margins on the reported bounds only, whatever the number of instants: C115_dates_partial.

### C85 — Dates can be read off a graph (partial)

* Modelled: `Graph`: timespan, histories.
* Proof: partial solutions of a closed matrix extend (MaxPlus.closed_extends); triangle inequality for rows; computed witness.
* Theorems (Prop_GraphRow.v): `C85_extends_partial`, `C85_latest_partial`, `C85_earliest_partial`, `C85_growth_refuted`.
* Proved for graphs of histories within room. C85_growth_refuted: false if propagate adds an instant to a constrained one. Without margins: C107_extends, C107_rows.

### C86 — A constraint acts on related instants only (partial)

* Modelled: `Graph`: propagate, timespan, histories.
* Proof: the intervals are the possible durations (C40); a solution with the constraint is changed at the unrelated instant only, and the changed dates extend to a solution (C85); equal sets of durations give equal intervals; computed witness.
* Theorems (Prop_Local.v): `C86_narrower_partial`, `C86_local_partial`, `C86_one_refuted`.
* Proved for graphs of histories within room and constraints between instants of the graph. C86_one_refuted: being unrelated to one of the two instants is not enough. Without margins: C112_local.

### C87 — Equality, order and hash keep the contracts of the standard traits (partial)

* Modelled: `Relns`: eq, lt, le, gt, ge, partial_cmp; `Derive`: what the derived Hash writes.
* Proof: values of both types have the same pieces exactly if they are equal; the rest is arithmetic on the bounds; induction on the written numbers; computed witnesses.
* Theorems (Prop_Traits.v): `C87_equivalence`, `C87_points`, `C87_hash`, `C87_order`, `C87_refuted`.
* Proved for intervals with ordered bounds or empty, canonical sets, and for the order with a point in each. C87_refuted: the singleton set of an infinite date equals the empty interval in one order only, and partial_cmp of the empty interval with itself answers Less.

### C88 — Serialised values are read back, and only well-formed values are read (partial)

* Modelled: `Derive`: derived Serialize and Deserialize on the data model of serde.
* Proof: induction on the fields and the pieces; computed witnesses.
* Theorems (Prop_Traits.v): `C88_round_trip`, `C88_fields`, `C88_pieces`, `C88_refuted`.
* Round trips and the exact inputs of an interval are proved. C88_refuted: what is read is not checked, so sets out of order, crossed bounds and i64::MIN are read. The derived code of serde is modelled on its data model; formats are not modelled.

### C89 — Operators and chained iterators compute the same (partial)

* Modelled: `TimeSet`: set_or, set_and, set_not; `Iter`: union_list, inter_list, compl_list, excl_list.
* Proof: induction on the expression, with C23, C24, C25, C26 and C27; computed witnesses.
* Theorems (Prop_Pipeline.v): `C89_agree_partial`, `C89_right_partial`, `C89_readme`, `C89_agree_refuted`, `C89_readme_refuted`.
* The example of the README is proved for all canonical sets (C89_readme), other expressions if no intersection inside has operands side by side. C89_agree_refuted: otherwise they may differ. C89_readme_refuted: the test answers no for disjoint sets side by side.

### C90 — Number of additions of the propagation (proved)

* Modelled: `Cost`: the propagation of `Graph` with a count of the additions: c_plb, c_propagate, c_global, c_merge, c_extend.
* Proof: forgetting the count gives back g_propagate, g_global, g_merge and g_extend; induction on the ranges of the loops, as the size is kept.
* Theorems (Prop_Cost.v): `C90_propagate`, `C90_global`, `C90_merge`, `C90_extend`, `C90_one_by_one`.
* Additions of time values are counted, in every call that returns; comparisons, reads and the cells written by a resize are not counted. The counting functions are proved to return what the functions of Graph.v return.

### C91 — Timestamps of the system clock (partial)

* Modelled: `Clock`: ts_now, ts_elapsed, with the reading of the clock as an input.
* Proof: from C07_of_std_partial, C06_as_secs and C01; linear arithmetic.
* Theorems (Prop_Clock.v): `C91_now_partial`, `C91_before_epoch`, `C91_monotone`, `C91_elapsed_partial`, `C91_after_2038`, `C91_2038_refuted`.
* The clock is an input of the model. Proved until 19 January 2038 (2^31 seconds); monotone and panic before the epoch for all readings. C91_2038_refuted: from then on now() is +oo and elapsed() since it panics (C91_after_2038: always).

### C92 — Laws of the algebra of sets (partial)

* Modelled: `Iter`, `TimeSet`: set_and, set_or, set_not.
* Proof: & from the list of the caps of touching pieces (all_caps), whose associativity needs no order and whose commutativity follows the order of both lists; | from a run of the union machine on pieces within the second operand (union_within); the complement from C25 and the uniqueness of canonical forms; counterexamples by computation.
* Theorems (Prop_Laws.v): `C92_and_comm`, `C92_and_assoc`, `C92_and_subset`, `C92_and_units`, `C92_or_subset`, `C92_or_units`, `C92_absorption_and`, `C92_absorption_or`, `C92_not_not`, `C92_excluded_middle`, `C92_contradiction_partial`, `C92_or_assoc_refuted`, `C92_absorption_refuted`, `C92_absorption_dual_refuted`, `C92_distributive_refuted`, `C92_de_morgan_refuted`.
* Proved as equalities of lists: all laws of &, the units and zeros of both, idempotence, a & b = a and a | b = b for a within b, absorption with the absorbing set as second operand of |, excluded middle, !!a = a (iff the infinite ends are written as such). a & !a has no point but is the empty set only for the empty and the full set. Refuted: | is not commutative (C23_or_refuted) nor associative, distributivity, absorption the other way round, De Morgan.

### C93 — Sizes of sets and work of the iterators (proved)

* Modelled: `Iter`, `TimeSet`, `Transl`, `Scaling`; `all_turns` counts the turns of the loops of the iterators.
* Proof: minimality by choosing for each piece a point and an interval of the other list that holds it, which are distinct because the tick after a piece is missing; sizes by a decreasing measure of the state of the iterators, induction on the depth of the collection.
* Theorems (Prop_Sizes.v): `C93_fewest`, `C93_inter_turns`, `C93_union_turns`, `C93_collect`, `C93_or`, `C93_and`, `C93_or_convex`, `C93_and_convex`, `C93_not`, `C93_neg`, `C93_truncate`, `C93_restrict`, `C93_translate`, `C93_add_span`, `C93_add_spans`, `C93_scale`.
* Proved as stated.

### C94 — Algebra of merge (partial)

* Modelled: `Graph` (`g_merge`, `g_extend`, `g_resize`), `GraphIter`; `same_bounds`, `solution` of `SpecGraph`.
* Proof: each merge is described by the constraints given to both graphs (`merge_inv`); two closed graphs with the same solutions have the same cells (`inv_same`); `Unchanged` by the pairwise maximum of the cells.
* Theorems (Prop_Merge.v): `C94_comm_partial`, `C94_assoc_partial`, `C94_unchanged`, `C94_implied_partial`, `C94_unit_partial`, `C94_extend_partial`.
* Unchanged law proved for all graphs of the public calls without shrink_to_fit. Missing in the other laws: histories whose sums of bounds leave the limit of room (for the law with extend, the margin is asked of the bounds the iterator gives, up to N+1 times the given ones). Without margins: C113_commutes, C113_associates, C113_idempotent, C113_extend.

### C95 — Texts of timestamps (partial)

* Modelled: `Calendar`: the calendar of chrono (cycles of 400 years), padded numbers, the Display text of a date, a part of the strftime formats; `Format`: ts_display.
* Proof: the calendar is specified by the date of day 0 and the relation `tomorrow` between the dates of days n and n+1, proved by the uniqueness of year and day of the year in a cycle; fields as numerals with their value; order: padded numbers of the same width compare as the numbers, and a space sorts before a dot and a digit; before the origin from C60.
* Theorems (Prop_Calendar.v): `C95_calendar`, `C95_dates_ordered`, `C95_text`, `C95_sorted`, `C95_total`, `C95_determines`, `C95_format_partial`, `C95_format_refuted`.
* Proved for Display, and for format_timepoint with a format that gives all the fields. C95_format_refuted: format_timepoint gives infinite timestamps a date, and an incomplete specifier panics. The calendar of chrono is modelled from its documentation, and of its formats only %Y %m %d %H %M %S %f %%.

### C96 — What the texts of sets tell (partial)

* Modelled: `Format`: iv_text, set_text; `GraphText`: sc_display; `Calendar`: ts_date.
* Proof: an interval is an opening bracket, a text without brackets and a closing bracket, and the brackets tell which bounds are finite; the texts of points have neither brackets nor commas nor line ends, so that a text has one reading; points from C60 and C95, and two ticks of the same nanosecond are at most one apart; lines as in C74.
* Theorems (Prop_SetText.v): `C96_durations`, `C96_timestamps`, `C96_scheduler_text`, `C96_scheduler`, `C96_exact_refuted`.
* Proved, up to one tick; that the text tells the sets exactly is false (C96_exact_refuted: two ticks in the same nanosecond). The dates are those of C95.

### C97 — Representable solutions, without limits on the bounds (proved)

* Modelled: The graph of C36-C46 and the scheduler of C52; `account` records the calls and the accepted constraints without any bound.
* Proof: Invariant of the loops: each cell is -oo or below the duration of the plan; such values never meet the panic of oo + -oo (C97_accepted). C97_kept and C97_exact by induction on the calls from C39, C41 and this invariant; C97_schedules from C76_schedules, since the intervals of a graph with a plan are not empty.
* Theorems (Prop_Plans.v): `C97_kept`, `C97_exact`, `C97_refused`, `C97_unchanged`, `C97_accepted`, `C97_schedules`, `C97_no_plan_refuted`.
* Proved. C97_no_plan_refuted: the converse fails, constraints without plan may be accepted (an instant at least 2^63 ticks after another).

### C98 — Removing instants and going on (partial)

* Modelled: `Graph`: resize down, iter; `history` (SpecGraph) with the step `h_cut`.
* Proof: the invariant of C40 (the matrix is the closure of the constraints) holds after a cut for the reported intervals, since a closed matrix is the closure of itself (`cut_inv`); the projection is C50; so all the theorems on histories (C40-C50, C81, C86) hold after removals.
* Theorems (Prop_Cut.v): `C98_reported_partial`, `C98_go_on_partial`.
* Proved on the histories of C40, with its margins; the reported bounds may be N times the given ones, and the margins are asked for them too. Without margins: C110 (Resize).

### C99 — The origin of time does not matter (proved)

* Modelled: Iter, TimeSet, Relns, Transl, Scheduler; `move` adds a duration to the finite bounds of a window, in_set/in_w/in_graph bound the finite bounds.
* Proof: simulation: a turn of an iterator on the moved state is the moved turn, lifted to next, collect, from_iter, sums, retain, and by induction to lists of calls.
* Theorems (Prop_Origin.v): `C99_sets`, `C99_convex`, `C99_relations`, `C99_add`, `C99_scheduler`, `C99_bounds`, `C99_margin_refuted`.
* Proved for bounds away from the ends of the range by the move plus one tick (for a session: plus two ticks and twice the largest bound of the graph for each restricted instant). C99_margin_refuted shows that a margin is needed: a bound that reaches the end of the range becomes infinite.

### C100 — The direction of time does not matter (partial)

* Modelled: Iter, TimeSet, Relns, Transl, Graph, Scheduler; `set_neg` is the code's Neg, `mirror` the constraint on the opposite dates.
* Proof: intersection through its list of caps, complement through its list of gaps, both reversed by negation; graphs and schedulers through the exactness theorems C40, C41, C42, C54 and C56, an interval being determined by its integers.
* Theorems (Prop_Direction.v): `C100_sets`, `C100_not`, `C100_or_refuted`, `C100_or_partial`, `C100_relations`, `C100_add`, `C100_graph_partial`, `C100_scheduler_partial`, `C100_deadline_partial`.
* False for unions: C100_or_refuted, a consequence of the points lost by C23 (the loss depends on the side); C100_or_partial gives the points when no operand loses any on either side. Proved for intersection, exclusion, complement, relations and translation. Graphs and schedulers: within the margins of room, convex windows.

### C101 — A scheduler restricted by intervals is a graph with one more instant (partial)

* Modelled: Graph, Scheduler; `from_origin` turns a restriction into constraints from the new instant.
* Proof: possible dates and reported intervals are both the dates of common solutions (C76, C40); the solution that a reported distance needs is made finite by restricting a scheduler over the larger graph (C66, C54); both intervals are then equal as they agree on the dates near 0 and have small or infinite bounds; answers from C54, C56, C84, C41 and C44.
* Theorems (Prop_SchedGraph.v): `C101_slots_partial`, `C101_retain_partial`, `C101_limits_partial`.
* Proved for windows that are intervals within B, graphs within room and 16(N+1)B+10 < +oo. Missing: larger bounds. It cannot hold for sets of dates, which no graph expresses.

### C102 — Chained iterators over any sources (proved)

* Modelled: `Lazy`: sources are states with a next function; `fuse_next`, linter, lunion, lcompl and their hints; what is done with the intervals read is `Iter`.
* Proof: each turn over sources simulates a turn over the lists they yield; induction on the turns, the items and the chain; an invariant says that nothing past x is read.
* Theorems (Prop_Lazy.v): `C102_inter`, `C102_union`, `C102_compl`, `C102_chain`, `C102_inter_begins`, `C102_compl_begins`, `C102_inter_stops`, `C102_inter_stops_sym`, `C102_hint`.
* Proved. The next of a combinator runs at most k turns, for every k above the number of intervals of its sources, so it comes back. For unions nothing is said of sources of which only a beginning is known.

### C103 — The numbers of the instants do not matter (partial)

* Modelled: `Graph`, `Scheduler`; `renaming` and `rename` are spec only.
* Proof: the histories of both graphs are characterised by their solutions (C40, C41, C42, C54), which the renaming carries over; a satisfiable set of constraints makes a history (`history_made`).
* Theorems (Prop_Rename.v): `C103_graph_partial`, `C103_scheduler_partial`.
* Partial: graphs within the margins of `room` and `history`; schedulers restricted by intervals with bounds within W or infinite. Graphs without margins: C112_rename.

### C104 — The unit of time does not matter (partial)

* Modelled: `Graph`, `Scheduler`; `finer`, `before`, `after` are spec only.
* Proof: rounding down or up each date of a finer solution gives a solution, and a mean of two solutions gives a finer one; the histories of both graphs are characterised by their solutions (C40, C41, C42, C54).
* Theorems (Prop_Unit.v): `C104_graph_partial`, `C104_scheduler_partial`.
* Partial: graphs within the margins of `room` and `history` for the finer ticks; schedulers restricted by intervals with bounds within W or infinite. Graphs without margins: C114.

### C105 — What a graph reports tells whether the next call is exact (partial)

* Modelled: `Graph`, `Scheduler`; `seen`, `watched` are spec only.
* Proof: a minimal graph with a solution is closed; one edge added to a closed matrix makes sums of three bounds only, whatever the size; the other sums may saturate without effect (GraphFits); the finite cells of such a graph, taken as constraints, meet the invariants of the histories, which gives extend, merge and shrink_to_fit; schedulers by the boxes of C54 with the observed bound in place of N times B.
* Theorems (Prop_Seen.v): `C105_watched_partial`, `C105_propagate_partial`, `C105_extend_partial`, `C105_merge_partial`, `C105_feasible_partial`, `C105_calls_partial`, `C105_exact_partial`, `C105_limits_partial`, `C105_third_refuted`.
* Partial: the reported intervals and the constraint are bounded by a third of the time values (about 97 years), which is the exact limit: just above it the result may not be minimal (C105_third_refuted). extend, merge and a first constraint on new instants need the margins of `room` for the reported intervals only, not for the constraints given before; schedulers restricted by intervals within W, dates within X.

### C106 — Windows and constraints without any date (partial)

* Modelled: `Relns`, `TimeSet`, `Scheduler`, `Graph`; `dateless`, `spanned` are spec only.
* Proof: the first interval whose upper bound is at least the lower bound of the window decides; an instant with an empty list of dates makes every list it meets empty; the second propagation of `propagate` meets a positive cycle but its sums are still exact, and the two bounds it leaves contradict each other.
* Theorems (Prop_NoDate.v): `C106_dateless`, `C106_overlaps`, `C106_contains`, `C106_restrict`, `C106_retain`, `C106_propagate_partial`, `C106_extend_partial`, `C106_propagate_refuted`.
* Partial: for graphs the reported intervals and the bounds of the constraint are at most a thirty-second of the time values, and extend has the margins of `room`. The witness of C106_propagate_refuted is the intersection of [1,6] and [8,9] on a graph that reports [5,10].

### C107 — Queries on any minimal graph are exact (partial)

* Modelled: `Graph`; `minimal`, `solution`, `agrees`, `unrelated` are spec only.
* Proof: minimality and one solution make the matrix closed, without any bound: a value below the sum of two cells would be realised by a solution that violates one of them; then as C49, C81, C85, C86.
* Theorems (Prop_Queries.v): `C107_cmp`, `C107_distinct`, `C107_laws`, `C107_extends`, `C107_rows`, `C107_local_partial`.
* Proved for every minimal graph with a solution, without limits on its size (up to 65535 instants) or its bounds; partial only for propagate (C107_local_partial), where the reported intervals and the constraint are bounded by a third of the time values. C105 says which graphs are minimal.

### C108 — propagate is exact exactly when there is an exact answer (proved)

* Modelled: `Graph`; `regular`, `representable`, `representable_all` are spec only.
* Proof: `propagate_lower_bound` with sums that saturate below (GraphFits): it computes the matrix with one more edge as soon as the entries of that matrix fit the time values; an entry that only the new edge defines is realised by a solution built from any solution, so it fits when the differences are intervals of time values; the other direction reads the reported intervals.
* Theorems (Prop_Fits.v): `C108_refused`, `C108_unchanged`, `C108_exact`, `C108_sequence`.
* Proved, without margins. C105_third_refuted is a case where the differences are no intervals of time values.

### C109 — extend, FromIterator and merge are exact exactly when there is an exact answer (proved)

* Modelled: `Graph` (`g_global`, `g_extend`, `g_merge`, `g_from_iter`); `spread`, `reach`, `anchored`, `answer` are spec only.
* Proof: the closure over the unbounded integers is computed on the doubled bounds, which are never confused with the odd number that stands for no bound, and halved (GraphWarshall, `exact_closure`); a best walk is made of best walks, whose sums are entries of that closure, so no sum along it saturates (`sinv_step`); the entries below it never exceed it; `global_sat` puts the loops together.
* Theorems (Prop_Represent.v): `C109_extend`, `C109_from_iter`, `C109_merge`, `C109_order`, `C109_steps`, `C109_contradiction_refuted`.
* Proved when there is a common solution, without margins: C109_extend, C109_from_iter, C109_merge, C109_order, C109_steps. Without a common solution it is false: C109_contradiction_refuted (five constraints that contradict each other, accepted).

### C110 — Programs that build a graph give the exact graph, without margins (proved)

* Modelled: `Graph` (`g_propagate`, `g_extend`, `g_merge`, `g_resize`, `g_reset`); `prog`, `run` and `means` are spec only.
* Proof: induction on the meaning; C108 for a constraint between instants of the graph and a refused one, C109 for extend and merge; a matrix extended with isolated instants stays closed, and a restricted one too, whose solutions are the restrictions of the solutions by `closed_extends`; a pair of edges between two isolated instants keeps the matrix closed (`pair_closed`).
* Theorems (Prop_Program.v): `C110_program`, `C110_timespan`, `C110_same`, `C110_profiles`.
* Proved without margins: C110_program (exact graph, no failure), C110_timespan (the reported intervals are exactly the possible differences), C110_same, C110_profiles. A constraint between an instant of the graph and a new one is left out, since the graph is then not minimal (C77_short_refuted); contradictory constraints given to extend are left out as well (C109_contradiction_refuted).

### C111 — Graphs grown by propagate keep the solutions, and one extend completes them (proved)

* Modelled: `Graph` (`g_propagate`, `g_extend`, `g_merge`, `g_resize`, `g_reset`); `builds` and `faithful` are spec only.
* Proof: induction on the program; a growing call writes the two bounds as extend does (`grow_insert`), so C109_extend, which needs no minimal graph, completes it; merge of graphs that are not minimal by `global_answer`.
* Theorems (Prop_Loose.v): `C111_program`, `C111_completed`, `C111_timespan`.
* Proved without margins: C111_program, C111_completed, C111_timespan. Removing instants from a graph that is not minimal and propagating between two of its instants are left out.

### C112 — Laws of the programs that build a graph, without margins (proved)

* Modelled: `Graph`, through `run` of C110; `reports`, `rev`, `free` are spec only.
* Proof: an interval with proper bounds is determined by its members, and C110_timespan gives them; the meaning of the reversed program by induction (`rev_means`); locality by extending a partial solution (`closed_extends`).
* Theorems (Prop_Symmetry.v): `C112_differences`, `C112_monotone`, `C112_reverse`, `C112_rename`, `C112_local`.
* Proved without margins for the programs of C110: C112_differences, C112_monotone, C112_reverse, C112_rename, C112_local.

### C113 — A graph read back through its iterator rebuilds itself, without margins (proved)

* Modelled: `Graph` (iterator of constraints, `extend`, `merge`), through `run` of C110; `read_back` is spec only.
* Proof: the iterated constraints have the solutions of the matrix (`items_sat` of C47), hence a spread meaning; C109_extend and C109_merge then give the answer, which is unique.
* Theorems (Prop_Rebuild.v): `C113_read`, `C113_rebuild`, `C113_normal`, `C113_extend`, `C113_commutes`, `C113_associates`, `C113_idempotent`.
* Proved without margins for the programs of C110: C113_read, C113_rebuild, C113_normal (two instants or more), C113_extend (a graph of two instants or more, not larger than the one extended), C113_commutes, C113_associates, C113_idempotent.

### C114 — A program whose bounds are given in finer ticks builds the same graph, without margins (proved)

* Modelled: `Graph`, through `run` of C110; `in_ticks`, `fits` are spec only, `finer` is that of C104.
* Proof: dates in ticks, rounded down from any origin, are dates of the former program (`ticks_bridge`, by induction on both programs); the ends of the intervals follow.
* Theorems (Prop_Ticks.v): `C114_ticks`, `C114_dates`.
* Proved without margins when both programs are programs of C110 and the finite bounds given stay finite: C114_ticks, C114_dates. The differences that are not multiples of c are covered by the reported intervals.

### C115 — From the constraints of a program to the dates of a session, end to end (partial)

* Modelled: `Graph` and `Scheduler`, through `run` of C110 and `exec`; `meets`, `modest`, `remain` are spec only.
* Proof: the graph is minimal and bounded, so the session keeps boxes (C105); each request is exact (`ask_exact`), the rest by induction on the session.
* Theorems (Prop_Plan.v): `C115_plan_partial`, `C115_request_partial`, `C115_dates_partial`.
* Proved when the finite bounds reported by the graph are within C, those of the requests within W, with 4W+9C (and 2W+2X+7C for a date within X) a time value, whatever the number of instants and the margins used while the graph was built: C115_plan_partial, C115_request_partial, C115_dates_partial. Missing: requests by sets of dates, for which it is false (C55_refuted), and larger bounds, for which it is false at the ends of the time values (C54_overflow_refuted).

### C116 — Removing the instants of any minimal graph, whatever its size and its bounds (proved)

* Modelled: `Graph` (`g_resize`, `g_shrink_to_fit`), `run` of C110; `loose` is spec only.
* Proof: a minimal graph is closed (`any_closed`), so partial dates extend and an unconstrained instant has no bound; the search of the last constrained instant is `shrink_ok`.
* Theorems (Prop_Shrink.v): `C116_resize`, `C116_shrink`, `C116_program`.
* Proved for all minimal consistent graphs without margins; C50 gives the counterexample on graphs that are not minimal (C50_growth_refuted).

### C117 — What the reports of the calls of a program say, whatever the size and the bounds (proved)

* Modelled: `Graph` (`g_propagate`, `g_merge`, `g_extend`), `run` and `means` of C110.
* Proof: from `propagate_fits` (C108), `C94_unchanged` and minimality of both graphs (`wider`), C109.
* Theorems (Prop_Reports.v): `C117_add`, `C117_again`, `C117_more`, `C117_merge`, `C117_all`.
* Proved without margins on sizes and bounds. Fatal of extend is not exact without margins (C109_contradiction_refuted); reports on graphs grown by propagate between an old and a new instant are not exact (C42_growth_refuted).

### C118 — How large the bounds may be: (n-1)*B below infinity is enough, and no more (proved)

* Modelled: `Graph`, `run` of C110; `greedy` is spec only; `given` is the matrix of a list of constraints.
* Proof: the closure computed on doubled weights never meets the code of -infinity (`twice_turns`); `tight_bound` bounds it by simple paths; a contradiction with a closed matrix is decidable.
* Theorems (Prop_Bounded.v): `C118_spread`, `C118_reported`, `C118_program`, `C118_from_iter`, `C118_limit_refuted`.
* C118_spread is the condition, on the given bounds only, under which C108 to C117 apply; C118_program and C118_from_iter are its consequences; C118_limit_refuted shows that the limit is the exact one (8 instants, bounds of a seventh of infinity). The limit of C40 was 4(n+1)B.

### C119 — The whole library from what is given: any bounded constraints, then any bounded requests (partial)

* Modelled: `Graph` and `Scheduler`, through `run` of C110 and `exec` of C115; `asks`, `greedy`, `remain` are spec only.
* Proof: C118 for the graph and the bounds it reports (`C118_reported`), C115 for the session; the outcome of each request is decided by `ask_exact`; constraints given at once by C118_from_iter.
* Theorems (Prop_Whole.v): `C119_whole_partial`, `C119_next_partial`, `C119_from_iter_partial`.
* The conditions are only on what is given; in C115 they were on what the graph reports, and the outcome of each request was part of the hypotheses. C119_from_iter_partial is the same for compatible constraints given at once. Missing: requests by sets of dates, for which it is false (C55_refuted), and larger bounds, for which it is false at the ends of the time values (C54_overflow_refuted).

## 4. Not modelled

* `Clone` and `Default` derives; the formats of `serde` (the derived code is modelled on its data model);
* `chrono` itself, whose source is not in /repo: its calendar and the text of its dates are modelled from its documentation
  (`Calendar`), its strftime formats only for the specifiers %Y %m %d %H %M %S %f %%; in the conversions a `DateTime` is the
  pair (seconds, nanoseconds);
* the system clock itself: its reading is an input of the model of `Timestamp::now` and `elapsed`;
* allocation: capacities, `shrink_to_fit` of vectors, failure to allocate;
* accessors and delegations which only forward to a modelled function (`iter`, `from_origin`, `since_origin`);
* generic dispatch: the model uses the implementation that the coherence rules select;
* lazily evaluated sources of iterators other than finite fused ones (a source may not have side effects).

A property about these parts would not be expressible in the present model.

## 5. Trusted base

* Coq's kernel (8.16.1), with the virtual machine used by `vm_compute` in computed examples and witnesses.
* The reading of the Rust code into Gallina described in section 1. Nothing is extracted or run.
* `Print Assumptions` answers "Closed under the global context" for every theorem named in
  `MANIFEST.json`: no axiom is used, neither of the standard library nor of this project. (The
  environment contains the parameters of `Coq.ssr.ssrunder`, loaded by the standard library; no theorem
  depends on them.)

## 6. Testing the theorems

`seeded/LOG.jsonl` lists wrong programs tried in a scratch copy: one edit of a definition, the claim it
breaks, and the theorems which then fail. `proofs_failed_directly` are theorems whose own proof broke,
`lemmas_failed` the lemmas whose proof broke, and `theorems_failed` all the property theorems that depend on one of
them. A wrong program that survives led to the theorems in `theorems_tightened`.
