{"id": "C01", "title": "Duration arithmetic is exact or saturates, never wraps", "statement": "For any two durations a and b, a+b panics exactly when one is +oo and the other -oo; an infinite operand otherwise wins; two finite operands give the exact sum when it is strictly between -oo and +oo, and the infinity of the right sign otherwise. Addition is commutative, has 0 as neutral element, is monotone, and a-b is a+(-b); (a+b)-b = a whenever nothing saturates.", "quantifier": "all pairs of valid durations (all i64 except i64::MIN)", "why_tests_cant": "2^128 pairs; the interesting ones are the saturation borders", "anchors": ["src/wins/timevalue.rs: Add for TimeValue, Sub, AddAssign, SubAssign, Neg, from_ticks, is_finite"]}
{"id": "C02", "title": "just_after / just_before are the discrete successor and predecessor", "statement": "On a finite time point just_after is the least time point strictly greater and just_before the greatest strictly smaller, each being the other's inverse unless an infinity is reached; both leave +oo and -oo unchanged.", "quantifier": "all valid time points", "why_tests_cant": "the whole i64 range, in particular the two values next to the infinities", "anchors": ["src/lib.rs: TimePoint::just_after, TimePoint::just_before", "src/wins/timevalue.rs: just_after, just_before", "src/wins/timestamp.rs"]}
{"id": "C03", "title": "Whole-second unit constructors are exact or saturate with the right sign", "statement": "from_secs/mins/hours/days/weeks/months/years(n) is exactly n times the unit when that is representable, +oo above the representable range and -oo below it, and never i64::MIN.", "quantifier": "all n in i64 and all seven units", "why_tests_cant": "range 2^64 per unit; overflow only at the borders", "anchors": ["src/wins/timevalue.rs: from_secs, from_mins, from_hours, from_days, from_weeks, from_months, from_years", "src/lib.rs: MAX_SEC"]}
{"id": "C04", "title": "Sub-second constructors truncate toward zero and are monotone", "statement": "from_millis/micros/nanos(n) is the duration of n units rounded toward zero to a whole tick (1/2^30 s), hence less than one tick off, sign preserving and monotone in n; it saturates to the infinity of the right sign when out of range.", "quantifier": "all n in i64 and the three units", "why_tests_cant": "2^64 inputs; rounding and range errors are sparse", "anchors": ["src/wins/timevalue.rs: from_fract, from_millis, from_micros, from_nanos"]}
{"id": "C05", "title": "floor and ceil round to the enclosing multiples of the period", "statement": "For a positive period p, t.floor(p) is the greatest multiple of p not above t and t.ceil(p) the least multiple of p not below t, whenever those are representable.", "quantifier": "all finite t and all periods p>0", "why_tests_cant": "all pairs (t,p); only particular residues go wrong", "anchors": ["src/wins/timevalue.rs: TimeValue::floor, TimeValue::ceil", "src/wins/timestamp.rs: floor, ceil"]}
{"id": "C06", "title": "Sub-second accessors stay in range and agree with the ticks", "statement": "as_secs is the floor of the duration in seconds and subsec_nanos/micros/millis are in [0,10^9), [0,10^6), [0,10^3), monotone in the fractional ticks and within one nanosecond of the exact fractional part; from_nanos(n).subsec_nanos() is n or n-1 for 0<=n<10^9.", "quantifier": "all valid durations; all n in [0,10^9)", "why_tests_cant": "2^30 fractional parts times 2^33 seconds; intermediate u64 product close to overflow", "anchors": ["src/wins/timevalue.rs: as_secs, subsec_nanos, subsec_micros, subsec_millis"]}
{"id": "C07", "title": "Conversions to and from std and chrono durations are faithful", "statement": "TimeValue -> chrono::Duration never overflows and is the floor in nanoseconds; TimeValue -> std Duration panics exactly on negatives and is otherwise within 1ns; converting a standard duration that fits the representable range gives a finite duration that is the truncation of it, and an out-of-range one gives the infinity of the right sign; round trips lose at most the stated rounding.", "quantifier": "all durations of both libraries", "why_tests_cant": "unbounded ranges; range limits are far from everyday values", "anchors": ["src/wins/timevalue.rs: From<TimeValue> for chrono::Duration, From<chrono::Duration>, From<TimeValue> for time::Duration, From<time::Duration>"]}
{"id": "C08", "title": "Unit truncation of a duration", "statement": "t.years()/months()/weeks()/days()/hours()/mins()/millis()/micros()/nanos() drop what is below the unit: the result is the multiple of the unit nearest to t on the zero side; integer .hours() etc. equal the from_ constructors, clamping out-of-range integers to i64.", "quantifier": "all valid durations, all ten units, all integer widths", "why_tests_cant": "residue and sign dependent", "anchors": ["src/wins/convert.rs: IntoTimeValue for TimeValue, convert_safely!"]}
{"id": "C09", "title": "Timestamps and durations form a torsor away from the infinities", "statement": "(t+d)-t = d, (t+d)-d = t, t+(u-t) = u, (t-u) = -(u-t) and t+(d+e) = (t+d)+e whenever no intermediate result saturates; comparison of timestamps is preserved by adding the same finite duration.", "quantifier": "all timestamps t,u and durations d,e", "why_tests_cant": "algebraic law over i64^3", "anchors": ["src/wins/timestamp.rs: Add<TimeValue>, Sub<TimeValue>, Sub, Neg, from_origin, since_origin"]}
{"id": "C10", "title": "Summing durations", "statement": "The sum of a list of durations is the exact total if no partial sum leaves the finite range, and panics only if infinities of both signs are met.", "quantifier": "all finite lists of durations", "why_tests_cant": "all lengths, orders and partial sums", "anchors": ["src/wins/timevalue.rs: Sum for TimeValue"]}
{"id": "C11", "title": "Interval constructors denote the documented sets", "statement": "new(a,b), singleton, after, before, all, empty, centered and the five Rust range notations contain exactly the finite time points their notation says; is_empty/is_singleton/is_bounded/... answer accordingly.", "quantifier": "all time points a,b including infinities", "why_tests_cant": "border cases at the infinities", "anchors": ["src/wins/timeinterval.rs: new, singleton, after, before, all, empty, centered", "src/ops/range.rs"]}
{"id": "C12", "title": "An interval reports is_empty exactly when it holds no time point", "statement": "For every interval obtained from the public constructors and operators (including & between intervals), is_empty() is true iff no finite time point belongs to it.", "quantifier": "all reachable intervals", "why_tests_cant": "depends on relative position of 4 bounds; disjoint operands are the rare case", "anchors": ["src/wins/timeinterval.rs: is_empty", "src/ops/intersect.rs: BitAnd for &TimeInterval, BitAndAssign"]}
{"id": "C13", "title": "Interval intersection is set intersection", "statement": "x belongs to a & b iff it belongs to a and to b, for intervals, points and ranges; &= agrees with &; & is commutative, associative and idempotent on bounds.", "quantifier": "all pairs of intervals, all time points", "why_tests_cant": "all relative positions including infinite bounds", "anchors": ["src/ops/intersect.rs: BitAnd for TimeValue/Timestamp/TimeInterval, BitAndAssign for TimeInterval"]}
{"id": "C14", "title": "Interval union is set union, in canonical form", "statement": "a | b on two intervals contains exactly the points of a or b, and is a sorted list of at most two non-empty intervals separated by at least one tick.", "quantifier": "all pairs of intervals", "why_tests_cant": "all relative positions including adjacency and infinities", "anchors": ["src/ops/union.rs: BitOr for &TimeInterval, BitOr for TimeValue/Timestamp"]}
{"id": "C15", "title": "Complement of a point or an interval", "statement": "!t and !i contain exactly the finite time points not in t / i, in canonical form; an infinite point has full complement.", "quantifier": "all time points and all intervals", "why_tests_cant": "border values next to the infinities", "anchors": ["src/ops/compl.rs: Not for TimeInterval, timepoint!"]}
{"id": "C16", "title": "Truncation keeps exactly the requested side and reports changes truthfully", "statement": "truncate_before(t)/truncate_after(t) on an interval or a set keep exactly the members >= t / <= t, keep the canonical form, and return true iff the value changed.", "quantifier": "all intervals / canonical sets, all time points", "why_tests_cant": "unbounded number of pieces", "anchors": ["src/wins/timeinterval.rs: TimeTruncation", "src/wins/timeset.rs: TimeTruncation"]}
{"id": "C17", "title": "contains / overlaps on intervals decide set inclusion and intersection", "statement": "For intervals a,b: a.contains(b) iff every point of b is in a; a.overlaps(b) iff they share a point; empty intervals are contained in everything and overlap nothing.", "quantifier": "all pairs of intervals", "why_tests_cant": "border cases with empty and full intervals", "anchors": ["src/relns/contain.rs", "src/relns/overlap.rs"]}
{"id": "C18", "title": "Comparison of windows", "statement": "On non-empty windows < is the strict 'entirely before' order (irreflexive, transitive, asymmetric, dual to >), partial_cmp agrees with <, > and ==, and == on intervals/sets is an equivalence that implies having the same points.", "quantifier": "all windows", "why_tests_cant": "relational laws over triples of windows", "anchors": ["src/relns/ordering.rs"]}
{"id": "C19", "title": "Translation of intervals is the Minkowski sum or difference", "statement": "x belongs to I+d iff x-d belongs to I; to I+J (I-J) iff x is a sum (difference) of a point of I and a point of J; same for slot-slot, timestamp+span, etc.; the only panics are +oo + -oo and (debug builds) a result beyond the representable range.", "quantifier": "all non-empty intervals, all durations and spans", "why_tests_cant": "all bounds incl. infinite and saturating ones", "anchors": ["src/ops/transl.rs: Add/Sub for TimeInterval, Timestamp, TimeSlot"]}
{"id": "C20", "title": "Integer scaling of durations and spans", "statement": "t*n is the exact product or the infinity with the sign of the product; t/n is the truncated quotient for finite t and keeps infinities infinite; span*n and span/n have as bounds the images of the bounds in increasing order, hence contain the image of every point.", "quantifier": "all durations/spans, all integer factors of all widths", "why_tests_cant": "saturation borders, factors beyond i64", "anchors": ["src/ops/scaling.rs: timevalscalingsmall!, timevalscalingbig!, timevalscalingubig!, timespanscalingint!"]}
{"id": "C21", "title": "centered, enlarge, negation and duration of intervals", "statement": "centered(o,d) is [o-d,o+d] for d>=0 and None otherwise; enlarge(d) moves each bound by d and is None iff the result would be empty; -i mirrors; duration is the length and 0 for empty slots.", "quantifier": "all intervals and durations", "why_tests_cant": "signs and saturation", "anchors": ["src/wins/timeinterval.rs: centered, enlarge, Neg, duration"]}
{"id": "C22", "title": "Sets stay in canonical form", "statement": "A set built by the public API is always a sorted list of non-empty intervals separated by at least one tick: constructors, union, intersection, complement, negation, truncation, translation, scaling and collection all preserve this.", "quantifier": "all canonical operands of each operation, all histories", "why_tests_cant": "unbounded histories and numbers of pieces", "anchors": ["src/wins/timeset.rs", "src/ops/union.rs", "src/ops/intersect.rs", "src/ops/compl.rs", "src/ops/transl.rs", "src/ops/scaling.rs"]}
{"id": "C23", "title": "Union of sets contains exactly the points of both operands", "statement": "x belongs to a | b (operator or iterator, set|set or set|interval) iff it belongs to a or to b; union is commutative.", "quantifier": "all pairs of canonical sets, all time points", "why_tests_cant": "all interleavings of two lists of pieces of any length", "anchors": ["src/iter/union.rs: IterUnion::next", "src/ops/union.rs: BitOr for &TimeSet"]}
{"id": "C24", "title": "Intersection of sets contains exactly the common points, and is empty iff there are none", "statement": "x belongs to a & b iff it belongs to both; the result is canonical; is_empty() (resp. the iterator yielding nothing) is true iff the operands are disjoint.", "quantifier": "all pairs of canonical sets, all time points", "why_tests_cant": "all interleavings of two lists of pieces of any length", "anchors": ["src/iter/intersect.rs: IterIntersection::next", "src/ops/intersect.rs: BitAnd for &TimeSet"]}
{"id": "C25", "title": "Complement of a set", "statement": "!s is canonical and contains exactly the finite points not in s; !!s has the points of s; De Morgan laws hold pointwise.", "quantifier": "all canonical sets", "why_tests_cant": "any number of pieces, unbounded ends", "anchors": ["src/ops/compl.rs: Not for TimeSet"]}
{"id": "C26", "title": "The complement iterator agrees with the complement operator", "statement": "s.iter().complementary() yields exactly the intervals of !s, in order.", "quantifier": "all canonical sets", "why_tests_cant": "any number of pieces", "anchors": ["src/iter/compl.rs: IterComplementary::next"]}
{"id": "C27", "title": "Exclusion iterator is set difference", "statement": "a.exclusion(b) yields intervals whose points are exactly those of a not in b; it yields nothing iff a is included in b.", "quantifier": "all pairs of canonical sets", "why_tests_cant": "any number of pieces", "anchors": ["src/iter/excl.rs", "src/iter/intersect.rs", "src/iter/compl.rs"]}
{"id": "C28", "title": "Translation of a set by a duration, a span or a set of spans", "statement": "x belongs to s+d iff x-d is in s; to s+J iff x = a+b with a in s, b in J (J a span or a set of spans); results canonical.", "quantifier": "all canonical sets, all durations/spans/sets of spans", "why_tests_cant": "any number of pieces; pairwise sums arrive in any order", "anchors": ["src/ops/transl.rs: Add/Sub for TimeSet", "src/iter/transl.rs"]}
{"id": "C29", "title": "Integer scaling of sets", "statement": "s*n is canonical and made of the scaled pieces; 0*s is {0} for non-empty s; s/n contains exactly the truncated quotients of the points of s.", "quantifier": "all canonical sets, all integer factors", "why_tests_cant": "any number of pieces, signs, merges after division", "anchors": ["src/ops/scaling.rs: timespansscaleint!, check_joined_inners"]}
{"id": "C30", "title": "Collecting intervals builds their union", "statement": "Collecting any finite sequence of intervals (any order, overlapping, empty ones included) gives the canonical set of all points covered by at least one of them.", "quantifier": "all finite sequences of intervals", "why_tests_cant": "all orders and overlaps", "anchors": ["src/wins/timeset.rs: FromIterator<TimeInterval<T>>, FromIterator<TimeSet<T>>"]}
{"id": "C31", "title": "Restricting a set to a convex window in place", "statement": "s &= w keeps exactly the points of s that are in w, in canonical form, and agrees with s & w on points.", "quantifier": "all canonical sets and convex windows", "why_tests_cant": "any number of pieces", "anchors": ["src/ops/intersect.rs: BitAndAssign<TW> for TimeSet<T>"]}
{"id": "C32", "title": "contains / overlaps on sets decide inclusion and intersection", "statement": "For canonical sets s and r and interval i: s.contains(i) iff every point of i is in s; s.contains(r) iff r is a subset; s.overlaps(..) iff there is a common point.", "quantifier": "all canonical sets / intervals", "why_tests_cant": "any number of pieces", "anchors": ["src/relns/contain.rs", "src/relns/overlap.rs"]}
{"id": "C33", "title": "Set equality is extensional on canonical sets; bounds are the extreme points", "statement": "Two canonical sets whose infinite ends are written as infinities have the same points iff they are ==; lower_bound/upper_bound/is_bounded/is_singleton/convex_count/convex_envelope describe the set of points.", "quantifier": "all canonical sets", "why_tests_cant": "any number of pieces", "anchors": ["src/relns/ordering.rs", "src/wins/timeset.rs: TimeBounds", "src/wins/mod.rs: convex_envelope"]}
{"id": "C34", "title": "Iterator size hints bound the number of remaining items", "statement": "At every moment of an iteration, size_hint() of union, intersection, complement and graph iterators is (lo, hi) with lo <= items still to come <= hi, and never panics.", "quantifier": "all source iterators and all points of the iteration", "why_tests_cant": "all prefixes of all iterations", "anchors": ["src/iter/union.rs: size_hint", "src/iter/intersect.rs: size_hint", "src/iter/compl.rs: size_hint", "src/graph/constraints.rs: size_hint"]}
{"id": "C35", "title": "Set iterators terminate and are fused", "statement": "On finite sources, union, intersection and complement iterators reach None after finitely many calls and return None for ever after.", "quantifier": "all finite sources", "why_tests_cant": "all sources and call counts", "anchors": ["src/iter/union.rs", "src/iter/intersect.rs", "src/iter/compl.rs"]}
{"id": "C36", "title": "The flattened constraint matrix gives each ordered pair of instants its own cell, stable under growth", "statement": "For i,j < n the cell of (i,j) is below n*n, distinct pairs have distinct cells, every cell is used, and the cell does not depend on n.", "quantifier": "all n <= 65535 and all pairs", "why_tests_cant": "quadratic number of pairs for every size", "anchors": ["src/graph/storage.rs: lower, lower_mut, timespan"]}
{"id": "C37", "title": "Unchecked accesses of the graph never leave its storage", "statement": "Whatever the sequence of public calls, every unchecked read or write of the constraint storage is in bounds and no index arithmetic overflows.", "quantifier": "all histories of calls, all sizes that fit u32", "why_tests_cant": "all histories; failure is silent undefined behaviour", "anchors": ["src/graph/storage.rs: lower, lower_mut, resize, shrink_to_fit, timespan", "src/graph/propagation.rs"]}
{"id": "C38", "title": "A fresh or reset graph is unconstrained", "statement": "with_size(n), reset() and newly added instants have no constraint between distinct instants and [0,0] from an instant to itself; reset keeps the size; growing keeps every existing constraint.", "quantifier": "all sizes and all previous graphs", "why_tests_cant": "all histories", "anchors": ["src/graph/storage.rs: with_size, reset, resize"]}
{"id": "C39", "title": "Propagation never loses nor adds a solution", "statement": "After propagate/extend/merge returns Ok, the dates satisfying the graph are exactly those that satisfied the previous graph and the new constraint(s).", "quantifier": "all graphs, all constraints, all assignments of dates", "why_tests_cant": "infinite set of assignments", "anchors": ["src/graph/propagation.rs: propagate, extend, merge, propagate_lower_bound, global_propagation"]}
{"id": "C40", "title": "The graph is always minimal", "statement": "After any sequence of accepted constraints each reported bound is tight: for any i,j every value of timespan(i,j) is realised by some assignment of all instants that satisfies all the constraints.", "quantifier": "all histories of accepted constraints", "why_tests_cant": "all path lengths in all graphs", "anchors": ["src/graph/propagation.rs: propagate, propagate_lower_bound, global_propagation"]}
{"id": "C41", "title": "Inconsistency is detected exactly and leaves the graph unchanged", "statement": "propagate returns Err(Recovered) iff no assignment satisfies both the graph and the constraint, and then the graph is unchanged.", "quantifier": "all graphs and constraints", "why_tests_cant": "negative information over infinitely many assignments", "anchors": ["src/graph/propagation.rs: propagate, TimeInconsistencyError::Recovered"]}
{"id": "C42", "title": "Unchanged means already implied", "statement": "propagate returns Ok(Unchanged) iff every solution of the graph already satisfies the constraint, and then the graph is unchanged; Ok(Propagated) iff the set of solutions shrinks.", "quantifier": "all graphs and constraints", "why_tests_cant": "infinite set of assignments", "anchors": ["src/graph/propagation.rs: propagate, TimePropagation"]}
{"id": "C43", "title": "The resulting graph does not depend on the order of the constraints", "statement": "Two consistent sequences of constraints that are permutations of each other, propagated on graphs of the same size, give the same bounds for every pair of instants.", "quantifier": "all permutations of all sequences", "why_tests_cant": "factorially many orders", "anchors": ["src/graph/propagation.rs: propagate"]}
{"id": "C44", "title": "Adding constraints in one shot equals adding them one by one", "statement": "extend(ks) returns Ok and yields the same bounds as propagating ks one by one when ks is consistent with the graph, and Err(Fatal) iff it is not; merge(g) likewise adds exactly the constraints of g.", "quantifier": "all graphs and sequences of constraints", "why_tests_cant": "all graphs", "anchors": ["src/graph/propagation.rs: extend, merge, global_propagation"]}
{"id": "C45", "title": "Growing on demand keeps the graph propagated", "statement": "propagate with an instant outside of the graph grows the graph and yields the same bounds as if the graph had been created large enough.", "quantifier": "all graphs and constraints", "why_tests_cant": "all histories", "anchors": ["src/graph/propagation.rs: propagate (first branch)"]}
{"id": "C46", "title": "After a fatal inconsistency the graph is emptied", "statement": "After Err(Fatal) the graph has no instant and, when instants are added again, no constraint.", "quantifier": "all histories with a fatal inconsistency", "why_tests_cant": "all histories", "anchors": ["src/graph/propagation.rs: global_propagation, TimeInconsistencyError::Fatal"]}
{"id": "C47", "title": "Iterating over a graph yields exactly its relevant constraints", "statement": "graph.iter() yields, in increasing (from,to) order with from<to, exactly the pairs whose interval is not ]-oo,+oo[, each once, with the interval given by timespan; extending a fresh graph of the same size with them rebuilds the same graph.", "quantifier": "all graphs", "why_tests_cant": "all sizes and sparsity patterns", "anchors": ["src/graph/constraints.rs: TimeConstraintIter, iter"]}
{"id": "C48", "title": "constraints_from / constraints_to yield exactly the constraints at an instant", "statement": "constraints_from(i) yields exactly the pairs (i,j), j<>i, whose interval is not ]-oo,+oo[; constraints_to(i) the reversed pairs.", "quantifier": "all graphs and instants", "why_tests_cant": "all sizes and sparsity patterns", "anchors": ["src/graph/constraints.rs: TimeConstraintFromIter, constraints_from, constraints_to"]}
{"id": "C49", "title": "Qualitative queries are sound and complete", "statement": "instant_cmp(i,j) is Less/Greater/Equal iff t_i<t_j / > / = in every solution of the graph, None otherwise; are_distinct_instants(i,j) iff t_i<>t_j is forced by the sign of the bounds; constraint/timespan agree.", "quantifier": "all minimal graphs, all pairs", "why_tests_cant": "infinite set of solutions", "anchors": ["src/graph/storage.rs: instant_cmp, are_distinct_instants, timespan", "src/graph/constraints.rs: constraint"]}
{"id": "C50", "title": "Removing instants projects the solutions", "statement": "Shrinking the graph to m instants keeps exactly the solutions that extend to the removed instants; shrink_to_fit removes only trailing unconstrained instants and changes no constraint.", "quantifier": "all minimal graphs, all m", "why_tests_cant": "existential quantifier over removed dates", "anchors": ["src/graph/storage.rs: resize, shrink_to_fit"]}
{"id": "C51", "title": "Propagation neither panics nor overflows on bounded problems", "statement": "If all finite bounds given to a graph of n instants are at most B in absolute value and 4*n*B is below +oo, no sequence of propagate/extend calls panics and every stored bound is at most n*B in absolute value.", "quantifier": "all histories of constraints within the bound", "why_tests_cant": "all histories", "anchors": ["src/graph/propagation.rs", "src/wins/timevalue.rs: Add"]}
{"id": "C52", "title": "The scheduler never discards a possible schedule", "statement": "After retain/remove/set_deadline/set_startline returns Ok, every assignment of dates that satisfied the graph, the previous slots and the new restriction is still within the slots.", "quantifier": "all graphs, schedules, windows (convex or not), assignments", "why_tests_cant": "infinite set of assignments", "anchors": ["src/graph/scheduler.rs: retain, remove, propagate_scheduling, set_deadline, set_startline"]}
{"id": "C53", "title": "A refused restriction leaves the scheduler unchanged and was impossible", "statement": "retain returns Err(Recovered) only if no previously possible date of the instant is in the window (then nothing changes), and Ok(Unchanged) only if the window already contains all of them (then nothing changes).", "quantifier": "all schedulers and windows", "why_tests_cant": "any number of pieces", "anchors": ["src/graph/scheduler.rs: retain"]}
{"id": "C54", "title": "With convex windows every remaining date is feasible", "statement": "Starting from new(graph) with a minimal graph and restricting by intervals only, as long as calls return Ok each instant keeps at least one date and each remaining date of each instant extends to a full schedule satisfying the graph.", "quantifier": "all histories of convex restrictions", "why_tests_cant": "all histories, existential over schedules", "anchors": ["src/graph/scheduler.rs: new, retain, propagate_scheduling"]}
{"id": "C55", "title": "Any accepted restriction leaves a feasible scheduler", "statement": "If retain/remove with an arbitrary (non convex) window returns Ok then each instant keeps at least one date.", "quantifier": "all histories of arbitrary restrictions", "why_tests_cant": "all histories", "anchors": ["src/graph/scheduler.rs: retain, remove"]}
{"id": "C56", "title": "Deadlines and startlines", "statement": "set_deadline(d) never panics; it returns Err iff some instant cannot be at or before d, leaving the scheduler unchanged, and otherwise all instants are afterwards at or before d; set_startline dually; latest_beginning/earliest_ending are the min of upper and max of lower bounds.", "quantifier": "all schedulers and dates", "why_tests_cant": "all histories", "anchors": ["src/graph/scheduler.rs: set_deadline, set_startline, latest_beginning, earliest_ending"]}
{"id": "C57", "title": "Forward sequences enumerate an arithmetic progression", "statement": "t.forward_sequence(p) yields t, t+p, t+2p, ... up to the last finite timestamp, then None for ever; forward_periods starts at the first multiple of p not before t.", "quantifier": "all timestamps t and periods p>0", "why_tests_cant": "up to 2^63 items", "anchors": ["src/seq/forward.rs", "src/seq/mod.rs"]}
{"id": "C58", "title": "Backward sequences enumerate the descending progression from t", "statement": "t.backward_sequence(p) yields t, t-p, t-2p, ... down to the first finite timestamp, then None for ever.", "quantifier": "all timestamps t and periods p>0", "why_tests_cant": "up to 2^63 items", "anchors": ["src/seq/backward.rs", "src/seq/mod.rs"]}
{"id": "C59", "title": "nth, count, last and size_hint of sequences agree with iterating", "statement": "nth(n) returns what n+1 calls of next would, count/len/size_hint the number of remaining items and last the last one.", "quantifier": "all sequences, all n", "why_tests_cant": "up to 2^63 items", "anchors": ["src/seq/forward.rs: len, nth, last, count", "src/seq/backward.rs"]}
{"id": "C60", "title": "Displayed durations denote the value", "statement": "The text of a finite duration is a sign and a list of unit counts whose total is the duration to the nanosecond (as given by as_secs and subsec_nanos), units in decreasing order, each printed count positive and below the next unit; infinities print as +oo / -oo.", "quantifier": "all valid durations", "why_tests_cant": "2^64 values", "anchors": ["src/wins/format.rs: format_duration, Display for TimeValue"]}
{"id": "C61", "title": "Reversing a sequence goes back over its items", "statement": "After a sequence of period p has yielded x, reverse() yields x-p, x-2p, ... (x+p, ... for a backward one) down to the last finite timestamp and then None; increment() is the difference of two consecutive items.", "quantifier": "all sequences, all positions", "why_tests_cant": "up to 2^63 items", "anchors": ["src/seq/forward.rs: reverse, increment, period", "src/seq/backward.rs: reverse, increment, period"]}
{"id": "C62", "title": "Sign tests agree with arithmetic and with negation", "statement": "For a finite time point t and any duration d, t+d never panics and is_positive(d), is_negative(d), is_strictly_positive(d), is_strictly_negative(d), is_zero(d) hold exactly when t<=t+d, t+d<=t, t<t+d, t+d<t, t+d=t; negation exchanges the positive and negative tests.", "quantifier": "all finite time points, all valid durations", "why_tests_cant": "2^128 pairs, with the infinities among them", "anchors": ["src/wins/timevalue.rs: is_zero, is_positive, is_negative, is_strictly_positive, is_strictly_negative"]}
{"id": "C63", "title": "equiv recognises the constraints with the same solutions", "statement": "If a.equiv(b) then the same assignments of dates satisfy a and b; conversely two satisfiable, violable constraints between distinct instants with the same solutions are equiv; equiv is reflexive, symmetric and transitive.", "quantifier": "all pairs of constraints, all assignments of dates", "why_tests_cant": "the solutions are functions from instants to dates", "anchors": ["src/graph/mod.rs: TimeConstraint::equiv"]}
{"id": "C64", "title": "Debug texts tell the values apart", "statement": "Two durations (timestamps, intervals, sets, constraints) with the same Debug text are equal, including infinite, empty and inverted ones.", "quantifier": "all valid values, sets of any length", "why_tests_cant": "injectivity over all pairs of sets", "anchors": ["src/wins/format.rs: Debug for TimeValue, Timestamp, TimeInterval, TimeSet", "src/graph/constraints.rs: Debug for TimeGraphConstraint"]}
{"id": "C65", "title": "format_timeset agrees with Display on sets of durations", "statement": "For every canonical set of durations, Display never panics and format_timeset gives the same text as Display.", "quantifier": "all canonical sets, any number of intervals", "why_tests_cant": "sets of any length with any bounds", "anchors": ["src/wins/format.rs: format_timeslot, format_timeset, Display for TimeInterval, Display for TimeSet"]}
{"id": "C66", "title": "An accepted retain does exactly one propagation step", "statement": "When retain(i, w) answers Ok(Propagated), the instant i keeps exactly its dates in w, and every other instant j keeps exactly those of its dates that are at a distance allowed by the constraint (i, j) from a remaining date of i.", "quantifier": "all consistent graphs, all sessions, all windows, all instants", "why_tests_cant": "all sets and graphs", "anchors": ["src/graph/scheduler.rs: retain, propagate"]}
{"id": "C67", "title": "Durations scaled by floats", "statement": "For every duration t and every f32 or f64 value f (p = 24 or 53 binary digits): t*f and t/f are valid time values and never panic; t*(-f) = (-t)*f = -(t*f), (-t)/f = -(t/f); the product preserves the order of durations when f is not below 0 and reverses it when f is below 0, the quotient likewise for f above or below 0; t*f is the integer part towards zero of the exact product, clamped, whenever t and that product have at most p digits; up to 2^62 ticks it is within one tick plus a relative error 2^(2-p) of the exact product, and t/f up to 2^61 ticks within two ticks plus a relative error 2^(4-p); an integer factor gives the integer product and 1.0 gives back t when these are at most 2^p, infinite durations stay infinite for |f| >= 1; a NaN factor or divisor gives 0, an infinite factor or a null divisor gives 0 or an infinite duration.", "quantifier": "all durations including infinite ones, all f32 and f64 values including NaN, infinities, subnormals and -0.0", "why_tests_cant": "2^64 durations times 2^64 factors; rounding and saturation depend on every digit", "anchors": ["src/ops/scaling.rs: timevalscalingfloat! (Mul, Div)"]}
{"id": "C68", "title": "Spans scaled by floats", "statement": "For every non-empty span i and every float f, i*f is the least span with the images of all the durations of i, and it panics exactly if these images are all +oo or all -oo; the same for i/f unless f is -0.0, which makes every span but [0,0] panic.", "quantifier": "all non-empty spans, all f32 and f64 factors", "why_tests_cant": "all bounds and all factors", "anchors": ["src/ops/scaling.rs: timespanscalingfloat! (Mul, Div)"]}
{"id": "C69", "title": "Sets of durations scaled by floats", "statement": "For every canonical set s, s *= f with |f| < 1 and s /= f with |f| > 1 never panic and give a canonical set, made of the durations between the images of two durations of the same interval of s; for a non-zero integer factor such that bounds and products have at most p binary digits, s*f and s*=f are the integer scaling of s.", "quantifier": "all canonical sets of any length, all f32 and f64 values", "why_tests_cant": "sets of any length; intervals merge only for particular roundings", "anchors": ["src/ops/scaling.rs: timespansscalefloat! (Mul, MulAssign, Div, DivAssign), check_joined_inners"]}
{"id": "C70", "title": "Float scaling respects the identities of the numbers", "statement": "t*1.0 = t, t/t = 1 for a non-null duration t that is exactly a float, oo*f = oo for f > 0.", "quantifier": "all durations, all f32 and f64 values", "why_tests_cant": "holds for most small values", "anchors": ["src/ops/scaling.rs: timevalscalingfloat! (Mul, Div)"]}
{"id": "C71", "title": "s * f and s *= f agree and are canonical", "statement": "For every canonical set s and every float f, s*f and s*=f give the same canonical set.", "quantifier": "all canonical sets, all f32 and f64 values", "why_tests_cant": "they differ only if two images touch", "anchors": ["src/ops/scaling.rs: timespansscalefloat! (Mul, MulAssign)"]}
{"id": "C72", "title": "Debug text of a graph", "statement": "For all graphs got by public calls on at most 65535 instants, Debug returns a text, and two graphs with the same Debug text have the same number of instants and the same interval between any two instants.", "quantifier": "all sequences of calls, graphs of any size", "why_tests_cant": "all graphs and all bounds", "anchors": ["src/graph/storage.rs: Debug for TimeGraph"]}
{"id": "C73", "title": "Display text of a graph", "statement": "For all graphs got by public calls, Display returns the number of instants, one line per relevant constraint (i,j) with i<j, each exactly once and in increasing order with the interval reported by timespan, and the number of these lines.", "quantifier": "all sequences of calls, graphs of any size", "why_tests_cant": "graphs of any size", "anchors": ["src/graph/storage.rs: Display for TimeGraph", "src/graph/constraints.rs: Display for constraints"]}
{"id": "C74", "title": "Texts of a scheduler", "statement": "For every session on every graph, the Debug, Display and format_timeset texts have one line per instant, in order, with the text of its slot; two schedulers with the same Debug text have the same slots; only a scheduler without instant has the text of an empty scheduler with format_timeset.", "quantifier": "all sessions, all graphs", "why_tests_cant": "slots of any length", "anchors": ["src/graph/scheduler.rs: Debug, Display, TimeSetFormat"]}
{"id": "C75", "title": "Collecting constraints in a graph", "statement": "Collecting constraints, and extending a graph through the Extend trait, panics exactly if the constraints (with the graph) have no solution; otherwise the graph has exactly their solutions, each bound being reached; this does not depend on the size hint of the iterator.", "quantifier": "all finite collections of constraints, all honest size hints", "why_tests_cant": "all collections; the size hint selects another algorithm", "anchors": ["src/graph/constraints.rs: FromIterator, Extend for TimeGraph", "src/graph/propagation.rs: extend"]}
{"id": "C76", "title": "A scheduler is determined by its accepted restrictions", "statement": "The schedules allowed by a scheduler are exactly the solutions of its graph that meet all the restrictions (retain, remove, deadline, startline) it accepted, so that their order does not matter; the same holds of the possible dates of each instant.", "quantifier": "all graphs, all sequences of calls", "why_tests_cant": "all sequences of calls and all their orders", "anchors": ["src/graph/scheduler.rs: retain, remove, set_deadline, set_startline"]}
{"id": "C77", "title": "A graph grown constraint by constraint is completed by one extend", "statement": "After `propagate` has added constraints about new instants, one call of `extend` completes the graph: it answers as if all those constraints had been given to it at once (inconsistency included), and the spans of the resulting graph are the exact ones.", "quantifier": "all graphs, all sequences of growing calls of propagate, all lists given to extend", "why_tests_cant": "all graphs and all constraints; a test shows one repaired graph", "anchors": ["src/graph/propagation.rs: propagate, extend, global_propagation"]}
{"id": "C78", "title": "Queries on ranges and points", "statement": "On every convex window (point, interval, range notation) is_empty, is_bounded, is_low_bounded, is_up_bounded, is_singleton, is_all, convex_count and convex_envelope describe its set of points; on an empty one, all the tests but is_empty answer false.", "quantifier": "all bounds, all kinds of convex windows", "why_tests_cant": "all bounds, infinities included", "anchors": ["src/ops/range.rs", "src/wins/mod.rs: is_all, convex_count, convex_envelope", "src/wins/timevalue.rs: TimeBounds", "src/wins/timeinterval.rs: TimeBounds"]}
{"id": "C79", "title": "Standard adapters keep the contract of convex iterators", "statement": "Any chain of filter, skip, take, skip_while, take_while, step_by, inspect and peekable over the intervals of a set yields intervals of this set that are still sorted, disjoint and not adjacent, and collecting them gives exactly these intervals; each adapter keeps the intervals its name says.", "quantifier": "all canonical sets, all chains of adapters, all closures (with a state)", "why_tests_cant": "all closures and all chains", "anchors": ["src/iter/mod.rs: impl TimeConvexIterator for StepBy, Filter, Peekable, SkipWhile, TakeWhile, Skip, Take, Inspect"]}
{"id": "C80", "title": "Debug and release builds agree unless debug panics", "statement": "For each modelled public function whose result may depend on the build profile, if the debug build does not panic on given arguments then the release build has the same outcome.", "quantifier": "all arguments of durations, windows, sequences, graphs, schedulers and texts", "why_tests_cant": "tests run one profile at a time, on some inputs", "anchors": ["src/wins/timevalue.rs:230 debug_assert_ne!", "src/wins/timeinterval.rs:60-62 debug_assert!", "src/ops/transl.rs: debug_assert!", "src/graph/scheduler.rs:128 debug_assert!", "src/graph/storage.rs, src/graph/propagation.rs: u32 and usize arithmetic"]}
{"id": "C81", "title": "The queries of a graph agree with each other", "statement": "timespan(j,i) is the opposite of timespan(i,j); are_distinct_instants(i,j) holds exactly when instant_cmp(i,j) says before or after; on the graphs of histories, timespan(i,i) is {0}, the spans satisfy the triangle inequality, and instant_cmp is reflexive, antisymmetric and transitive.", "quantifier": "all stored graphs (first two), all histories of calls (others), all instants", "why_tests_cant": "all graphs and all triples of instants", "anchors": ["src/graph/storage.rs:88 timespan", "src/graph/storage.rs:112 instant_cmp", "src/graph/storage.rs:135 are_distinct_instants"]}
{"id": "C82", "title": "Repeating an accepted call changes nothing", "statement": "After propagate, merge, retain with an interval, set_deadline or set_startline was accepted, the same call again returns Unchanged and leaves the graph or scheduler as it is; a refused propagate or retain is refused again; a graph merged with itself is Unchanged.", "quantifier": "all graphs made by calls, all constraints, all sessions of the scheduler, all intervals and dates", "why_tests_cant": "all states and all calls", "anchors": ["src/graph/propagation.rs:47 propagate", "src/graph/propagation.rs:102 merge", "src/graph/propagation.rs:180 extend", "src/graph/scheduler.rs:56 set_deadline", "src/graph/scheduler.rs:75 set_startline", "src/graph/scheduler.rs:97 retain"]}
{"id": "C83", "title": "Translations and scalings compose and undo each other", "statement": "If no bound reaches an infinity, (i+v)+w is i+(v+w), i+v-v and i-v+v are i, for intervals and for sets; infinite bounds stay infinite. If the products are finite, (t*n)/n is t, (t*m)*n is t*(m*n), (t+u)*n is t*n+u*n, and (s*n)/n is s for spans and sets of spans. A set of spans times -1 is its opposite, unbounded sets included.", "quantifier": "all intervals, canonical sets, finite translations, and factors between -oo and +oo", "why_tests_cant": "all sets, translations and factors, with infinite bounds and both signs", "anchors": ["src/ops/transl.rs:7 Add<TimeValue> for TimeInterval", "src/ops/transl.rs:18 Sub<TimeValue> for TimeInterval", "src/ops/transl.rs:173 Add<TimeValue> for TimeSet", "src/ops/transl.rs:185 Sub<TimeValue> for TimeSet", "src/ops/scaling.rs:9 Mul for TimeValue", "src/ops/scaling.rs:154 Mul for TimeSpan", "src/ops/scaling.rs:257 Mul for TimeSpans", "src/ops/scaling.rs:279 Div for TimeSpans"]}
{"id": "C84", "title": "Earliest and latest schedules", "statement": "In a scheduler restricted by intervals, the first dates of all the instants, if finite, are together a schedule and no schedule is earlier anywhere; dually for the last dates. A deadline or a startline is accepted exactly if some schedule meets it; earliest_ending, if finite, is the least date at which a schedule can end and latest_beginning the greatest at which one can begin. Any possible date can be chosen for an instant without leaving another without dates, and dates so chosen one after the other are part of a schedule.", "quantifier": "all graphs of bounded histories, all sessions with intervals, deadlines and startlines, all choices of dates", "why_tests_cant": "all graphs, sessions and orders of choice", "anchors": ["src/graph/scheduler.rs:45 latest_beginning", "src/graph/scheduler.rs:50 earliest_ending", "src/graph/scheduler.rs:56 set_deadline", "src/graph/scheduler.rs:75 set_startline", "src/graph/scheduler.rs:97 retain", "src/graph/scheduler.rs:126 propagate_scheduling"]}
{"id": "C85", "title": "Dates can be read off a graph", "statement": "Dates given to some instants that respect the intervals reported between these instants extend to a solution of all the constraints. The upper bounds (lower bounds) of timespan(r,i) for all i, if finite, are the latest (earliest) solution with r at 0.", "quantifier": "all graphs of bounded histories, all sets of instants, all dates, all reference instants", "why_tests_cant": "all graphs and all partial choices of dates", "anchors": ["src/graph/storage.rs:88 timespan", "src/graph/propagation.rs:47 propagate", "src/graph/propagation.rs:180 extend"]}
{"id": "C86", "title": "A constraint acts on related instants only", "statement": "After a constraint is accepted between instants of the graph, every reported interval is part of the one reported before, and the interval between its two instants is within the constraint. If nothing was known between an instant and both instants of the constraint, all the intervals of that instant are reported unchanged.", "quantifier": "all graphs of bounded histories, all constraints between their instants, all pairs of instants", "why_tests_cant": "all graphs, all constraints and all unrelated instants", "anchors": ["src/graph/propagation.rs:47 propagate", "src/graph/propagation.rs:119 propagate_lower_bound", "src/graph/storage.rs:88 timespan"]}
{"id": "C87", "title": "Equality, order and hash keep the contracts of the standard traits", "statement": "== between intervals and sets, in all four combinations, is reflexive, symmetric and transitive and means the same points. Values of one type are equal exactly if they write the same to a hasher, and different values write sequences none of which begins the other. On values with a point, partial_cmp, <, <=, >, >= and == agree with each other, partial_cmp(b,a) is the reverse of partial_cmp(a,b), < and <= are transitive and <= is antisymmetric.", "quantifier": "all intervals with ordered bounds or empty, all canonical sets, in all combinations; for the hash all values", "why_tests_cant": "all pairs and triples of windows, of both types", "anchors": ["src/relns/ordering.rs:5 PartialEq for TimeInterval", "src/relns/ordering.rs:17 PartialEq for TimeSet", "src/relns/ordering.rs:27 timepartialcmp", "src/wins/timeinterval.rs:17 derive(Eq, Hash)", "src/wins/timeset.rs:18 derive(Eq, Hash)"]}
{"id": "C88", "title": "Serialised values are read back, and only well-formed values are read", "statement": "Reading what was written gives the same duration, interval or set, for all values in 64 bits. An interval is read from a structure exactly if each of its two fields is there once with a number of 64 bits, whatever the order and the other fields. Only intervals with ordered bounds (or empty) and canonical sets are read.", "quantifier": "all values; all structures of the serde data model", "why_tests_cant": "all sets, and all inputs of the reader", "anchors": ["src/wins/timevalue.rs:11 derive(Serialize, Deserialize)", "src/wins/timestamp.rs:9 derive(Serialize, Deserialize)", "src/wins/timeinterval.rs:18 derive(Serialize, Deserialize)", "src/wins/timeset.rs:19 derive(Serialize, Deserialize)"]}
{"id": "C89", "title": "Operators and chained iterators compute the same", "statement": "For every expression of complements, unions, intersections and differences of canonical sets, evaluating it with the operators and with chained iterators yields the same intervals, so that is_empty and is_none agree; the example ((I|J)&K).is_empty() of the README is the same test as its iterator version. If no union loses dates and no intersection is of sets side by side, the result has exactly the dates of the expression and is empty exactly if there are none.", "quantifier": "all expressions of any depth on all canonical sets", "why_tests_cant": "all expressions and all sets", "anchors": ["src/iter/union.rs:82 IterUnion", "src/iter/intersect.rs:81 IterIntersection", "src/iter/compl.rs:25 IterComplementary", "src/iter/excl.rs:5 exclusion", "src/ops/union.rs:110 TimeSet | TimeSet", "src/ops/intersect.rs:108 TimeSet & TimeSet", "src/ops/compl.rs:5 Not for TimeSet"]}
{"id": "C90", "title": "Number of additions of the propagation", "statement": "In a graph of n instants, propagating one constraint between them makes no addition of time values, n^2+n or 2(n^2+n) of them, and none unless the graph is changed; a constraint that enlarges the graph makes none. Global propagation makes exactly n^3 additions, fewer only if it finds a contradiction; merging makes none or at most m^3, m being the larger size; extending makes at most N^3 for instants below N (2(N^2+N) if the iterator announces one item); propagating m constraints one by one makes at most 2m(n^2+n).", "quantifier": "all graphs, constraints, lists of constraints and both profiles", "why_tests_cant": "a bound on the work for all sizes cannot be observed on samples", "anchors": ["src/graph/propagation.rs:119 propagate_lower_bound", "src/graph/propagation.rs:47 propagate", "src/graph/propagation.rs:158 global_propagation", "src/graph/propagation.rs:102 merge", "src/graph/propagation.rs:180 extend", "README.md:60 O(n^3)", "README.md:65 O(n^2) at each step"]}
{"id": "C91", "title": "Timestamps of the system clock", "statement": "Timestamp::now() is the last tick not after the clock, it never decreases when the clock does not, and elapsed() since a timestamp taken from the clock is the time measured by the clock up to one tick, non-negative unless the clock went back; now() panics exactly if the clock is before the epoch.", "quantifier": "all readings of the clock, in nanoseconds of any sign, and both profiles", "why_tests_cant": "tests only see the present reading of the clock", "anchors": ["src/wins/timestamp.rs:26 now", "src/wins/timestamp.rs:31 elapsed", "src/wins/timevalue.rs:281 From<time::Duration>"]}
{"id": "C92", "title": "Laws of the algebra of sets", "statement": "On canonical sets, compared with ==: & is commutative, associative and idempotent, with the full set as unit and the empty set as zero; a & b = a when b holds all points of a; | is idempotent, commutative and associative with the empty set as unit and the full set as zero; a | b = b when b holds all points of a; a & (b | a) = a and (a & b) | a = a, also with the operands of | swapped; each operation distributes over the other; !!a = a; a | !a is the full set and a & !a the empty set; De Morgan's laws.", "quantifier": "all canonical sets (infinite ends written as such where needed)", "why_tests_cant": "an identity over all pairs or triples of sets; those of | fail only for particular layouts of the intervals", "anchors": ["src/ops/union.rs:120 BitOr for &TimeSet", "src/ops/intersect.rs:118 BitAnd for &TimeSet", "src/ops/compl.rs:5 Not for TimeSet", "src/iter/union.rs:108 next", "src/iter/intersect.rs:107 next"]}
{"id": "C93", "title": "Sizes of sets and work of the iterators", "statement": "A canonical set holds the fewest intervals of all the lists of intervals with the same dates. Whatever the operands, a & b holds at most |a|+|b|-1 intervals, a | b at most |a|+|b|, collecting never more than it reads, & and | with a convex window at most |a| and |a|+1; the complement of a canonical set holds one interval more, less one for each end of the time line the set reaches; negation and translations keep the number, truncation, scaling and sums with a span never increase it, and a sum of two sets has at most one interval for each pair. The loops of the intersection and union iterators, over all the calls until None, go round at most |a|+|b| and |a|+|b|+1 times.", "quantifier": "all lists of intervals, sorted or not (canonical for the complement and the minimality)", "why_tests_cant": "bounds for all sizes; the bound on the loops is about work, which results do not show", "anchors": ["src/iter/intersect.rs:107 next", "src/iter/union.rs:108 next", "src/wins/timeset.rs:125 from_iter", "src/ops/compl.rs:9 not", "src/ops/union.rs:125 bitor", "src/ops/intersect.rs:123 bitand", "src/wins/timeset.rs:175 truncate_before", "src/ops/transl.rs:260 TimeSet + TimeSpan", "src/ops/scaling.rs:257 TimeSpans * n"]}
{"id": "C94", "title": "Algebra of merge", "statement": "On graphs, merge is commutative and associative up to the reported intervals, and it refuses in either order or association alike; merging a fresh graph of n instants, from either side, is a resize; merging is the same as extending with the constraints that the iterator of the other graph gives; and the answer is Unchanged exactly when the other graph has no more instants and all its intervals contain those of the graph, i.e. when every solution of the graph is already one of the other.", "quantifier": "all graphs of histories of public calls; the Unchanged law for graphs with bounds of any magnitude", "why_tests_cant": "laws between three graphs built by arbitrary histories of calls; a test compares a few", "anchors": ["src/graph/propagation.rs:102 merge", "src/graph/propagation.rs:180 extend"]}
{"id": "C95", "title": "Texts of timestamps", "statement": "Display of a timestamp never panics. From the origin on it writes the date of the Gregorian calendar, the time of the day and the nanoseconds (0, 3, 6 or 9 digits) of the timestamp, in UTC; the texts sort in lexicographic order as the timestamps do. Before the origin it writes the duration to the origin. The text determines the side of the origin, the seconds and the nanoseconds, and infinite timestamps are shown as such. format_timepoint writes the same date and time in the given format.", "quantifier": "all valid timestamps; the calendar for all days, past and future", "why_tests_cant": "a calendar test checks some dates; the claims are about all days, all pairs of timestamps and their order", "anchors": ["src/wins/format.rs:175 Display for Timestamp", "src/wins/format.rs:26 format_timepoint", "src/wins/format.rs:81 format_timestamp", "src/wins/timestamp.rs:34 to_datetime", "src/wins/timestamp.rs:94 From<Timestamp> for NaiveDateTime"]}
{"id": "C96", "title": "What the texts of sets tell", "statement": "Two sets with the same Display text have the same number of intervals, the same singletons, the same infinite bounds, and finite bounds that differ by one tick at most; this holds for durations and for timestamps. The Display text of a scheduler exists after any session, has one line by instant, and tells its slots in the same way. The text does not always tell two different sets apart.", "quantifier": "all pairs of canonical sets; all pairs of schedulers of proper graphs after any sessions", "why_tests_cant": "it is a claim about all pairs of sets with any number of intervals, i.e. that the syntax of the texts is unambiguous", "anchors": ["src/wins/format.rs:223 Display for TimeInterval", "src/wins/format.rs:263 Display for TimeSet", "src/graph/scheduler.rs:153 Display for TimeScheduler"]}
{"id": "C97", "title": "Representable solutions, without limits on the bounds", "statement": "Call plan an assignment of dates whose pairwise differences are finite durations. For every graph made by public calls that return, until a fatal inconsistency, whatever the bounds of the constraints: a plan satisfying the accepted constraints lies within all reported intervals; if no instant was removed (and no new instant constrained with itself) a plan within the reported intervals satisfies all the accepted constraints. A call is refused or fatal only if no plan satisfies the old and the new constraints; Unchanged is answered only if every plan satisfies the constraint already; and as long as one plan satisfies the old and the new constraints, propagate, extend and merge return (no panic, in debug builds too) and accept. The schedulers on such a graph have, among the plans, exactly the schedules that satisfy constraints and restrictions.", "quantifier": "all sequences of public calls, all bounds, all graphs up to 65535 instants, all plans and both profiles", "why_tests_cant": "the sums of the bounds may saturate at any step of any sequence of calls; no sample shows that no plan is ever lost and that no addition of opposite infinities is met", "anchors": ["src/graph/propagation.rs:47 propagate", "src/graph/propagation.rs:102 merge", "src/graph/propagation.rs:119 propagate_lower_bound", "src/graph/propagation.rs:158 global_propagation", "src/graph/propagation.rs:180 extend", "src/wins/timevalue.rs:327 add"]}
{"id": "C98", "title": "Removing instants and going on", "statement": "After resize has removed the instants from m on, the items of the iterator on what remains describe the graph: with them in place of the constraints given so far, every further sequence of accepted calls (new instants taking the places of the removed ones) yields minimal consistent graphs, whose solutions are exactly the dates that satisfy the further constraints and agree, below m, with some solution of the constraints given before the removal. The removed instants leave nothing else behind.", "quantifier": "all histories of public calls with removals anywhere, all m, all further constraints, all assignments of dates and both profiles, within the margins of C40", "why_tests_cant": "a stale cell of a removed instant would only show for some later constraint of some new instant; the claim is about all later calls", "anchors": ["src/graph/storage.rs:37 resize", "src/graph/storage.rs:54 shrink_to_fit", "src/graph/constraints.rs:45 iter", "src/graph/propagation.rs:47 propagate", "src/graph/propagation.rs:180 extend"]}
{"id": "C99", "title": "The origin of time does not matter", "statement": "Move all the finite bounds of the operands by the same duration, keeping away from the ends of the range: union, intersection, complement, truncation and collection of sets give the moved result (or panic as before), and containment, overlap, equality and comparison answer the same. S + d is the moved set. Every list of calls on a scheduler with all windows moved gives the same answers, the moved slots, the moved earliest ending and the moved latest beginning.", "quantifier": "all lists of intervals (canonical or not), all convex windows, all graphs up to 65535 instants, all lists of calls, all moves within the stated margin and both profiles", "why_tests_cant": "a comparison with an absolute date, or a bound treated apart (0, or a value next to it), would only show for some move of some data", "anchors": ["src/iter/union.rs:108 next", "src/iter/intersect.rs:107 next", "src/ops/compl.rs:5 Not for TimeSet", "src/wins/timeset.rs:123 FromIterator", "src/relns/contain.rs:9 contains", "src/relns/overlap.rs:12 overlaps", "src/relns/ordering.rs:27 ordering", "src/graph/scheduler.rs:97 retain", "src/graph/scheduler.rs:126 propagate_scheduling"]}
{"id": "C100", "title": "The direction of time does not matter", "statement": "Replace each date x by -x. Intersection, exclusion and complement of the opposite sets are the opposite of the result, interval by interval; union gives the opposite points. Containment, overlap and equality answer the same, and before/after are exchanged. (-S) + (-d) is -(S + d), panics included. A graph of the opposite constraints reports the opposite intervals and answers the same to opposite constraints; a scheduler over it accepts the opposite windows and keeps the opposite dates; a deadline becomes a startline.", "quantifier": "all canonical sets (any list for the complement and the translation), all translations, all histories of graphs within the margins, all sessions with convex windows, both profiles", "why_tests_cant": "an asymmetry between lower and upper bounds shows on a few shapes of operands only; the one of the union was found by the proof attempt", "anchors": ["src/wins/timeset.rs:114 Neg", "src/wins/timeinterval.rs:197 Neg", "src/ops/compl.rs:5 Not for TimeSet", "src/iter/intersect.rs:107 next", "src/iter/union.rs:108 next", "src/relns/contain.rs:9 contains", "src/relns/overlap.rs:12 overlaps", "src/relns/ordering.rs:27 ordering", "src/graph/propagation.rs:47 propagate", "src/graph/scheduler.rs:97 retain"]}
{"id": "C101", "title": "A scheduler restricted by intervals is a graph with one more instant", "statement": "Add to the graph of a scheduler one instant, the origin of the dates, and give it each accepted window as a constraint between the origin and the restricted instant (a deadline or a startline: between the origin and every instant). Then each slot of the scheduler is the one interval that this graph reports between the origin and the instant, and the scheduler accepts a further window, deadline or startline iff the graph accepts the corresponding constraints.", "quantifier": "all histories of graphs, all lists of restrictions by intervals, deadlines and startlines within the margins, all instants, both profiles", "why_tests_cant": "relates two separate algorithms (one propagation step over sets, and the closure of a matrix) on every sequence of calls; a test compares a few sequences", "anchors": ["src/graph/scheduler.rs:97 retain", "src/graph/scheduler.rs:126 propagate_scheduling", "src/graph/scheduler.rs:56 set_deadline", "src/graph/scheduler.rs:75 set_startline", "src/graph/propagation.rs:47 propagate", "src/graph/propagation.rs:180 extend"]}
{"id": "C102", "title": "Chained iterators over any sources", "statement": "A chain of complements, unions, intersections and exclusions, evaluated lazily (each combinator asks the iterators below it for one interval at a time through Fuse), yields exactly the intervals obtained by collecting each inner iterator first, whatever the sources are, even if they yield again after None. What the intersection (the complement but for its last interval) of the intervals read so far yields, it yields whatever follows. The intersection of a source that ends with one that never ends comes to an end as soon as the latter is past the end of the former, without reading further. Before the first call the size hint of a chain of any depth is right.", "quantifier": "all sources with any state and any next function, all chains of any depth, all continuations of the sources", "why_tests_cant": "all source implementations, endless sources and all depths", "anchors": ["src/iter/intersect.rs:107 IterIntersection::next", "src/iter/union.rs:108 IterUnion::next", "src/iter/compl.rs:52 IterComplementary::next", "src/iter/excl.rs:21 exclusion", "src/iter/intersect.rs:216 size_hint", "src/iter/union.rs:230 size_hint", "src/iter/compl.rs:91 size_hint"]}
{"id": "C103", "title": "The numbers of the instants do not matter", "statement": "Give other numbers to the instants of a graph. The constraints with the new numbers make a graph too, which reports the same interval for each renumbered pair, has the same solutions, and answers the same to each renumbered constraint. Two schedulers with the same dates but for the numbers accept the same windows and have the same dates afterwards.", "quantifier": "all permutations of the instants, all histories of graphs within the margins and any order of the constraints, all sessions with convex windows, both profiles", "why_tests_cant": "the matrix is stored by halves and the propagation loops go by increasing number, so a wrong index shows for some orders only; n! permutations", "anchors": ["src/graph/propagation.rs:47 propagate", "src/graph/scheduler.rs:97 retain"]}
{"id": "C104", "title": "The unit of time does not matter", "statement": "Cut each tick into c ticks. The constraints with bounds multiplied by c make a graph, which reports the intervals multiplied by c and answers the same to each constraint multiplied by c; the date before and the date after each date of one of its solutions are solutions with the former ticks. Two schedulers, one with the dates of the other in finer ticks, accept the same windows and are so related afterwards. So no date between two former ticks is lost or invented by rounding.", "quantifier": "all c > 0, all histories of graphs within the margins and any order of the constraints, all sessions with convex windows, both profiles", "why_tests_cant": "all factors, all graphs; the finer graph has dates without equivalent in the former one, and that none of them is wrong needs a proof", "anchors": ["src/graph/propagation.rs:47 propagate", "src/graph/scheduler.rs:97 retain"]}
{"id": "C105", "title": "What a graph reports tells whether the next call is exact", "statement": "On a minimal graph with a solution whose reported intervals are bounded, propagate of a bounded constraint returns, refuses exactly the contradictory constraints, changes nothing exactly for the implied ones, and otherwise gives a minimal graph whose solutions are those that satisfy the constraint, however many instants and earlier constraints there are. The schedulers of such a graph accept exactly the windows, deadlines and startlines with a schedule and keep exactly the dates of these schedules.", "quantifier": "all graphs of at most 65535 instants, all bounded constraints, all sequences of calls during which the reported intervals stay bounded, all sessions with convex windows, both profiles", "why_tests_cant": "all graphs, all assignments; the margin does not depend on the number of instants", "anchors": ["src/graph/propagation.rs:47 propagate", "src/graph/propagation.rs:119 propagate_lower_bound", "src/graph/scheduler.rs:56 set_deadline", "src/graph/scheduler.rs:75 set_startline", "src/graph/scheduler.rs:97 retain"]}
{"id": "C106", "title": "Windows and constraints without any date", "statement": "An interval whose bounds are in the wrong order holds no date. A set contains it exactly when one of its intervals contains its lower bound, overlaps it exactly when one of its intervals goes from its upper bound to its lower bound, and restricted to it becomes empty. A scheduler given it as the window of an instant refuses it unless a piece of the dates spans it; otherwise it is accepted and the instant, the first instant and all the instants related to it lose all their dates, and no other instant changes. A minimal graph given it as a constraint refuses it unless its lower bound is above the reported lower bound and at most the reported upper one; otherwise it is accepted and the graph has no solution any more. extend always finds the inconsistency.", "quantifier": "all canonical sets, all windows with valid bounds, all sessions, all minimal graphs with bounded intervals, all bounded constraints, both profiles", "why_tests_cant": "all sets, sessions and graphs; the intervals with bounds in the wrong order come from intersections of disjoint intervals", "anchors": ["src/ops/intersect.rs:43 bitand", "src/relns/contain.rs:19 contains", "src/relns/overlap.rs:30 overlaps", "src/graph/scheduler.rs:97 retain", "src/graph/propagation.rs:47 propagate", "src/graph/propagation.rs:119 propagate_lower_bound"]}
{"id": "C107", "title": "Queries on any minimal graph are exact", "statement": "On a graph that is minimal and has a solution, however it was built: instant_cmp answers an order exactly when it holds in all the solutions, are_distinct_instants answers true exactly when the dates differ in all the solutions, the answers of instant_cmp are a partial order, an instant is at distance zero of itself and a detour never tells more than the direct interval. Dates given to some of the instants that respect the intervals between them are part of a solution, and the finite latest or earliest dates after an instant are the latest or earliest solution. A constraint accepted by propagate does not change the intervals of an instant unrelated to both its instants.", "quantifier": "all stored minimal graphs with a solution, all instants, all partial dates, both profiles; for propagate all bounded constraints", "why_tests_cant": "all graphs of any size with bounds of any magnitude, and all their solutions", "anchors": ["src/graph/storage.rs:88 timespan", "src/graph/storage.rs:112 instant_cmp", "src/graph/storage.rs:135 are_distinct_instants", "src/graph/propagation.rs:47 propagate"]}
{"id": "C108", "title": "propagate is exact exactly when there is an exact answer", "statement": "On a minimal graph with a solution whose reported bounds are time values: propagate refuses, without any change, the constraints that no solution satisfies, answers Unchanged for those that all solutions satisfy, and otherwise gives a minimal graph whose solutions are those that satisfy the constraint if and only if the possible differences between instants form intervals of time values. Several constraints given one after the other are accepted and give exactly their solutions when this holds after each of them.", "quantifier": "all stored minimal graphs with a solution, all constraints between their instants with any time values as bounds, both profiles", "why_tests_cant": "no margin: bounds up to the ends of the time values, where some sums saturate; all graphs and all their solutions", "anchors": ["src/graph/propagation.rs:47 propagate", "src/graph/propagation.rs:119 propagate_lower_bound", "src/wins/timevalue.rs:323 add"]}
{"id": "C109", "title": "extend, FromIterator and merge are exact exactly when there is an exact answer", "statement": "For any graph obtained by public calls, minimal or not, and any constraints with legal bounds that have a common solution with it, extend gives a minimal graph with exactly these solutions if and only if the possible differences between instants form intervals of time values; the same for a graph collected from constraints and for the merge of two minimal graphs. The order and the repetition of the constraints do not matter, and extend agrees with propagate called for each constraint. Sums that are no time values are harmless when they are not needed. Without any common solution this is false: constraints that contradict each other may be accepted.", "quantifier": "all graphs obtained by public calls, all lists of legal constraints, any number of instants, both profiles", "why_tests_cant": "no margin: bounds up to the ends of the time values, where some sums of Floyd-Warshall saturate; all graphs, all lists of constraints and all their solutions", "anchors": ["src/graph/propagation.rs:158 global_propagation", "src/graph/propagation.rs:180 extend", "src/graph/propagation.rs:102 merge", "src/wins/timevalue.rs:323 add"]}
{"id": "C110", "title": "Programs that build a graph give the exact graph, without margins", "statement": "Take any program made of new graphs, propagate, extend, merge, resize and reset, where propagate relates two instants of the graph or two new ones, the constraints of extend and the graphs of merge have a common solution, and after each call the possible differences between instants are intervals of time values. It never panics nor reads out of bounds, in both profiles, and the graph that it builds is minimal and has exactly the solutions that the program describes: a contradictory constraint is refused and changes nothing, and removing instants by resize keeps what they implied for the others. Two programs with the same meaning give graphs with the same bounds, and so do both profiles.", "quantifier": "all programs of calls of any length, all constraints, any number of instants up to 65535, both profiles", "why_tests_cant": "all sequences and trees of calls with bounds up to the ends of the time values, and all the solutions of the constraints", "anchors": ["src/graph/propagation.rs:47 propagate", "src/graph/propagation.rs:180 extend", "src/graph/propagation.rs:102 merge", "src/graph/storage.rs:37 resize"]}
{"id": "C111", "title": "Graphs grown by propagate keep the solutions, and one extend completes them", "statement": "Take any program as in C110 where propagate may also relate an instant of the graph and a new one. It never fails, in both profiles, and the graph has exactly the solutions that the program describes, although it may report intervals that are too large. Graphs that are not minimal may be grown further, enlarged, merged and extended. One call of extend whose iterator does not announce 0 or 1 constraint, even an empty one, makes the graph minimal: it is the graph that any other program with the same meaning builds.", "quantifier": "all programs of calls of any length, all constraints, any number of instants up to 65535, both profiles", "why_tests_cant": "all trees of calls with bounds up to the ends of the time values, and all the solutions of the constraints", "anchors": ["src/graph/propagation.rs:47 propagate", "src/graph/propagation.rs:180 extend", "src/graph/propagation.rs:102 merge", "src/graph/storage.rs:37 resize"]}
{"id": "C112", "title": "Laws of the programs that build a graph, without margins", "statement": "For programs as in C110: the interval reported between two instants only depends on the possible differences between them; a program that describes fewer dates reports narrower intervals; the program where each constraint is turned round never fails and reports the interval from j to i where the first one reports the interval from i to j; two programs that say the same with other numbers for the instants report the same intervals; and adding a constraint changes no interval of an instant that nothing relates to those of the constraint.", "quantifier": "all programs of calls of any length, all pairs of instants, all renamings, all constraints, both profiles", "why_tests_cant": "relates the results of two arbitrary programs, with bounds up to the ends of the time values", "anchors": ["src/graph/propagation.rs:47 propagate", "src/graph/propagation.rs:180 extend", "src/graph/propagation.rs:102 merge", "src/graph/storage.rs:87 timespan"]}
{"id": "C113", "title": "A graph read back through its iterator rebuilds itself, without margins", "statement": "For programs as in C110: the constraints iterated from the graph describe exactly the dates of the program; given to extend, with the size announced by the iterator, on a new graph of the same size they rebuild the same graph, so that one call is enough to build any of these graphs of two instants or more; given to extend on another graph they do the work of merge; and merge commutes, associates and changes nothing when a graph is merged with itself.", "quantifier": "all programs of calls of any length, all sizes, both profiles", "why_tests_cant": "covers every graph of every size, with bounds up to the ends of the time values", "anchors": ["src/graph/constraints.rs:177 size_hint", "src/graph/propagation.rs:180 extend", "src/graph/propagation.rs:102 merge", "src/graph/storage.rs:37 resize"]}
{"id": "C114", "title": "A program whose bounds are given in finer ticks builds the same graph, without margins", "statement": "For programs as in C110: if each finite bound of each constraint is multiplied by c > 0 and the bounds stay time values, the graph built by the new program has the same instants, each interval it reports is the former one multiplied by c with infinite bounds kept, and a choice of dates is described by the program if and only if the dates multiplied by c are described by the new one.", "quantifier": "all programs of calls of any length, all factors, all pairs of instants, both profiles", "why_tests_cant": "relates the executions of two arbitrary programs, for any factor, with bounds up to the ends of the time values", "anchors": ["src/graph/propagation.rs:47 propagate", "src/graph/propagation.rs:180 extend", "src/graph/propagation.rs:102 merge", "src/graph/storage.rs:87 timespan"]}
{"id": "C115", "title": "From the constraints of a program to the dates of a session, end to end", "statement": "A program builds a graph as in C110; a session then asks that an instant be in an interval, that all the dates be before a deadline or after a start line, and a request that no remaining choice of dates meets is refused. The session always returns; a request is accepted exactly if some remaining choice meets it; the schedules afterwards are exactly the choices that satisfy the constraints and the accepted requests; each instant is left with one interval whose finite ends are the first and the last of its dates, and a date is in it exactly if it is part of such a choice.", "quantifier": "all programs of calls, all sequences of requests of any length, all dates, both profiles", "why_tests_cant": "relates what is left after any sequence of calls on two structures to the set of all the choices of dates", "anchors": ["src/graph/scheduler.rs:97 retain", "src/graph/scheduler.rs:56 set_deadline", "src/graph/scheduler.rs:75 set_startline", "src/graph/propagation.rs:47 propagate"]}
{"id": "C116", "title": "Removing the instants of any minimal graph, whatever its size and its bounds", "statement": "On any consistent minimal graph, resize to fewer instants keeps the reported intervals, gives a minimal graph, and its solutions are exactly the restrictions of the former ones. shrink_to_fit keeps the reported intervals, the solutions and minimality; its size is the first one beyond which the solutions leave each instant free, i.e. at any distance of each other instant, and resize back to the former size reports the former intervals. The same after any program of C110, in terms of the dates it describes.", "quantifier": "all minimal consistent graphs, all sizes, all programs, both profiles", "why_tests_cant": "minimality of the size is a statement about the set of all the solutions", "anchors": ["src/graph/storage.rs:37 resize", "src/graph/storage.rs:54 shrink_to_fit"]}
{"id": "C117", "title": "What the reports of the calls of a program say, whatever the size and the bounds", "statement": "After any program of C110: propagate of a constraint between instants of the graph reports Unchanged exactly if the described dates already satisfy it, Recovered exactly if none does, Propagated otherwise, and leaves the graph as it was in the first two cases; given again, it is Unchanged; between two new instants it is Propagated; merge of consistent graphs reports Unchanged exactly if the other graph has no more instants and allows all the dates of this one; extend always reports Propagated, even if nothing changes.", "quantifier": "all programs of calls, all constraints, both profiles, as long as the resulting differences are intervals of time values", "why_tests_cant": "relates a report to the set of all the dates that a program describes", "anchors": ["src/graph/propagation.rs:47 propagate", "src/graph/propagation.rs:102 merge", "src/graph/propagation.rs:180 extend"]}
{"id": "C118", "title": "How large the bounds may be: (n-1)*B below infinity is enough, and no more", "statement": "If the finite bounds of the constraints between n instants are at most B in absolute value and (n-1)*B is a finite time value, then any sequence of such constraints, contradictory or not, given one by one to a graph of n instants gives the minimal graph whose solutions are exactly those of the constraints that do not contradict the ones kept before; given at once, if they have a common solution, FromIterator gives the same. At (n-1)*B equal to infinity there are constraints with a solution for which no graph is right.", "quantifier": "all sizes, all bounds, all sequences of constraints within the limit, both profiles", "why_tests_cant": "the limit is about sums along all the paths of graphs of any size; the refused constraints depend on all the previous ones", "anchors": ["src/graph/propagation.rs:47 propagate", "src/graph/constraints.rs:247 FromIterator", "src/graph/propagation.rs:158 global_propagation"]}
{"id": "C119", "title": "The whole library from what is given: any bounded constraints, then any bounded requests", "statement": "If the bounds of the constraints between n instants are within B, those of the requests within W, and 4W+9(n-1)B is a finite time value, then a new graph of n instants, given any such constraints one by one and then scheduled under any such sequence of interval, deadline and start-line requests, always returns; a constraint is kept exactly if it does not contradict those kept before, a request is accepted exactly if some choice of dates still meets it; the schedules at the end are exactly the choices that satisfy the kept constraints and the accepted requests, there is at least one, and the finite ends of the interval left to each instant are its first and last dates among them.", "quantifier": "all sizes, all bounds, all sequences of constraints and of requests of any length within the limits, both profiles", "why_tests_cant": "an end-to-end statement on all the sequences of calls and on the set of all the choices of dates", "anchors": ["src/graph/propagation.rs:47 propagate", "src/graph/scheduler.rs:97 retain", "src/graph/scheduler.rs:56 set_deadline", "src/graph/scheduler.rs:75 set_startline"]}
