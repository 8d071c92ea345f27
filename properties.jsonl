{"id": "C01", "title": "NoditMap entries never overlap, whatever the history", "statement": "After any sequence of public NoditMap operations starting from new(), iter() yields only valid intervals, in strictly ascending order, and no two yielded intervals share a point. This also holds for the map left behind by an operation that panicked.", "quantifier": "every lawful point type, every lawful interval type, every value type and every finite history of public operations with arbitrary arguments (including calls that panic and are caught)", "why_tests_cant": "The number of histories is unbounded and the interval/point types are generic; tests sample a few dozen two-entry maps over i8.", "anchors": ["src/nodit/map.rs: NoditMap::{insert_strict,insert_overwrite,insert_merge_touching,insert_merge_overlapping,insert_merge_touching_or_overlapping,insert_merge_touching_if_values_equal,cut,remove_overlapping,iter}"]}
{"id": "C02", "title": "Point lookup finds exactly the entry containing the point", "statement": "get_at_point(p) is Some(v) iff the map holds an entry (k,v) with k containing p; get_key_value_at_point(p) is Ok((k,v)) iff (k,v) is that entry; contains_point(p) is true iff there is one.", "quantifier": "every map reachable by any history of public operations, and every argument p", "why_tests_cant": "Lookup is a custom-comparator tree search; its correctness depends on every stored entry and every point.", "anchors": ["src/nodit/map.rs: NoditMap::{get_at_point,get_key_value_at_point,contains_point}", "src/utils.rs: overlapping_comp"]}
{"id": "C03", "title": "The gap reported for an uncovered point is the maximal gap", "statement": "When p is not covered get_key_value_at_point(p) is Err(g) where g contains p, no point of g is covered, and g cannot be extended: every valid interval that contains p and contains no covered point lies inside g.", "quantifier": "every map reachable by any history of public operations, and every argument p", "why_tests_cant": "Maximality quantifies over all larger intervals.", "anchors": ["src/nodit/map.rs: NoditMap::{get_key_value_at_point,get_gap_at_raw}"]}
{"id": "C04", "title": "overlapping(q) returns exactly the entries sharing a point with q, in order", "statement": "For valid q, overlapping(q) yields precisely the entries of iter() that have a point in common with q, each once and in the order of iter().", "quantifier": "every map reachable by any history of public operations, and every argument q (of any interval type)", "why_tests_cant": "Exactness is an 'iff' over all maps and query intervals.", "anchors": ["src/nodit/map.rs: NoditMap::overlapping", "src/utils.rs: overlapping_comp"]}
{"id": "C05", "title": "overlaps(q) is true iff some stored interval shares a point with q", "statement": "For valid q, overlaps(q) returns true iff there are an entry (k,v) and a point contained in both k and q.", "quantifier": "every map reachable by any history of public operations, and every argument q", "why_tests_cant": "Universally quantified iff.", "anchors": ["src/nodit/map.rs: NoditMap::overlaps"]}
{"id": "C06", "title": "contains_interval(q) is true iff every point of q is covered", "statement": "For valid q, contains_interval(q) returns true iff every point of q lies in some stored interval (possibly several touching ones).", "quantifier": "every map reachable by any history of public operations, and every argument q", "why_tests_cant": "Quantifies over every point of q for every map.", "anchors": ["src/nodit/map.rs: NoditMap::contains_interval"]}
{"id": "C07", "title": "gaps_untrimmed(q) lists exactly the maximal gaps that meet q", "statement": "For valid q, gaps_untrimmed(q) yields, in ascending order and without repetition, exactly the maximal valid intervals containing no covered point that share a point with q.", "quantifier": "every map reachable by any history of public operations, and every argument q", "why_tests_cant": "Soundness, completeness, maximality and order for all maps and queries.", "anchors": ["src/nodit/map.rs: NoditMap::gaps_untrimmed"]}
{"id": "C08", "title": "gaps_trimmed(q) lists exactly the maximal gaps inside q", "statement": "For valid q, gaps_trimmed(q) yields, in ascending order and without repetition, exactly the maximal valid sub-intervals of q containing no covered point; a point of q is in one of them iff it is uncovered, and a trimmed gap is the intersection of q with an untrimmed one.", "quantifier": "every map reachable by any history of public operations, and every argument q", "why_tests_cant": "As C07.", "anchors": ["src/nodit/map.rs: NoditMap::gaps_trimmed"]}
{"id": "C09", "title": "insert_strict is all-or-nothing", "statement": "For a valid interval k: if k shares a point with some stored interval, insert_strict(k,v) returns Err carrying v and the map is unchanged; otherwise it returns Ok and the new map holds exactly the old entries plus (k,v), with k stored as given.", "quantifier": "every map reachable by any history of public operations, and every arguments (k,v)", "why_tests_cant": "The frame condition (nothing else changes) ranges over all entries.", "anchors": ["src/nodit/map.rs: NoditMap::insert_strict"]}
{"id": "C10", "title": "insert_overwrite makes its interval win and leaves every other point alone", "statement": "For valid k, after insert_overwrite(k,v) the entry (k,v) is stored, every point of k maps to v and every other point maps to what it mapped to before; the returned entries are exactly what cut(k) would have returned.", "quantifier": "every map reachable by any history of public operations, and every arguments (k,v)", "why_tests_cant": "Pointwise statement over all points and maps.", "anchors": ["src/nodit/map.rs: NoditMap::insert_overwrite"]}
{"id": "C11", "title": "cut removes and returns exactly the overlapped part", "statement": "For valid q, after cut(q) no point of q is covered and every point outside q maps to what it mapped to before; the yielded entries are the intersections of q with the entries that overlapped it, with their values, in ascending order; each remaining entry is an old entry that did not meet q or one of the (at most two) pieces of an old entry lying just outside q.", "quantifier": "every map reachable by any history of public operations, and every argument q", "why_tests_cant": "Pointwise and entry-level statement over all maps and intervals, including touching the ends of the domain.", "anchors": ["src/nodit/map.rs: NoditMap::cut", "src/utils.rs: cut_interval"]}
{"id": "C12", "title": "remove_overlapping removes and returns exactly the overlapping entries", "statement": "For valid q, remove_overlapping(q) yields exactly the entries sharing a point with q in ascending order and the map keeps exactly the others, unchanged.", "quantifier": "every map reachable by any history of public operations, and every argument q", "why_tests_cant": "Universally quantified partition of the entries.", "anchors": ["src/nodit/map.rs: NoditMap::remove_overlapping"]}
{"id": "C13", "title": "insert_merge_touching absorbs exactly the touching neighbours", "statement": "For valid k: if k overlaps a stored interval the call returns Err(v) and the map is unchanged; otherwise it returns Ok(r) where r covers exactly the points of k and of the (at most two) stored intervals touching k, and the new map holds exactly (r,v) plus the old entries that do not touch k.", "quantifier": "every map reachable by any history of public operations, and every arguments (k,v)", "why_tests_cant": "Behaviour differs for left/right/both/neither neighbour and at the ends of the domain; quantifies over all.", "anchors": ["src/nodit/map.rs: NoditMap::insert_merge_touching", "src/utils.rs: touching_start_comp, touching_end_comp"]}
{"id": "C14", "title": "insert_merge_touching_if_values_equal absorbs exactly the touching neighbours with an equal value", "statement": "As C13, but a touching neighbour is absorbed only if its value is equal to v; a touching neighbour with a different value is kept unchanged.", "quantifier": "every map reachable by any history of public operations, and every arguments (k,v), every equality on values", "why_tests_cant": "As C13 with an arbitrary user equality.", "anchors": ["src/nodit/map.rs: NoditMap::insert_merge_touching_if_values_equal"]}
{"id": "C15", "title": "insert_merge_overlapping absorbs exactly the overlapping entries", "statement": "For valid k, insert_merge_overlapping(k,v) returns r covering exactly the points of k and of all stored intervals overlapping k (r covers nothing else), and the new map holds exactly (r,v) plus the old entries that do not overlap k.", "quantifier": "every map reachable by any history of public operations, and every arguments (k,v)", "why_tests_cant": "Any number of entries may be swallowed.", "anchors": ["src/nodit/map.rs: NoditMap::insert_merge_overlapping"]}
{"id": "C16", "title": "insert_merge_touching_or_overlapping absorbs exactly the touching and overlapping entries", "statement": "For valid k, the call returns r covering exactly the points of k and of all stored intervals that overlap or touch k, and the new map holds exactly (r,v) plus the other old entries.", "quantifier": "every map reachable by any history of public operations, and every arguments (k,v)", "why_tests_cant": "As C15; one end may touch while the other overlaps.", "anchors": ["src/nodit/map.rs: NoditMap::insert_merge_touching_or_overlapping"]}
{"id": "C17", "title": "Histories of strict, overwriting and value-merging insertions and cuts behave like a plain point-to-value function", "statement": "For histories of insert_strict, insert_overwrite, insert_merge_touching_if_values_equal (with a lawful equality), cut, new and value-only iter_mut, replaying the history on an abstract function from points to optional values (insertion sets the points of the interval unless refused because one of them is taken, overwrite sets them, cut clears them) predicts get_at_point for every point after the history; every history describes such a function.", "quantifier": "every lawful point, interval and value type, every finite history of these calls with arbitrary arguments (including calls that panic and are caught), every point", "why_tests_cant": "Refinement over unbounded histories.", "anchors": ["src/nodit/map.rs: NoditMap (all mutating methods)"]}
{"id": "C18", "title": "Panics happen exactly on invalid intervals and leave the map untouched", "statement": "Every public NoditMap method taking an interval panics iff that interval is invalid (start > end); in that case the map is unchanged. The methods taking a point never panic.", "quantifier": "every map reachable by any history of public operations, and every argument", "why_tests_cant": "Absence of panics (unwrap/unreachable) for every reachable map and argument.", "anchors": ["src/nodit/map.rs: NoditMap (all methods)", "src/utils.rs: invalid_interval_panic, config, cut_interval"]}
{"id": "C19", "title": "from_slice_strict/from_iter_strict accept exactly pairwise disjoint inputs, in any order", "statement": "For a list of entries with valid intervals, from_iter_strict returns Ok iff no two listed intervals share a point; the result holds exactly the listed entries, does not depend on their order, and otherwise the error carries the value of the first entry that overlaps an earlier one.", "quantifier": "every list of entries, every permutation of it", "why_tests_cant": "All lists and permutations.", "anchors": ["src/nodit/map.rs: NoditMap::{from_slice_strict,from_iter_strict}"]}
{"id": "C20", "title": "len, is_empty, first_key_value, last_key_value and iter agree", "statement": "len() is the number of entries yielded by iter(); is_empty() iff that is zero; first_key_value()/last_key_value() are the first/last entry of iter(), i.e. the entries with least/greatest start; into_iter() yields the same entries as iter().", "quantifier": "every map reachable by any history of public operations, and every argument", "why_tests_cant": "All reachable maps.", "anchors": ["src/nodit/map.rs: NoditMap::{len,is_empty,iter,into_iter,first_key_value,last_key_value}"]}
{"id": "C21", "title": "Mutable access changes only the designated values", "statement": "Writing through iter_mut, overlapping_mut(q) or get_at_point_mut(p) changes the value of exactly the entries of iter(), those overlapping q, or the one containing p; no interval and no other value changes, and get_at_point_mut(p) yields a reference iff p is covered.", "quantifier": "every map reachable by any history of public operations, and every argument, every function written through the references", "why_tests_cant": "Frame condition over all entries.", "anchors": ["src/nodit/map.rs: NoditMap::{iter_mut,overlapping_mut,get_at_point_mut}"]}
{"id": "C22", "title": "serde round-trips and rejects overlapping input", "statement": "Deserializing the serialization of any reachable NoditMap gives an equal map and the announced length is the number of elements; a sequence is accepted iff all its elements parse, are valid and share no points, and then the map holds exactly them; a sequence of valid intervals with an overlapping pair, or with an element that fails to parse, is rejected with an error; it panics iff the first offending element is an invalid interval.", "quantifier": "every map reachable by any history of public operations, and every argument; every serialized sequence", "why_tests_cant": "Round-trip for all maps; rejection for all malformed sequences.", "anchors": ["src/nodit/map.rs: serde impls of NoditMap", "src/interval.rs: derive(Deserialize) on Interval"]}
{"id": "C23", "title": "Interval constructors build exactly the described interval or panic", "statement": "Each of uu, ui, ue, iu, eu, ii, ie, ei, ee returns an interval whose points are exactly those described by its inclusive/exclusive/unbounded ends when there is at least one such point, and panics when there is none.", "quantifier": "every point type and all end-points", "why_tests_cant": "All end-points including MIN and MAX.", "anchors": ["src/interval.rs: uu, ui, ue, iu, eu, ii, ie, ei, ee"]}
{"id": "C24", "title": "Interval predicates agree with the set of points", "statement": "For valid intervals: contains_point, contains_interval, overlaps, is_singular, is_valid and intersection agree with membership, inclusion, common points, having one point, having some point, and set intersection; overlaps and intersection are symmetric in their points and overlaps never panics on valid intervals.", "quantifier": "all pairs of intervals, of possibly different interval types", "why_tests_cant": "All pairs.", "anchors": ["src/interval.rs: InclusiveInterval provided methods", "src/utils.rs: config, sorted_config"]}
{"id": "C25", "title": "Conversions between Interval and core ranges preserve the points", "statement": "Interval -> RangeInclusive -> Interval and Interval -> Range -> Interval are identities on valid intervals and preserve the points; converting a range with no points panics; converting to Range panics exactly when the interval ends at MAX; the RangeBounds of an interval describe its points.", "quantifier": "all intervals and ranges", "why_tests_cant": "All end-points including MAX.", "anchors": ["src/interval.rs: From impls"]}
{"id": "C26", "title": "translate and width", "statement": "When neither end overflows, translate(d) moves both ends by d and gives a valid interval with the same width, in debug and release builds alike; in a debug build it panics when an end overflows. width() is end - start when that fits the type; in a debug build it panics when it does not.", "quantifier": "all intervals and deltas of every machine integer type, in debug and release arithmetic", "why_tests_cant": "Overflow happens only near the ends of the type.", "anchors": ["src/interval.rs: InclusiveInterval::{translate,width}"]}
{"id": "C27", "title": "The provided point types obey the DiscreteFinite contract", "statement": "For every primitive integer type with an implementation, MIN/MAX are the extreme values, up(x) is the least value above x or None only at MAX, down(x) the greatest below or None only at MIN; the README's WithInfinity<T> obeys the same contract whenever T does.", "quantifier": "all values of all eleven integer types and every lawful T", "why_tests_cant": "2^128 values; every T.", "anchors": ["src/discrete_finite.rs: DiscreteFinite impls", "README.md: WithInfinity"]}
{"id": "C28", "title": "A NoditSet built only by insert_merge_touching_or_overlapping and cut is canonical", "statement": "For NoditSets built with insert_merge_touching_or_overlapping, insert_merge_touching and cut (and no strict insertion), two sets containing the same points are equal; in particular the insertion order of any list of intervals with insert_merge_touching_or_overlapping is irrelevant.", "quantifier": "every pair of histories of those operations, every permutation of insertions", "why_tests_cant": "Order-independence over all permutations.", "anchors": ["src/nodit/set.rs: NoditSet::{insert_merge_touching_or_overlapping,insert_merge_touching,cut}, PartialEq"]}
{"id": "C29", "title": "NoditSet is a set of points", "statement": "contains_point after each NoditSet operation is the corresponding set operation: insertions add exactly the points of the interval (a refused insertion adds none), cut removes exactly the points of the interval, and the intervals yielded by iter() are disjoint, valid and ascending for every history.", "quantifier": "every lawful point type, every lawful interval type, every finite history of public operations with arbitrary arguments (including calls that panic and are caught)", "why_tests_cant": "Unbounded histories.", "anchors": ["src/nodit/set.rs: NoditSet (all methods)"]}
{"id": "C30", "title": "NoditSet methods agree with NoditMap with unit values", "statement": "For every history of NoditSet operations, every NoditSet method returns what the NoditMap<_,_,()> method returns on the corresponding history with the unit values dropped.", "quantifier": "every history and argument", "why_tests_cant": "Refinement over all histories.", "anchors": ["src/nodit/set.rs: NoditSet (all methods)"]}
{"id": "C31", "title": "overlapping and gaps_trimmed tile the query", "statement": "For valid q, the intersections of q with the intervals of overlapping(q) together with gaps_trimmed(q) partition q: each point of q is in exactly one of them.", "quantifier": "every map reachable by any history of public operations, and every argument q", "why_tests_cant": "All points, maps and queries.", "anchors": ["src/nodit/map.rs: NoditMap::{overlapping,gaps_trimmed}"]}
{"id": "C32", "title": "ZosditMap entries only ever zero-overlap", "statement": "After any history of public ZosditMap operations, iter() yields valid intervals with non-decreasing starts and ends, any two yielded entries zero-overlap in the sense of the zosdit docs, and every non-singular interval is yielded at most once.", "quantifier": "every lawful point type, every lawful interval type, every value type and every finite history of public operations with arbitrary arguments (including calls that panic and are caught)", "why_tests_cant": "Unbounded histories including cut and removal.", "anchors": ["src/zosdit/mod.rs: Zero-Overlap", "src/zosdit/map.rs: ZosditMap (all methods)"]}
{"id": "C33", "title": "is_zero_overlap(q) decides zero-overlap with every stored entry", "statement": "For valid q, is_zero_overlap(q) is true iff q zero-overlaps (as defined in the zosdit docs) every interval yielded by iter().", "quantifier": "every reachable ZosditMap and every q", "why_tests_cant": "Universally quantified iff with many configurations of singular intervals.", "anchors": ["src/zosdit/map.rs: ZosditMap::is_zero_overlap"]}
{"id": "C34", "title": "insert_strict_back is all-or-nothing and inserts in order", "statement": "For valid k: if k does not zero-overlap some stored interval the call returns Err(v) and nothing changes; otherwise it returns Ok, len() grows by one and iter() is the old sequence with (k,v) inserted at one place, every entry before which lies entirely at or below k and every entry after which lies entirely at or above k. (C65: after all entries with the same interval.)", "quantifier": "every reachable ZosditMap and every (k,v)", "why_tests_cant": "Positions in arbitrary sequences with repeated singular intervals.", "anchors": ["src/zosdit/map.rs: ZosditMap::insert_strict_back"]}
{"id": "C35", "title": "ZosditMap::overlapping(q) returns exactly the entries sharing a point with q", "statement": "For valid q, overlapping(q) yields exactly the entries of iter() that share a point with q, in the order of iter().", "quantifier": "every reachable ZosditMap and every q", "why_tests_cant": "Universally quantified iff.", "anchors": ["src/zosdit/map.rs: ZosditMap::overlapping"]}
{"id": "C36", "title": "ZosditMap first/last entries, consuming iteration and the counter's lower bound", "statement": "first_key_value()/last_key_value() are the first/last entry of iter(), into_iter() yields the same sequence as iter(), len() is never below the number of entries and is_empty() only if there are none. (C63: len() exactly.)", "quantifier": "every history of ZosditMap operations", "why_tests_cant": "A separately maintained counter must stay right over every history.", "anchors": ["src/zosdit/map.rs: ZosditMap::{len,is_empty,first_key_value,last_key_value,into_iter}"]}
{"id": "C37", "title": "ZosditMap::cut removes and returns exactly the overlapped part", "statement": "For valid q, cut(q) yields the intersection with q of every stored entry sharing a point with q, in order; afterwards no stored interval contains a point of q, every point outside q is in the same entries' pieces with the same values in the same order, and len() is adjusted accordingly.", "quantifier": "every reachable ZosditMap and every q", "why_tests_cant": "All maps and queries; the starting position of the scan matters only for particular layouts.", "anchors": ["src/zosdit/map.rs: ZosditMap::cut"]}
{"id": "C38", "title": "get_last_value_at_point(p) returns the last stored value at p", "statement": "get_last_value_at_point(p) is the value of the last entry of iter() whose interval contains p, or None if there is none.", "quantifier": "every reachable ZosditMap and every p", "why_tests_cant": "Depends on what lies just after p in the map.", "anchors": ["src/zosdit/map.rs: ZosditMap::get_last_value_at_point"]}
{"id": "C39", "title": "remove_last_value_at_point(p) removes exactly that value", "statement": "remove_last_value_at_point(p) returns what get_last_value_at_point(p) would return and removes exactly that entry from iter() - one containing p, with no entry containing p after it - and changes nothing if it returns None. (C63: len().)", "quantifier": "every reachable ZosditMap and every p", "why_tests_cant": "As C38, plus counter consistency.", "anchors": ["src/zosdit/map.rs: ZosditMap::remove_last_value_at_point"]}
{"id": "C40", "title": "ZosditMap bulk construction accepts exactly pairwise zero-overlapping inputs", "statement": "For entries with valid intervals, from_iter_strict_back returns Ok iff the listed intervals pairwise zero-overlap; the result yields exactly the listed entries, those with the same singular interval in list order; otherwise the error carries the value of the first offending entry.", "quantifier": "every list of entries", "why_tests_cant": "All lists.", "anchors": ["src/zosdit/map.rs: ZosditMap::{from_iter_strict_back,from_slice_strict_back}"]}
{"id": "C41", "title": "ZosditMap serde round-trip", "statement": "Serializing a reachable ZosditMap gives the entries of iter(); deserializing them gives a map with the same entries in the same order; a sequence is accepted iff bulk construction accepts it, with the same result, and a sequence of valid intervals with a non-zero-overlapping pair or an unparsable element is rejected with an error. (C64: equality of the whole structure and the announced length.)", "quantifier": "every reachable ZosditMap; every sequence", "why_tests_cant": "All maps.", "anchors": ["src/zosdit/map.rs: serde impls of ZosditMap"]}
{"id": "C42", "title": "ZosditMap panics exactly on invalid intervals", "statement": "Every ZosditMap method taking an interval panics iff it is invalid, leaving the map unchanged; methods taking a point never panic; the internal unreachable!() branches are never reached.", "quantifier": "every reachable ZosditMap and argument", "why_tests_cant": "Absence of panics over all histories.", "anchors": ["src/zosdit/map.rs: ZosditMap (all methods)"]}
{"id": "C43", "title": "identifiers_at_point follows the history pointwise", "statement": "After any history of Gqdit insert/cut_with_identifiers/cut_all_identifiers/append, identifier d is in identifiers_at_point(p) iff the last operation of the history that mentions d at p (or cuts all at p) added it.", "quantifier": "every history from new() (append's argument being any other history), identifier and point", "why_tests_cant": "Refinement over unbounded histories.", "anchors": ["src/gqdit/mod.rs: Gqdit::{new,insert,cut_with_identifiers,cut_all_identifiers,append,identifiers_at_point}"]}
{"id": "C44", "title": "Gqdit::insert adds exactly the given identifiers on exactly the given interval", "statement": "After insert(ids,k) with valid k, identifiers_at_point(p) is the old set united with ids for p in k, and unchanged elsewhere; it never panics for valid k.", "quantifier": "every Gqdit reachable from new() by any calls (and not itself passed to append as other, see C47) and every (ids,k)", "why_tests_cant": "Pointwise over all structures.", "anchors": ["src/gqdit/mod.rs: Gqdit::insert"]}
{"id": "C45", "title": "Gqdit cuts remove exactly the given identifiers on exactly the given interval", "statement": "After cut_with_identifiers(ids,q) identifiers_at_point(p) loses exactly ids for p in q; after cut_all_identifiers(q) it is empty for p in q; elsewhere unchanged; neither panics for valid q.", "quantifier": "every Gqdit reachable from new() by any calls (and not itself passed to append as other, see C47) and every (ids,q)", "why_tests_cant": "Pointwise over all structures.", "anchors": ["src/gqdit/mod.rs: Gqdit::{cut_with_identifiers,cut_all_identifiers}"]}
{"id": "C46", "title": "Gqdit::append unites pointwise", "statement": "After a.append(&mut b), identifiers_at_point of a is the pointwise union of both old maps, and a is again such a Gqdit.", "quantifier": "every pair of Gqdits reachable from new() by any calls", "why_tests_cant": "All pairs.", "anchors": ["src/gqdit/mod.rs: Gqdit::append"]}
{"id": "C47", "title": "Gqdit::append leaves other without identifiers", "statement": "After a.append(&mut b), and after any further calls on b, identifiers_at_point of b is empty at every point; appending b again changes neither Gqdit.", "quantifier": "every pair of reachable Gqdits and every later history of b", "why_tests_cant": "The damage shows only in later operations on b.", "anchors": ["src/gqdit/mod.rs: Gqdit::append"]}
{"id": "C48", "title": "gaps_no_identifier(q) lists exactly the maximal identifier-free intervals meeting q", "statement": "For valid q, gaps_no_identifier(q) yields, in ascending order and without repetition, exactly the maximal intervals all of whose points have no identifiers and that share a point with q.", "quantifier": "every Gqdit reachable from new() by any calls (and not itself passed to append as other, see C47) and every q", "why_tests_cant": "Maximality, soundness, completeness for all.", "anchors": ["src/gqdit/mod.rs: Gqdit::gaps_no_identifier"]}
{"id": "C49", "title": "gaps_with_identifier(d,q) lists exactly the maximal intervals free of other identifiers meeting q", "statement": "For valid q, gaps_with_identifier(d,q) yields, in ascending order and without repetition, exactly the maximal intervals at all of whose points there is no identifier other than d and that share a point with q.", "quantifier": "every Gqdit reachable from new() by any calls (and not itself passed to append as other, see C47), d and q", "why_tests_cant": "Multi-stage merging of left/right/inner gaps must agree for every layout.", "anchors": ["src/gqdit/mod.rs: Gqdit::gaps_with_identifier, expand_gaps_at_point_left/right, overlaps_ordered, touches_ordered"]}
{"id": "C50", "title": "Gqdit equality is extensional", "statement": "Two Gqdits built by any histories are == iff identifiers_at_point agrees at every point; in particular inserts with the same overall content give equal Gqdits whatever their order, number and division into intervals.", "quantifier": "every pair of histories, for every interval type whose == is reflexive and holds only between intervals with the same points", "why_tests_cant": "Canonicity of the representation over all histories.", "anchors": ["src/gqdit/mod.rs: PartialEq for Gqdit"]}
{"id": "C51", "title": "Gqdit never panics on valid arguments", "statement": "new() does not panic; identifiers_at_point and append never panic; every other method panics iff its interval argument is invalid, and then the structure is unchanged.", "quantifier": "every Gqdit reachable from new() by any calls, including those that were passed to append as other; every argument", "why_tests_cant": "The panic!() in the re-insertion loops and the unwrap in the touch test must be unreachable.", "anchors": ["src/gqdit/mod.rs: Gqdit (all methods)"]}
{"id": "C52", "title": "Gqdit serde round-trips", "statement": "Deserializing the serialization of a reachable Gqdit gives exactly that Gqdit, the announced length is right, and the data written covers every point with disjoint intervals whose neighbours carry different identifiers.", "quantifier": "every reachable Gqdit", "why_tests_cant": "All sequences.", "anchors": ["src/gqdit/mod.rs: serde impls of Gqdit"]}
{"id": "C53", "title": "Results do not depend on the shape of the tree", "statement": "For every reachable NoditMap, Gqdit and ZosditMap, every search the crate performs (other than the entry search of insert_strict_back, see C68) gives the same answer for every multiway search tree holding the same entries in the same order; so no result depends on node size or insertion order beyond the entries themselves.", "quantifier": "every tree shape holding the entries, every search made in a reachable state", "why_tests_cant": "Shapes appear only with many entries (B = 6); comparators are user closures that are not total orders.", "anchors": ["Cargo.toml: btree_monstrousity", "src/utils.rs: overlapping_comp, touching_start_comp, touching_end_comp, exclusive_comp_generator, inclusive_comp_generator, starts_comp"]}
{"id": "C54", "title": "The README's custom interval type keeps the non-overlap guarantee", "statement": "NoditMap over the README's Reservation type (with its From<Interval<i8>>) keeps entries non-overlapping under all operations.", "quantifier": "every history over Reservation keys", "why_tests_cant": "Only operations that build new intervals (cut, merges, gaps) use the conversion.", "anchors": ["README.md: Reservation", "src/nodit/map.rs: NoditMap::{cut,insert_overwrite,gaps_untrimmed}"]}
{"id": "C55", "title": "Every Interval obtained from constructors, conversions and intersection is valid", "statement": "Every Interval value returned by a constructor, by a conversion from a core range, or by intersection is valid (intervals returned by gaps, cut and the insertions: C01, C07, C11).", "quantifier": "every call with arbitrary arguments", "why_tests_cant": "Overflow and untrusted serialized input.", "anchors": ["src/interval.rs: Interval ('only valid intervals can be constructed')"]}
{"id": "C56", "title": "NoditMap algebra of cut and overwrite", "statement": "cut(q) is idempotent (a second cut(q) yields nothing and changes nothing); cutting disjoint intervals in either order gives the same map and the same pieces; inserting back the yielded pieces with insert_strict always succeeds and restores get_at_point at every point.", "quantifier": "every map reachable by any history of public operations, and every arguments q, q'", "why_tests_cant": "All maps and pairs of intervals.", "anchors": ["src/nodit/map.rs: NoditMap::{cut,insert_overwrite,insert_strict}"]}
{"id": "C57", "title": "Any history refines an abstract set of entries", "statement": "After any history of public NoditMap operations the entries are those obtained by replaying the history on an abstract set of entries with the declarative meaning of each operation (add if it meets none, merge touching/overlapping, replace by the maximal pieces outside the cut, drop the overlapping, change values, load a list); for the built-in Interval type the history determines the entries.", "quantifier": "every lawful point, interval and value type and every finite history of public operations with arbitrary arguments (including calls that panic and are caught)", "why_tests_cant": "Refinement over unbounded histories mixing all operations.", "anchors": ["src/nodit/map.rs: NoditMap (all mutating methods)"]}
{"id": "C58", "title": "Deserializing a NoditMap never panics", "statement": "Deserializing any sequence of elements into a NoditMap returns Ok or Err and never panics.", "quantifier": "every serialized sequence of elements", "why_tests_cant": "All malformed inputs, including intervals no constructor can build.", "anchors": ["src/nodit/map.rs: NoditMapVisitor::visit_seq", "src/interval.rs: derive(Deserialize) on Interval"]}
{"id": "C59", "title": "Conversion of an Interval to a core Range succeeds", "statement": "Range::from(interval) returns a Range for every valid Interval and never panics.", "quantifier": "all intervals", "why_tests_cant": "Only intervals ending at MAX fail.", "anchors": ["src/interval.rs: From<Interval<I>> for Range<I>"]}
{"id": "C60", "title": "translate and width never overflow", "statement": "translate(d) and width() give a result for every valid interval, the result of translate is a valid interval of the same width, and width is never negative.", "quantifier": "all intervals and deltas of every machine integer type, in debug and release arithmetic", "why_tests_cant": "Overflow happens only near the ends of the type.", "anchors": ["src/interval.rs: InclusiveInterval::{translate,width}"]}
{"id": "C61", "title": "Every Interval obtained by deserialization or translate is valid", "statement": "The Interval type documentation says only valid intervals can be constructed: every Interval obtained by deserializing, or by translating a valid one, is valid.", "quantifier": "all serialized end-points, all intervals and deltas", "why_tests_cant": "Untrusted serialized input; overflow.", "anchors": ["src/interval.rs: Interval ('only valid intervals can be constructed'), derive(Deserialize), translate"]}
{"id": "C62", "title": "NoditMap never inspects its values", "statement": "Replacing every value of a history by its image under a function changes nothing but the values: the resulting map, and every value returned by every method, is the image of the original one. (insert_merge_touching_if_values_equal needs the two PartialEq to correspond, the &mut methods need the two changes to correspond.)", "quantifier": "every point and interval type (lawful or not), every pair of value types, every function between them, every history, every argument", "why_tests_cant": "Parametricity: quantifies over all value types and functions.", "anchors": ["src/nodit/map.rs: NoditMap (all methods)"]}
{"id": "C63", "title": "ZosditMap::len and is_empty count the stored entries", "statement": "len() is the number of entries yielded by iter() and is_empty() is true iff there are none.", "quantifier": "every history of ZosditMap operations", "why_tests_cant": "A separately maintained counter must stay right over every history, including removals and cuts.", "anchors": ["src/zosdit/map.rs: ZosditMap::{len,is_empty,remove_last_value_at_point,cut,insert_strict_back}"]}
{"id": "C64", "title": "ZosditMap serde round-trip reproduces the whole structure", "statement": "Deserializing the serialization of a reachable ZosditMap gives a map equal to it in every field, and the announced sequence length is the number of elements that follow.", "quantifier": "every history of ZosditMap operations", "why_tests_cant": "Depends on internal structure that only particular histories produce.", "anchors": ["src/zosdit/map.rs: serde impls of ZosditMap", "src/zosdit/map.rs: ZosditMap::{cut,remove_last_value_at_point}"]}
{"id": "C65", "title": "insert_strict_back puts the new entry behind every entry with the same interval", "statement": "When insert_strict_back(k,v) succeeds, (k,v) comes in iter() after every entry lying at or below k, in particular after every entry with the same interval, and before every entry lying above k.", "quantifier": "every history of ZosditMap operations and every (k,v)", "why_tests_cant": "Needs a cut that leaves two singular pieces at the same point.", "anchors": ["src/zosdit/map.rs: ZosditMap::{insert_strict_back,cut}"]}
{"id": "C66", "title": "Gqdit deserialization accepts only well-formed data", "statement": "Every Gqdit obtained by deserialization is one that can be built from new() by calls (so that C43-C51 hold of it).", "quantifier": "every accepted sequence", "why_tests_cant": "All sequences; the damage shows only in later operations.", "anchors": ["src/gqdit/mod.rs: serde impls of Gqdit"]}
{"id": "C67", "title": "Gqdit::append leaves other usable like a new Gqdit", "statement": "After a.append(&mut b), b is equal to Gqdit::new(): later inserts into b and gap queries on b behave as on a new structure.", "quantifier": "every pair of reachable Gqdits", "why_tests_cant": "The damage shows only in later operations on b.", "anchors": ["src/gqdit/mod.rs: Gqdit::append"]}
{"id": "C68", "title": "insert_strict_back finds the same entry in every tree", "statement": "The entry search of ZosditMap::insert_strict_back puts the value at the same place for every multiway search tree holding the same entries in the same order, and no comparison on the way panics.", "quantifier": "every reachable ZosditMap, every interval and value it accepts, every tree shape", "why_tests_cant": "Shapes appear only with many entries (B = 6); the comparator is a user closure with unreachable!() arms.", "anchors": ["src/zosdit/map.rs: ZosditMap::insert_strict_back"]}
{"id": "C69", "title": "A panic in user code leaves a NoditMap that is still a NoditMap", "statement": "If V::clone, V::eq or K::from panics inside a mutating NoditMap call and the caller catches the panic, the map still holds valid intervals in ascending order without overlap, and is a map some history without panics builds. An interrupted cut (or insert_overwrite, which then has not inserted) has cut everything before one entry, nothing behind it, and left of that entry only parts outside the range; no point maps to a value it did not map to before.", "quantifier": "every history of calls, every crash point in every call, every map, interval and value", "why_tests_cant": "A test would need a value type whose clone, comparison or conversion panics at a chosen call, for every call.", "anchors": ["src/nodit/map.rs: NoditMap::cut", "src/nodit/map.rs: NoditMap::insert_overwrite", "src/nodit/map.rs: NoditMap::insert_merge_with_comps"]}
{"id": "C70", "title": "A NoditMap call that panics in user code leaves the map unchanged", "statement": "If V::clone, V::eq or K::from panics inside a mutating NoditMap call, the map is what it was before the call.", "quantifier": "every reachable map, every call, every crash point", "why_tests_cant": "Needs user code that panics at a chosen call.", "anchors": ["src/nodit/map.rs: NoditMap::cut", "src/nodit/map.rs: NoditMap::insert_overwrite", "src/nodit/map.rs: NoditMap::insert_merge_touching_if_values_equal"]}
{"id": "C71", "title": "A panic in user code leaves a ZosditMap that is still a ZosditMap", "statement": "If V::clone or K::from panics inside ZosditMap::cut and the caller catches the panic, iter() is still sorted with zero overlap, is_zero_overlap, overlapping, first_key_value and last_key_value still answer correctly, the entries before the one being cut are cut, those behind untouched.", "quantifier": "every history of calls, every crash point in every cut", "why_tests_cant": "Needs user code that panics at a chosen call.", "anchors": ["src/zosdit/map.rs: ZosditMap::cut"]}
{"id": "C72", "title": "A panic in user code inside Gqdit invents no identifiers", "statement": "If D::clone, D::eq or K::from panics inside insert, cut_with_identifiers, cut_all_identifiers or append of a Gqdit and the caller catches it, every point has the identifiers it had before, those it would have had after, or none; outside the given interval and one run of points with the same identifiers nothing changes; the entries stay valid and disjoint.", "quantifier": "every history of calls, every crash point in every call", "why_tests_cant": "Needs user code that panics at a chosen call.", "anchors": ["src/gqdit/mod.rs: Gqdit::insert", "src/gqdit/mod.rs: Gqdit::cut_with_identifiers", "src/gqdit/mod.rs: Gqdit::cut_all_identifiers", "src/gqdit/mod.rs: Gqdit::append"]}
{"id": "C73", "title": "Gqdit::insert adds its identifiers also after a caught panic", "statement": "After any history, including calls in which user code panicked and the caller caught it, an insert that returns has added its identifiers to every point of its interval.", "quantifier": "every history with crash points, every identifiers and interval", "why_tests_cant": "The damage is done by one call and shows in a later one.", "anchors": ["src/gqdit/mod.rs: Gqdit::insert"]}
{"id": "C74", "title": "ZosditMap::len counts the entries also after a caught panic", "statement": "After any history without remove_last_value_at_point, including cuts in which user code panicked and the caller caught it, len() is the number of entries of iter().", "quantifier": "every history with crash points", "why_tests_cant": "Needs user code that panics at a chosen call.", "anchors": ["src/zosdit/map.rs: ZosditMap::cut", "src/zosdit/map.rs: ZosditMap::len"]}
{"id": "C75", "title": "The gap queries are right for every From<Interval> that is right on valid intervals", "statement": "If K::from preserves the end-points of every valid Interval, then on any reachable NoditMap and for any valid query gaps_untrimmed yields exactly the maximal uncovered runs meeting the query, gaps_trimmed exactly the maximal uncovered runs inside it, and contains_interval is true iff every point of the query is covered, whatever K::from makes of invalid Intervals.", "quantifier": "every K::from right on valid intervals, every reachable map, every valid query", "why_tests_cant": "The tests use interval types whose conversion keeps the end-points of invalid intervals too; the hidden requirement shows only with other user types.", "anchors": ["src/nodit/map.rs: NoditMap::gaps_untrimmed", "src/nodit/map.rs: NoditMap::gaps_trimmed", "src/nodit/map.rs: NoditMap::contains_interval"]}
{"id": "C76", "title": "The gap queries panic only for an invalid query, also when K::from rejects invalid intervals", "statement": "If K::from returns on every valid Interval and may panic on invalid ones, then running gaps_untrimmed or gaps_trimmed to the end, or calling contains_interval, panics on a reachable NoditMap exactly when the query is invalid. With a K::from that always returns, the lazily produced items are those of the eager computation and no step panics.", "quantifier": "every K::from right on valid intervals, every reachable map, every query", "why_tests_cant": "No test has an interval type with a validating conversion; the panic depends on two stored intervals touching inside the query.", "anchors": ["src/nodit/map.rs: NoditMap::gaps_untrimmed", "src/nodit/map.rs: NoditMap::gaps_trimmed", "src/nodit/map.rs: NoditMap::contains_interval"]}
{"id": "C77", "title": "How many entries a NoditMap can have", "statement": "On any reachable NoditMap and for any valid query, cut increases len() by at most one, and by exactly one iff some stored interval has points on both sides of the query; insert_overwrite leaves exactly one entry more than the same cut. After any history of mutating calls, len() is at most twice the number of entries handed in by all calls, minus one.", "quantifier": "every history, every reachable map, every valid query and key", "why_tests_cant": "Tests check sizes of particular maps; the bound covers histories of any length and is attained.", "anchors": ["src/nodit/map.rs: NoditMap::cut", "src/nodit/map.rs: NoditMap::insert_overwrite", "src/nodit/map.rs: NoditMap::len"]}
{"id": "C78", "title": "No value handed to insert_strict is lost or duplicated", "statement": "For any reachable NoditMap and any sequence of insert_strict calls with valid keys and remove_overlapping calls, the values given in plus those stored at the start are exactly, with multiplicity, the values stored at the end plus those handed back in Err or yielded by the removals.", "quantifier": "every reachable map, every finite sequence of calls, every value type", "why_tests_cant": "Tests follow single calls; conservation is a statement about all sequences, refusals included.", "anchors": ["src/nodit/map.rs: NoditMap::insert_strict", "src/nodit/map.rs: NoditMap::remove_overlapping"]}
{"id": "C79", "title": "ZosditMap loses and duplicates no value", "statement": "For any reachable ZosditMap and any sequence of insert_strict_back calls with valid keys and remove_last_value_at_point calls, the values given in plus those stored at the start are exactly, with multiplicity, the values stored at the end plus those handed back. A cut by a valid query preserves, at every point, the list of values in order: the values at the point before are those at the point in the yielded entries followed by those at the point in the map left, and one of the two is empty.", "quantifier": "every reachable map, every finite sequence of calls, every valid query and point", "why_tests_cant": "Tests compare a few maps; several values on one point and repeated calls are not combined.", "anchors": ["src/zosdit/map.rs: ZosditMap::insert_strict_back", "src/zosdit/map.rs: ZosditMap::remove_last_value_at_point", "src/zosdit/map.rs: ZosditMap::cut"]}
{"id": "C80", "title": "What == means for NoditMap and NoditSet", "statement": "Two reachable NoditMaps compare equal iff they have the same entries, in whatever order the entries were produced. Two NoditSets built only by new, insert_merge_touching, insert_merge_touching_or_overlapping, remove_overlapping and cut compare equal iff contains_point agrees on every point.", "quantifier": "every pair of reachable maps, every pair of such histories", "why_tests_cant": "Tests compare maps with expected literals; that equality is independent of the history ranges over all pairs of histories.", "anchors": ["src/nodit/map.rs: NoditMap (derive PartialEq)", "src/nodit/set.rs: NoditSet (derive PartialEq)"]}
{"id": "C81", "title": "A NoditMap built by value-merging insertions is canonical", "statement": "After any history of new, insert_merge_touching_if_values_equal, remove_overlapping and cut, every entry is a maximal interval on which its value is stored, and two such maps compare equal iff they map the same points to the same values. Inserting pairwise disjoint intervals with insert_merge_touching_if_values_equal gives equal maps in every order.", "quantifier": "every such history, every pair of them, every permutation of disjoint insertions", "why_tests_cant": "Tests merge a handful of neighbours; maximality after arbitrary interleavings with cuts is a global invariant.", "anchors": ["src/nodit/map.rs: NoditMap::insert_merge_touching_if_values_equal", "src/nodit/map.rs: NoditMap::cut", "src/nodit/map.rs: NoditMap (derive PartialEq)"]}
{"id": "C82", "title": "Two ZosditMaps compare equal iff they iterate over the same entries", "statement": "For any two ZosditMap histories, the maps compare equal iff iter() yields the same entries in the same order.", "quantifier": "every pair of histories", "why_tests_cant": "Tests never compare maps reached by different routes; the derived equality also compares the counter and the grouping of values.", "anchors": ["src/zosdit/map.rs: ZosditMap (derive PartialEq)", "src/zosdit/map.rs: ZosditMap::remove_last_value_at_point", "src/zosdit/map.rs: ZosditMap::cut"]}
{"id": "C83", "title": "Only the order of the points matters to a NoditMap", "statement": "Let f map one point type into another, keep the order and skip no points (e.g. a conversion between integer types plus a constant, or wrapping in the README's Finite). A history of NoditMap calls carried out with the images of all points, intervals and values leaves exactly the image of the entries, and every insertion, removal, cut, overlap query and point lookup returns the image of what it returned before.", "quantifier": "every pair of point types and order embedding with convex image, every pair of interval types converting along it, every value function, every history and call", "why_tests_cant": "The tests use one point type (i8) and a small range of it; they cannot compare the behaviour over different types and positions.", "anchors": ["src/nodit/map.rs: NoditMap (all methods)", "src/utils.rs: config", "src/utils.rs: cut_interval", "src/utils.rs: exclusive_comp_generator", "src/discrete_finite.rs: DiscreteFinite"]}
{"id": "C84", "title": "Gap queries too depend only on the order when the ends correspond", "statement": "If moreover f sends MIN to MIN and MAX to MAX, then get_key_value_at_point (with its Err gap), gaps_untrimmed, gaps_trimmed and contains_interval return the image of what they return on the original map. In particular a map over u8 behaves like one over i8.", "quantifier": "every order isomorphism of point types, every history, every query", "why_tests_cant": "Gap tests use one point type; the extreme values of other types are never reached.", "anchors": ["src/nodit/map.rs: NoditMap::gaps_untrimmed", "src/nodit/map.rs: NoditMap::gaps_trimmed", "src/nodit/map.rs: NoditMap::get_key_value_at_point", "src/nodit/map.rs: NoditMap::get_gap_at_raw", "src/nodit/map.rs: NoditMap::contains_interval"]}
{"id": "C85", "title": "Only the order of the points matters to a ZosditMap", "statement": "As C83 for ZosditMap: a history carried out with the images of all points, intervals and values yields the image of the entries in the same order and the same len(), and insert_strict_back, cut, remove_last_value_at_point, overlapping, is_zero_overlap and get_last_value_at_point return the images of the original results. In particular values are never inspected.", "quantifier": "every order embedding with convex image, every history and call", "why_tests_cant": "One point type and a few values are tested.", "anchors": ["src/zosdit/map.rs: ZosditMap (all methods)", "src/utils.rs: cut_interval"]}
{"id": "C86", "title": "Without conversions the interval type may be anything", "statement": "A NoditMap only ever filled with insert_strict, from_iter_strict or deserialisation, shrunk with remove_overlapping and modified through overlapping_mut, get_at_point_mut or iter_mut keeps its entries valid, ascending and disjoint, and its point queries, overlap queries, insert_strict and remove_overlapping answer exactly as specified, whatever the key type's From<Interval<I>> does; the interval given to that conversion when a point query misses is the maximal gap around the point.", "quantifier": "every key type with start() and end(), every From, every such history, every query", "why_tests_cant": "The tests use Interval and one well-behaved custom type.", "anchors": ["src/nodit/map.rs: NoditMap::{insert_strict,remove_overlapping,overlapping,overlaps,get_key_value_at_point,get_at_point,contains_point}", "src/interval.rs: InclusiveInterval"]}
{"id": "C87", "title": "Gqdit calls obey the algebra of sets of identifiers", "statement": "On every Gqdit built by calls, the resulting structure (not only what queries show) obeys: inserting twice is inserting once; inserts commute with each other whatever their intervals and identifiers; inserting a union of identifiers, or on an interval made of two pieces, is inserting one after the other; inserting no identifiers changes nothing; the same for cut_with_identifiers and cut_all_identifiers; insert after cutting the same identifiers on the same interval is insert, cut after insert is cut, insert and cut that share no (point, identifier) commute, and cutting out freshly inserted identifiers restores the Gqdit; append is commutative, associative, idempotent with new() as neutral element, insert is appending a Gqdit with one insert, and cuts distribute over append. gaps_with_identifier(d, q) lists the points of gaps_no_identifier(q) of the Gqdit with d cut out everywhere. All of it includes calls that panic on invalid intervals.", "quantifier": "every reachable Gqdit, every interval, every list of identifiers", "why_tests_cant": "Equality of structures reached by different call orders depends on the merging of neighbouring entries for every arrangement of intervals.", "anchors": ["src/gqdit/mod.rs: Gqdit::{insert,cut_with_identifiers,cut_all_identifiers,append,gaps_no_identifier,gaps_with_identifier}"]}
{"id": "C88", "title": "The NoditMap methods agree with each other", "statement": "On any reachable NoditMap: for a one-point query at p, overlaps and contains_interval answer what contains_point(p) answers, overlapping yields exactly the entry get_key_value_at_point(p) returns, and gaps_untrimmed exactly the gap in its Err. For a valid query, contains_interval is true iff there are no gaps, overlaps is false iff overlapping is empty iff gaps_trimmed is the query itself. insert_strict and insert_merge_touching succeed iff overlaps(k) is false; insert_overwrite is cut followed by insert_strict (also for invalid intervals); remove_overlapping yields overlapping and leaves nothing overlapping, as does cut; after a successful insert_strict, remove_overlapping(k) and cut(k) restore the map and return the entry. All six insertions do the same when no entry overlaps or touches; insert_merge_touching_or_overlapping does what insert_merge_touching does whenever that succeeds and what insert_merge_overlapping does when nothing touches; insert_merge_touching_if_values_equal is insert_merge_touching if all values are equal and insert_strict if no touching value is.", "quantifier": "every reachable map, point, query, interval, value and equality", "why_tests_cant": "Each method is tested by itself on fixed maps; agreement of two methods must hold for every map.", "anchors": ["src/nodit/map.rs: NoditMap::{overlaps,overlapping,contains_point,contains_interval,get_key_value_at_point,gaps_untrimmed,gaps_trimmed,insert_strict,insert_overwrite,insert_merge_touching,insert_merge_touching_if_values_equal,insert_merge_overlapping,insert_merge_touching_or_overlapping,remove_overlapping,cut}"]}
{"id": "C89", "title": "The gaps can be filled", "statement": "On any reachable NoditMap, calling insert_strict once for each interval that gaps_trimmed(q) (or gaps_untrimmed(q)) yields, in any order and with any values, succeeds every time; afterwards contains_interval(q) is true, the gap query yields nothing, len() has grown by the number of gaps, the entries are the old ones plus the inserted ones, and the value at every point that was covered (and, for gaps_trimmed, at every point outside q) is unchanged.", "quantifier": "every reachable map, query, order and choice of values", "why_tests_cant": "It depends on the gaps being disjoint, free and complete for every map and query.", "anchors": ["src/nodit/map.rs: NoditMap::{gaps_trimmed,gaps_untrimmed,insert_strict,contains_interval}"]}
{"id": "C90", "title": "Iterators can be consumed from both ends", "statement": "Whatever sequence of next() and next_back() calls a caller makes, the iterators of NoditMap::iter, NoditMap::overlapping, NoditSet::iter, NoditSet::overlapping and ZosditMap::iter answer the next() calls with the entries from the front in ascending order and the next_back() calls with the entries from the back in descending order, no entry twice, and answer None only when every entry has been handed out (and then always). The same holds for next() on ZosditMap::overlapping. In particular ZosditMap::iter().rev() yields iter() reversed, also among the values of one interval.", "quantifier": "every map (reachable or not), query and sequence of calls", "why_tests_cant": "Tests consume iterators forwards to the end; ZosditMap's flat_map keeps two open inner iterators that meet in the middle, and the orders of calls are unbounded.", "anchors": ["src/nodit/map.rs: NoditMap::{iter,overlapping}", "src/nodit/set.rs: NoditSet::{iter,overlapping}", "src/zosdit/map.rs: ZosditMap::{iter,overlapping}"]}
{"id": "C91", "title": "A mutable iterator dropped early changes only what it handed out", "statement": "When a caller makes any sequence of next()/next_back() calls on NoditMap::iter_mut or overlapping_mut, changes each value it gets by any function, and then drops the iterator, the entries handed out (in the orders of C90) are changed by exactly those functions, every other entry - also those inside the query that were not reached - is unchanged, and the intervals stay the same. overlapping_mut on an invalid query panics and changes nothing.", "quantifier": "every map, query, sequence of calls and functions", "why_tests_cant": "Tests run the mutable iterators to their end.", "anchors": ["src/nodit/map.rs: NoditMap::{iter_mut,overlapping_mut}"]}
{"id": "C92", "title": "A NoditMap call interrupted anywhere leaves a valid map", "statement": "During any NoditMap update the map changes by one entry inserted or removed at a time, and every state in between is a valid map that a history of completed calls could also have built: intervals valid, ascending and disjoint. In each of them a point has only a value it has before or after the call, and every entry the call does not merge with or overlap is present. So wherever user code panics inside an update (Clone, PartialEq, From, Ord, InclusiveInterval or DiscreteFinite) and however often a caller catches such panics and goes on, the map stays valid.", "quantifier": "every reachable map, call and intermediate state; every history with each call interrupted anywhere", "why_tests_cant": "The states in between are not visible from outside, and no test panics in each comparison of each call.", "anchors": ["src/nodit/map.rs: NoditMap::{insert_strict,insert_merge_touching,insert_merge_touching_if_values_equal,insert_merge_overlapping,insert_merge_touching_or_overlapping,insert_overwrite,remove_overlapping,cut}"]}
{"id": "C93", "title": "A Gqdit call interrupted anywhere", "statement": "During any Gqdit update the inner map changes by one entry at a time and its intervals stay valid, ascending and disjoint. In every state in between, insert and cut leave each point with the identifiers it had before, with none, or (inside the interval of the call) with those it has afterwards; outside that interval at most one run of points with equal identifiers is lost; append invents no identifier. This also holds when earlier calls of the history were interrupted anywhere.", "quantifier": "every history of calls, each interrupted anywhere; every further call and intermediate state", "why_tests_cant": "The states in between are not visible from outside, and no test panics in each comparison of each call.", "anchors": ["src/gqdit/mod.rs: Gqdit::{insert,cut_with_identifiers,cut_all_identifiers,append}"]}
{"id": "C94", "title": "A ZosditMap call interrupted anywhere", "statement": "Wherever user code panics inside a ZosditMap update (Clone, From, Ord, InclusiveInterval or DiscreteFinite), and however often a caller catches such panics and goes on, the entries stay valid, ascending and at most zero-overlapping, len() is never smaller than the number of entries, and is_zero_overlap, overlapping, first_key_value and last_key_value answer for the entries there are. An interrupted cut has replaced a stretch of the overlapping entries by their parts outside the interval, has lost at most parts of the entries of one stored interval, and has not touched any other entry.", "quantifier": "every history of calls, each interrupted anywhere; every query; every state in the middle of a further cut", "why_tests_cant": "The states in between are not visible from outside, and no test panics in each comparison of each call.", "anchors": ["src/zosdit/map.rs: ZosditMap::{insert_strict_back,remove_last_value_at_point,cut,is_zero_overlap,overlapping,first_key_value,last_key_value}"]}
{"id": "C95", "title": "A NoditMap that is never cut or merged only compares its points", "statement": "For any totally ordered point type whatsoever - infinite, dense, without a least or greatest point, with points that compare Equal without being the same value, with up(), down(), MIN and MAX doing anything - and any interval type with any From conversion: a NoditMap changed only by insert_strict, remove_overlapping, from_iter_strict, deserialization and value updates keeps its entries valid, disjoint and ascending. overlaps, overlapping, remove_overlapping, insert_strict and get_at_point_mut answer for exactly the entries there are. A point lookup finds the entry of a covered point and never finds anything at another point; if up() of a point that is not the greatest and down() of one that is not the least are Some, a lookup at an uncovered point reports a miss (otherwise it may panic, it computes the gap first).", "quantifier": "every total order (Equal points may differ) with arbitrary up/down/MIN/MAX, every interval type, every history of such calls, every query", "why_tests_cant": "The doc asks for a discrete finite type, so the tests use integers; that the calls survive a type with no sensible up() can only be shown for all orders at once.", "anchors": ["src/nodit/map.rs: NoditMap::{insert_strict,remove_overlapping,overlapping,overlaps,overlapping_mut,get_at_point,get_at_point_mut,get_key_value_at_point,contains_point,get_gap_at_raw,from_iter_strict}", "src/discrete_finite.rs: DiscreteFinite", "src/utils.rs: overlapping_comp, starts_comp"]}
{"id": "C96", "title": "A ZosditMap that is never cut only compares its points", "statement": "For any totally ordered point type whatsoever (infinite, dense, points that compare Equal may differ, up()/down()/MIN/MAX doing anything) and any interval type with any From conversion: a ZosditMap changed only by insert_strict_back, remove_last_value_at_point, from_iter_strict_back and deserialization keeps its entries valid, ascending and pairwise at most zero-overlapping; is_zero_overlap, overlapping, first_key_value, last_key_value and insert_strict_back answer for exactly the entries there are; get_last_value_at_point and remove_last_value_at_point return only the last value at the point, and return it exactly when some stored interval contains the point and a later one or no stored interval contains a later point.", "quantifier": "every total order with arbitrary up/down/MIN/MAX, every interval type, every history without cut, every query", "why_tests_cant": "Tests use integers; that only the order of the points matters is a statement about all point types.", "anchors": ["src/zosdit/map.rs: ZosditMap::{insert_strict_back,is_zero_overlap,overlapping,get_last_value_at_point,remove_last_value_at_point,first_key_value,last_key_value,from_iter_strict_back}", "src/utils.rs: exclusive_comp_generator, inclusive_comp_generator", "src/discrete_finite.rs: DiscreteFinite"]}
{"id": "C97", "title": "Which of several points that compare Equal is used does not matter (NoditMap)", "statement": "Let two histories of NoditMap calls differ only in that end-points and points are replaced by others that compare Equal (Ord::cmp), with closures that do not tell keys with Equal ends apart. Then the entries are the same values under keys with Equal ends, in the same order, and every insertion, removal, cut, lookup, overlap query and gap query with Equal arguments panics or returns alike: same Ok/Err, same values, keys and gaps with Equal ends.", "quantifier": "every lawful point type whose order may identify different points, every interval type whose From<Interval> keeps both ends up to Equal, every pair of such histories and every pair of such calls", "why_tests_cant": "tests use integers, where Equal points are identical; the claim compares pairs of unbounded histories over arbitrary point types", "anchors": ["src/nodit/map.rs", "src/utils.rs", "src/discrete_finite.rs"]}
{"id": "C98", "title": "Which of several points that compare Equal is used does not matter (ZosditMap)", "statement": "As C97 for ZosditMap: replacing points by others that compare Equal in a history leaves the same values in the same order under keys with Equal ends and the same len(); insert_strict_back, cut, remove_last_value_at_point, overlapping, is_zero_overlap and get_last_value_at_point with Equal arguments return alike.", "quantifier": "as C97, every pair of such histories and calls", "why_tests_cant": "as C97", "anchors": ["src/zosdit/map.rs", "src/utils.rs"]}
{"id": "C99", "title": "A Gqdit depends only on the order of its points and identifiers", "statement": "Take two Gqdits, over different point types, interval types and identifier types, built by histories that correspond call by call: the second history's intervals have ends that compare Equal to the images of the first's under a function f keeping all comparisons of points, and its identifiers are the images under a function e keeping all comparisons of identifiers (append's argument corresponds in the same way). Then identifiers_at_point(f(p)) on the second is the image of identifiers_at_point(p) on the first, and corresponding calls panic or not alike. If moreover every point of the second type compares Equal to an image, the results of gaps_no_identifier and gaps_with_identifier and the serialized entries correspond one by one, with Equal ends and the image identifier sets. In particular replacing points by Equal ones, or renaming identifiers in an order-keeping way, changes nothing else.", "quantifier": "for all point, interval and identifier types, all comparison-keeping f and e, all corresponding histories (including nested appends), all points and query intervals", "why_tests_cant": "relates all pairs of histories over all pairs of types, including point types with distinct Equal points, which no test type has", "anchors": ["src/gqdit/mod.rs"]}
{"id": "C100", "title": "A Gqdit is one NoditSet per identifier", "statement": "For every history of a Gqdit and every identifier d, replay on an empty NoditSet only what concerns d: insert with d among the identifiers as insert_merge_touching_or_overlapping, cut_with_identifiers with d among them and cut_all_identifiers as cut, append as the insertion of every interval of the other Gqdit's set for d. Then the set contains the point p iff d is in identifiers_at_point(p), and its intervals are, in order, exactly the maximal intervals on which the Gqdit has d.", "quantifier": "all histories including nested appends and panicking calls, all identifiers and points, all point and interval types", "why_tests_cant": "an equivalence of two data structures over all histories", "anchors": ["src/gqdit/mod.rs:19-31", "src/gqdit/mod.rs:259-455", "src/nodit/set.rs"]}
{"id": "C101", "title": "The Gqdit gap queries are those of all the sets put together", "statement": "Insert the intervals of the sets of all identifiers (C100), respectively of all identifiers but d, into one NoditSet. Its gaps_untrimmed(q) lists the same intervals in the same order as the Gqdit's gaps_no_identifier(q), respectively gaps_with_identifier(d, q), and panics for the same q.", "quantifier": "all histories, identifiers and query intervals, all point and interval types", "why_tests_cant": "an equivalence of two data structures over all histories", "anchors": ["src/gqdit/mod.rs:19-31", "src/gqdit/mod.rs:121-257", "src/nodit/map.rs"]}
{"id": "C102", "title": "A ZosditMap and a NoditMap with the same entries behave alike", "statement": "Take a NoditMap and a ZosditMap that iterate over the same entries. overlapping(q) gives the same on both. For an interval k that shares no point with an entry insert_strict and insert_strict_back both succeed and leave the same entries in the same order; when k shares a point insert_strict refuses it, and unless it zero-overlaps every entry so does insert_strict_back, giving the value back. Hence a series of intervals no two of which share exactly one boundary point can be offered to either map with the same result. A value found by get_last_value_at_point is the one get_at_point finds, and the converse where the former works at all (C38); cut leaves and yields entries with the same points and values where ZosditMap's cut works at all (C37).", "quantifier": "all reachable pairs of maps with equal iteration, all intervals, points and values, all series of insertions", "why_tests_cant": "an equivalence of two data structures over all states", "anchors": ["src/zosdit/map.rs", "src/nodit/map.rs"]}
{"id": "C103", "title": "What == and Hash mean for Interval", "statement": "Let the points' == agree with their order. Two valid Intervals are == exactly if they contain the same points; for all intervals == compares the ends, and it is an equivalence. Equal intervals feed a hasher with the same data if equal points do, and different intervals with different data if different points do and no point's data begins another's. Hence NoditSets of Intervals built by merging insertions and cuts are == exactly if they contain the same points.", "quantifier": "all intervals over all lawful point types, all lawful == and Hash of the points, all histories of merging sets", "why_tests_cant": "an equivalence over all pairs of intervals and an arbitrary point type", "anchors": ["src/interval.rs:40-46", "src/nodit/set.rs:22-25"]}
{"id": "C104", "title": "Exactly which contents are possible", "statement": "The guarantees about what a container holds are complete: what satisfies them can be built. A list of intervals is what iter() of some NoditSet built by merging insertions, removals and cuts yields exactly if the intervals are valid, ascending and no two touch; a list of entries is what a NoditMap built by insert_merge_touching_if_values_equal, remove_overlapping and cut yields exactly if the intervals are valid and ascending and touching ones carry different values; a list of entries and a number are (up to intervals with the same points) the entries and the len() of some ZosditMap exactly if the intervals are valid, each ends where the next starts or before, and the number is at least that of the entries; a sequence of entries is a Gqdit reached by some history exactly if it is ascending and describes a Gqdit (disjoint, valid, covering everything, touching intervals with different identifiers).", "quantifier": "all lists of intervals and entries, all histories, all lawful point and interval types", "why_tests_cant": "quantifies over all histories on one side and all contents on the other", "anchors": ["src/nodit/set.rs", "src/nodit/map.rs:920-971", "src/zosdit/map.rs:279-323", "src/gqdit/mod.rs:367-403"]}
{"id": "C105", "title": "Sets of intervals are an algebra of sets", "statement": "Write union as inserting (insert_merge_touching_or_overlapping) every interval of one NoditSet into the other, difference as cutting every interval, complement as inserting the gaps_trimmed of the whole type's range into a new set, and intersection as cutting the complement. Any program made of these, on any NoditSets, never panics, gives again a NoditSet a history of calls can build, and a point is in the result exactly when the Boolean formula of the program says so. On sets built by merging calls, two programs with the same truth table give the same intervals (for Interval and a lawful Ord: identical sets), and two programs whose truth tables differ give different sets on some input. So every law of Boolean algebra (De Morgan, distributivity, absorption, ...) holds for NoditSets, and no other equation does.", "quantifier": "for all programs of any size over any number of sets, all sets and points; all point and interval types (FromInvalid interval types)", "why_tests_cant": "Quantifies over all programs and all equations between programs at once; tests can check a handful of laws on a handful of sets.", "anchors": ["src/nodit/set.rs:68-132", "src/nodit/map.rs:430-600", "src/nodit/map.rs:1094-1160"]}
{"id": "C106", "title": "The ZosditMap methods agree with each other", "statement": "insert_strict_back succeeds, fails or panics exactly when is_zero_overlap says true, says false or panics. If overlapping(q) is empty then is_zero_overlap(q) is true. A value returned by get_last_value_at_point(p) is the last item of overlapping of the one-point interval, and where C38's condition holds None is returned only if that overlapping is empty. Cutting twice is cutting once, and after a cut that reached its interval (C37's condition) overlapping(q) is empty. Inserting an interval and removing at one of its points (not its last) gives the value back and leaves the entries as before. Two successful insertions of different intervals can be done in either order and give identical maps. Calling remove_last_value_at_point(p) repeatedly returns the values at p from last to first and leaves every other entry alone; it returns all of them if no stored interval goes beyond p.", "quantifier": "for all reachable maps, intervals, values, points and numbers of calls; all point and interval types", "why_tests_cant": "Relates pairs of calls in every reachable state, for every argument; unbounded histories and repetition counts.", "anchors": ["src/zosdit/map.rs:176-246", "src/zosdit/map.rs:279-373", "src/zosdit/map.rs:419-517"]}
{"id": "C107", "title": "NoditMap calls are local, and calls about unrelated places commute", "statement": "Call an interval clear of a NoditMap call about an interval k (or a point) if it does not overlap k and, for insert_merge_touching, insert_merge_touching_if_values_equal and insert_merge_touching_or_overlapping, does not touch it. (1) If every entry outside a contiguous part of the map is clear of a call, the call returns what it returns on a map holding just that part, and changes the map by changing that part. (2) The entries that are not clear are such a part. (3) Two calls each of whose intervals is clear of the other call, with no stored interval concerning both, give the same map in either order, and each returns the same in either order. (4) If two users make such calls on one map, then however their calls are interleaved each gets the answers it would get alone, and the final map is as if one user had gone first.", "quantifier": "All lawful point and interval types, all values, all reachable maps, all of the six insertions, remove_overlapping, cut, overlapping, overlapping_mut, overlaps, get_at_point, get_at_point_mut and contains_point with all arguments (panicking ones included), all lists of calls and all interleavings.", "why_tests_cant": "It relates the results of arbitrarily long pairs of histories over all maps and all interleavings; a test fixes one map and one order.", "anchors": ["src/nodit/map.rs:116-123", "src/nodit/map.rs:153-259", "src/nodit/map.rs:366-464", "src/nodit/map.rs:714-777", "src/nodit/map.rs:832-1179", "src/utils.rs:174-247"]}
{"id": "C108", "title": "The order of insertions into a ZosditMap only matters between equal or overlapping intervals", "statement": "(1) If ZosditMap::from_iter_strict_back accepts a sequence of pairs, it accepts every rearrangement of it that keeps, for each interval, the order of the values given for that interval, and the resulting maps have the same len and the same sequence of entries (for Interval keys over points whose equality is identity: they are the same map). (2) Two insert_strict_back calls on the same map whose intervals have zero overlap and are not equal, or one of which panics, can be made in either order: the final map is the same and each returns the same in either order. (3) Two intervals without zero overlap exclude each other: once one has been inserted, inserting the other returns Err with its value and changes nothing.", "quantifier": "All lawful point types, all interval types, all values, all sequences of pairs and rearrangements of them, all reachable maps, all pairs of insertions.", "why_tests_cant": "It compares all orders in which any number of insertions can be made, on every reachable map.", "anchors": ["src/zosdit/map.rs:279-323", "src/zosdit/map.rs:354-373", "src/zosdit/map.rs:603-611"]}
{"id": "C109", "title": "Any ZosditMap history refines an abstract sequence of entries", "statement": "Describe each call on a ZosditMap as a step from one sequence of entries to another: insert_strict_back, if its interval is valid and has zero overlap with all entries, puts the new entry behind everything that ends where it starts or before, and otherwise changes nothing; remove_last_value_at_point drops the last entry containing the point (unless the search misses it as described in C38); cut replaces every entry by its maximal pieces outside the interval (unless the search misses them as described in C37); from_iter_strict_back, from_slice_strict_back and deserialization start from nothing and insert one by one, or change nothing if the input is rejected. For every history in which no cut leaves of some entry just one point whose one-point interval is stored too, the entries of the map after the history are a sequence these steps lead to, and every sequence they lead to has the same entries in the same order.", "quantifier": "All lawful point types, all interval types, all values, all histories of calls with any arguments whose cuts leave no such twin.", "why_tests_cant": "It is about histories of every length over every type.", "anchors": ["src/zosdit/map.rs:176-190", "src/zosdit/map.rs:223-246", "src/zosdit/map.rs:279-323", "src/zosdit/map.rs:419-464", "src/zosdit/map.rs:571-611", "src/zosdit/map.rs:668-719"]}
{"id": "C110", "title": "How many entries a Gqdit can have, and that it never has more than needed", "statement": "The entries a Gqdit stores (and serializes) start exactly at the first point of the type and at each point whose identifiers differ from those of the point before; so no other list of intervals with identifiers describing the same state is shorter. insert, cut_with_identifiers and cut_all_identifiers store at most two entries more than before, append at most the entries of both minus one, and a history of n calls given an interval at most 2n+1.", "quantifier": "all Gqdits after any history, all intervals, identifiers, points, and all other descriptions of the same identifiers", "why_tests_cant": "The number of entries depends on how intervals of the whole history lie to each other; minimality compares with every possible description.", "anchors": ["src/gqdit/mod.rs: Gqdit::{insert,cut_with_identifiers,cut_all_identifiers,append}, Serialize"]}
{"id": "C111", "title": "How many entries a ZosditMap can have", "statement": "cut leaves at most one entry more than before, and one more exactly when some entry has points on both sides of the cut interval. After a history a ZosditMap has at most as many entries as were handed over for insertion plus the number of cuts.", "quantifier": "all ZosditMaps after any history, all intervals", "why_tests_cant": "Several values are stored under one interval and a cut may duplicate a whole group of values; only the invariant rules that out.", "anchors": ["src/zosdit/map.rs: ZosditMap::{cut,insert_strict_back,remove_last_value_at_point}"]}
{"id": "C112", "title": "Gqdit with identifiers that compare Equal without being the same", "statement": "For identifiers whose order is any total preorder (Equal identifiers may be different values): identifiers_at_point is strictly ascending, contains something Equal to d exactly if the history added something Equal to d at the point and did not remove it since, and contains only values given to an insert; gaps_no_identifier and gaps_with_identifier list exactly the maximal intervals of points with no identifier, or none but those Equal to the one given; calls panic exactly on invalid intervals. Converting every identifier by a function that keeps comparisons changes nothing else.", "quantifier": "all point, interval and identifier types, all histories, points, query intervals", "why_tests_cant": "Tests use integers as identifiers, where Equal means identical; the claim is about every Ord and every history.", "anchors": ["src/gqdit/mod.rs: IdType, Gqdit::{insert,cut_with_identifiers,cut_all_identifiers,append,identifiers_at_point,gaps_no_identifier,gaps_with_identifier}"]}
{"id": "C113", "title": "A Gqdit call leaves the identifiers outside its interval as they are (Equal identifiers)", "statement": "After insert, cut_with_identifiers or cut_all_identifiers, identifiers_at_point gives the same values as before for every point outside the interval of the call, also when identifiers that compare Equal may be different values.", "quantifier": "all point, interval and identifier types, all histories, calls and points", "why_tests_cant": "It takes two neighbouring intervals with different but Equal identifiers to see a difference.", "anchors": ["src/gqdit/mod.rs: Gqdit::{insert,cut_with_identifiers,cut_all_identifiers}", "src/nodit/map.rs: NoditMap::insert_merge_touching_if_values_equal"]}
{"id": "C114", "title": "Inserting an entry does not change what calls about other places return", "statement": "After a successful ZosditMap::insert_strict_back(k, v), overlapping(q), is_zero_overlap(q), get_last_value_at_point(p), remove_last_value_at_point(p) and cut(q) return what they would have returned before it, for every interval q sharing no point with k and every point p outside k.", "quantifier": "for all reachable ZosditMaps, all intervals and values inserted successfully, all query intervals sharing no point with the inserted one, all points outside it", "why_tests_cant": "the search comparators are called with every stored entry on the way, so an unrelated entry can misdirect the search; only particular relative positions show it", "anchors": ["src/zosdit/map.rs: ZosditMap::{insert_strict_back,overlapping,is_zero_overlap,get_last_value_at_point,remove_last_value_at_point,cut}"]}
{"id": "C115", "title": "cut and insert_overwrite clone exactly the values of the entries that stick out", "statement": "With a Clone that may do anything (change program state, return any value): NoditMap::cut returns the original values and keeps the original values, except that the part of an entry left before the cut interval gets a clone of its value and the part left after it another, made in this order; insert_overwrite clones the same values and stores the value given as it is; ZosditMap::cut likewise for the entries it cuts. So every call clones at most two values, all other calls none. If clones equal their originals the maps and answers are exactly those of the identity-clone model, and if clones only keep some observation of the originals the maps agree up to that observation.", "quantifier": "every Clone implementation (any state, any result), every history of calls, every valid cut interval or key", "why_tests_cant": "tests use values whose clones are equal to the originals and cannot tell which of the two is kept", "anchors": ["src/nodit/map.rs: NoditMap::{cut,insert_overwrite}", "src/zosdit/map.rs: ZosditMap::cut"]}
{"id": "C116", "title": "A ZosditMap never inspects its values", "statement": "Replace every value given to a ZosditMap by its image under any function: every query and every call on the new map answers the image of the old answer, with the same intervals, lengths, errors and panics.", "quantifier": "every function on values, every pair of corresponding histories, every point, interval, key and value", "why_tests_cant": "parametricity in the values is a statement about all value types and all functions between them", "anchors": ["src/zosdit/map.rs: ZosditMap::{insert_strict_back,remove_last_value_at_point,cut,overlapping,get_last_value_at_point,first_key_value,last_key_value,iter,into_iter,from_iter_strict_back}"]}
{"id": "C117", "title": "What the derived Clone of the containers copies", "statement": "Cloning a NoditMap or ZosditMap gives a map with the same intervals (and len) whose values are the clones of the original values, each cloned once, in iteration order. If values clone to equal values the clone is the original; if every value == its clone then every map == its clone; if clones only keep some observation of the values, clone and original stay indistinguishable by it under any further calls made on both. Cloning a NoditSet or Gqdit copies it exactly.", "quantifier": "every Clone of the values (any state, any result), every map, every further history; intervals and identifiers are Copy, so their clone is a copy", "why_tests_cant": "a statement about all value types, all Clone implementations and all later histories", "anchors": ["src/nodit/map.rs: derive(Clone) for NoditMap", "src/nodit/set.rs: derive(Clone) for NoditSet", "src/zosdit/map.rs: derive(Clone) for ZosditMap", "src/gqdit/mod.rs: derive(Clone) for Gqdit"]}
{"id": "C118", "title": "The counter of a ZosditMap and the width of usize", "statement": "A ZosditMap counts its entries in a usize. The counter does not overflow as long as the map never holds more than usize::MAX entries. (False as stated: remove_last_value_at_point does not decrement it, so a history that never holds more than one entry overflows it.) In a build without overflow checks the entries and every answer but len and is_empty are unaffected, and len is the number of entries plus the number of removals modulo usize::MAX+1. In a build with checks nothing changes as long as entries plus removals stay two below the maximum, and a call that overflows panics: an insertion has then stored its entry without counting it, a cut has lost the values of one interval, and the remaining entries are still valid and in order.", "quantifier": "all widths, both build modes, all histories of calls including those that go on after a panic, all point, interval and value types", "why_tests_cant": "The overflow needs 2^64 (or 2^32) insertions, and the claim is about both build modes and every width.", "anchors": ["src/zosdit/map.rs:62-68", "src/zosdit/map.rs:95-102", "src/zosdit/map.rs:279-323", "src/zosdit/map.rs:419-464"]}
{"id": "C119", "title": "Removing from one place does not change what calls about other places return", "statement": "After ZosditMap::cut(c), the calls overlapping(q), is_zero_overlap(q), cut(q), get_last_value_at_point(p) and remove_last_value_at_point(p) return what they would have returned before it, for every interval q sharing no point with c and every point p outside c, except that overlapping shows its entries without what was cut from them. Likewise after remove_last_value_at_point took an entry, for intervals and points that have nothing in common with that entry's interval. (False as stated: after cutting [9..=9] out of [4..=9] the value at 8 may no longer be found and is_zero_overlap([8..=8]) changes from false to true; after another cut a later cut can find nothing.)", "quantifier": "for all reachable ZosditMaps, all intervals cut, all points removed at, all query intervals sharing no point with the interval cut (or with the entry removed), all points outside it", "why_tests_cant": "the search comparators are called with every stored entry on the way, so shortening an entry elsewhere can misdirect a later search; only particular relative positions show it", "anchors": ["src/zosdit/map.rs: ZosditMap::{cut,remove_last_value_at_point,overlapping,is_zero_overlap,get_last_value_at_point}"]}
{"id": "C120", "title": "Amortised number of tree changes", "statement": "Every call of the per-entry interface of NoditMap inserts a bounded number of entries into the underlying B-tree, whatever the size of the map: insert_overwrite at most 3, cut at most 2, remove_overlapping none, every other insertion at most 1; and it removes at most the entries it is about (those overlapping its interval, or merged by it). Therefore, though a single call may remove every entry, n calls starting from an empty map insert and remove at most 6n entries together. For ZosditMap (insert_strict_back, remove_last_value_at_point, cut) the bound is 2 entries inserted per call and 4n for n calls. A Gqdit puts every part it cuts out back with changed identifiers: a call that overlaps k entries inserts at most k + 2, and n calls overlapping k entries in all change the tree at most 4n + 2k + 1 times.", "quantifier": "for all reachable maps and Gqdits, all calls and all finite series of calls, of any length, with all arguments", "why_tests_cant": "tests see the result of a call, not how many tree operations it took, and the bound is over every series of calls of every length", "anchors": ["src/nodit/map.rs: NoditMap::{insert_strict,insert_overwrite,insert_merge_*,cut,remove_overlapping}", "src/zosdit/map.rs: ZosditMap::{insert_strict_back,remove_last_value_at_point,cut}", "src/gqdit/mod.rs: Gqdit::{insert,cut_with_identifiers,cut_all_identifiers}"]}
{"id": "C121", "title": "A container written in a data format is read back, whatever follows it", "statement": "A NoditMap, NoditSet, Gqdit or ZosditMap serialized into any data format and deserialized again gives the same entries back and leaves the data behind it untouched: both in formats that mark the end of a sequence (as JSON) and in formats that write the number of elements announced to serialize_seq in front of them (as bincode). (False for ZosditMap in counted formats: remove_last_value_at_point does not decrease the counter that is announced, so after a removal the reader takes elements that were never written: at the end of a file it fails, and in front of other data it takes that data for entries, silently or with a panic.)", "quantifier": "for all reachable containers, all types of points, intervals, values and identifiers, all encodings of the elements and of the number that decode to what was encoded, all data following", "why_tests_cant": "the round trip in the repository's tests uses one self-delimiting format and maps without removals; the property is about every format and every history", "anchors": ["src/nodit/map.rs: Serialize/Deserialize for NoditMap", "src/nodit/set.rs: Serialize/Deserialize for NoditSet", "src/zosdit/map.rs: Serialize/Deserialize for ZosditMap, remove_last_value_at_point", "src/gqdit/mod.rs: Serialize/Deserialize for Gqdit"]}
{"id": "C122", "title": "What one container writes another can read", "statement": "The serialized form of a NoditMap can be deserialized as a ZosditMap: it has the same entries in the same order and serializes to the same data. The serialized form of a ZosditMap can be deserialized as a NoditMap exactly if no two of its entries share a point, giving the same entries, and is refused with the 'intervals overlap' error (no panic) otherwise. A NoditMap stored as a ZosditMap in between is restored exactly.", "quantifier": "for all reachable NoditMaps and ZosditMaps, all types of points, intervals and values", "why_tests_cant": "the tests never exchange data between the containers; a single shared end point decides between acceptance and refusal", "anchors": ["src/nodit/map.rs: Serialize/Deserialize for NoditMap", "src/zosdit/map.rs: Serialize/Deserialize for ZosditMap"]}
{"id": "C123", "title": "The laws of intersection, containment and overlap of intervals", "statement": "On intervals of any point type, `intersection` is commutative, associative (with None absorbing) and idempotent on valid intervals; `contains_interval` is a partial order, and `i.contains_interval(j)` holds exactly when `i.intersection(j) == Some(j)`, so the intersection is the largest interval contained in both; `overlaps` holds exactly when there is an intersection; `contains_point(p)` is containing the interval [p, p]; and `is_singular` intervals are exactly those which contain no other valid interval.", "quantifier": "All point types (PointLaws, OrdLaws), all intervals (valid ones where said), all points.", "why_tests_cant": "Tests evaluate single methods on a handful of small i8 intervals; these are identities between several methods over all intervals and types.", "anchors": ["src/interval.rs:420-448", "src/interval.rs:481-535"]}
{"id": "C124", "title": "The laws of translate", "statement": "Translating an interval of integers by 0 changes nothing; translating by a and then by b is translating by a+b, panicking exactly when that does (debug builds) and always (release builds, where a+b wraps); translating by -a undoes translating by a, in release builds by the wrapping negation even when a has no negative (unsigned types). In debug builds a translation that does not panic preserves contains_point, contains_interval, overlaps, is_singular and width, and the intersection of two translated intervals is the translated intersection, whose translation does not panic.", "quantifier": "All integer types (any bounds), all intervals including inverted ones, all amounts.", "why_tests_cant": "Tests translate a few small intervals once; overflow at each end, wrap-around and the interaction with the other methods are not tried.", "anchors": ["src/interval.rs:537-577"]}
{"id": "C125", "title": "Several users of one Gqdit", "statement": "Say a Gqdit call concerns identifier d at point p if it adds or removes d there (cut_all_identifiers concerns every identifier in its interval). If two users never concern the same identifier at the same point (each has identifiers of their own, or their own part of the points, or any mixture), then however their calls are interleaved, every identifier at every point a user is concerned with is there exactly if it would be there had the other made no calls; the final Gqdit is the one obtained if either user makes all their calls first; and, starting from new(), it is the append of the two Gqdits they would have built alone. Calls that concern only the identifier d never change what gaps_with_identifier(d, q) returns, for any q.", "quantifier": "All point types, interval types, identifier types, reachable Gqdits, histories including append, and interleavings.", "why_tests_cant": "Tests make a fixed sequence of calls; this quantifies over all histories of two users and all ways to interleave them.", "anchors": ["src/gqdit/mod.rs:172-226", "src/gqdit/mod.rs:259-455"]}
{"id": "C126", "title": "A container is rebuilt from its entries, in any order and by any insertion", "statement": "Inserting all entries of a NoditMap into a new one, in any order and each by any of the six insertion methods, gives the same map, provided that the merging methods are used only for entries they do not merge with a neighbour (insert_merge_touching and insert_merge_touching_or_overlapping: the map has no entry touching it; insert_merge_touching_if_values_equal: no touching entry with an equal value). Inserting the entries of a Gqdit into a new one in any order gives the same Gqdit.", "quantifier": "All point, interval and value types, all reachable maps, all permutations of the entries, all choices of method per entry.", "why_tests_cant": "n! orders times 6^n choices of method for every map.", "anchors": ["src/nodit/map.rs:714-1179", "src/gqdit/mod.rs:367-403"]}
{"id": "C127", "title": "The documentation determines what every NoditMap method does", "statement": "For each of the sixteen NoditMap methods that query, insert, remove or build, the documented effect, written as a relation between the entries before the call, the arguments, the entries after it and the result (panics included), is met by what the method does and by nothing else: any implementation that returned another result or left other entries, for any map and arguments, would contradict it. This holds for every interval type whose valid intervals are determined by their points, such as Interval.", "quantifier": "All point types, all interval types determined by their points, all value and query types, all reachable maps, all arguments valid or not, all candidate results.", "why_tests_cant": "It quantifies over all conceivable results of a call, i.e. over all wrong implementations; a test compares one result with one expectation.", "anchors": ["src/nodit/map.rs:143-1179"]}
{"id": "C128", "title": "The documentation determines what every Gqdit method does", "statement": "For identifiers_at_point, gaps_no_identifier, gaps_with_identifier, insert, cut_with_identifiers, cut_all_identifiers and append, the documented effect on which identifiers are at which points, together with the shape every Gqdit has (intervals covering all points, neighbours carrying different sets), is met by what the method does and by nothing else. That shape is exactly what the Gqdits that programs can build have.", "quantifier": "All point types and interval types, identifier types with a lawful order, query types, all reachable Gqdits, all arguments, all candidate results.", "why_tests_cant": "It quantifies over all conceivable results of a call.", "anchors": ["src/gqdit/mod.rs:121-455"]}
{"id": "C129", "title": "The documentation, as far as it holds, determines what every ZosditMap method does", "statement": "For overlapping, is_zero_overlap, get_last_value_at_point, remove_last_value_at_point, cut, insert_strict_back, from_iter_strict_back and from_slice_strict_back, the documented effect on the sequence of entries and the result (panics included; for cut and get_last_value_at_point with the states excepted in which the search misses entries, C37 and C38) is met by what the method does and by nothing else. For insert_strict_back this assumes that the interval is not a single point, or that no cut has left one interval stored twice.", "quantifier": "All point types, all interval types determined by their points, all value and query types, all reachable maps, all arguments valid or not, all candidate results.", "why_tests_cant": "It quantifies over all conceivable results of a call, i.e. over all wrong implementations.", "anchors": ["src/zosdit/map.rs:176-625"]}
{"id": "C130", "title": "Implementations that do what is documented cannot be told apart", "statement": "Let a program use a NoditMap only through its methods (every one taking `&self` or `&mut self`), choosing each next call and its arguments from the answers to the calls before, and let K::from make an interval that is determined by the points it contains. Then the program ends with the same result on any two implementations of NoditMap that both do what the documentation of each method says, whatever they store inside; the crate's NoditMap is such an implementation; and an implementation on which every program ends with the same result as on the crate's NoditMap does what is documented.", "quantifier": "for all interval types determined by their points, all value types, all implementations (state types, start states, transition functions), all programs of any length with any branching on answers, all query interval types, including calls that panic", "why_tests_cant": "It quantifies over all implementations and all adaptive programs; a test runs one program against one implementation.", "anchors": ["src/nodit/map.rs:116", "src/nodit/map.rs:430", "src/nodit/map.rs:714", "src/nodit/map.rs:832", "src/nodit/map.rs:1166", "src/nodit/map.rs:1347"]}
{"id": "C131", "title": "Implementations of Gqdit that do what is documented cannot be told apart", "statement": "Take a Gqdit as nothing but a relation saying which identifier is at which point. Let a program use any number of Gqdits through their methods, choosing each next call from the answers to the calls before, with an interval type determined by the points it contains; a Gqdit passed to `append` as `other` is replaced by a new one (C67). Then the program ends with the same result on any two implementations of Gqdit whose methods answer and change that relation as documented, whatever they store inside; the crate's Gqdit is such an implementation; and an implementation on which every program ends with the same result as on the crate's Gqdit does what is documented.", "quantifier": "for all interval types determined by their points, all identifier types, all implementations, all programs with any number of Gqdits, of any length, with any branching on answers, all query interval types, including calls that panic", "why_tests_cant": "It quantifies over all implementations and all adaptive programs; a test runs one program against one implementation.", "anchors": ["src/gqdit/mod.rs:85", "src/gqdit/mod.rs:121", "src/gqdit/mod.rs:172", "src/gqdit/mod.rs:259", "src/gqdit/mod.rs:317", "src/gqdit/mod.rs:367", "src/gqdit/mod.rs:424", "src/gqdit/mod.rs:450"]}
{"id": "C132", "title": "Implementations of ZosditMap that behave as described cannot be told apart", "statement": "Read a ZosditMap as its sequence of entries and the number of values removed from it, and let a program use it only through its methods (every one taking `&self` or `&mut self`), choosing each next call from the answers to the calls before. If the program inserts no single-point interval after a cut that left one single point stored twice (C65, C68), it ends with the same result on any two implementations whose methods have the effects C129 describes and whose `len` and `is_empty` count removed values as present (C63), whatever they store inside; the crate's ZosditMap is such an implementation; and an implementation on which all these programs end with the same result as on the crate's ZosditMap has these effects.", "quantifier": "for all interval types determined by their points, all value types, all implementations (state types, start states, transition functions), all such programs of any length with any branching on answers, all query interval types, including calls that panic", "why_tests_cant": "It quantifies over all implementations and all adaptive programs; a test runs one program against one implementation.", "anchors": ["src/zosdit/map.rs:96", "src/zosdit/map.rs:122", "src/zosdit/map.rs:176", "src/zosdit/map.rs:223", "src/zosdit/map.rs:279", "src/zosdit/map.rs:354", "src/zosdit/map.rs:419", "src/zosdit/map.rs:501", "src/zosdit/map.rs:541"]}
{"id": "C133", "title": "The documentation determines NoditSet, and implementations of it cannot be told apart", "statement": "Let K::from make an interval that is determined by the points it contains. For each method of NoditSet taking `&self` or `&mut self`, what the documentation says about the intervals of the set before and after the call and about the returned value (or panic) holds of exactly one outcome, the one the method has. So a program that uses a NoditSet only through these methods, choosing each next call from the answers before, ends with the same result on any two implementations that do what is documented; the crate's NoditSet is one of them; and an implementation on which every program ends with the same result as on the crate's NoditSet does what is documented.", "quantifier": "for all interval types determined by their points, all reachable sets, all calls and query interval types including those that panic, all implementations, all programs of any length with any branching on answers", "why_tests_cant": "It quantifies over all outcomes a documented effect might allow, all implementations and all adaptive programs; a test compares one outcome of one program with one expectation.", "anchors": ["src/nodit/set.rs:33", "src/nodit/set.rs:50", "src/nodit/set.rs:58", "src/nodit/set.rs:75", "src/nodit/set.rs:102", "src/nodit/set.rs:120", "src/nodit/set.rs:158"]}
{"id": "C134", "title": "The README's WithInfinity trick", "statement": "Take a history of NoditMap calls over points of a type T and the same history over the README's WithInfinity<T> with every point wrapped in Finite. Then contains_interval and gaps_trimmed with wrapped queries give the same (wrapped) answers, and get_key_value_at_point and gaps_untrimmed give the same answers except that a gap that goes up to T::MAX goes on to Infinity. So a gap reported at a finite point ends in Infinity exactly if no entry reaches the point or lies after it. Infinity itself is in no entry, and the gap reported there consists of everything after the last entry. A Gqdit with the same calls has the same identifiers at every finite point, none at Infinity, and the same gaps, again going on to Infinity where those over T go up to T::MAX.", "quantifier": "for all point types obeying the DiscreteFinite contract, all value and identifier types, all histories of NoditMap or Gqdit calls with finite points, all finite points and query intervals, including invalid ones", "why_tests_cant": "It relates two maps over different point types for every history; a test can only compare a few histories over one concrete T.", "anchors": ["README.md:150", "README.md:161", "README.md:232", "src/nodit/map.rs:310", "src/nodit/map.rs:497", "src/gqdit/mod.rs:121"]}
{"id": "C135", "title": "The crate's internal helpers on pairs of intervals do what their names say", "statement": "For two valid intervals of any types: `config(a, b)` returns the variant of Config whose name describes them (which of them starts first, whether they overlap, whether one contains the other), and only one variant does; `cut_interval(base, cut)` returns in before_cut, inside_cut and after_cut exactly the points of `base` before, inside and after `cut`, None where there are none; `sorted_config(a, b)` returns the variant of SortedConfig whose name describes them with the interval that starts first first. (False for sorted_config: two intervals that overlap partially are called Swallowed if the first argument starts first.)", "quantifier": "for all point types obeying the DiscreteFinite contract, all interval types, all pairs of valid intervals", "why_tests_cant": "The unit tests of config and cut_interval compare some pairs of small intervals; sorted_config is not tested, and its only caller does not look at what it gets wrong.", "anchors": ["src/utils.rs:14", "src/utils.rs:23", "src/utils.rs:51", "src/utils.rs:67", "src/utils.rs:94"]}
{"id": "C136", "title": "Gap queries only look at the surroundings of the query", "statement": "Of two NoditMaps that contain the same points of a query q, contains_interval(q) says the same, gaps_trimmed(q) lists the same intervals, and gaps_untrimmed(q) lists intervals that agree, one by one, on the points of q. If they contain the same points in a larger interval that reaches, on each side of q, a covered point (which may be the first or last point of q) or the end of the type, gaps_untrimmed(q) lists the same intervals. So no call about an interval sharing no point with q (except remove_overlapping, which may remove an entry sticking out into q) changes what the gap queries say about the points of q. The same holds for gaps_no_identifier and gaps_with_identifier of a Gqdit and the points that have no (other) identifier.", "quantifier": "All reachable NoditMaps and Gqdits (pairs with nothing else in common), queries, windows, calls, identifiers; all point types, and all interval types whose From<Interval> keeps valid intervals and does not make invalid ones valid.", "why_tests_cant": "A relation between two arbitrary containers that agree only near the query; a test compares answers on a container someone wrote down.", "anchors": ["src/nodit/map.rs:497", "src/nodit/map.rs:585", "src/nodit/map.rs:678", "src/gqdit/mod.rs:121", "src/gqdit/mod.rs:172"]}
{"id": "C137", "title": "A Gqdit that was appended does nothing any more", "statement": "Let a program use any number of Gqdits, also going on to use one after passing it to `append` as `other`. Every Gqdit does what is documented until it is passed as `other`; from then on identifiers_at_point answers the empty set, the gap queries list nothing, insert, the cuts and append on it succeed without effect (they still panic on an invalid interval), and whatever is appended to it is lost. This determines the result of every such program. A program that does nothing with such a Gqdit but append it again, ask it for the identifiers at a point or replace it by Gqdit::new() gets the results it would get if append left `other` as a new Gqdit.", "quantifier": "for all programs with any number of Gqdits, of any length, with any branching on answers; for the first two parts all interval types determined by their points, for the last all interval types; all identifier types; all query interval types, including calls that panic", "why_tests_cant": "It speaks about all programs using several Gqdits and appending them to each other in any order; the tests never look at `other` after append.", "anchors": ["src/gqdit/mod.rs:424", "src/gqdit/mod.rs:367", "src/gqdit/mod.rs:121", "src/gqdit/mod.rs:172", "src/gqdit/mod.rs:450"]}
{"id": "C138", "title": "A ZosditMap describes a walk losslessly, and completely if the walk has no pause", "statement": "Call a list of entries with valid intervals a walk if each entry ends at or before the point where the next begins. Every walk can be put into a ZosditMap, by from_iter_strict_back or entry by entry with insert_strict_back with the same result and no refusal, and iter gives back all entries in the same order; len is their number. A list that from_iter_strict_back accepts is given back in its order only if it is a walk. In a map whose entries are a walk without a pause (each entry shares a point with the next), get_last_value_at_point answers the last value at every point and None exactly where there is none, and cut removes and returns exactly the parts inside the given interval; only maps without a pause have these two properties. The last entry of any map can be taken back with remove_last_value_at_point at its end.", "quantifier": "for all walks and all reachable ZosditMaps, of any length; all points, interval and value types; all query interval types for cut", "why_tests_cant": "It speaks about walks of any length and all points and cut intervals; it says exactly for which contents two methods are right at all arguments.", "anchors": ["src/zosdit/mod.rs:21", "src/zosdit/mod.rs:26", "src/zosdit/map.rs:176", "src/zosdit/map.rs:223", "src/zosdit/map.rs:279", "src/zosdit/map.rs:419", "src/zosdit/map.rs:603"]}
{"id": "C139", "title": "What a removal returned can be put back", "statement": "The entries returned by remove_overlapping can be inserted again with insert_strict, in any order; none is refused and the map is then equal to what it was. The entries returned by cut can be inserted again in any order, none is refused, and get_at_point answers at every point what it did before the cut; if no two touching entries of the map had equal values and they are inserted with insert_merge_touching_if_values_equal, the map has the same entries as before. insert_overwrite is undone at every point by remove_overlapping of the inserted interval, which returns just the inserted entry, followed by insert_strict of the returned entries. In a ZosditMap that was never cut, a value removed by remove_last_value_at_point has an interval containing the point with which insert_strict_back restores the entries in their order.", "quantifier": "for all reachable maps, all query intervals of any type, all orders of reinsertion; all point, interval and value types", "why_tests_cant": "It speaks about all maps and query intervals and all permutations of the returned entries.", "anchors": ["src/nodit/map.rs:366", "src/nodit/map.rs:430", "src/nodit/map.rs:714", "src/nodit/map.rs:1166", "src/zosdit/map.rs:223"]}
{"id": "C140", "title": "The documentation determines the result of every program using NoditMaps and NoditSets", "statement": "Let a program use any number of NoditMaps and NoditSets: make new ones, build them with from_iter_strict or from_slice_strict, clone them, compare them with ==, and call their methods, choosing each step from the answers so far. Its result is the same for all implementations of NoditMap and NoditSet whose methods do what is documented, which build exactly the maps and sets of the given pairwise disjoint intervals and otherwise report the first interval that overlaps an earlier one or panic at the first invalid one, whose clones have the same entries and whose == compares entries. The modelled NoditMap and NoditSet are such implementations. Conversely, implementations on which every such program ends with the same result as on the crate's do all of this, their states being read as what iter yields.", "quantifier": "for all programs, of any length and with any branching on answers, with any number of maps and sets; all interval types determined by their points; all value types with a lawful ==; all query interval types, including calls that panic", "why_tests_cant": "It speaks about all programs and all implementations.", "anchors": ["src/nodit/map.rs:58", "src/nodit/map.rs:1206", "src/nodit/map.rs:1239", "src/nodit/set.rs:22", "src/nodit/set.rs:129", "src/nodit/set.rs:139"]}
{"id": "C141", "title": "NoditMap with interval types that override is_valid or overlaps", "statement": "is_valid and overlaps of InclusiveInterval are provided methods, so an interval type may replace them. If the replacements answer what the provided methods answer, every NoditMap method does exactly what it does without them, and every history of calls ends in the same state. If the key type's is_valid accepts no inverted interval, its overlaps never denies an overlap (it may claim overlaps that are none, or panic), and the is_valid of the types given to cut accepts no inverted interval, then after any sequence of calls, including ones that panicked, the entries are valid, in ascending order and disjoint. Whatever overlaps answers, cut changes no point outside its interval; if it finds every overlap, exactly the points of the interval are removed, even if the call panics; and calls of cut and insert_overwrite that return then return what is documented. None of the three conditions can be dropped.", "quantifier": "for all point types; all key and query interval types with arbitrary replacements for is_valid and overlaps; all call sequences, intervals and values; the necessity of the conditions by witnesses", "why_tests_cant": "Tests use the provided methods of the crate's own interval types; no test can try all replacements.", "anchors": ["src/interval.rs:463", "src/interval.rs:526", "src/utils.rs:254", "src/nodit/map.rs:384", "src/nodit/map.rs:445", "src/nodit/map.rs:543", "src/nodit/map.rs:643"]}
{"id": "C142", "title": "ZosditMap with interval types that override is_valid, overlaps or contains_point", "statement": "Let the interval types override the provided methods is_valid, overlaps and contains_point of InclusiveInterval. If they answer what the provided methods answer, every ZosditMap method does exactly what it does without them, and every history of calls ends in the same state. As long as is_valid accepts no inverted interval, the entries are valid, ascending and zero-overlapping, no non-singular interval has two values and len() is at least the number of entries after any sequence of calls, whatever overlaps and contains_point answer and whichever calls panic. remove_last_value_at_point removes one value of an interval that is said to contain the point, or nothing. cut leaves the values at every point outside its interval as they are, in their order; if overlaps denies no overlap, a cut that returns does what it does with the provided overlaps. The condition on is_valid cannot be dropped, neither for keys nor for the intervals given to cut.", "quantifier": "for all point types; all key and query interval types with arbitrary replacements for the three methods, which may panic; all call sequences, intervals and values; the necessity of the condition by witnesses", "why_tests_cant": "Tests use the provided methods of the crate's own interval types; no test can try all replacements.", "anchors": ["src/interval.rs:421", "src/interval.rs:463", "src/interval.rs:526", "src/utils.rs:254", "src/zosdit/map.rs:188", "src/zosdit/map.rs:234", "src/zosdit/map.rs:438"]}
{"id": "C143", "title": "Gqdit with interval types that override is_valid, overlaps or contains_point", "statement": "Let the interval types override the provided methods is_valid, overlaps and contains_point of InclusiveInterval. If they answer what the provided methods answer, every Gqdit method does exactly what it does without them, and every history of calls ends in the same state. If the key type's is_valid accepts no inverted interval, its overlaps denies no overlap, and the is_valid of the types given to the cut methods accepts no inverted interval, then the intervals inside are valid, ascending and disjoint after any sequence of calls, including nested appends and calls that panicked. Answering more overlaps than there are is not harmless here: there are an overlaps that finds every overlap and a Gqdit for which an insert that returns removes an identifier from a point outside the inserted interval.", "quantifier": "for all point types; all key and query interval types with arbitrary replacements for the three methods, which may panic; all call sequences; the last sentence by a witness", "why_tests_cant": "Tests use the provided methods of the crate's own interval types; no test can try all replacements.", "anchors": ["src/interval.rs:421", "src/interval.rs:463", "src/interval.rs:526", "src/gqdit/mod.rs:172", "src/gqdit/mod.rs:259", "src/gqdit/mod.rs:317", "src/gqdit/mod.rs:367", "src/gqdit/mod.rs:424"]}
{"id": "C144", "title": "What was cut out of a ZosditMap can be put back, but is then partly out of reach", "statement": "What cut(q) returned can be inserted again with insert_strict_back, in the order in which it was returned: nothing is refused, and the pieces then stand in iter, in that order, behind everything the map has before q and in front of everything it has after q; len grows by their number. Every point then has the values it had before the cut, in the same order. But cut(q) a second time returns nothing and changes nothing if a point before q is in some entry; otherwise it returns the same pieces again and leaves the same entries. And if the map had no pause (C138), get_last_value_at_point then answers None at the last point of q and at the last point before q whenever an entry contains a later point, and answers as before the cut everywhere else.", "quantifier": "for all point, interval and value types, every reachable ZosditMap (for the last sentence without a pause) and every valid q of any interval type", "why_tests_cant": "Tests cut a few maps once and never insert the result again; all maps and queries are claimed.", "anchors": ["src/zosdit/map.rs: ZosditMap::cut", "src/zosdit/map.rs: ZosditMap::insert_strict_back", "src/zosdit/map.rs: ZosditMap::get_last_value_at_point"]}
{"id": "C145", "title": "NoditMaps, NoditSets and Gqdits look the same from both sides", "statement": "Take a point type in the opposite order (as core::cmp::Reverse does, with MIN and MAX, up and down exchanged) and intervals that start where the given ones end. A NoditMap, NoditSet or Gqdit of these behaves as one of the original points does, read from right to left: every method called with the mirrored arguments answers the mirrored answer (lists in opposite order, first_key_value and last_key_value exchanged), so that every program gets the same result from either. (Not so a ZosditMap, whose last value at a point is documented to come from the right.)", "quantifier": "for all point types obeying the contract, all interval types determined by their points, all value and identifier types, all programs of any length with any branching on answers, all query interval types, including calls that panic", "why_tests_cant": "It relates the behaviour on two point types for all programs; a slip at one end only (an off-by-one, a comparator with the wrong side) shows up as an asymmetry, for whatever arguments provoke it.", "anchors": ["src/nodit/map.rs:116", "src/nodit/map.rs:430", "src/nodit/map.rs:497", "src/nodit/map.rs:733", "src/nodit/set.rs:22", "src/gqdit/mod.rs:172", "src/gqdit/mod.rs:457", "src/utils.rs:12"]}
{"id": "C146", "title": "A call about an interval made of two is the two calls", "statement": "Let an interval q have exactly the points of two intervals q1 and q2. For a NoditMap: overlaps(q) is overlaps(q1) || overlaps(q2); contains_interval(q) is contains_interval(q1) && contains_interval(q2); with q1 left of q2, overlapping(q) is overlapping(q1) followed by overlapping(q2), except that one entry may end the one and begin the other; the same holds of gaps_untrimmed, and gaps_trimmed(q1) and gaps_trimmed(q2) are gaps_trimmed(q) chopped at the boundary; remove_overlapping(q1) then remove_overlapping(q2) leaves the same map and gives the same entries as remove_overlapping(q); cut(q1) then cut(q2) leaves the same entries as cut(q) and gives its output chopped at the boundary. Inserting at q1 and then at q2 gives every point the value that inserting at q gives it, for insert_overwrite (whose output is chopped too), insert_merge_overlapping and insert_merge_touching_or_overlapping, and, for q1 and q2 apart, for insert_strict, insert_merge_touching and insert_merge_touching_if_values_equal, which refuse q exactly if they refuse q1 or then q2; and the three that merge touching entries leave the same entries and return the same interval.", "quantifier": "for all reachable maps, all query and key intervals of any types obeying the contract, all places of the boundary, all values", "why_tests_cant": "It holds for every place of the boundary, through an entry, through a gap, or between them, on every map; a slip at either end of a range call shows up at a boundary no test tries.", "anchors": ["src/nodit/map.rs:116", "src/nodit/map.rs:153", "src/nodit/map.rs:366", "src/nodit/map.rs:430", "src/nodit/map.rs:497", "src/nodit/map.rs:585", "src/nodit/map.rs:678", "src/nodit/map.rs:714", "src/nodit/map.rs:832", "src/nodit/map.rs:920", "src/nodit/map.rs:1021", "src/nodit/map.rs:1094", "src/nodit/map.rs:1166"]}
{"id": "C147", "title": "Cutting an interval out of a ZosditMap in two pieces", "statement": "Let an interval q have exactly the points of two intervals q1 and q2, q1 left of q2. For a ZosditMap, overlapping(q) is overlapping(q1) followed by overlapping(q2), except that one entry may end the one and begin the other; and cutting q1 and q2, in either order, leaves the same entries and the same len() as cutting q, and gives its output chopped at the boundary.", "quantifier": "for all reachable ZosditMaps, all interval types and values, all places of the boundary, both orders", "why_tests_cant": "It holds or fails depending on what lies before the query and on which side is cut first; a test of cut on one interval never sees it.", "anchors": ["src/zosdit/map.rs:419", "src/zosdit/map.rs:427", "src/zosdit/map.rs:501"]}
{"id": "C148", "title": "What many merging insertions one after the other amount to", "statement": "Any sequence of insert_merge_overlapping calls leaves a map whose entries are what the inserted intervals (and the entries there before) grow together to: the map has exactly the points of all of them, two of them lie in the same entry iff one gets from one to the other by steps between overlapping intervals of the sequence, and every entry has the value inserted last among those it consists of. The same holds for insert_merge_touching_or_overlapping with steps between intervals that touch or overlap, and for insert_merge_touching with steps between touching intervals, of those intervals that overlap none accepted before (the others are refused). This determines the map; the intervals do not depend on the order of the calls or on repetitions (for insert_merge_touching: if no two overlap).", "quantifier": "for all sequences of valid intervals and values of any length and order, all reachable maps to begin with (without touching entries for the two touching kinds), all interval and value types", "why_tests_cant": "Chains of any length must grow together in whatever order their links come; the tests insert one interval into one fixed map.", "anchors": ["src/nodit/map.rs:733", "src/nodit/map.rs:832", "src/nodit/map.rs:1021", "src/nodit/map.rs:1094"]}
{"id": "C149", "title": "Maps laid over each other", "statement": "A loop that cuts any list of intervals out of a NoditMap leaves exactly the maximal parts of the entries outside of all of them, in whatever order they come, and the pieces it returns have the value of the map at every point cut out. Cutting the intervals of a second map out (whatever its types) leaves the parts the second does not cover and returns, ascending, what an entry of the one and an entry of the other have in common; cutting the gaps of the second map out leaves the parts it covers. A loop of insert_overwrite over the entries of a second map leaves the entries of the second unchanged and between them what they leave of the first. Laying a map over itself or over an empty one, or an empty one over it, changes nothing; laying maps over each other is associative; cutting the second out first makes no difference to laying it over; cutting it out afterwards leaves what cutting it out before leaves; the pieces put back give the map at every point.", "quantifier": "for all reachable maps, all lists of valid intervals of any type in any order, all interval, value and point types", "why_tests_cant": "The tests make single calls on one fixed map; here two arbitrary maps meet, so any number of entries of each can be split by any number of the other.", "anchors": ["src/nodit/map.rs:430", "src/nodit/map.rs:585", "src/nodit/map.rs:1166"]}
{"id": "C150", "title": "Gaps, width and insert_strict together make a first-fit allocator", "statement": "Let a program look for the first interval of gaps_trimmed(q) whose width() is at least n, build the interval of width n at its start and insert it with insert_strict. If the width of q fits the integer type, it never panics in a debug build and does the same in a release build; the insertion always succeeds; the interval is the leftmost in q that has room for n, and nothing is inserted only if no place in q has room. After any sequence of such requests and of giving places back with remove_overlapping, the map has exactly the places that are taken, each of the width asked for and inside of q, and no two of them share a point.", "quantifier": "for all integer types containing 0, all reachable maps, all queries whose width fits the type (all queries for unsigned types), all n >= 0, all sequences of requests, debug and release arithmetic, all interval and value types", "why_tests_cant": "The tests check gaps_trimmed, width and insert_strict one at a time on fixed maps; that they fit together for every map, size and history, up to the largest value of the type, is a statement about their combination.", "anchors": ["src/nodit/map.rs:585", "src/interval.rs:571", "src/nodit/map.rs:714", "src/nodit/map.rs:366"]}
{"id": "C151", "title": "Lookups and strict insertions look at logarithmically many stored intervals", "statement": "In a B-tree as the standard library's (at most 11 keys in a node, at least 5 except in the root, all leaves equally deep) holding the n entries of a container, one search gives at most 11/2 * (1 + log2(n+1)) stored intervals to its comparator. NoditMap::get_key_value_at_point makes one search if the point is covered and three if not, get_at_point_mut one, overlaps two, insert_strict two and a third if it inserts; ZosditMap::get_last_value_at_point makes one and is_zero_overlap two, where n counts entries of iter(). The answers are those of the calls on the container, whatever the tree. Every list of entries has such a tree.", "quantifier": "for all reachable maps, all B-trees holding their entries, all points, intervals and values, of any type", "why_tests_cant": "The tests run on maps of a few entries, where scanning all of them would pass as well; a bound for every size and every tree is a statement about all of them.", "anchors": ["src/nodit/map.rs:310", "src/nodit/map.rs:257", "src/nodit/map.rs:116", "src/nodit/map.rs:714", "src/zosdit/map.rs:176", "src/zosdit/map.rs:354", "src/utils.rs:203"]}
{"id": "C152", "title": "Programs that append, clone and compare Gqdits behave as described, and only as described", "statement": "Call Gqdits as described if each works until it is passed to append as other, its methods then doing what is documented of a relation between points and identifiers and append joining the relations; if once appended it answers every query with an empty list and accepts every call without effect; if a clone is like the original; and if two are equal exactly when both were appended or neither was and every identifier is at the same points in both. The crate's Gqdits are as described. Any two implementations that are as described give every program the same result: programs with any number of Gqdits, choosing what to create, call, append, clone or compare next from earlier answers, and going on to use Gqdits they have appended. Conversely an implementation on which every such program has the result it has on the crate's Gqdits is as described.", "quantifier": "for all programs, all implementations, all point, interval and identifier types (points and identifiers with a total order in which equal means identical, intervals determined by the points they cover, == on intervals deciding equality)", "why_tests_cant": "The tests run a few fixed programs, none of which clones a Gqdit or uses one after appending it; that no program whatever can tell two implementations apart, and that nothing weaker than the description has this effect, quantifies over all programs and all implementations.", "anchors": ["src/gqdit/mod.rs:66", "src/gqdit/mod.rs:78", "src/gqdit/mod.rs:121", "src/gqdit/mod.rs:440", "src/gqdit/mod.rs:537"]}
{"id": "C153", "title": "Exactly how often a call runs user code", "statement": "User code here is K::from, V::clone, V::eq and the clone of the set given to Gqdit::insert. NoditMap::cut and insert_overwrite run user code once for each entry they give back and twice for each piece that stays of an entry sticking out of the cut, and no more; ZosditMap::cut likewise. insert_merge_touching runs it once if a value lies at a point next to the interval and never otherwise; insert_merge_touching_if_values_equal twice for each such value (there are at most two) and once more if one of them is equal; neither runs any if it refuses. insert_merge_overlapping runs it once if a value lies at the first or last point of the interval and never otherwise, insert_merge_touching_or_overlapping once if a value lies there or next to the interval. So no merging insertion runs user code more than five times, whatever the size of the map. Beyond the calls of cutting its entries, Gqdit::insert runs it between once and six times for each part taken out, cut_with_identifiers and cut_all_identifiers at most five times for each; without identifiers nothing runs. These bounds are reached.", "quantifier": "for all reachable maps and Gqdits, all valid intervals, all values, all equality functions on values, all numbers of calls after which user code panics", "why_tests_cant": "The tests use values whose clone and == have no effect, so they cannot see how often these run; an extra clone or comparison changes no result, and no fixed example shows that the number does not grow with the map.", "anchors": ["src/nodit/map.rs:430", "src/nodit/map.rs:733", "src/nodit/map.rs:832", "src/nodit/map.rs:920", "src/nodit/map.rs:1021", "src/nodit/map.rs:1094", "src/nodit/map.rs:1166", "src/zosdit/map.rs:419", "src/gqdit/mod.rs:259", "src/gqdit/mod.rs:317", "src/gqdit/mod.rs:367"]}
{"id": "C154", "title": "What a whole call looks at: a few searches and the entries concerned", "statement": "Apart from the entries they hand out or change, the calls listed here look at no more than logarithmically many stored intervals. NoditMap::overlapping does two searches and steps on the entries it yields; gaps_untrimmed and gaps_trimmed at most eight searches and a walk over the overlapping entries; contains_interval at most eight searches and a walk over overlapping entries that ends at most one entry after the first point that is missing; remove_overlapping and cut one search, the overlapping entries and at most one more; insert_overwrite two searches and that walk; insert_merge_overlapping at most four and insert_merge_touching_or_overlapping at most eight searches and that walk; insert_merge_touching at most eight and insert_merge_touching_if_values_equal at most ten searches and at most one entry. ZosditMap::remove_last_value_at_point does one search, insert_strict_back at most three, overlapping two and no more steps than values yielded, cut one and a walk over overlapping entries and at most one more. Gqdit::gaps_no_identifier does two searches and walks over the overlapping entries; gaps_with_identifier at most six searches, the overlapping entries, and on each side the run of entries with no other identifier and at most one more; an update that meets k entries does at most 1 + 10 k searches and at most 2 k + 1 steps. A search among n entries looks at no more than 11 (1 + log2 (n + 1)) / 2 intervals. All this in whatever B-trees the maps are stored, and the answers are those of the model.", "quantifier": "for all reachable maps and Gqdits, all intervals, all B-trees that hold the entries met during the call, of any depth and shape", "why_tests_cant": "The tests only check results on small maps; a method that scans the whole map gives the same results. No finite set of maps shows how the work grows, and the shape of the trees depends on the history.", "anchors": ["README.md:24", "src/nodit/map.rs:153", "src/nodit/map.rs:366", "src/nodit/map.rs:430", "src/nodit/map.rs:497", "src/nodit/map.rs:585", "src/nodit/map.rs:678", "src/nodit/map.rs:832", "src/nodit/map.rs:920", "src/nodit/map.rs:1021", "src/nodit/map.rs:1094", "src/nodit/map.rs:1166", "src/zosdit/map.rs:223", "src/zosdit/map.rs:279", "src/zosdit/map.rs:419", "src/zosdit/map.rs:501", "src/gqdit/mod.rs:121", "src/gqdit/mod.rs:172", "src/gqdit/mod.rs:259", "src/gqdit/mod.rs:317", "src/gqdit/mod.rs:367"]}
{"id": "C155", "title": "Building a map and appending a Gqdit take linearly many searches", "statement": "NoditMap::from_iter_strict and from_slice_strict, and ZosditMap::from_iter_strict_back and from_slice_strict_back, given n entries, do at most 3 n searches among at most n entries and step on at most n entries. Gqdit::append, with g entries in self and h in other, does at most 1 + 10 g + 11 h searches, each among at most g + 2 h entries, and steps on at most 2 g + 4 h + 1 entries; it adds at most g + 3 h entries to self's tree and removes at most 2 g + 3 h. So although one entry of other may meet every entry of self, appending is not quadratic. A search among n entries looks at no more than 11 (1 + log2 (n + 1)) / 2 intervals. All this in whatever B-trees the maps are stored, and the answers are those of the model.", "quantifier": "for all lists of entries, all reachable Gqdits, all B-trees that hold the entries met during the call, of any depth and shape", "why_tests_cant": "The tests check results only, and on small inputs; a quadratic append gives the same results.", "anchors": ["src/nodit/map.rs:1206", "src/nodit/map.rs:1239", "src/zosdit/map.rs:571", "src/zosdit/map.rs:603", "src/gqdit/mod.rs:424"]}
{"id": "C156", "title": "Programs that build, clone and compare ZosditMaps behave as described, and only as described", "statement": "Take programs with any number of ZosditMap variables that make new maps, build them with from_iter_strict_back or from_slice_strict_back, call any method, assign clones and ask whether two maps are equal, each step depending on the answers so far. A program is careful if it inserts no single-point interval into a map that may hold some single point twice, and compares such maps only if they differ; a program that never calls cut is careful. For careful programs the modelled maps give the same result as every implementation whose methods and constructors do what their documentation says (C129, C132), whose clones have the same entries and count, and whose equality means the same entries and the same count of values removed through remove_last_value_at_point (len exceeds the number of entries by it); and the modelled maps are such an implementation. Conversely an implementation on which every careful program gives the same result as on the modelled maps has these properties. A program that is not careful can tell two such implementations apart.", "quantifier": "for all implementations, all programs, all lists of entries, all interval types whose values are determined by their bounds, all lawful equalities on intervals and values", "why_tests_cant": "Each test fixes one sequence of calls on one map; this speaks about all interleavings of calls, clones and comparisons of any number of maps.", "anchors": ["src/zosdit/map.rs:61", "src/zosdit/map.rs:96", "src/zosdit/map.rs:571", "src/zosdit/map.rs:603"]}
{"id": "C157", "title": "User code may have side effects or answer anything: NoditMap then invents and duplicates no value, and with right answers behaves as described", "statement": "Let every method the NoditMap calls on the user's types (cmp, <, >, <=, up, down, start, end, is_valid, overlaps, From, Clone, PartialEq) be a program that may change the state of the world, answer differently each time, answer nonsense or panic. Then overlapping still hands out a run of stored entries and get_key_value_at_point a stored one; insert_strict leaves the map alone if it panics or refuses (giving the value back), and otherwise stores the value as a new entry or in place of one other value; remove_overlapping takes out a run of entries and returns exactly these; cut replaces each entry of a run by at most two with clones of its value and returns the values of the run; insert_overwrite is such a cut followed by storing the value; the merging insertions take out a run of entries and at most two others (insert_merge_overlapping: none) and store the value. Over a history without cut and insert_overwrite, every value given is stored, handed back or dropped exactly once; with them every value stored or handed back is one that was given or a clone of one. If the user's code, whatever its side effects, always gives the answers of a lawful point and interval type, then from every reachable map each of these methods, gaps_untrimmed and gaps_trimmed have the same outcome as without side effects, in every state of the world and for every shape of the tree, so that histories end in the same maps.", "quantifier": "for all user code, all states of the world, all maps, all histories, all trees with the entries of the map; the last part for all lawful point and interval types", "why_tests_cant": "Tests use a few well-behaved types; inconsistent or stateful comparisons, clones and conversions are a huge space of programs of which no test tries more than one.", "anchors": ["src/nodit/map.rs:153", "src/nodit/map.rs:310", "src/nodit/map.rs:366", "src/nodit/map.rs:430", "src/nodit/map.rs:714", "src/nodit/map.rs:733", "src/nodit/map.rs:1166", "src/utils.rs:94"]}
{"id": "C158", "title": "User code may have side effects or answer anything: ZosditMap then keeps its count, invents and duplicates no value, and with right answers behaves as described", "statement": "Let every method the ZosditMap calls on the user's types be a program that may change the state of the world, answer differently each time, answer nonsense or panic. Then insert_strict_back leaves the map alone if it panics or refuses (giving the value back), and otherwise puts the value behind the values of some stored interval or in a new entry, and len grows by one; remove_last_value_at_point returns and takes out the last value of some stored interval, or changes nothing; cut replaces each entry of a run by at most two with clones of its values and returns the values of the run. Over every history (panics caught) len is at least the number of values stored plus the number taken by remove_last_value_at_point, and exactly that if no cut panicked; so is_empty is never wrong when it says true, the subtraction in cut never goes below zero, remove_last_value_at_point panics only if the user's code does, and first_key_value and last_key_value agree with iter. Without cuts every value given is stored, handed back or was given to an insertion that panicked, exactly once; with cuts every value stored or handed back is one that was given or a clone of one. If the user's code, whatever its side effects, always gives the answers of a lawful point and interval type, then from every reachable map get_last_value_at_point, remove_last_value_at_point, is_zero_overlap, overlapping and cut have the same outcome as without side effects, and so has insert_strict_back, except that among several stored intervals with the same points the tree decides which gets the value.", "quantifier": "for all user code, all states of the world, all maps, all histories, all trees with the entries of the map; the last part for all lawful point and interval types", "why_tests_cant": "Tests use a few well-behaved types; inconsistent or stateful comparisons, clones and conversions are a huge space of programs of which no test tries more than one.", "anchors": ["src/zosdit/map.rs:176", "src/zosdit/map.rs:223", "src/zosdit/map.rs:279", "src/zosdit/map.rs:354", "src/zosdit/map.rs:419", "src/zosdit/map.rs:501", "src/utils.rs:183"]}
{"id": "C159", "title": "Filling a map from an iterator or deserializer that is arbitrary user code, and writing it to an arbitrary serializer", "statement": "Let the iterator given to from_iter_strict / from_iter_strict_back, the SeqAccess read by the Deserialize implementations and the methods called on points and intervals be programs that may change the state of the world, answer anything, never end, fail or panic. Then: a finished from_iter_strict_back or ZosditMap deserialization has stored every value drawn exactly once and len is the number drawn; a finished from_iter_strict or NoditMap deserialization has stored values drawn, each at most once; the value an error carries is the last one drawn; deserialization calls the format's Error::custom for every element drawn, also for accepted ones, so if that panics only empty sequences can be read. If the points and intervals give the answers of a lawful type (the source may still do anything), the outcome is the one from_iter_strict / from_iter_strict_back / deserialization has for the list of the elements drawn: the same map, the same refused value, a panic only if there is one for that list or in the source; a failing source gives its own error and everything before was acceptable; a sequence of the entries of a reachable NoditMap is never refused and gives that map. A serializer, whatever it does, is told the length and then the entries in order until it fails, panics or has got them all; the length a ZosditMap announces is never smaller than the number of elements that follow, whatever user code built it.", "quantifier": "for all user code (sources, sinks, comparisons, error constructors), all states of the world, all trees, any number of elements; the parts about outcomes for all lawful point and interval types", "why_tests_cant": "Tests build maps from short literal lists; endless, failing, panicking and stateful sources that share state with the comparisons are a space of programs no test enumerates.", "anchors": ["src/nodit/map.rs:1239", "src/nodit/map.rs:1446", "src/nodit/map.rs:1502", "src/zosdit/map.rs:603", "src/zosdit/map.rs:655", "src/zosdit/map.rs:707"]}
{"id": "C160", "title": "Gqdit with user code of any kind", "statement": "Let the methods a Gqdit calls on points, intervals and identifiers (comparisons, up, down, start, end, is_valid, overlaps, contains_point, From<Interval>, the identifiers' cmp, == and clone) be programs that may change the state of the world, answer anything or panic. Then, also when a call panics: a successful new holds one interval with no identifiers; after insert every set held is one held before, a clone of one, or one held before with at most the given number of clones of given identifiers put in and nothing lost; after cut_with_identifiers it is one held before, a clone of one, or one held before without some elements; after cut_all_identifiers the last is the empty set; append takes a run of entries out of other; after any history of calls, nested appends and caught panics included, every identifier stored was given to some insert or made from such a one by cloning; with no identifiers or an interval said to be invalid nothing changes and nothing more is asked; identifiers_at_point returns nothing or a clone of a stored set; gaps_no_identifier returns stored intervals without identifiers, in order. If the user code gives the answers of lawful types (with any side effects), then new, insert, cut_with_identifiers, cut_all_identifiers, append, gaps_no_identifier, gaps_with_identifier and identifiers_at_point have the same outcomes, and every history the same Gqdit, as without side effects.", "quantifier": "for all user code, all states of the world, all trees of the map and of the sets, all histories; the second half for all lawful point, interval and identifier types and all reachable Gqdits", "why_tests_cant": "Tests use integers with derived comparisons; programs that answer the k-th question wrongly, change shared state or panic in between are a space no test enumerates.", "anchors": ["src/gqdit/mod.rs:121", "src/gqdit/mod.rs:172", "src/gqdit/mod.rs:259", "src/gqdit/mod.rs:317", "src/gqdit/mod.rs:367", "src/gqdit/mod.rs:424", "src/gqdit/mod.rs:450"]}
{"id": "C161", "title": "Trait defaults, constructors and the remaining NoditMap methods with user code of any kind", "statement": "Let the methods called on points, intervals and values be programs that may change the state of the world, answer anything or panic. Then, also when a call panics: after any history of NoditMap calls every stored interval was given to some insertion or made by From<Interval>; gaps, and the interval in the Err of get_key_value_at_point, were made by From<Interval>, and what get_at_point returns is stored; overlapping_mut, iter_mut and get_at_point_mut leave all intervals as they are and change only the values of one run of entries (all of them for iter_mut, at most one for get_at_point_mut), from left to right, an edit that panics is kept and those after it are not made. If the user code gives the answers of lawful types (with any side effects), then the default methods of InclusiveInterval (is_valid, contains_point, contains_interval, is_singular, overlaps, intersection, translate, width), the nine constructors, the conversions from and to ranges, get_at_point, contains_point, contains_interval, overlapping_mut, iter_mut and get_at_point_mut have the same outcomes as without side effects, and an interval type that implements only start, end and From<Interval> gives every history the map it should.", "quantifier": "for all user code, all states of the world, all trees, all histories; the second half for all lawful point and interval types and all reachable maps", "why_tests_cant": "Tests use integers with derived comparisons; programs that answer the k-th question wrongly, change shared state or panic in between are a space no test enumerates.", "anchors": ["src/interval.rs:421", "src/interval.rs:442", "src/interval.rs:498", "src/interval.rs:526", "src/nodit/map.rs:199", "src/nodit/map.rs:235", "src/nodit/map.rs:257", "src/nodit/map.rs:678", "src/nodit/map.rs:1347"]}
{"id": "C162", "title": "NoditSet with user code of any kind", "statement": "Let the methods a NoditSet calls on points and intervals, and the sources and sinks it is loaded from and written to, be programs that may change the state of the world, answer anything or panic. Then, also when a call panics: after any history every interval in the set, and every interval handed to the caller, was given to some insertion or made by From<Interval>; insert_strict puts the interval at one place or changes nothing, and changes nothing if it returns Err or panics; remove_overlapping takes out one run of intervals and returns these; cut replaces one run, each interval by at most two; from_iter_strict and deserialization end with the intervals drawn, less those lost to wrong answers; the code that makes a deserialization error runs only for a refused element (unlike NoditMap's, C159); serialization announces the length and then gives the intervals in order. If the user code gives the answers of lawful types (with any side effects), all queries, insertions and removals have the same outcomes as without side effects, every history the same set, and loading gives what loading the list of the intervals drawn gives.", "quantifier": "for all user code, all states of the world, all trees, all histories, sources and sinks (endless ones too); the second half for all lawful point and interval types and all reachable sets", "why_tests_cant": "Tests use integers with derived comparisons and complete lists; programs that answer the k-th question wrongly, change shared state, fail or panic in between are a space no test enumerates.", "anchors": ["src/nodit/set.rs:33", "src/nodit/set.rs:50", "src/nodit/set.rs:58", "src/nodit/set.rs:68", "src/nodit/set.rs:75", "src/nodit/set.rs:102", "src/nodit/set.rs:125", "src/nodit/set.rs:139", "src/nodit/set.rs:239", "src/nodit/set.rs:286"]}
{"id": "C163", "title": "User code that gives the right answers or panics leaves exactly the states of C69-C74", "statement": "Let the methods called on points and intervals have any side effects but give the answers of lawful types, and let From<Interval>, the values' clone and == (for Gqdit: the identifiers' clone and ==) give the right answer or panic, whenever they like and whatever the state of the world. Then every call of cut, insert_overwrite and the four merging inserts of NoditMap, ZosditMap::cut, and Gqdit's new, insert, cut_with_identifiers, cut_all_identifiers and append leaves and returns what the crash-point semantics of C69-C74 gives for some crash point. Hence after any history of NoditMap calls, panicking ones among them, the map is one that calls without panics can build; a cut that panics leaves all entries outside the cut, all of the map right of the entry it was at, and left of it exactly what is outside the cut; insert_merge_touching, insert_merge_overlapping and insert_merge_touching_or_overlapping leave the map as it was if they panic; ZosditMap::len is right after a cut that returns and at most two too high after one that panics; a Gqdit keeps its intervals in order and its values sets.", "quantifier": "for all lawful point and interval types, all such user code, all states of the world, all trees, all reachable states, all histories", "why_tests_cant": "A panicking clone or From<Interval> can strike at any of unboundedly many calls, depending on arbitrary hidden state.", "anchors": ["src/nodit/map.rs:430", "src/nodit/map.rs:832", "src/nodit/map.rs:920", "src/nodit/map.rs:1021", "src/nodit/map.rs:1094", "src/nodit/map.rs:1166", "src/zosdit/map.rs:419", "src/gqdit/mod.rs:259", "src/gqdit/mod.rs:317", "src/gqdit/mod.rs:367", "src/gqdit/mod.rs:424"]}
{"id": "C164", "title": "User code that gives the right answers or panics, anywhere, leaves only the states of C92-C94", "statement": "Let all user code - the comparisons, up and down of points, start, end, is_valid, overlaps and contains_point of intervals, From<Interval>, clone and == of values, cmp, == and clone of identifiers - give the right answer or panic, whenever it likes and with any side effects. Then every query of NoditMap (overlapping, overlaps, gaps_untrimmed, gaps_trimmed, get_key_value_at_point), ZosditMap (is_zero_overlap, overlapping, get_last_value_at_point) and Gqdit (gaps_no_identifier, gaps_with_identifier, identifiers_at_point) gives the right answer or panics, and every call that changes a collection leaves and returns the right result, or panics and leaves one of the states the call passes through (C92-C94). Hence a NoditMap left by any history of calls, with panics caught, is one calls without panics can build; no call gives a point a value it has neither before nor after the complete call, or touches entries it is not about. A ZosditMap left by any such history, cuts and panics included, in trees of any shape, is in order with at most zero overlap, and len is never too small; insert_strict_back and remove_last_value_at_point do all or nothing. In a Gqdit left by any such history the intervals are in order and the values sets; an insert that panics leaves each point its old identifiers, none, or the new ones, and loses at most one run of points outside its interval; append does so with two such Gqdits.", "quantifier": "for all lawful point and interval types, all such user code, all states of the world, all trees, all histories", "why_tests_cant": "A panicking comparison can strike at any of unboundedly many calls, depending on arbitrary hidden state.", "anchors": ["src/nodit/map.rs:430", "src/nodit/map.rs:832", "src/nodit/map.rs:920", "src/nodit/map.rs:1021", "src/nodit/map.rs:1094", "src/nodit/map.rs:1166", "src/zosdit/map.rs:223", "src/zosdit/map.rs:279", "src/zosdit/map.rs:419", "src/gqdit/mod.rs:259", "src/gqdit/mod.rs:317", "src/gqdit/mod.rs:367", "src/gqdit/mod.rs:424"]}
{"id": "C165", "title": "Default methods, queries, &mut access, NoditSet and loading with user code that gives the right answers or panics", "statement": "Let all user code give the right answer or panic, whenever it likes and with any side effects (as in C164). Then the default methods of InclusiveInterval (is_valid, contains_point, contains_interval, is_singular, intersection, overlaps, translate, width), the constructors and range conversions, get_at_point, contains_point and contains_interval of NoditMap and all queries of NoditSet give the right answer or panic. overlapping_mut, iter_mut and get_at_point_mut, whose caller may panic at any entry, change the entries up to there as they should, leave at that entry what the caller left, and touch no other entry; the keys and so the map's validity never change. Every call that changes a NoditSet leaves and returns the right result, or panics and leaves one of the states of C92; a set left by any history with panics caught is one calls without panics can build, with its intervals in order and disjoint, and no call lets a point in that is in neither before nor after the complete call. from_iter_strict, from_iter_strict_back and deserializing, from sources that may do anything, with any code to make the error, give for the elements drawn exactly what they give for a list of them, unless they panic; then all elements but the last had been accepted. So reading back what was serialized is never refused.", "quantifier": "for all lawful point and interval types, all such user code, sources and callers, all states of the world, all trees, all histories", "why_tests_cant": "A panic can strike at any of unboundedly many calls of user code, depending on arbitrary hidden state.", "anchors": ["src/interval.rs:430", "src/interval.rs:145", "src/nodit/map.rs:199", "src/nodit/map.rs:257", "src/nodit/map.rs:678", "src/nodit/map.rs:1239", "src/nodit/map.rs:1347", "src/nodit/map.rs:1502", "src/nodit/set.rs:33", "src/nodit/set.rs:102", "src/nodit/set.rs:286", "src/zosdit/map.rs:603", "src/zosdit/map.rs:707"]}
{"id": "C166", "title": "Gap iterators drawn from one gap at a time, by any caller", "statement": "The iterators of gaps_untrimmed and gaps_trimmed run user code between two gaps. Let a caller, itself user code, make one and ask it for gaps. Whatever the user code does: drawing all gaps is the same as the all-at-once iteration of C157-C165, with the same calls of user code in the same order; contains_interval asks exactly once; each gap drawn was made by From<Interval<I>>, and there are at most two more gaps than entries; after the first None, there is None forever and no user code is called. If the user code gives the right answers or panics, then the gaps drawn before the caller stops, or anything panics, are the first of the gaps that there are, in order, with none missing; if nothing panics, asking n times gives exactly the first n. A caller that catches a panic of the iterator and goes on can be given a gap with a stored entry inside (refuted by a witness); the map itself is not changed.", "quantifier": "for all lawful point and interval types, all user code, callers, states of the world, trees and query intervals, all numbers of gaps asked for", "why_tests_cant": "The iterators are suspended between any two steps, while callers and user code with arbitrary hidden state run; tests collect the gaps at once.", "anchors": ["src/nodit/map.rs:497", "src/nodit/map.rs:585", "src/nodit/map.rs:678", "src/nodit/set.rs:102"]}
{"id": "C167", "title": "Derived Clone and equality, and Gqdit's serde methods, with user code of any kind", "statement": "Whatever clone and eq of the keys, values and identifiers do: a clone of a NoditMap, NoditSet, ZosditMap or Gqdit has, in the same places, what clone returned for each key and value, and a ZosditMap's clone has the same len; two containers are found equal only if eq said true for all corresponding keys and values, and unequal only if the lengths differ or eq said false for a corresponding pair; containers of different lengths are compared without any user code; a panic is always one of the user code. If the user code gives the right answers, clone returns an equal container and eq is equality of the entries; if it may panic as well, the result is that or a panic. The same holds for Interval, and intervals whose points hash alike hash alike. Gqdit's serialize writes the entries in order, as far as it gets, after their number; deserialize gives what the entries read give, and a Gqdit made by calls is read back as itself if it is read back at all.", "quantifier": "for all user code, states of the world and containers; for serde all data formats and lawful point and interval types", "why_tests_cant": "Clone and eq implementations with arbitrary results, side effects and panics range over an infinite space; tests use integers.", "anchors": ["src/nodit/map.rs:58", "src/nodit/set.rs:22", "src/zosdit/map.rs:61", "src/gqdit/mod.rs:66", "src/gqdit/mod.rs:537", "src/gqdit/mod.rs:560", "src/interval.rs:40"]}
{"id": "C168", "title": "What the derived Debug impls print tells values apart", "statement": "Call a Debug impl delimited if its text never starts with one of , : } ] ) or a blank, and whoever reads the text followed by one of them, or by nothing, knows where it ends and which value it is. The integers are delimited; Interval is if its points are; NoditMap, NoditSet, ZosditMap, Gqdit, OverlapError and NonZeroOverlapError are if their keys, values and identifiers are, so they stay so at any nesting; all this for {:?} and {:#?}. So two containers print the same text iff they have the same entries in the same order (for a ZosditMap: also the same len), and iff they are ==, when == of the parts is identity. {:?} writes one line if the parts do; {:#?} of an Interval and of a NoditMap with parts of one line has one line per field and entry, indented by four and eight blanks.", "quantifier": "for all Debug impls of points, keys, values and identifiers, all containers (reachable or not), both formats, any nesting", "why_tests_cant": "Ambiguous texts would need two different containers among infinitely many that print alike; tests compare single texts.", "anchors": ["src/interval.rs:40", "src/nodit/map.rs:58", "src/nodit/map.rs:66", "src/nodit/set.rs:22", "src/zosdit/map.rs:61", "src/zosdit/map.rs:72", "src/gqdit/mod.rs:66", "src/utils.rs:13", "src/utils.rs:88"]}
{"id": "C169", "title": "A container can be saved and loaded anywhere in a program", "statement": "A program uses one container through its methods, choosing each call from the answers to the earlier ones, and may at any time, as often as it likes, save the container with serde and go on with what it loads, from the elements themselves or from a counted data format with anything written behind. For NoditMap, NoditSet and Gqdit loading never fails and the program ends with the same result as without saving. For ZosditMap the same holds if no two keys in what is saved have the same points and the program never asks len or is_empty, or if len was also right in what is saved; in a file of a counted format a program whose saved maps have no two such keys fails to load exactly if len was wrong in one of them. Otherwise it is false: cut can leave two keys of the same points, which loading joins, and removing leaves len too big, which loading corrects.", "quantifier": "for all reachable containers, all programs with any number of saves at any places, all faithful codecs, all points, intervals and values", "why_tests_cant": "Round-trip tests compare one saved container with one loaded; that nothing a program does later can tell them apart is a statement about all programs.", "anchors": ["src/nodit/map.rs:1446", "src/nodit/set.rs:235", "src/zosdit/map.rs:650", "src/gqdit/mod.rs:569", "src/zosdit/map.rs:419", "src/zosdit/map.rs:223"]}
{"id": "C170", "title": "Users booking places in one Gqdit, first fit, never get in each other's way", "statement": "Users with an identifier each book n+1 consecutive places inside a valid interval q of one Gqdit: take gaps_with_identifier(d, q), intersect each with q, find the first of width at least n, insert {d} on its first n+1 places; and they give places back with cut_with_identifiers({d}, k). A booking never panics; it gets the leftmost n+1 consecutive places of q that nobody else has anything of (its own may be among them), and fails, changing nothing, only if there are none. Nobody's deeds change what others have. After any history no place has two owners, and d has p iff d booked a place covering p and has not given p back since.", "quantifier": "for all integer point types, both build kinds, all interval types that keep the contract, all identifier types with a total order, all reachable Gqdits, all valid q with a width that fits, all sizes, all histories of bookings and returns by any number of users", "why_tests_cant": "Correctness of the booking rests on gaps_with_identifier listing all maximal runs, also those partly outside q and those through the user's own places, in every reachable state; tests see some states.", "anchors": ["src/gqdit/mod.rs:172", "src/gqdit/mod.rs:367", "src/gqdit/mod.rs:259", "src/interval.rs:498", "src/interval.rs:571"]}
{"id": "C171", "title": "The values at all points of an interval can be changed with gaps_trimmed, cut and insert_strict", "statement": "Take gaps_trimmed(q) and the entries yielded by cut(q); insert_strict each piece back with its value v replaced by f(Some(v)), and each gap with f(None), leaving out those for which f gives nothing. No call panics, no insert_strict is refused, and afterwards at every point of q there is f of what was there, at all others what was there. Any number of such changes in a row have at each point the effect of the changes whose intervals contain it, in order; commuting ones may be swapped. In particular counting one more for each of any list of intervals leaves at each point the number of intervals containing it.", "quantifier": "for all point types keeping the contract, all stored and query interval types, all value types, all reachable maps, all valid q, all functions f, all lists of changes, all points", "why_tests_cant": "Needs gaps_trimmed and cut to partition every q exactly in every reachable state, with query edges inside entries, inside gaps and at the ends of the point type, for any f.", "anchors": ["src/nodit/map.rs:585", "src/nodit/map.rs:430", "src/nodit/map.rs:714"]}
{"id": "C172", "title": "Formatting stops at the first error or panic, and hides and invents none", "statement": "The Debug impls of Interval, NoditMap, NoditSet, ZosditMap, Gqdit, their errors and the helpers, for {:?} and {:#?}, writing to any fmt::Write sink. If the Debug impls of keys, values, points and identifiers write their texts, in pieces of any kind, and end as the first write that does not end well did, then so do the derived ones, with the texts of C168: a sink that takes everything gets the whole text and Ok; otherwise the first refusal (or panic) of the sink is the last write, what was offered until then is a prefix of the text, and fmt ends with that error or panic. For Debug impls of users that do anything (fail, panic, keep a state, ignore refusals) the calls made to them are the first ones of those for the keys and values (identifiers, points) in order, all but the last ended with Ok; fmt ends with Ok only if all were made and ended with Ok, and otherwise as the last call or the last write did.", "quantifier": "for all Debug impls of users with any state, all sinks, all containers (well-formed or not), both {:?} and {:#?}", "why_tests_cant": "A sink may refuse at any write, and a user's impl fail or panic at any value; tests format to Strings, which never refuse.", "anchors": ["src/interval.rs:40", "src/nodit/map.rs:58", "src/nodit/set.rs:22", "src/zosdit/map.rs:61", "src/gqdit/mod.rs:66", "src/nodit/map.rs:66", "src/zosdit/map.rs:72", "src/utils.rs:88"]}
{"id": "C173", "title": "A map built anew with insert_merge_touching_if_values_equal has the same values and the fewest entries", "statement": "Inserting the entries of a NoditMap in order into a new one with insert_merge_touching_if_values_equal never panics and is never refused. The new map returns at every point what the old one does; each of its entries is a maximal interval of points with its value; and every map that returns the same at all points has at least as many entries. Two maps tidied like this compare equal exactly if the maps return the same at every point; tidying twice changes nothing; and counting how many intervals of a list cover each point (C171) and tidying gives equal maps for every order of the list.", "quantifier": "for all point types keeping the contract, all interval types, all value types with a lawful ==, all reachable maps, all competing reachable maps, all lists of intervals and their permutations", "why_tests_cant": "Minimality and equality are claims about all maps with the same values at all points.", "anchors": ["src/nodit/map.rs:920", "src/nodit/map.rs:934", "src/nodit/map.rs:58"]}
{"id": "C174", "title": "The nearest entries, and all of them, can be found with point lookups alone", "statement": "Ask get_key_value_at_point(p); if it returns Err(gap), ask again at the point after the gap's end (before its start), if there is one. This never panics, the second lookup always returns Ok, and the result is the entry containing p or else the first one after it (the last one before it); if the gap reaches the end (start) of the point type there is none. Going on from the point after the end of each entry found gives exactly the entries that do not end before p, in the order of iter(); from MIN it gives iter(). So two maps that answer get_key_value_at_point alike at all points have the same entries.", "quantifier": "for all point types keeping the contract, all interval types, all value types, all reachable maps, all points", "why_tests_cant": "Needs the returned gap to end exactly where the next entry starts in every reachable state, at both ends of the point type.", "anchors": ["src/nodit/map.rs:310", "src/nodit/map.rs:315"]}
{"id": "C175", "title": "The widths of overlapping entries and of trimmed gaps count the taken and the free places", "statement": "For an integer point type and a query whose own width fits the type: summing width() + 1 over the intersections of the entries of overlapping(query) with the query never panics and gives the number of the query's points that are covered; summing width() + 1 over gaps_trimmed(query) gives the number of those that are not; together they are the size of the query. A strict insertion of an interval inside the query adds that interval's size, an overwriting insertion adds the places that were free in it, a cut takes away the places that were taken in it. For unsigned types the condition on the query always holds; for signed types it is needed.", "quantifier": "for all integer types whose least value is not above 0, builds with and without overflow checks, all interval types, all value types, all reachable maps, all valid queries whose width fits", "why_tests_cant": "Needs the pieces returned to be disjoint and to miss no point in every reachable state and for every query.", "anchors": ["src/interval.rs:571", "src/interval.rs:498", "src/nodit/map.rs:153", "src/nodit/map.rs:585", "src/nodit/map.rs:430", "src/nodit/map.rs:1166"]}
{"id": "C176", "title": "A whole map can be moved with translate", "statement": "Translate every key of a map of integer points by d and load the result with from_iter_strict. If every interval stays inside the type this returns Ok in debug and release builds, the entries are those of the map in the same order, each d further up, get_at_point(p + d) then answers what get_at_point(p) answered, and moving by -d gives the old intervals and values back. Otherwise a debug build panics. A release build turns the map round the circle of the type's values if no interval is split by the end of the type (get_at_point follows the points round) and panics exactly if one is. It never returns Err. If all intervals stay inside the type, overlapping and overlaps with a moved query give the moved answers, and as many places of it are taken and free.", "quantifier": "for all integer types (release builds: whose range contains 0), both kinds of build, all interval types, all value types, all reachable maps, all distances", "why_tests_cant": "Needs every reachable map and every distance, with wrap-around at either end of the type.", "anchors": ["src/interval.rs:547", "src/nodit/map.rs:1239", "src/nodit/map.rs:310"]}
{"id": "C177", "title": "Debug texts with the options +, 0w, x and X still tell values apart", "statement": "Formatting an Interval, NoditMap, NoditSet, ZosditMap or Gqdit with {:?} or {:#?} and any combination of +, a zero-padded width and x or X hands the options to the impls of the points, values, identifiers, of () and of the len counter, and nothing else in the text changes. The texts of integers of any type with such options can be told apart and from what follows them, so the same holds of intervals and containers: equal texts mean equal contents. Each number has at least the width asked for, and its text is a sign, 0x where asked for, and digits of the asked case that read as the number (in hexadecimal: the number of the unsigned type with the same bits). Without options the texts are those of C168.", "quantifier": "for all such options, both styles, all integer types whose largest value is not negative, all value and identifier types whose own texts can be told apart, all containers", "why_tests_cant": "Needs that zero-padded, signed and hexadecimal texts of all numbers differ, and that no container's text runs into another's.", "anchors": ["src/interval.rs:40", "src/nodit/map.rs:58", "src/nodit/set.rs:22", "src/zosdit/map.rs:61", "src/gqdit/mod.rs:66"]}
{"id": "C178", "title": "Counting the places of the users of a Gqdit", "statement": "On integer points, cutting the gaps of gaps_no_identifier or gaps_with_identifier(d) to a query interval and adding their widths gives the number of points of the query with no identifier, respectively with no identifier other than d; the difference is the number of points that have d alone. Inserting a non-empty set of identifiers at an interval inside the query lowers the first count by that interval's own count, and after cut_all_identifiers the whole query is counted.", "quantifier": "for all integer types with 0, reachable Gqdits, identifiers and valid queries whose width is representable, both build profiles", "why_tests_cant": "An exact count over every reachable state, every query and integers of any size; it needs that the listed gaps are disjoint and complete.", "anchors": ["src/gqdit/mod.rs:121", "src/gqdit/mod.rs:172", "src/gqdit/mod.rs:317", "src/gqdit/mod.rs:367", "src/interval.rs:571", "src/interval.rs:498"]}
{"id": "C179", "title": "Debug texts with every format option", "statement": "Formatting with {:?} or {:#?} and any fill, alignment, +, 0, width, precision, x or X hands the options to the impls of the points, values, identifiers, of () and of the len counter, and nothing else in the text changes. If the fill cannot be part of a number (or the zero flag is given, which makes fill and alignment irrelevant), the texts of integers, intervals, NoditMaps, ZosditMaps and Gqdits can be told apart and from what follows them; those of NoditSets always. With a digit as fill, different intervals can have the same text. A number is surrounded by the fill as the alignment says, on the left by default, and has the asked width exactly unless it is longer; precision does not change numbers.", "quantifier": "for all combinations of options, both styles, all integer types whose largest value is not negative, all value and identifier types whose own texts can be told apart, all containers", "why_tests_cant": "Needs that padded texts of all numbers differ for every fill, alignment and width, and that no container's text runs into another's.", "anchors": ["src/interval.rs:40", "src/nodit/map.rs:58", "src/nodit/set.rs:22", "src/zosdit/map.rs:61", "src/gqdit/mod.rs:66"]}
{"id": "C180", "title": "A whole ZosditMap can be moved with translate", "statement": "On integer points, building a ZosditMap with from_iter_strict_back from the entries of another, each interval moved with translate(d), gives the same entries in the same order, moved, a len that counts them, and the same get_last_value_at_point, overlapping (moved) and is_zero_overlap at moved points and intervals, if every interval stays inside the type; moving back gives the old entries and lookups again. In a debug build it panics exactly if some interval would leave the type.", "quantifier": "for all integer types, reachable ZosditMaps (also after cuts and removals), distances; both build profiles for the first two claims", "why_tests_cant": "Covers every reachable state, including stacked zero-width intervals and maps whose len is too large, and every distance.", "anchors": ["src/interval.rs:547", "src/zosdit/map.rs:603", "src/zosdit/map.rs:176", "src/zosdit/map.rs:633"]}
{"id": "C181", "title": "The points of computed sets can be counted", "statement": "For NoditSets of integers, union, difference, intersection and complement written with the set's calls, and the sum of the sizes of the parts of the result inside a query: the sum is the number of the query's points at which the Boolean formula holds. Union and intersection together count as much as both sets; difference and intersection as much as the first; a set and its complement as much as the query; a program whose formula implies another's counts at most as much; and the count of the symmetric difference is a distance: 0 exactly if the sets agree in the query, symmetric, with the triangle inequality.", "quantifier": "for all integer types containing 0, reachable sets, programs of any size, valid queries whose width fits the type, both build profiles", "why_tests_cant": "Tests count a few fixed sets; this holds for every program over all reachable sets, including unmerged touching intervals.", "anchors": ["src/nodit/set.rs:40", "src/nodit/set.rs:68", "src/nodit/set.rs:85", "src/nodit/set.rs:120", "src/interval.rs:498", "src/interval.rs:571"]}
{"id": "C182", "title": "A whole NoditSet can be moved with translate, and everything computed from it moves along", "statement": "On integer points, building a NoditSet with from_iter_strict from the intervals of another, each moved with translate(d), gives the same intervals, moved, if all of them stay inside the type. A debug build panics exactly if one would leave the type, a release build exactly if one would be split by the end of the type; no build returns an error. Unions, differences, intersections and complements of moved sets contain a moved point exactly if those of the old sets contain the point, where a release build may move points round the end of the type; and a moved query counts as many points of them.", "quantifier": "for all integer types (containing 0 where wrapping is concerned), reachable sets, distances, programs of any size, both build profiles", "why_tests_cant": "Covers every reachable state, every distance including those that wrap, and programs of any size.", "anchors": ["src/interval.rs:547", "src/nodit/set.rs:139", "src/nodit/set.rs:54", "src/nodit/set.rs:40"]}
{"id": "C183", "title": "Moving a whole ZosditMap past the end of the type in a release build", "statement": "On integer points, in a release build, building a ZosditMap with from_iter_strict_back from the entries of another, each interval moved with translate(d) and wrapping: if no interval is split by the end of the type the result has the entries that went round first and the others after them, each part in its old order, a len that counts them, and get_last_value_at_point at a moved point that lies in an old interval before its last place finds what it found, while at the last place it may not; it panics exactly if some interval is split. No build returns an error.", "quantifier": "for all integer types containing 0, reachable ZosditMaps, distances", "why_tests_cant": "Covers every reachable state, including stacked zero-width intervals, and every distance, with entries inserted before the ones that are already there.", "anchors": ["src/interval.rs:547", "src/zosdit/map.rs:603", "src/zosdit/map.rs:176", "src/zosdit/map.rs:633"]}
