# Design

Formal model, in Rocq (Coq 8.16.1), of the `nodit` crate in /repo, with
machine-checked proofs of the properties in `properties.jsonl`.
Build: `cd rocq && coq_makefile -f _CoqProject -o Makefile && make -j4`.

## Trusted base

* Coq's kernel (8.16.1) and the standard library. No axiom of our own. What
  `Print Assumptions` lists is printed under every property theorem in the
  `Prop*.v` files; see "Assumptions" at the end.
* The reading of the Rust source: every definition of the `*Model.v` files
  cites the file and lines it models. The code was never run.
* `btree_monstrousity::BTreeMap` (a dependency, source not in /repo) is modelled
  in `BTree.v` by its in-order entries; a search is the linear scan of one
  node with the crate's comparator closures. `TreeShape.v` shows that a search
  through any multiway tree gives the same answer (C53), so what remains trusted
  is that the dependency is a correct in-order multiway tree whose `Cursor`s
  and `range` follow the documented standard-library behaviour.
* `alloc::collections::BTreeSet` (a strictly sorted list; inserting an element
  Equal to a stored one keeps the stored one), `SmallVec` (a list),
  itertools `tuple_windows` and `coalesce`, and `Option`/`Result` combinators.
* serde: a sequence is the announced length plus the list of elements; the
  encoding of one element is not modelled (an element that fails to parse is
  an explicit `None`).

## Modelling conventions

* Points: a type with `Ord` and `DiscreteFinite` obeying the documented contract
  (`PointLaws`): total order, MIN/MAX extreme, `up`/`down` next/previous, finite.
  Points that compare Equal may differ; the theorems that state an identity of
  keys or maps (C27, C28, C50, C56, C57, C66, C87, and C83-C85 of the target type)
  also assume that they do not (`OrdLaws`, visible in the statement).
  Identifiers of a Gqdit: a total order; C112 and C113 treat identifiers that
  compare Equal without being the same value.
  Intervals: any type with `start`, `end` and `From<Interval>` (`InclusiveInterval`)
  whose conversion preserves the end-points of valid intervals up to Equal
  (`IntervalLaws`).
  Only the gap queries of NoditMap also need that converting an invalid interval
  does not make it valid (`FromInvalid`; what happens otherwise is C75/C76).
  Query intervals may be of a different type. The laws are class arguments of
  the theorems, not axioms; `Instances.v` shows they are met by all eleven
  integer types, by `WithInfinity<T>` and by `Interval`.
* A panic is the explicit outcome `Panic`; a `&mut self` method returns the state
  left behind together with its outcome. Cloning a value is the identity; `CloneModel`
  has the same methods with any `Clone`, and C115 relates the two. Lazy
  iterators are computed at once (`GapsLazyModel` shows this immaterial for the
  gap iterators; `IterModel` drives the double-ended ones by any script of calls).
  A `&mut V` handed to the caller is the function the caller
  applies through it.
* Panics in a user's `Clone`, `PartialEq` or `From` in the middle of an update are
  modelled separately, in `CrashModel` (a crash point in every history) and, for
  `From` in the gap queries, in `GapsLazyModel`. `TraceModel` lists every state in
  which any panic (also one in `Ord`, `InclusiveInterval` or `DiscreteFinite`) can
  leave a map. It takes the B-tree to change in one step, after its search.
* `usize` counters: in `ZosditModel` the field `len` is unbounded and its underflow is a panic; `WidthModel` gives it a finite width in both build modes (C118). The lengths inside the library containers have no width.
* Not modelled: fill characters outside the 256 of the model's texts; memory safety; running time, beyond the counts of C120, C151 and C153-C155;
  allocation failure. `EffectModel` and `EffectZosditModel` are `NoditMap`
  and `ZosditMap` for user code with side effects and any answers
  (C157, C158); `EffectBulkModel` adds their bulk constructors and serde methods (C159), `EffectGqditModel` is `Gqdit` with such methods (C160), `EffectMoreModel` has the trait's default methods, the constructors, the rest of `NoditMap` and `NoditSet` (C161, C162); C163 connects them with `CrashModel`, C164 and C165 with `TraceModel`. `EffectLazyModel` has the gap iterators step by step (C166); it takes `tuple_windows` of itertools 0.13 to ask for nothing before it is asked, and an item whose `map` closure panics to be lost. `EffectDeriveModel` has the derived `Clone`, `PartialEq` and `Hash` (C167); it takes `BTreeMap` to clone its entries in order, key before value, and `BTreeMap` and `SmallVec` to compare the lengths first and then in order. `FmtModel` has the derived `Debug` impls as programs that write to a sink, with users' impls that fail or panic (C172); it takes `write_char` for `write_str` of one character. `OptionsModel` has `Debug` with the options `+`, `0w`, `x` and `X` (C177), `PaddingModel` with all options (C179), with `pad_integral`, `pad` and `padding` of `core::fmt`. `DebugModel` has the texts of the derived `Debug` (C168), with the builders of `core::fmt`; it takes `BTreeMap` to use `debug_map`, `BTreeSet` `debug_set` and `SmallVec` `debug_list`. `OverrideModel`, `OverrideZosditModel` and
  `OverrideGqditModel` are `NoditMap`, `ZosditMap` and `Gqdit` for interval types
  that override `is_valid`, `overlaps` or `contains_point` (C141-C143).

## What is modelled, file by file

| Source | Model | Left out |
|---|---|---|
| `discrete_finite.rs` | `Base` (trait), `InstancesModel` (integer impls, the documented `WithInfinity`) | - |
| `interval.rs` | `Base`, `IntervalModel`, `InstancesModel` (debug and release arithmetic of `translate`/`width`), `EffectMoreModel` | - (`Hash` is in `EqModel`, `Debug` in `DebugModel`, `FmtModel`) |
| `utils.rs` | `UtilsModel` (comparators, `cut_interval`, `exclusive_comp_generator`, ...), `DebugModel` | - |
| `nodit/map.rs` | `NoditModel`, `CloneModel`, `DeriveModel`, `CrashModel`, `GapsLazyModel`, `TraceModel`, `EffectModel`, `EffectBulkModel`, `EffectMoreModel` | `Visitor::expecting` |
| `nodit/set.rs` | `NoditSetModel`, `DeriveModel`, `EffectMoreModel` | same |
| `zosdit/map.rs` | `ZosditModel`, `WidthModel`, `CloneModel`, `DeriveModel`, `CrashModel`, `TraceModel`, `EffectZosditModel`, `EffectBulkModel` | same |
| `gqdit/mod.rs` | `GqditModel`, `DeriveModel`, `CrashModel`, `TraceModel`, `EffectGqditModel` | same |
| README interval type | `InstancesModel` (`Reservation`) | - |
| `btree_monstrousity` (dependency) | `BTree` (in-order entries), `TreeShape` (search in a tree of any shape) | node splitting, memory |

## Files

* Model (no proofs): `Base` `BTree` `UtilsModel` `IntervalModel` `NoditModel`
  `NoditSetModel` `ZosditModel` `GqditModel` `InstancesModel` `TreeShape` `CrashModel`
  `GapsLazyModel` `EqModel` `IterModel` `TraceModel` `CloneModel` `DeriveModel` `WidthModel` `EffectModel` `EffectZosditModel` `EffectBulkModel` `EffectGqditModel` `EffectMoreModel` `EffectLazyModel` `EffectDeriveModel` `DebugModel` `OptionsModel` `PaddingModel` `FmtModel`; `NoditOps`/`NoditSetOps`/`ZosditOps`/`GqditOps` (operations as
  data and the states reachable from `new()`).
* Specification: `Spec` (what a property may mention besides the API functions),
  `NoditAbs` (abstract state of C17/C57), `Ledger` (callers of C77-C79),
  `TransportOps` (the same calls with other points, C83-C85), `IterSpec` (C90, C91),
  `TraceSpec` (C92-C94), `EqualOps` (the same calls with Equal points, C97, C98),
  `GqditTransportOps` (the same Gqdit calls over other types, C99), `GqditSetsOps`
  (the NoditSets a Gqdit stands for, C100, C101), `ZosditAbs` (C109), `CloneOps` (C115, C116), `ElsewhereOps` (C119), `CostOps` (C120), `SerdeOps` (C121, C122: data formats), `CompleteOps`, `CompleteZosditOps` (C127-C129: documented effects as relations), `ClientOps`, `ClientGqditOps`, `ClientZosditOps`, `ClientSetOps` (C130-C133: programs and implementations), `InfinityOps` (C134), `UtilsOps` (C135), `GapLocalOps` (C136), `AppendedOps` (C137), `WalkOps` (C138), `UndoOps` (C139), `WorldOps` (C140), `OverrideOps` (C141), `OverrideZosditOps` (C142), `OverrideGqditOps` (C143), `CrashLenOps` (C74), `PutBackOps` (C144), `MirrorOps` (C145), `SplitOps` (C146, C147), `MergeAllOps` (C148), `OverlayOps` (C149), `FirstFitOps` (C150), `SearchOps` (C151), `GqditWorldOps` (C152), `UserCallsOps` (C153), `LooksOps` (C154), `LooksBulkOps` (C154, C155), `ZosditWorldOps` (C156), `EffectOps` (C157), `EffectZosditOps` (C158), `EffectGqditOps` (C160), `EffectMoreOps` (C161, C162), `EffectCrashOps` (C163), `EffectTraceOps` (C164), `EffectTraceMoreOps` (C165), `given_of` in `EffectLazyModel` (C166), `returns`, `clones`, `clones_entry`, `calm` in `EffectDeriveModel` (C167), `stop_char`, `stops`, `delimited`, `one_line` in `DebugModel` (C168), `SaveOps` (C169), `BookingOps` (C170), `RangeOps` (C171), `TidyOps` (C173), `NearOps` (C174), `PlacesOps` (C175), `ShiftOps` (C176), `ZShiftOps` (C180), `MeasureOps` (C181), `SetShiftOps` (C182), `SharesOps` (C178), `outcome`, `writes`, `well_behaved`, `noting`, `in_turn` in `FmtModel` (C172), `OverrideRunOps` (C141–C143).
* Proofs: the `*Facts`, `*Proofs` files, `Instances`, `NoditQueries`, `NoditGaps`, `OrderOnly`, `OrderOnlyZosdit`,
  `NoditMutations`, `NoditMerges`, `NoditInv`, `NoditMore`, `NoditSim`,
  `NoditNatural`, `NoditSize`, `NoditCoherence`, `IterInv`, `ZosditMut`, `ZosditOrder`, `ZosditOnce`, `ZosditSim`, `GapsExact`, `GqditGaps`, `GqditAlgebra`, `CrashZosdit`, `CrashGqdit`, `TraceGqdit`, `TraceZosdit`.
* Validation: `RepoTests` replays, by computation on the model, every assertion of
  the crate's unit tests and documentation examples (README included). The code
  cannot be run here; these are the only recorded observations of it.
* Statements: `Props*.v`. Each theorem stands beside a concrete `Example`; each
  file ends with `Print Assumptions` of its theorems.

## Plan per property

The invariant is "sorted, disjoint, valid" and is proved equivalent to being
reachable, so every NoditMap theorem speaks about all reachable maps. Each
function is computed from the decomposition of the entries into those left of,
meeting, and right of the query.

| Property | Modelled by | Proof |
|---|---|---|
| C01 | op type + `step`, `fold_left` | invariant preserved by each op |
| C02-C06 | lookups, `overlapping`, `overlaps`, `contains_interval` | decomposition lemma |
| C07, C08, C31 | both gap iterators | gap list = maximal uncovered runs |
| C09-C16 | insertions, `cut`, `remove_overlapping` | entry-level characterisations |
| C17 | abstract function on points | forward simulation over op lists |
| C18 | `outcome` | each function, both directions |
| C19, C20, C21, C56 | constructors, mutable access | induction; corollaries |
| C22 | sequences of elements | round trip by sortedness; the "never panics" clause was split off as C58 |
| C23-C25 | `IntervalModel` | point-set statements; the panicking conversion to `Range` was split off as C59 |
| C26, C55, C60, C61 | bounded integers with debug and release `+`/`-` | overflow refutes; exact conditions for valid results in both build modes (`PropsRelease.v`) |
| C27 | integers as subsets of Z, `WithInfinity` | law instances |
| C28-C30 | `NoditSetModel`, `DeriveModel` | canonicity (no touching neighbours) and simulation |
| C32-C36, C40-C42 | `ZosditModel` | weaker sortedness (end <= next start) |
| C37 | `zosdit_cut` | scan starts at a non-overlapping key: refuted; partial when it does not |
| C38, C39 | `get_last_value_at_point`, `remove_last_value_at_point` | key ending at the point followed by another key: C38 refuted; partial otherwise |
| C43-C52 | `GqditModel` | inner map covers the domain and is canonical |
| C53, C68 | `TreeShape` | every monotone comparator search is shape-independent; duplicate keys refute C68 |
| C54 | `Reservation` | README's `From` adds one to the end: refuted with a concrete history |
| C57 | `NoditAbs` | forward simulation for every operation |
| C58, C59 | deserialization, `Range` | refuted at invalid intervals / at MAX; partial otherwise |
| C62 | every function commutes with a map on values | by computation, no laws |
| C63-C65 | `ZosditModel` | `len` not maintained by removals, duplicate one-point keys: refuted; exact counts; exact for histories whose cuts leave no twin (`ZosditOnce`) |
| C66, C67 | Gqdit serde and `append` | an inner map without its covering entry: refuted; partial |
| C69-C74 | `CrashModel` | invariants weakened to what survives a crash at any call |
| C74 (by how much) | `CrashLen` | counter against entries along the loop; parts are left only of intervals with one value |
| C75, C76 | `GapsLazyModel` | touching neighbours refute; exact condition: `C75_gap_queries_exact`, `C76_contains_interval_panics_exact` |
| C77 | entry counts | at most one entry gains a piece in `cut`; induction over histories |
| C78, C79 | `Ledger` | multiset of values, induction over calls; values at a point for `cut` |
| C80, C81 | `EqModel` | sorted lists with the same elements are equal; no touching entries with equal values |
| C82 | `EqModel` | stale counter and grouping refute; exact for histories whose cuts leave no twin (`ZosditOnce`) |
| C83, C84, C85 | `TransportOps` | every function commutes with an order embedding of the points |
| C86 | `NoditOps` (`converts_nothing`) | `plain_run_WF`: no law of `From<Interval<I>>` is used |
| C87 | Gqdit calls against each other | every call is pointwise on sets; a Gqdit is determined by its points |
| C88, C89 | NoditMap methods against each other | from the specifications C02-C16; lists of maximal runs are unique |
| C90, C91 | iterators driven from both ends, dropped early | simulation by the list still to come |
| C92-C94 | `TraceModel` | every state of a call is between the states of `CrashProofs`; each step changes one entry |
| C95, C96 | calls that convert nothing, over any total order | finitely many points have integer ranks; the calls compare alike |
| C97, C98 | two histories with Equal points | both carried over to the ranks by C83-C85 |
| C99 | two Gqdit histories over corresponding types | `added` (C43) corresponds call by call; gaps and entries are maximal runs |
| C100, C101 | one NoditSet per identifier as reference | both follow `added` (C43, C29); gap lists are unique (C07, C48, C49) |
| C102 | ZosditMap against NoditMap | each side's characterisation determines the result (C04/C35, C09/C34, C11/C37, C02/C38) |
| C103 | `==` and `Hash` of `Interval` | ends determine the points of a valid interval |
| C104 | completeness of the invariants | build the contents from left to right; each insertion absorbs nothing and lands at the end |
| C105 | Boolean algebra of sets | each program is a fold whose points are known (C07, C10, C13); merged sets are determined by their points (C28) |
| C106 | ZosditMap methods agree | each call is known on the list of entries (C33-C39); insertion is an ordered insertion, so different intervals commute |
| C107 | calls are local, unrelated calls commute | every search skips what lies left and stops before what lies right (frame lemmas over the B-tree model); a call covers no point but old ones and its own |
| C108 | the order of insertions into a ZosditMap only matters between equal or overlapping intervals | sorted entries are determined by the values at each interval; two pushes commute by induction over the tree |
| C109 | any ZosditMap history refines an abstract sequence of entries (`ZosditAbs`) | forward simulation; the abstract steps are deterministic up to equal intervals |
| C110 | entries of a Gqdit start where identifiers change; minimality; size bounds | counting of starts (`NoDup`, `incl`) |
| C111 | size of a ZosditMap after `cut` and after a history | counting of pieces; induction over histories |
| C112 | Gqdit over identifiers that are only a total preorder (Equal but different values) | naturality: every call commutes with a comparison-keeping conversion (`GqditNatural`); the identifiers of a history are numbered by their place (`GqditIds`) |
| C113 | *refuted*: a call leaves the very identifiers outside its interval alone; Equal ones, one by one, proved | witness; uniqueness of strictly ascending lists up to Equal |
| C114 | *refuted* for the point calls and `cut`: an insertion elsewhere leaves the answers alone; proved for `overlapping`, `is_zero_overlap`; for the others the cases in which it holds are exact | witnesses; `put` acts on one side of the entries that meet the query (`ZosditLocal`) |
| C115 | which values `cut` and `insert_overwrite` clone, for any `Clone`; lawful clones give the map of the model | `CloneModel` threads a state through every clone; observation lemma (`CloneFacts`, `CloneZosdit`) and exact lists (`CloneZosditExact`) |
| C116 | ZosditMap never inspects its values | every method commutes with `map g` on the stores (`CloneZosdit`) |
| C117 | the derived `Clone` of the four containers | induction on the entries (`DeriveProofs`) |
| C118 | the counter `len` with a finite width, checked and wrapping | simulation of the unbounded model (`WidthFacts`); refuted at every width |
| C119 | *refuted* as stated: removing from one place (`cut`, `remove_last_value_at_point`) leaves the answers about other places alone; the strongest true parts per call | the entries that meet the query are clipped one by one (`ZosditElsewhere`); witnesses |
| C120 | a call inserts boundedly many entries into the tree and removes at most those it is about; amortised bounds for any series of calls (6n NoditMap, 4n ZosditMap, 4n+2k Gqdit) | states of `TraceModel` linked by `one_entry`, so size + removals = size before + insertions; size is the potential (`CostFacts`, `CostZosdit`, `CostGqdit`) |
| C121 | written in any counted or delimited format and read back with anything behind it; *refuted* for ZosditMap in counted formats (the announced counter is wrong after a removal) | codecs with a decoding law (`SerdeFacts`), then C22, C41, C52, C63; witnesses |
| C122 | NoditMap data read as ZosditMap and back | the ZosditMap with one value per entry is rebuilt exactly; sorted + disjoint is `WF` |
| C123 | laws of `intersection`, `contains_*`, `overlaps`, `is_singular` | end points compared by rank; the meet of intervals |
| C124 | laws of `translate`, debug and release | the end points as integers, checked or wrapped |
| C125 | two users' histories interleaved on one Gqdit | each (point, identifier) only follows the calls that concern it; `GWF_ext` |
| C126 | all insertion methods, entries in any order | each insertion adds exactly the entry; a well-formed map is determined by its set of entries |
| C127 | all NoditMap methods | the documented effect of each method (CompleteOps.v) as a relation; its unique solution is the method's result: entries by `WF_perm_eq`, gaps by uniqueness of maximal runs, pieces because an interval is determined by its points |
| C128 | all Gqdit methods | the same for Gqdit; a well-formed Gqdit is determined by the identifiers at each point |
| C129 | all ZosditMap methods | the same for ZosditMap, on the sequence of entries; `ZosditSim` gives the uniqueness of placements and left-overs |
| C130 | all NoditMap methods taking `&self`/`&mut self` | programs as trees of calls branching on answers (`ClientOps.client`); induction on the program with the invariant that both states stand for the same reachable entries; `CompleteProofs` makes each documented effect determine the next entries and the answer |
| C131 | all Gqdit methods | the same with programs holding several Gqdits; a documented effect determines the answer and the relation afterwards without reference to the model; the converse builds any occurring state in a variable by a program (`can_store`) |
| C132 | all ZosditMap methods taking `&self`/`&mut self` | as C130, on the entries and the number of removed values, for programs that insert no single point after a twin was made; C129 and C63 determine each step |
| C133 | all NoditSet methods taking `&self`/`&mut self` | the documented effects are stated on lists of intervals (`ClientSetOps`), translated to those of NoditMap with unit values (`units`), and determined by C127's lemmas; programs as in C130 |
| C134 | NoditMap and Gqdit over `WithInfinity<T>` | C83/C99 give the entries; the gap queries are determined by their maximal runs (C127), and runs over T are carried to runs over `WithInfinity<T>` by `wrap`/`wrap_gap` |
| C135 | `config`, `sorted_config`, `cut_interval` | ranks of the end-points and linear arithmetic; refuted for `sorted_config` |
| C136 | gap queries depend only on the surroundings of the query | a maximal run inside a window is one for every predicate that agrees there (`GapLocal`); Gqdit through C101 |
| C137 | programs that keep using appended Gqdits | the entries are empty once appended and stay so (C67); programs by induction as in C131 (`PropsAppended`) |
| C138 | a ZosditMap describes a walk | a walk is recorded entry by entry (C40, C65); without a pause every point and cut interval satisfies the conditions of C37 and C38, with a pause the end of the entry before it and the entry after it do not (`PropsWalk`) |
| C139 | removals can be undone | the returned entries are pairwise apart and apart from what is left (C9, C10), so inserting them in any order gives a map with known members; equal members, or equal functions and merged values, determine the map (`UndoFacts`) |
| C140 | programs with several maps and sets | the variables of two implementations stay related to those of the model, step by step (C127, C130, C133; `PropsWorld`); for the converse a piece of program brings about each state and its counterpart (`PropsWorldConverse`) |
| C141 | overridden `is_valid` and `overlaps` | the functions with the overrides as parameters; each loop either agrees with the modelled one or only drops or cuts entries (`OverrideFacts`); witnesses for each condition (`PropsOverride`) |
| C142 | the same for `ZosditMap` | as C141; every piece a cut puts back lies inside the interval it removed (`OverrideZosditFacts`, `PropsOverrideZosdit`) |
| C143 | the same for `Gqdit` | from C141, call by call (`OverrideGqditFacts`, `PropsOverrideGqdit`); whole histories for C141–C143 in `PropsOverrideRun` |
| C144 | `cut` of a `ZosditMap` followed by inserting what it returned | the pieces go between what is before and what is after `q`, one after the other, also where other single points are stored twice (`PutBackFacts`, `PropsPutBack`) |
| C145 | left and right | what is documented of a mirrored call on the reversed points is what is documented of the call (`MirrorFacts`), and that determines every program (C130, C131, C133; `PropsMirror`) |
| C146 | splitting an interval | at most one entry or gap reaches across the boundary; parts of entries and maximal runs determine a map (`SplitFacts`, `PropsSplit`) |
| C147 | splitting for ZosditMap | refuted in both orders; pieces of pieces are pieces, and where the second cut finds anything (`SplitZosditFacts`, `PropsSplitZosdit`) |
| C148 | many merging insertions | entries are the connected components, with the last value; any order gives the same intervals (`MergeAllFacts`, `PropsMergeAll`) |
| C149 | maps laid over each other | loops over a second map (`cut`, `gaps_trimmed`, `insert_overwrite`) leave the parts, pieces and overlaid entries they should; laws (`OverlayFacts`, `PropsOverlay`) |
| C150 | first-fit allocation | gaps_trimmed + width + insert_strict hand out the leftmost room, never panic when widths fit; histories of taking and giving back (`FirstFitFacts`, `PropsFirstFit`) |
| C151 | searches are logarithmic | the comparisons of a search listed beside it, bounded by node size and depth; depth from the least number of entries; a B-tree for every list by splitting it evenly (`SearchFacts`, `PropsSearch`) |
| C152 | Programs that append, clone and compare Gqdits | the description of C137 with clones and `==` is met by the model, determines the results of all programs, and follows from them (`GqditWorldOps`, `PropsGqditWorld`) |
| C153 | Number of calls of user code | cut, overwrite, the merging insertions and the Gqdit updates run `K::from`, `V::clone` and `V::eq` exactly (Gqdit: at least and at most) so often (`UserCallsFacts`, `PropsUserCalls`) |
| C154 | What a whole call looks at | every call on B-trees with a log of what it looks at: a few searches, the entries concerned, at most one more (`LooksFacts`, `LooksMoreFacts`, `PropsLooks`; `gaps_trimmed` and `contains_interval` in `LooksBulkFacts`, `PropsLooksBulk`) |
| C155 | Building a map and appending take linearly many searches | the constructors: three searches for each entry given; `append`: each entry of `other` may meet many of `self`, together they meet at most `g + h` (`LooksBulkFacts`, `LooksAppendFacts`, `PropsLooksBulk`) |
| C156 | ZosditMap programs | careful programs with any number of ZosditMaps that build, clone, compare and call them cannot tell the model from any implementation that does what is documented, and only from those (`PropsZosditWorld`) |
| C157 | user code of any kind | whatever the user's code answers, and whatever side effects it has, NoditMap invents and duplicates no value; with the right answers every method has the outcome it has without side effects (`PropsEffect`) |
| C158 | user code of any kind, ZosditMap | whatever the user's code answers, and whatever side effects it has, ZosditMap keeps its count, invents and duplicates no value; with the right answers every method has the outcome it has without side effects (`PropsEffectZosdit`) |
| C159 | sources and sinks that are user code | filling a map from an iterator or deserializer that does anything, and writing it to a serializer that does anything (`PropsEffectBulk`) |
| C160 | Gqdit with user code of any kind | points, intervals and identifiers with side effects, wrong answers and panics (`PropsEffectGqdit`) |
| C161 | Trait defaults, constructors and the rest of NoditMap with user code of any kind | `*_mut` with callers' code that panics; intervals with only `start`, `end`, `From` (`PropsEffectMore`) |
| C162 | NoditSet with user code of any kind | all methods, sources and sinks (`PropsEffectMore`) |
| C163 | User code that gives the right answers or panics leaves exactly the states of C69-C74 | `NoditMap` and `Gqdit` histories, single `ZosditMap` cuts (`PropsEffectCrash`) |
| C164 | User code that gives the right answers or panics, anywhere, leaves only the states of C92-C94 | all histories of `NoditMap`, `ZosditMap` and `Gqdit` (`PropsEffectTrace`) |
| C165 | Default methods, queries, `&mut` access, `NoditSet` and loading with user code that gives the right answers or panics | all such methods, sources and callers, all histories of `NoditSet` (`PropsEffectTraceMore`) |
| C166 | Gap iterators drawn from one gap at a time, by any caller | all user code and callers, all numbers of gaps asked for (`PropsEffectLazy`); drawing on after a caught panic refuted |
| C167 | Derived Clone and equality, and Gqdit's serde methods, with user code of any kind | all user code and containers (`PropsEffectDerive`) |
| C168 | What the derived Debug impls print tells values apart | all Debug impls of the parts, both formats (`PropsDebug`) |
| C169 | A container can be saved and loaded anywhere in a program | `saver`, `go`, `go_on` in `SaveOps`; false for `ZosditMap`, with conditions (`PropsSave`) |
| C170 | Users booking places in one Gqdit, first fit | a maximal run through every vacant place, found by going left and right; the rest as C150 (`BookingFacts`, `PropsBooking`) |
| C171 | Changing the values at all points of an interval | `cut_full` and `gaps_trimmed` partition q; `insert_each_disjoint` puts the pieces back (`RangeFacts`, `PropsRange`) |
| C172 | Formatting with sinks that refuse and users' impls that fail or panic | program combinators keep `writes`, `in_turn` and the outcome; `PadAdapter` keeps how the last write ended (`FmtModel`, `FmtFacts`, `PropsFmt`) |
| C173 | Joining touching entries with equal values | C81 and C139's `put_all_merging`; each entry of the tidied map starts in a different entry of any other map with the same values (`TidyFacts`, `PropsTidy`) |
| C174 | The nearest entries, and all of them, by point lookups | a point next to a maximal gap is covered; induction along the entries (`NearFacts`, `PropsNear`) |
| C175 | Counting taken and free places with `overlapping`/`gaps_trimmed` and `width` | disjoint pieces are counted one by one; two enumerations of the same points have the same length (`PlacesFacts`, `PropsPlaces`) |
| C176 | Moving a whole map with `translate` | moved lists stay ascending; a point on the circle has one preimage (`ShiftFacts`, `PropsShift`, `PropsShiftMore`) |
| C177 | `Debug` texts with the options `+`, `0w`, `x`, `X` | digits without leading zeros can be recovered from zero-padded ones; the rest as C168 (`OptionsFacts`, `PropsOptions`) |
| C178 | Counting the places of a Gqdit's users with `gaps_no_identifier`/`gaps_with_identifier` and `width` | a maximal run cut to the query is counted once; a count minus the count of a part (`SharesFacts`, `PropsShares`) |
| C179 | `Debug` texts with every format option | fills around a number are skipped, its characters are a maximal run (`PaddingFacts`, `PropsPadding`); a digit as fill: `C179_digit_fill` |
| C180 | Moving a whole ZosditMap with `translate` | moved entries stay sorted and are rebuilt one by one; lookups are determined by the listed entries (C129) (`ZShiftFacts`, `PropsZShift`) |
| C181 | Counting the points of computed sets | `count_spec` from C105 and C175; then counting of disjoint unions (`MeasureFacts`, `PropsMeasure`) |
| C182 | Moving a whole NoditSet with `translate` | the set is a map to unit (C176); programs by truth values, counts by a one-to-one correspondence (`SetShiftFacts`, `PropsSetShift`) |
| C183 | Moving a whole ZosditMap past the end of the type | loading entries below the ones already there (`rebuild_before`); the entries fall in two parts (`ZRollFacts`, `PropsZRoll`) |

A refuted property has status `partial` in MANIFEST.json, naming both the
`_refuted` theorem and the strongest true `_partial` theorem proved.

## Assumptions

`Print Assumptions` answers "Closed under the global context" for every theorem
listed in MANIFEST.json: no axiom, not even one of the standard library, is
used. (`vcheck` lists `Coq.ssr.ssrunder.*`: these are parameters of a module type
in a library file that `Lia`/`ZifyBool` load; no theorem depends on them.)
