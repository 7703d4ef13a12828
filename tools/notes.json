{
 "C01": {
  "note": "For every graph obtainable with the API (any operation sequence, any nesting, both build modes). Debug builds may panic on overflow; C01_no_overflow_below_2_64 says when they do not."
 },
 "C02": {
  "note": "Pointwise at every stack; C02_add_panics_iff states exactly when a debug build panics."
 },
 "C03": {
  "note": "Equality is of observations (text, total, sizes at every stack), which is what C05 shows to be observable."
 },
 "C04": {
  "note": "The listing is characterised by membership and order, and C04_listing_unique shows it is the only one."
 },
 "C05": {
  "note": "Map iteration order is an arbitrary permutation at every point. C05_bad_key_refuted: false for keys made with Key::new_unchecked and a wrong hash."
 },
 "C06": {
  "note": "Parser is an independent definition in Spec.v. C06_decodable_iff makes the side condition (no separators in frames) exact."
 },
 "C07": {
  "note": "The unconditional claim is refuted (C07_type_name_refuted: array type names contain ';'); the exact condition is proved."
 },
 "C08": {
  "note": "C08_new_unchecked_refuted: Eq and Ord disagree for keys made with new_unchecked and a wrong hash."
 },
 "C09": {
  "note": "For all strings; known FNV-1a vectors in C09_known_vectors (example)."
 },
 "C10": {
  "note": "Debug: total declared below 2^63 (C22 shows the bound is tight). Release: C10_release, no bound."
 },
 "C11": {
  "note": "Event-level semantics with mem::forget."
 },
 "C12": {
  "note": "Total declared below 2^63 (tight, C22)."
 },
 "C13": {
  "note": "Total declared below 2^63."
 },
 "C14": {
  "note": "Includes nests of scopes and further encounters (C41 for the doc comment's claim)."
 },
 "C15": {
  "note": "Termination is stated as: unrolling to depth length(heap) never fails. C43 is the same for Rust values."
 },
 "C16": {
  "note": "Observational equality."
 },
 "C17": {
  "note": "Side condition: no stack is entered both as unique and otherwise (C18 gives the exact excess without it)."
 },
 "C18": {
  "note": "Unconditional conservation is refuted; the exact excess is proved."
 },
 "C19": {
  "note": "In both build modes; overflow behaviour included."
 },
 "C20": {
  "note": "C20_unannounced_refuted: the side condition is needed. C20_values_agree, C20_by_names: it holds for all built-in values without shared parts."
 },
 "C21": {
  "note": "C21_shared_refuted: false for roots that share a pointer."
 },
 "C22": {
  "note": "C22_bound_tight_refuted: 2^63 is the exact bound."
 },
 "C23": {
  "note": "Panics of client code anywhere. C23_builder_overflow_refuted: a panic of the builder's own addition leaves it unusable."
 },
 "C24": {
  "note": "All schedules, all numbers of threads (small-step semantics of the mutex)."
 },
 "C25": {
  "note": "Visited values may register roots themselves; other threads register meanwhile."
 },
 "C26": {
  "note": "All declarations, attributes and field counts; token-level parsing is C27."
 },
 "C27": {
  "note": "Grammar is an independent definition."
 },
 "C28": {
  "note": "C28_any_name_refuted, C28_custom_name_refuted: names that capture the macro's variables break derived code; the exact conditions are proved."
 },
 "C29": {
  "note": "C29_const_default_refuted: the header is not always legal; the exact condition is proved."
 },
 "C30": {
  "note": "C30_thin_refuted: ThinArc with strictly aligned elements is under-reported; exact otherwise."
 },
 "C31": {
  "note": "C31_len_refuted: half the truth when the number of entries exceeds 7/8 of a power of two. Group padding of hashbrown is not modelled (nor counted by the code)."
 },
 "C32": {
  "note": "All vector-like containers of impls/**."
 },
 "C33": {
  "note": "C33_silent_refuted, C33_manual_refuted: contents that record nothing and ManuallyDrop elements are missed; excluded by stated hypotheses."
 },
 "C34": {
  "note": "The expected claim (entries are counted) is refuted; what is counted instead is proved."
 },
 "C35": {
  "note": "Hypothesis: no std map or set with entries (C34 shows they do cause warnings)."
 },
 "C36": {
  "note": "At any depth."
 },
 "C37": {
  "note": "Includes order independence between weak and strong pointers."
 },
 "C38": {
  "note": "Exact multiples per stack."
 },
 "C39": {
  "note": "Release builds, all sizes."
 },
 "C40": {
  "note": "Saturating subtraction included."
 },
 "C41": {
  "note": "The doc comment's \"does nothing\" is refuted."
 },
 "C42": {
  "note": "C42_distinct_names_refuted (case), C42_raw_identifier_refuted. The order of start-up functions is arbitrary."
 },
 "C43": {
  "note": "Cyclic stores included."
 },
 "C44": {
  "note": "C44_by_names: hypotheses are on values only (well typed, no map entries, nothing silent, names_apart) plus total below 2^63. C44_total_bytes: the same from a weaker condition on the trace. C44_names_needed: an IndexSet next to an array of IndexSets is over-counted."
 },
 "C45": {
  "note": "Every implementation of impls/**; exceptions are exactly the ones that record nothing (C45_silent)."
 },
 "C46": {
  "note": "Table of reports per shape in ReportSpec.v, independent of the code model."
 },
 "C47": {
  "note": "C47_collision_iff is exact; C47_any_neighbours_refuted is the collision."
 },
 "C48": {
  "note": "C48_address_reuse_refuted: an address reused between calls is taken for the old allocation."
 },
 "C49": {
  "note": "C49_dash_map_refuted (self-deadlock on a write guard), C49_destroys_refuted (the visit may drop the last reference)."
 },
 "C50": {
  "note": "C50_maps_refuted, C50_total_refuted: false with misdeclared sizes."
 },
 "C51": {
  "note": "Contents fixed, lock states and counts change (C52: contents change too). C51_one_moment_refuted: not the state of one moment."
 },
 "C52": {
  "note": "C52_unbounded_refuted (a growing list is followed for ever), C52_reuse_refuted (address reuse hides an allocation). DashMaps are read at once here (C53)."
 },
 "C53": {
  "note": "C53_removal_refuted, C53_growth_refuted: warnings (and up to twice the capacity) if the map changes between the reads. The visit of one entry is one step."
 },
 "C54": {
  "note": "C54_each: everything C49 says holds of each of the visits. A writer that waits for a DashMap shard and meanwhile keeps new readers out is not modelled."
 },
 "C55": {
  "note": "Composes C24, C42 and C52 in one small-step system. The profiling thread calls visit_global_roots once; its visits do not register roots themselves (C25 has that)."
 },
 "C56": {
  "note": "C56_self_deadlock_refuted: a mutex around Weaks whose targets lock it when dropped. Destructors that panic: C62."
 },
 "C57": {
  "note": "C57_again_panics_refuted: a root whose visit panics inside a shared pointer reaches more when visited again. The depth of the visit itself is that of the (user or built-in) implementations: one nested call per scope, not bounded by the crate."
 },
 "C58": {
  "note": "C58_unchanged_refuted: an add that panics on its second child keeps the first. Which children are added before the panic depends on the iteration order of the other graph (the list order in the model)."
 },
 "C59": {
  "note": "C59_unbounded_refuted: visits recurse through pointers, so a list that is long enough overflows any stack. One nested visitor stands for the constant number of Rust stack frames between two nested scopes; sizes of frames are not modelled."
 },
 "C60": {
  "note": "C17 and C18 are the cases without warnings, there derived from how the visits declare; here from what the output says."
 },
 "C61": {
  "note": "Removes the bound (declared bytes below 2^63) of C10, C12, C13 and C22. C61_phantom_refuted: a frame declaring 5 bytes around frames declaring 2^63 shows 2^63-1 bytes without a warning."
 },
 "C62": {
  "note": "Extends C56 (C62_conservative: same executions for its destructors). Catching a panic inside a destructor (catch_unwind) is not modelled; a destructor that panics during unwinding aborts at once."
 },
 "C63": {
  "note": "C63_profiles: the visits are those of C54. C63_refuted and C63_waiting_writers_refuted: the two deadlocks named in the statement. The threads are an arbitrary transition system; reference counts, for which nobody waits, change freely. Whether waiting writers of a DashMap shard keep readers out is a parameter (`polite`), as the dashmap crate is not part of the repository."
 },
 "C64": {
  "note": "C64 combines C52 (everything changes, no DashMaps) and C53 (one DashMap, entries visited at once). C64_snapshot says what happened with a value-level program (`shown`), because a DashMap that changed during its visit corresponds to no value; `visit_told` is that of C53. C64_values, C64_report and C64_no_warnings are about maps whose numbers of slots and entries do not change (entries and everything else may): then there are values again, and C46 and C35 apply. C64_moved_refuted is the limit named in the statement (and shows that in general there are warnings). C64_waits_for_others (and its counterparts in C65, C66) assumes that the locks of shards are private to their DashMaps (`apart`, MixApartSpec.v), which Rust guarantees: they are fields of the map and no reference to them can be had; without that, C64_waits_for_shards."
 },
 "C65": {
  "note": "C64's memory, interleavings and specification (`shown`, `seen_as`), with the visitor of size_of.rs in place of the builder. C65_owned uses owned_bytes of C33; C65_moved_refuted is the limit named in the statement; C65_unbounded_refuted: while another thread keeps appending to a boxed list behind mutexes the call goes on, ever deeper in the recursion. Destructors run by the visit (C56, C62) are not part of this machine."
 },
 "C66": {
  "note": "The machines of C64 and C65 side by side on one memory, as in C54 for the programs of C49. C66_each and C66_now reduce each participant to C64 or C65; C66_snapshot, _sizes, _report, _owned state the consequences in the memory as it is (not as a participant sees it). The process may be aborted by one participant (a panic while unwinding); the others then still take steps in the model, which only adds runs. Hypotheses of C66_report and C66_owned about memory: met by replace_memory (C65_satisfiable). Destructors run by the visits (C56, C62) are not part of this machine. C66_waits_for_others and C66_no_deadlock use `apart` as C64 does. C66_ends: the orders of C64_ends and C65_ends side by side (MixPoolEnds.v)."
 },
 "C67": {
  "note": "Composes C24, C42 and C64 in one small-step system (WholeMixModel.v), as C55 does with C52; the profiling thread calls visit_global_roots once and its visits do not register roots themselves (C25 has that). C67_waits_for_others and C67_returns use `apart`: the locks of shards are private to their DashMap, as in C64. C67_returns is about the loop after roots() has returned; that roots() does not block for ever is C24_progress. In C67_stopped pieces may be missing from the static whose visit panicked, as in C64_snapshot."
 }
}
