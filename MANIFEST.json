{
 "claims": [
  {
   "property": "C01",
   "status": "proved",
   "theorems": [
    "C01_total_size_exact",
    "C01_total_size_of_history",
    "C01_no_overflow_below_2_64"
   ],
   "note": "For every graph obtainable with the API (any operation sequence, any nesting, both build modes). Debug builds may panic on overflow; C01_no_overflow_below_2_64 says when they do not."
  },
  {
   "property": "C02",
   "status": "proved",
   "theorems": [
    "C02_add_pointwise",
    "C02_add_child_pointwise",
    "C02_add_self_pointwise",
    "C02_history_pointwise",
    "C02_add_panics_iff"
   ],
   "note": "Pointwise at every stack; C02_add_panics_iff states exactly when a debug build panics."
  },
  {
   "property": "C03",
   "status": "proved",
   "theorems": [
    "C03_add_comm",
    "C03_add_assoc",
    "C03_add_default",
    "C03_merge_order"
   ],
   "note": "Equality is of observations (text, total, sizes at every stack), which is what C05 shows to be observable."
  },
  {
   "property": "C04",
   "status": "proved",
   "theorems": [
    "C04_write_is_listing",
    "C04_listing_unique"
   ],
   "note": "The listing is characterised by membership and order, and C04_listing_unique shows it is the only one."
  },
  {
   "property": "C05",
   "status": "proved",
   "theorems": [
    "C05_builder_order",
    "C05_shuffle",
    "C05_history",
    "C05_bad_key_refuted"
   ],
   "note": "Map iteration order is an arbitrary permutation at every point. C05_bad_key_refuted: false for keys made with Key::new_unchecked and a wrong hash."
  },
  {
   "property": "C06",
   "status": "proved",
   "theorems": [
    "C06_write_parse",
    "C06_decodable_iff"
   ],
   "note": "Parser is an independent definition in Spec.v. C06_decodable_iff makes the side condition (no separators in frames) exact."
  },
  {
   "property": "C07",
   "status": "proved",
   "theorems": [
    "C07_type_name_refuted",
    "C07_profile_decodable_iff",
    "C07_values_decodable"
   ],
   "note": "The unconditional claim is refuted (C07_type_name_refuted: array type names contain ';'); the exact condition is proved."
  },
  {
   "property": "C08",
   "status": "proved",
   "theorems": [
    "C08_key_coherent",
    "C08_key_order",
    "C08_eq_implies",
    "C08_new_unchecked_refuted"
   ],
   "note": "C08_new_unchecked_refuted: Eq and Ord disagree for keys made with new_unchecked and a wrong hash."
  },
  {
   "property": "C09",
   "status": "proved",
   "theorems": [
    "C09_derive_key"
   ],
   "note": "For all strings; known FNV-1a vectors in C09_known_vectors (example)."
  },
  {
   "property": "C10",
   "status": "proved",
   "theorems": [
    "C10_accepted",
    "C10_no_call_panics",
    "C10_release"
   ],
   "note": "Debug: total declared below 2^63 (C22 shows the bound is tight). Release: C10_release, no bound."
  },
  {
   "property": "C11",
   "status": "proved",
   "theorems": [
    "C11_leak_detected",
    "C11_finish_iff",
    "C11_live_refused"
   ],
   "note": "Event-level semantics with mem::forget."
  },
  {
   "property": "C12",
   "status": "proved",
   "theorems": [
    "C12_exact",
    "C12_text"
   ],
   "note": "Total declared below 2^63 (tight, C22)."
  },
  {
   "property": "C13",
   "status": "proved",
   "theorems": [
    "C13_warnings"
   ],
   "note": "Total declared below 2^63."
  },
  {
   "property": "C14",
   "status": "proved",
   "theorems": [
    "C14_first_time_only",
    "C14_top_level",
    "C14_further_encounters"
   ],
   "note": "Includes nests of scopes and further encounters (C41 for the doc comment's claim)."
  },
  {
   "property": "C15",
   "status": "proved",
   "theorems": [
    "C15_terminates",
    "C15_exactly_once",
    "C15_depth_irrelevant"
   ],
   "note": "Termination is stated as: unrolling to depth length(heap) never fails. C43 is the same for Rust values."
  },
  {
   "property": "C16",
   "status": "proved",
   "theorems": [
    "C16_order_irrelevant"
   ],
   "note": "Observational equality."
  },
  {
   "property": "C17",
   "status": "proved",
   "theorems": [
    "C17_conservation"
   ],
   "note": "Side condition: no stack is entered both as unique and otherwise (C18 gives the exact excess without it)."
  },
  {
   "property": "C18",
   "status": "proved",
   "theorems": [
    "C18_exact_excess",
    "C18_conservation_refuted"
   ],
   "note": "Unconditional conservation is refuted; the exact excess is proved."
  },
  {
   "property": "C19",
   "status": "proved",
   "theorems": [
    "C19_sum",
    "C19_events",
    "C19_names_irrelevant",
    "C19_shared_irrelevant",
    "C19_with_self"
   ],
   "note": "In both build modes; overflow behaviour included."
  },
  {
   "property": "C20",
   "status": "proved",
   "theorems": [
    "C20_agreement",
    "C20_unannounced_refuted",
    "C20_values_agree",
    "C20_by_names"
   ],
   "note": "C20_unannounced_refuted: the side condition is needed. C20_values_agree, C20_by_names: it holds for all built-in values without shared parts."
  },
  {
   "property": "C21",
   "status": "proved",
   "theorems": [
    "C21_joint",
    "C21_shared_refuted",
    "C21_mixed_refuted",
    "C21_misdeclared_refuted"
   ],
   "note": "C21_shared_refuted: false for roots that share a pointer."
  },
  {
   "property": "C22",
   "status": "proved",
   "theorems": [
    "C22_modes_agree",
    "C22_bound_tight_refuted"
   ],
   "note": "C22_bound_tight_refuted: 2^63 is the exact bound."
  },
  {
   "property": "C23",
   "status": "proved",
   "theorems": [
    "C23_usable",
    "C23_recorded",
    "C23_builder_overflow_refuted"
   ],
   "note": "Panics of client code anywhere. C23_builder_overflow_refuted: a panic of the builder's own addition leaves it unusable."
  },
  {
   "property": "C24",
   "status": "proved",
   "theorems": [
    "C24_linearizable",
    "C24_interleaving",
    "C24_nothing_lost",
    "C24_snapshot_prefix",
    "C24_snapshot_complete",
    "C24_snapshots_comparable",
    "C24_progress"
   ],
   "note": "All schedules, all numbers of threads (small-step semantics of the mutex)."
  },
  {
   "property": "C25",
   "status": "proved",
   "theorems": [
    "C25_visits_snapshot",
    "C25_registered_during"
   ],
   "note": "Visited values may register roots themselves; other threads register meanwhile."
  },
  {
   "property": "C26",
   "status": "proved",
   "theorems": [
    "C26_supported",
    "C26_struct",
    "C26_enum",
    "C26_skip_type",
    "C26_exactly_once",
    "C26_is_impl_struct"
   ],
   "note": "All declarations, attributes and field counts; token-level parsing is C27."
  },
  {
   "property": "C27",
   "status": "proved",
   "theorems": [
    "C27_grammar",
    "C27_others_ignored",
    "C27_split"
   ],
   "note": "Grammar is an independent definition."
  },
  {
   "property": "C28",
   "status": "proved",
   "theorems": [
    "C28_struct_exact",
    "C28_enum_exact",
    "C28_skip_type",
    "C28_tuple_visitor",
    "C28_any_name_refuted",
    "C28_custom_name_refuted"
   ],
   "note": "C28_any_name_refuted, C28_custom_name_refuted: names that capture the macro's variables break derived code; the exact conditions are proved."
  },
  {
   "property": "C29",
   "status": "proved",
   "theorems": [
    "C29_params",
    "C29_bound",
    "C29_name_and_where",
    "C29_legal",
    "C29_const_default_refuted"
   ],
   "note": "C29_const_default_refuted: the header is not always legal; the exact condition is proved."
  },
  {
   "property": "C30",
   "status": "proved",
   "theorems": [
    "C30_rc_exact",
    "C30_rc_panic",
    "C30_triomphe_exact",
    "C30_covers",
    "C30_repr_c",
    "C30_thin_covers",
    "C30_thin_exact",
    "C30_thin_at_most",
    "C30_thin_refuted"
   ],
   "note": "C30_thin_refuted: ThinArc with strictly aligned elements is under-reported; exact otherwise."
  },
  {
   "property": "C31",
   "status": "proved",
   "theorems": [
    "C31_exact",
    "C31_empty",
    "C31_bounds",
    "C31_monotone",
    "C31_exact_for_capacity",
    "C31_len_refuted"
   ],
   "note": "C31_len_refuted: half the truth when the number of entries exceeds 7/8 of a power of two. Group padding of hashbrown is not modelled (nor counted by the code)."
  },
  {
   "property": "C32",
   "status": "proved",
   "theorems": [
    "C32_capacity",
    "C32_text_capacity",
    "C32_events"
   ],
   "note": "All vector-like containers of impls/**."
  },
  {
   "property": "C33",
   "status": "proved",
   "theorems": [
    "C33_owned_bytes",
    "C33_with_self",
    "C33_silent_refuted",
    "C33_manual_refuted"
   ],
   "note": "C33_silent_refuted, C33_manual_refuted: contents that record nothing and ManuallyDrop elements are missed; excluded by stated hypotheses."
  },
  {
   "property": "C34",
   "status": "proved",
   "theorems": [
    "C34_entries_ignored",
    "C34_counted_refuted",
    "C34_warning_refuted"
   ],
   "note": "The expected claim (entries are counted) is refuted; what is counted instead is proved."
  },
  {
   "property": "C35",
   "status": "proved",
   "theorems": [
    "C35_no_warnings"
   ],
   "note": "Hypothesis: no std map or set with entries (C34 shows they do cause warnings)."
  },
  {
   "property": "C36",
   "status": "proved",
   "theorems": [
    "C36_own_size_only",
    "C36_contents_irrelevant"
   ],
   "note": "At any depth."
  },
  {
   "property": "C37",
   "status": "proved",
   "theorems": [
    "C37_dead",
    "C37_live",
    "C37_order_irrelevant"
   ],
   "note": "Includes order independence between weak and strong pointers."
  },
  {
   "property": "C38",
   "status": "proved",
   "theorems": [
    "C38_repeated_roots"
   ],
   "note": "Exact multiples per stack."
  },
  {
   "property": "C39",
   "status": "proved",
   "theorems": [
    "C39_release_mod"
   ],
   "note": "Release builds, all sizes."
  },
  {
   "property": "C40",
   "status": "proved",
   "theorems": [
    "C40_recorded",
    "C40_total",
    "C40_exact"
   ],
   "note": "Saturating subtraction included."
  },
  {
   "property": "C41",
   "status": "proved",
   "theorems": [
    "C41_repeated_enter_shared",
    "C41_does_nothing_refuted"
   ],
   "note": "The doc comment's \"does nothing\" is refuted."
  },
  {
   "property": "C42",
   "status": "proved",
   "theorems": [
    "C42_registers",
    "C42_panics",
    "C42_function_names",
    "C42_startup",
    "C42_distinct_names_refuted",
    "C42_raw_identifier_refuted"
   ],
   "note": "C42_distinct_names_refuted (case), C42_raw_identifier_refuted. The order of start-up functions is arbitrary."
  },
  {
   "property": "C43",
   "status": "proved",
   "theorems": [
    "C43_each_allocation_once",
    "C43_depth_irrelevant"
   ],
   "note": "Cyclic stores included."
  },
  {
   "property": "C44",
   "status": "proved",
   "theorems": [
    "C44_total_bytes",
    "C44_by_names",
    "C44_names_needed"
   ],
   "note": "C44_by_names: hypotheses are on values only (well typed, no map entries, nothing silent, names_apart) plus total below 2^63. C44_total_bytes: the same from a weaker condition on the trace. C44_names_needed: an IndexSet next to an array of IndexSets is over-counted."
  },
  {
   "property": "C45",
   "status": "proved",
   "theorems": [
    "C45_announces_size",
    "C45_silent",
    "C45_no_panic"
   ],
   "note": "Every implementation of impls/**; exceptions are exactly the ones that record nothing (C45_silent)."
  },
  {
   "property": "C46",
   "status": "proved",
   "theorems": [
    "C46_own_report",
    "C46_profile"
   ],
   "note": "Table of reports per shape in ReportSpec.v, independent of the code model."
  },
  {
   "property": "C47",
   "status": "proved",
   "theorems": [
    "C47_collision_iff",
    "C47_resolves",
    "C47_no_triomphe",
    "C47_no_zero_sized",
    "C47_any_neighbours_refuted"
   ],
   "note": "C47_collision_iff is exact; C47_any_neighbours_refuted is the collision."
  },
  {
   "property": "C48",
   "status": "proved",
   "theorems": [
    "C48_session",
    "C48_defined",
    "C48_growing",
    "C48_later_changes_unnoticed",
    "C48_address_reuse_refuted"
   ],
   "note": "C48_address_reuse_refuted: an address reused between calls is taken for the old allocation."
  },
  {
   "property": "C49",
   "status": "proved",
   "theorems": [
    "C49_guarded",
    "C49_content_guarded",
    "C49_released",
    "C49_others_undisturbed",
    "C49_waits_only_for_shards",
    "C49_never_waits",
    "C49_profile",
    "C49_alone",
    "C49_poisons",
    "C49_cells",
    "C49_weaks",
    "C49_dash_maps",
    "C49_dash_map_refuted",
    "C49_destroys_only",
    "C49_destroys_refuted",
    "C49_satisfiable"
   ],
   "note": "C49_dash_map_refuted (self-deadlock on a write guard), C49_destroys_refuted (the visit may drop the last reference)."
  },
  {
   "property": "C50",
   "status": "proved",
   "theorems": [
    "C50_frame",
    "C50_monotone",
    "C50_values",
    "C50_maps_refuted",
    "C50_total_refuted"
   ],
   "note": "C50_maps_refuted, C50_total_refuted: false with misdeclared sizes."
  },
  {
   "property": "C51",
   "status": "proved",
   "theorems": [
    "C51_snapshot",
    "C51_report",
    "C51_no_warnings",
    "C51_never_waits",
    "C51_defined",
    "C51_alone",
    "C51_one_moment_refuted",
    "C51_satisfiable"
   ],
   "note": "Contents fixed, lock states and counts change (C52: contents change too). C51_one_moment_refuted: not the state of one moment."
  },
  {
   "property": "C52",
   "status": "proved",
   "theorems": [
    "C52_snapshot",
    "C52_reasons",
    "C52_report",
    "C52_no_warnings",
    "C52_guarded",
    "C52_looks",
    "C52_never_waits",
    "C52_released",
    "C52_ends",
    "C52_unbounded_refuted",
    "C52_reuse_refuted",
    "C52_satisfiable"
   ],
   "note": "C52_unbounded_refuted (a growing list is followed for ever), C52_reuse_refuted (address reuse hides an allocation). DashMaps are read at once here (C53)."
  },
  {
   "property": "C53",
   "status": "proved",
   "theorems": [
    "C53_told",
    "C53_all_answers",
    "C53_told_anywhere",
    "C53_at_rest",
    "C53_keys",
    "C53_ends",
    "C53_progress",
    "C53_inserts_clean",
    "C53_removal_refuted",
    "C53_growth_refuted",
    "C53_scopes",
    "C53_at_most_twice"
   ],
   "note": "C53_removal_refuted, C53_growth_refuted: warnings (and up to twice the capacity) if the map changes between the reads. The visit of one entry is one step."
  },
  {
   "property": "C54",
   "status": "proved",
   "theorems": [
    "C54_each",
    "C54_profile",
    "C54_exclusive",
    "C54_released",
    "C54_waits",
    "C54_never_stuck",
    "C54_ends",
    "C54_opened",
    "C54_dash_maps",
    "C54_cells",
    "C54_satisfiable",
    "C54_shards_satisfiable"
   ],
   "note": "C54_each: everything C49 says holds of each of the visits. A writer that waits for a DashMap shard and meanwhile keeps new readers out is not modelled."
  },
  {
   "property": "C55",
   "status": "proved",
   "theorems": [
    "C55_roots",
    "C55_annotated",
    "C55_report",
    "C55_stopped",
    "C55_registry_free",
    "C55_registers_meanwhile",
    "C55_goes_on",
    "C55_satisfiable",
    "C55_stopped_satisfiable",
    "C55_registers_satisfiable"
   ],
   "note": "Composes C24, C42 and C52 in one small-step system. The profiling thread calls visit_global_roots once; its visits do not register roots themselves (C25 has that)."
  },
  {
   "property": "C56",
   "status": "proved",
   "theorems": [
    "C56_as_other_code",
    "C56_profile",
    "C56_runs",
    "C56_released",
    "C56_waits",
    "C56_no_self_deadlock",
    "C56_for_ever",
    "C56_self_deadlock_refuted",
    "C56_satisfiable"
   ],
   "note": "C56_self_deadlock_refuted: a mutex around Weaks whose targets lock it when dropped. Destructors that panic: C62."
  },
  {
   "property": "C57",
   "status": "proved",
   "theorems": [
    "C57_memory",
    "C57_output",
    "C57_depth",
    "C57_again",
    "C57_values",
    "C57_again_panics_refuted"
   ],
   "note": "C57_again_panics_refuted: a root whose visit panics inside a shared pointer reaches more when visited again. The depth of the visit itself is that of the (user or built-in) implementations: one nested call per scope, not bounded by the crate."
  },
  {
   "property": "C58",
   "status": "proved",
   "theorems": [
    "C58_calls",
    "C58_usable",
    "C58_total_size",
    "C58_write",
    "C58_all_or_nothing",
    "C58_child_or_self",
    "C58_unchanged_refuted"
   ],
   "note": "C58_unchanged_refuted: an add that panics on its second child keeps the first. Which children are added before the panic depends on the iteration order of the other graph (the list order in the model)."
  },
  {
   "property": "C59",
   "status": "proved",
   "theorems": [
    "C59_depth",
    "C59_any",
    "C59_work",
    "C59_work_exact",
    "C59_satisfiable",
    "C59_unbounded_refuted"
   ],
   "note": "C59_unbounded_refuted: visits recurse through pointers, so a list that is long enough overflows any stack. One nested visitor stands for the constant number of Rust stack frames between two nested scopes; sizes of frames are not modelled."
  },
  {
   "property": "C60",
   "status": "proved",
   "theorems": [
    "C60_total",
    "C60_no_warning",
    "C60_at_most"
   ],
   "note": "C17 and C18 are the cases without warnings, there derived from how the visits declare; here from what the output says."
  },
  {
   "property": "C61",
   "status": "proved",
   "theorems": [
    "C61_release",
    "C61_visits",
    "C61_small",
    "C61_true",
    "C61_phantom_refuted",
    "C61_modes",
    "C61_debug",
    "C61_fits",
    "C61_overflow"
   ],
   "note": "Removes the bound (declared bytes below 2^63) of C10, C12, C13 and C22. C61_phantom_refuted: a frame declaring 5 bytes around frames declaring 2^63 shows 2^63-1 bytes without a warning."
  },
  {
   "property": "C62",
   "status": "proved",
   "theorems": [
    "C62_profile",
    "C62_recorded",
    "C62_usable",
    "C62_panics",
    "C62_aborts_only",
    "C62_aborts",
    "C62_released",
    "C62_poisons_only",
    "C62_poisons",
    "C62_waits",
    "C62_no_self_deadlock",
    "C62_for_ever",
    "C62_runs",
    "C62_calm",
    "C62_conservative",
    "C62_satisfiable"
   ],
   "note": "Extends C56 (C62_conservative: same executions for its destructors). Catching a panic inside a destructor (catch_unwind) is not modelled; a destructor that panics during unwinding aborts at once."
  },
  {
   "property": "C63",
   "status": "proved",
   "theorems": [
    "C63_application",
    "C63_profiles",
    "C63_for_ever",
    "C63_goes_on",
    "C63_no_dash_maps",
    "C63_dash_maps",
    "C63_one_profile",
    "C63_ordered",
    "C63_delayed",
    "C63_straight",
    "C63_refuted",
    "C63_waiting_writers_refuted",
    "C63_satisfiable",
    "C63_ordered_satisfiable"
   ],
   "note": "C63_profiles: the visits are those of C54. C63_refuted and C63_waiting_writers_refuted: the two deadlocks named in the statement. The threads are an arbitrary transition system; reference counts, for which nobody waits, change freely. Whether waiting writers of a DashMap shard keep readers out is a parameter (`polite`), as the dashmap crate is not part of the repository."
  },
  {
   "property": "C64",
   "status": "proved",
   "theorems": [
    "C64_snapshot",
    "C64_sizes",
    "C64_stays",
    "C64_guarded",
    "C64_looks",
    "C64_waits_for_shards",
    "C64_released",
    "C64_ends",
    "C64_moved_refuted",
    "C64_satisfiable",
    "C64_waits_for_others",
    "C64_values",
    "C64_report",
    "C64_no_warnings",
    "C64_report_satisfiable",
    "C64_unbounded_refuted"
   ],
   "note": "C64 combines C52 (everything changes, no DashMaps) and C53 (one DashMap, entries visited at once). C64_snapshot says what happened with a value-level program (`shown`), because a DashMap that changed during its visit corresponds to no value; `visit_told` is that of C53. C64_values, C64_report and C64_no_warnings are about maps whose numbers of slots and entries do not change (entries and everything else may): then there are values again, and C46 and C35 apply. C64_moved_refuted is the limit named in the statement (and shows that in general there are warnings). C64_waits_for_others (and its counterparts in C65, C66) assumes that the locks of shards are private to their DashMaps (`apart`, MixApartSpec.v), which Rust guarantees: they are fields of the map and no reference to them can be had; without that, C64_waits_for_shards."
  },
  {
   "property": "C65",
   "status": "proved",
   "theorems": [
    "C65_waits_for_others",
    "C65_snapshot",
    "C65_owned",
    "C65_guarded",
    "C65_looks",
    "C65_shared_irrelevant",
    "C65_waits_for_shards",
    "C65_released",
    "C65_ends",
    "C65_unbounded_refuted",
    "C65_moved_refuted",
    "C65_satisfiable"
   ],
   "note": "C64's memory, interleavings and specification (`shown`, `seen_as`), with the visitor of size_of.rs in place of the builder. C65_owned uses owned_bytes of C33; C65_moved_refuted is the limit named in the statement; C65_unbounded_refuted: while another thread keeps appending to a boxed list behind mutexes the call goes on, ever deeper in the recursion. Destructors run by the visit (C56, C62) are not part of this machine."
  },
  {
   "property": "C66",
   "status": "proved",
   "theorems": [
    "C66_waits_for_others",
    "C66_no_deadlock",
    "C66_ends",
    "C66_all_over",
    "C66_apart_satisfiable",
    "C66_each",
    "C66_now",
    "C66_snapshot",
    "C66_sizes",
    "C66_report",
    "C66_owned",
    "C66_guarded",
    "C66_looks",
    "C66_waits",
    "C66_released",
    "C66_satisfiable"
   ],
   "note": "The machines of C64 and C65 side by side on one memory, as in C54 for the programs of C49. C66_each and C66_now reduce each participant to C64 or C65; C66_snapshot, _sizes, _report, _owned state the consequences in the memory as it is (not as a participant sees it). The process may be aborted by one participant (a panic while unwinding); the others then still take steps in the model, which only adds runs. Hypotheses of C66_report and C66_owned about memory: met by replace_memory (C65_satisfiable). Destructors run by the visits (C56, C62) are not part of this machine. C66_waits_for_others and C66_no_deadlock use `apart` as C64 does. C66_ends: the orders of C64_ends and C65_ends side by side (MixPoolEnds.v)."
  },
  {
   "property": "C67",
   "status": "proved",
   "theorems": [
    "C67_roots",
    "C67_annotated",
    "C67_snapshot",
    "C67_ready",
    "C67_report",
    "C67_more_roots",
    "C67_stopped",
    "C67_registry_free",
    "C67_registers_meanwhile",
    "C67_released",
    "C67_waits_for_others",
    "C67_stays_put",
    "C67_ends",
    "C67_returns",
    "C67_satisfiable",
    "C67_more_satisfiable",
    "C67_waits_satisfiable",
    "C67_stopped_satisfiable",
    "C67_registers_satisfiable"
   ],
   "note": "Composes C24, C42 and C64 in one small-step system (WholeMixModel.v), as C55 does with C52; the profiling thread calls visit_global_roots once and its visits do not register roots themselves (C25 has that). C67_waits_for_others and C67_returns use `apart`: the locks of shards are private to their DashMap, as in C64. C67_returns is about the loop after roots() has returned; that roots() does not block for ever is C24_progress. In C67_stopped pieces may be missing from the static whose visit panicked, as in C64_snapshot."
  }
 ]
}