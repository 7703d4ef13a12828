{"id": "C01", "title": "FlameGraph::total_size is exact after any operation sequence", "statement": "After any sequence of FlameGraph::default/add_self/add_child/add/clone, total_size() of every graph equals the sum over all of its nodes of the bytes stored at that node; the cached child total never drifts from the real one.", "quantifier": "every finite sequence of public FlameGraph operations, every nesting depth, every key, every size whose grand total fits usize", "why_tests_cant": "the cache is updated on one level while merging recurses through arbitrarily deep, partially overlapping trees; a test fixes one shape and depth", "anchors": ["allocative/src/flamegraph.rs: FlameGraph::{total_size,add,add_child,add_self}"]}
{"id": "C02", "title": "Merging flame graphs is pointwise addition", "statement": "a.add(b) makes the bytes reported at every stack path the sum of those of a and b; add_child(k,c) adds c's bytes under k and changes no other path; add_self(n) changes only the node itself.", "quantifier": "every pair of graphs, every stack path (including absent ones)", "why_tests_cant": "must hold at every path of every pair of trees, overlapping or not", "anchors": ["allocative/src/flamegraph.rs: FlameGraph::{add,add_child,add_self}"]}
{"id": "C03", "title": "Merging is a commutative monoid up to observation", "statement": "As observed through total_size() and write(), add is associative and commutative with FlameGraph::default() as identity, so per-shard graphs can be merged in any order.", "quantifier": "every triple of graphs built with the public API from keys made by Key::new", "why_tests_cant": "algebraic law over all triples of trees", "anchors": ["allocative/src/flamegraph.rs: FlameGraph::{add,write,total_size}"]}
{"id": "C04", "title": "write() emits exactly the non-zero stacks, once each, sorted", "statement": "write() consists of one line per node other than the root whose own size is non-zero, formatted `frame;frame;... size\\n`, in strictly increasing lexicographic order of frame lists, with no other text; the sizes on the lines add up to total_size() minus the root's own size.", "quantifier": "every graph built with the public API", "why_tests_cant": "golden tests compare a handful of fixed outputs; completeness/soundness over all trees needs induction", "anchors": ["allocative/src/flamegraph.rs: FlameGraph::{write,write_flame_graph_impl}"]}
{"id": "C05", "title": "Output does not depend on hash iteration order", "statement": "Two graphs with the same content (arbitrarily different HashMap iteration orders at every node, arbitrary insertion histories) have identical write() text and total_size(); likewise two builders whose internal maps only differ in iteration order give identical flamegraph text and warnings text.", "quantifier": "every graph / builder state, every permutation of every hash map in it", "why_tests_cant": "RandomState seeds differ per process; a test run sees one order", "anchors": ["allocative/src/flamegraph.rs: FlameGraph::write_flame_graph_impl, TreeRef::write_flame_graph, FlameGraphBuilder::update_sizes", "allocative/src/key.rs: Ord for Key"]}
{"id": "C06", "title": "Folded output decodes to the recorded stacks", "statement": "Splitting write() on newlines, each line at its last space and the stack on ';' recovers exactly the list of (frames, size) of the graph, provided no key contains ';' or a newline.", "quantifier": "every graph whose keys avoid the two separator characters", "why_tests_cant": "parser/printer round trip over all trees and all strings", "anchors": ["allocative/src/flamegraph.rs: FlameGraph::write_flame_graph_impl", "allocative/src/key.rs: Key::for_type_name"]}
{"id": "C07", "title": "Which stacks can be decoded from the text", "statement": "The text of a profile can be decoded back to its stacks (newline, last space, semicolon) iff no stack shown has a frame containing a semicolon or a newline; for values it is enough that type, field and variant names contain neither. The library does not ensure it: the key of type [u8; 4] contains a semicolon, and then two different graphs have the same text (refuted stronger claim).", "quantifier": "every visit history, every store of values", "why_tests_cant": "quantifies over all types; no unit test uses an array-typed generic", "anchors": ["allocative/src/flamegraph.rs: write_flame_graph_impl", "allocative/src/key.rs: Key::for_type_name", "allocative/src/impls/std/unsorted.rs: impl for [T], Vec<T>"]}
{"id": "C08", "title": "Key equality, order and hash are coherent", "statement": "For keys built by Key::new, ==, cmp()==Equal and equality of the strings coincide; equal keys hash equally; cmp is a total order (byte-wise lexicographic). Key::new_unchecked with a wrong hash breaks the coherence of == with cmp.", "quantifier": "all strings / all pairs and triples of keys", "why_tests_cant": "order laws over all strings", "anchors": ["allocative/src/key.rs: Key::{new,new_unchecked,hash,cmp,eq}"]}
{"id": "C09", "title": "Derive-time keys equal run-time keys", "statement": "The hash computed by the proc macro equals the hash computed by Key::new for every string (both are 64-bit FNV-1a), so a derived field key and Key::new of the same name address the same node.", "quantifier": "all byte strings of any length", "why_tests_cant": "two separately written loops in two crates must agree on every input", "anchors": ["allocative/src/key.rs: Key::hash", "allocative_derive/src/derive_allocative.rs: hash, allocative_key"]}
{"id": "C10", "title": "Every properly scoped visit history is accepted", "statement": "For any sequence of root visits, each an arbitrary tree of enter/enter_unique/enter_shared scopes (exited explicitly or by drop), no internal assertion, index or arithmetic check of the builder fails, the builder is idle afterwards and finish() returns normally (total declared bytes below 2^63).", "quantifier": "all visit trees of any depth/width/pointer sharing, any number of roots, both debug and release arithmetic", "why_tests_cant": "assertions on stacks of stacks depend on the whole history", "anchors": ["allocative/src/flamegraph.rs: FlameGraphBuilder::{root_visitor,visit_root,exit_impl,finish_impl,enter_*_impl}", "allocative/src/visitor.rs: Visitor"]}
{"id": "C11", "title": "Leaked visitors are always detected", "statement": "If any visitor (root or nested, including inside shared pointers) is leaked with mem::forget so that its exit never runs, finish() panics instead of returning a corrupt graph; conversely finish() succeeds iff every entered scope has been exited.", "quantifier": "all sequences of enter/exit events the borrow checker admits", "why_tests_cant": "detection relies on a counting argument over arbitrary event sequences", "anchors": ["allocative/src/flamegraph.rs: exit_impl, finish_impl", "allocative/src/visitor.rs: Drop for Visitor, exit"]}
{"id": "C12", "title": "The flame graph is exactly the declared sizes minus inline children", "statement": "After any visit history, the bytes shown at a stack are max(0, S - C) where S is the sum of sizes declared by all enters at that stack (shared contents restart at the root) and C is the sum declared at its direct children, or 0 if the stack was ever entered as unique; every other stack shows nothing and the graph root itself shows 0.", "quantifier": "all visit histories, all stack paths", "why_tests_cant": "full functional specification over arbitrary programs", "anchors": ["allocative/src/flamegraph.rs: enter_*_impl, update_sizes, TreeRef::write_flame_graph"]}
{"id": "C13", "title": "Warnings are exact", "statement": "warnings() contains exactly one line for each non-root stack whose declared size is smaller than the sum of its inline children (and which is not unique), in lexicographic stack order, quoting both numbers; it is empty iff there is none.", "quantifier": "all visit histories", "why_tests_cant": "soundness and completeness over all trees", "anchors": ["allocative/src/flamegraph.rs: TreeRef::write_flame_graph, TreeData::inline_children_size"]}
{"id": "C14", "title": "Shared pointees are counted once and at top level", "statement": "The contents behind a pointer identity are visited at most once per builder, no matter how many paths, roots or nested shared pointers lead to it; they are accounted at stacks starting at the root of the graph, and each further encounter adds exactly the pointer field's own size.", "quantifier": "all visit histories and all sharing patterns", "why_tests_cant": "depends on the history of the visited set across roots", "anchors": ["allocative/src/flamegraph.rs: enter_shared_impl, exit_impl", "allocative/src/visitor.rs: Visitor::enter_shared"]}
{"id": "C15", "title": "Traversal of cyclic object graphs terminates", "statement": "For any finite heap in which shared pointers may form arbitrary cycles, visiting any root terminates, enters each reachable pointer exactly once and no other, and nests shared scopes no deeper than the number of allocations.", "quantifier": "all finite heaps, all roots", "why_tests_cant": "termination over all cyclic graphs", "anchors": ["allocative/src/flamegraph.rs: enter_shared_impl", "allocative/src/impls/std/sync.rs: Arc, Rc, Weak"]}
{"id": "C16", "title": "Result does not depend on visiting order", "statement": "For a heap in which each pointer identity has one pointee, visiting the same roots in any order (or reordering fields inside a value) yields the same flame graph text, total size and warnings, even though different roots reach the shared data first.", "quantifier": "all heaps, all permutations of the root list", "why_tests_cant": "all interleavings of all roots", "anchors": ["allocative/src/flamegraph.rs: visit_root, enter_shared_impl"]}
{"id": "C17", "title": "Conservation of bytes", "statement": "If every scope declares at least the sum of its direct inline children and no stack is entered both as unique and otherwise, total_size() of the finished graph equals the sum of the sizes declared directly at top level, directly inside a unique pointer or directly inside a shared pointee (i.e. every memory block counted once): nothing lost, nothing double counted.", "quantifier": "all well-declared visit histories", "why_tests_cant": "a telescoping sum over the whole tree", "anchors": ["allocative/src/flamegraph.rs: update_sizes, TreeRef::write_flame_graph, FlameGraph::add_child"]}
{"id": "C18", "title": "Exact effect of mixed unique/inline stacks", "statement": "When sizes are declared consistently but a stack is entered both as unique and as inline, total_size() exceeds the bytes of the memory blocks by exactly the bytes declared directly inside those inline scopes. (So plain byte conservation is refuted for such histories, see the TODO in enter_unique_impl.)", "quantifier": "all visit histories", "why_tests_cant": "needs two values sharing one stack", "anchors": ["allocative/src/flamegraph.rs: enter_unique_impl"]}
{"id": "C19", "title": "size_of_unique_allocated_data sums exactly the blocks behind unique pointers", "statement": "The result is the sum of the sizes of the scopes opened directly inside a unique pointer, at any depth, never descending into shared pointers, never panicking (the `unreachable!` for shared exits cannot fire) and independent of names and pointer identities.", "quantifier": "all visit trees", "why_tests_cant": "quantifies over all visit implementations", "anchors": ["allocative/src/size_of.rs: size_of_unique_allocated_data"]}
{"id": "C20", "title": "size_of_unique agrees with the flame graph", "statement": "For a value that reaches no shared pointer and declares sizes consistently, whose unique pointers lead to something that announces itself, and no stack of which is entered both as unique and otherwise, total_size() of its flame graph equals size_of_unique(value). (Refuted without: a pointer directly inside a unique scope is counted by the flame graph only.)", "quantifier": "all well-declared visit trees without shared pointers", "why_tests_cant": "relates two independent visitors on every input", "anchors": ["allocative/src/size_of.rs: size_of_unique", "allocative/src/flamegraph.rs: FlameGraph::total_size"]}
{"id": "C21", "title": "Profiling roots together equals merging separate profiles", "statement": "For well-declared roots that share no pointer, no stack being entered both as unique and otherwise, building one graph from all roots gives the same text and total as building one graph per root and merging them with FlameGraph::add. (Refuted without any of the three conditions.)", "quantifier": "all lists of roots", "why_tests_cant": "homomorphism over all histories", "anchors": ["allocative/src/flamegraph.rs: FlameGraph::add, FlameGraphBuilder::visit_root"]}
{"id": "C22", "title": "No arithmetic surprise below 2^63 bytes", "statement": "If the sum of all declared sizes is below 2^63, no addition overflows anywhere in building or finishing, casts to isize are lossless, and debug and release builds produce the same result.", "quantifier": "all visit histories with bounded total", "why_tests_cant": "overflow depends on accumulated totals over whole histories", "anchors": ["allocative/src/flamegraph.rs: enter_*_impl, update_sizes, write_flame_graph"]}
{"id": "C23", "title": "Panics in user visit code leave the builder usable", "statement": "If a visit implementation panics at any point and the panic is caught, unwinding closes every open scope, the builder is idle again, and a later finish() reports exactly the sizes declared before the panic plus later roots. (A panic raised by the builder itself on debug overflow is the exception.)", "quantifier": "every crash point of every visit tree, any number of crashes and later roots", "why_tests_cant": "every crash point of every history", "anchors": ["allocative/src/visitor.rs: Drop for Visitor", "allocative/src/flamegraph.rs: visit_root, exit_impl"]}
{"id": "C24", "title": "Root registration is linearizable", "statement": "Under any interleaving of threads registering roots and threads taking snapshots, no registration is lost or duplicated, each snapshot is a prefix of the final registration order containing every registration that completed before it, and each thread's registrations keep their order.", "quantifier": "all schedules of any number of threads", "why_tests_cant": "schedules", "anchors": ["allocative/src/global_root.rs: register_root, roots, ROOTS"]}
{"id": "C25", "title": "visit_global_roots visits a snapshot, in registration order, without holding the lock", "statement": "visit_global_roots is equivalent to visit_root over the roots registered at the time of the call, in registration order; roots registered during the visit neither deadlock nor are visited by that call.", "quantifier": "all registries and all visit trees, including visits that register roots", "why_tests_cant": "needs re-entrancy histories", "anchors": ["allocative/src/flamegraph.rs: visit_global_roots", "allocative/src/global_root.rs: roots"]}
{"id": "C26", "title": "Derive visits every non-skipped field exactly once", "statement": "For any struct or enum the code generated by #[derive(Allocative)] opens one scope with the type's name and size, inside it (for enums: inside one scope per active non-unit variant) visits each field that is not skipped exactly once, in declaration order, under the field's name or index, using the custom visit function iff one was given; skip on a variant or type suppresses exactly the fields below it.", "quantifier": "all derive inputs and all field values", "why_tests_cant": "all shapes of type declarations", "anchors": ["allocative_derive/src/derive_allocative.rs: derive_allocative_impl, gen_visit_*"]}
{"id": "C27", "title": "Derive attribute grammar", "statement": "An #[allocative(...)] list is accepted iff it is a comma-separated list of (possibly empty) items skip, bound = \"...\", visit = path, each occurring at most once over all attributes of the item; the result reports exactly the items present; unknown items are rejected.", "quantifier": "all token lists", "why_tests_cant": "grammar over all token sequences", "anchors": ["allocative_derive/src/derive_allocative.rs: extract_attrs"]}
{"id": "C28", "title": "Name resolution in derived code", "statement": "The identifiers in the generated method resolve as intended iff no (even skipped) field of the struct or of any variant is called `visitor`, no constant in scope has the name of a field binder, and no `visit = f` names a function like a local variable. The stronger claim \"for every set of field names\" is refuted: a field called `visitor` captures the macro's variable.", "quantifier": "all field names", "why_tests_cant": "needs hygiene analysis over all identifiers", "anchors": ["allocative_derive/src/derive_allocative.rs: gen_visit_struct, gen_visit_enum_variant"]}
{"id": "C29", "title": "Derive generics", "statement": "impl generics keep all parameters in order, drop type-parameter defaults, and add the Allocative bound to each type parameter iff no bound attribute is given and the type is not skipped; a non-empty bound string replaces the list. (Const-parameter defaults are kept, which is not valid in an impl header.)", "quantifier": "all generic parameter lists", "why_tests_cant": "all parameter lists", "anchors": ["allocative_derive/src/derive_allocative.rs: impl_generics"]}
{"id": "C30", "title": "Arc/Rc/triomphe allocation sizes match the repr(C) layout", "statement": "The size reported for an Arc/Rc (triomphe::Arc) allocation is the smallest block, a multiple of both alignments, that fits two counters (one counter) followed by the value at an aligned offset, and computing it panics only if no such block below 2^63 exists; it covers counters plus value. For ThinArc it is exact when the elements are not aligned more strictly than header and length, otherwise it may be too small (refuted) but still covers header and slice and is never too large.", "quantifier": "all sizes and power-of-two alignments", "why_tests_cant": "arithmetic over all layouts", "anchors": ["allocative/src/impls/std/sync.rs: RcBox::layout", "allocative/src/impls/triomphe.rs: Arc, ThinArc"]}
{"id": "C31", "title": "Hash-table estimate", "statement": "raw_table_alloc_size_for_len(len) is 0 for 0, otherwise (size+1) times the least power of two that is at least max(4,len); it is monotone, at least len*(size+1) and, for len >= 4, less than 2*len*(size+1); it is exact for a full hashbrown capacity of four buckets or more. (For lengths above 7/8 of the estimate hashbrown really allocates twice as much: the claim that the estimate equals the bucket count for every len is refuted.)", "quantifier": "all lengths and element sizes", "why_tests_cant": "all integers", "anchors": ["allocative/src/impls/hashbrown_util.rs: raw_table_alloc_size_for_len"]}
{"id": "C32", "title": "Capacity accounting of vector-like containers", "statement": "For Vec, VecDeque, String, PathBuf, Slab, CompactString the bytes recorded inside the heap pointer are exactly capacity*size_of::<T>() (data plus unused capacity), and nothing is recorded for zero capacity or zero-sized elements.", "quantifier": "all lengths, capacities and element values", "why_tests_cant": "all sizes", "anchors": ["allocative/src/impls/std/unsorted.rs", "allocative/src/visitor.rs: visit_vec_like_body, visit_iter", "allocative/src/impls/slab.rs", "allocative/src/impls/compact_str.rs"]}
{"id": "C33", "title": "Unique heap bytes of standard containers", "statement": "For every value built from primitives, tuples, arrays, Option, Result, Box, Vec, VecDeque, String, PathBuf, cells, locks and derived types (arbitrarily nested), size_of_unique_allocated_data equals the number of bytes in the heap blocks it uniquely owns, computed independently from lengths, capacities and element sizes; provided it contains no std map or set with entries (C34), nothing that records nothing (PhantomData, &T, anyhow::Error) directly in a box or vector, and no ManuallyDrop in elements without drop glue (both provisos are necessary: refuted without).", "quantifier": "all nested values of the modelled universe", "why_tests_cant": "all nestings of all containers", "anchors": ["allocative/src/size_of.rs", "allocative/src/impls/std/unsorted.rs", "allocative/src/impls/std/tuple.rs", "allocative/src/impls/std/cell.rs"]}
{"id": "C34", "title": "Entries of std maps and sets are not counted as heap bytes", "statement": "size_of_unique_allocated_data of a std HashMap/HashSet/BTreeMap/BTreeSet (or SortedVectorMap) is exactly the heap bytes owned by its keys and values, whatever their number: the block that holds the entries is not counted, because entries are declared inline under a node of pointer size; a map with enough entries yields a warning. (The claim that entries are counted, and that such values give no warning, is refuted.)", "quantifier": "all maps and sets of all well-typed entries", "why_tests_cant": "needs a specification independent of the implementation", "anchors": ["allocative/src/visitor.rs: visit_generic_map_fields, visit_generic_set_fields", "allocative/src/impls/std/collections.rs"]}
{"id": "C35", "title": "Well-typed values produce no warnings", "statement": "Visiting any well-typed value of the modelled universe (except std maps and sets with entries) yields an empty warnings() text, i.e. every built-in implementation and every derived implementation declares at least as many bytes as its inline children.", "quantifier": "all nested well-typed values", "why_tests_cant": "all nestings", "anchors": ["allocative/src/impls/", "allocative_derive/src/derive_allocative.rs"]}
{"id": "C36", "title": "Locked or borrowed containers are skipped, not waited for", "statement": "Visiting a Mutex/RwLock/RefCell/OnceCell whose content is not available (busy, borrowed or not yet initialized) records exactly the container's own size and nothing else; what it holds has no influence on the profile, at any depth. (For locks under contention, and for DashMap, which waits for its shard locks, see C49.)", "quantifier": "all lock states of all containers, at any depth", "why_tests_cant": "schedules of lock holders", "anchors": ["allocative/src/impls/std/sync.rs", "allocative/src/impls/std/cell.rs", "allocative/src/impls/tokio.rs", "allocative/src/impls/lock_api.rs", "allocative/src/impls/once_cell.rs"]}
{"id": "C37", "title": "Weak pointers", "statement": "A dead Weak contributes only its own size; a live Weak contributes its own size and its target at most once per builder, whichever of Weak/Arc is met first.", "quantifier": "all sharing patterns between strong and weak pointers", "why_tests_cant": "histories", "anchors": ["allocative/src/impls/std/sync.rs: Weak"]}
{"id": "C38", "title": "Repeated roots", "statement": "Visiting the same root n times multiplies the bytes at stacks of uniquely owned data by n while shared contents are counted once.", "quantifier": "all roots, all n", "why_tests_cant": "all n", "anchors": ["allocative/src/flamegraph.rs: visit_root"]}
{"id": "C39", "title": "Release-mode totals are exact modulo 2^64", "statement": "Without overflow checks, merging graphs of any size keeps every reported number congruent modulo 2^64 to the true sum.", "quantifier": "all graphs", "why_tests_cant": "needs sizes beyond 2^64", "anchors": ["allocative/src/flamegraph.rs: add, add_child, add_self, total_size"]}
{"id": "C40", "title": "Bump arena accounting", "statement": "used + unused recorded for a bump arena equals its allocated bytes (modulo 2^64), for any list of chunks.", "quantifier": "all chunk lists", "why_tests_cant": "all chunk lists", "anchors": ["allocative/src/impls/bumpalo.rs: BumpCounters::collect"]}
{"id": "C41", "title": "A repeated enter_shared records the pointer field", "statement": "enter_shared on an already visited pointer returns None and the graph changes by exactly the declared pointer size at the stack of the pointer (contrary to the doc comment that it does nothing).", "quantifier": "all builder states", "why_tests_cant": "all histories", "anchors": ["allocative/src/visitor.rs: enter_shared", "allocative/src/flamegraph.rs: enter_shared_impl"]}
{"id": "C42", "title": "#[root] registers exactly the annotated static", "statement": "The registration function generated by #[allocative::root] registers the static it annotates, keeps the item unchanged, and its name is unique for statics whose names differ case-insensitively. (Two statics that differ only by case clash.)", "quantifier": "all static names", "why_tests_cant": "all names", "anchors": ["allocative_derive/src/root.rs: global_root_impl"]}
{"id": "C43", "title": "Visiting Rust values with shared parts terminates and visits each allocation once", "statement": "For any set of values that point to each other through Arc/Rc/Weak/triomphe/futures::Shared pointers, cyclically or not, visiting terminates and the contents of each allocation reachable through live pointers are visited exactly once; no other allocation is visited.", "quantifier": "all stores of values, all sharing patterns (cycles included), all root lists", "why_tests_cant": "all object graphs", "anchors": ["allocative/src/impls/std/sync.rs: Arc, Rc, Weak", "allocative/src/visitor.rs: enter_shared", "allocative/src/flamegraph.rs: enter_shared_impl"]}
{"id": "C44", "title": "No byte lost or counted twice", "statement": "The total of the flame graph of a list of roots equals the sum over roots of inline size plus uniquely owned heap bytes, plus, for each reachable shared allocation, its allocation size plus the bytes its value uniquely owns -- each exactly once, provided the name of a type that owns memory is not also the name of something else (an array is recorded under its element type's name, so [IndexSet; N] beside an IndexSet breaks this).", "quantifier": "all stores, all root lists", "why_tests_cant": "all object graphs and sizes", "anchors": ["allocative/src/impls/", "allocative/src/flamegraph.rs"]}
{"id": "C45", "title": "Every built-in implementation announces its own size", "statement": "Visiting a well-typed value with a built-in or derived implementation makes exactly one entry whose size is size_of_val of the value (except implementations documented to record nothing); visiting never panics and gives the same calls with and without debug assertions.", "quantifier": "all well-typed nested values", "why_tests_cant": "all implementations at all types", "anchors": ["allocative/src/impls/", "allocative_derive/src/derive_allocative.rs"]}
{"id": "C46", "title": "What each value reports, and under which stack", "statement": "Visiting a well-typed value declares exactly the lines of a fixed table: its own size under its type name; 'ptr', 'data', 'capacity', 'unused_capacity', 'raw_table' and variant frames with the documented sizes; and the reports of its contents under their field names (or one bulk line per buffer of elements that need no drop). A finished profile shows at every stack what these reports (and, once each, those of the reachable shared allocations) put there, and its text is the sorted listing of that.", "quantifier": "all well-typed nested values, all stores and root lists", "why_tests_cant": "all implementations at all types, nestings and sharing patterns", "anchors": ["allocative/src/impls/", "allocative/src/visitor.rs", "allocative/src/flamegraph.rs"]}
{"id": "C47", "title": "Shared-pointer identities tell live allocations apart", "statement": "The addresses the implementations pass to enter_shared (address of the value for std Arc/Rc and the futures::Shared result, start of the allocation for triomphe Arc/ThinArc) differ for different live allocations, so that no allocation is mistaken for one already visited; the only exception is a zero-sized value behind a std pointer whose allocation is directly followed by a triomphe allocation.", "quantifier": "all memory layouts of non-overlapping live allocations, all pointee sizes and alignments", "why_tests_cant": "depends on where the allocator puts blocks", "anchors": ["allocative/src/impls/std/sync.rs: Arc, Rc", "allocative/src/impls/triomphe.rs: Arc, ThinArc", "allocative/src/impls/futures.rs: Shared", "allocative/src/visitor.rs: enter_shared"]}
{"id": "C48", "title": "Profiling while the heap changes between visit_root calls", "statement": "With one builder used for several visit_root calls while the program mutates, allocates and frees in between, each call adds the report of its root as it is then and, once for each allocation no earlier call found, that allocation's report as it is then. If what was found never changes, the result is the same as visiting all roots at the end; changes to allocations found earlier go unnoticed (also when a freed address is reused).", "quantifier": "all sequences of calls, all heaps at each call, all mutations in between", "why_tests_cant": "all histories of heap mutations", "anchors": ["allocative/src/visitor.rs", "allocative/src/flamegraph.rs: visit_root, enter_shared_impl", "allocative/src/impls/std/sync.rs"]}
{"id": "C49", "title": "Profiling next to running threads", "statement": "While other threads lock, unlock, poison and clone or drop references, a visit reads the content of a lock only while it holds that lock's guard (no other code has exclusive access), and what a Weak points to only while it is alive; when it is over, also by a panic, it has released everything; it does not touch what others hold, poisons only std Mutexes whose content it was visiting when it panicked, and never waits except for DashMap/DashSet shards (where it waits for ever if the profiling thread itself holds a write guard: refuted that profiling never blocks). The profile is that of a heap in which each try_lock/upgrade either found its content or not; alone, nothing is missed but poisoned locks. (That profiling destroys no value is refuted: the visit may hold the last reference obtained from a Weak.)", "quantifier": "all interleavings of a visit with steps of any number of other threads, all programs of nested locks", "why_tests_cant": "depends on the schedule", "anchors": ["allocative/src/impls/std/sync.rs: Mutex, RwLock, Weak", "allocative/src/impls/std/cell.rs: RefCell", "allocative/src/impls/lock_api.rs", "allocative/src/impls/parking_lot.rs", "allocative/src/impls/tokio.rs", "allocative/src/impls/dashmap.rs"]}
{"id": "C50", "title": "What one more visit changes", "statement": "Visiting further roots leaves alone (bytes and warning) every stack at which and directly below which they declare nothing, taking into account what was visited before; and if sizes are declared consistently -- as by all values without std maps or sets with entries -- no stack and no total ever decreases. (Refuted otherwise: a std HashMap with one entry visited after an empty one of the same type makes bytes shown at ...;data disappear; with inconsistent user declarations even the total can fall.)", "quantifier": "all histories, all further roots, all stacks", "why_tests_cant": "all histories", "anchors": ["allocative/src/flamegraph.rs: visit_root, enter_inline, finish", "allocative/src/impls/std/collections.rs"]}
{"id": "C51", "title": "A profile taken next to running threads is the profile of one state", "statement": "Whatever other threads do with the locks and reference counts of the visited values during a session of visit_root calls, the builder ends up exactly as after visiting, with nothing else running, one state of the same values in which each lock is available or not and each Weak alive or not: one choice per lock, also if it is reached from several roots and through several pointers. So for well-typed values the finished profile is the report of that state and carries no warnings; the session never waits and always ends. With nothing else running the state is the actual one (exactly the unheld, unpoisoned locks are shown, and the live Weaks), and locks and counts are left as found. (That the state is the one at some moment is refuted: contents may be shown together that were never available at the same time.)", "quantifier": "all interleavings with other threads, all stores of values with locks, all root lists", "why_tests_cant": "depends on the schedule", "anchors": ["allocative/src/impls/std/sync.rs: Mutex, RwLock, Weak", "allocative/src/impls/std/cell.rs", "allocative/src/impls/lock_api.rs", "allocative/src/impls/tokio.rs", "allocative/src/impls/once_cell.rs", "allocative/src/visitor.rs: enter_shared", "allocative/src/flamegraph.rs: visit_root"]}
{"id": "C52", "title": "A profile taken while the data changes", "statement": "If during the visit_root calls of a session other threads also replace the contents of locks (with exclusive access), allocate, free, change allocations and reuse addresses, the builder ends up exactly as after visiting, with nothing else running, values and allocations put together from pieces that were each there at some moment; the content shown of a lock is that of a moment at which the lock could be taken, and (for well-typed values, without panics) a lock or Weak is left out only if at some moment it was held, poisoned or dead. So the finished profile is the report of such values, every pointer in it leads somewhere, and it carries no warnings. While the visit is inside a lock its content does not change; when it is over everything is given back; it never waits; it ends if contents stop changing and memory is finite. (Refuted: that it ends in any case -- a list that grows during the visit is followed for ever; that all allocations that are there when their pointer is visited are shown -- one at the address of an allocation visited earlier and freed is not.)", "quantifier": "all interleavings with other threads that change memory in any way Rust allows, all values with locks and shared pointers, all root lists", "why_tests_cant": "depends on the schedule and on what other threads write", "anchors": ["allocative/src/impls/std/sync.rs: Mutex, RwLock, Arc, Weak", "allocative/src/impls/std/cell.rs", "allocative/src/impls/lock_api.rs", "allocative/src/impls/tokio.rs", "allocative/src/impls/once_cell.rs", "allocative/src/visitor.rs: enter_shared", "allocative/src/flamegraph.rs: visit_root, enter_shared_impl"]}
{"id": "C53", "title": "Profiling a DashMap or DashSet while other threads use it", "statement": "While other threads insert into, remove from and resize the shards of a DashMap or DashSet during its visit, the profile is that of a map giving answers each of which was true of its shard at some moment of the visit, in this order: capacities, entries, capacities and lengths; and every such combination of answers can occur. No key is visited twice, every visited entry was in the map, a key that is in the map all the time is visited; the visit ends after finitely many of its own steps. If nobody changes the map it is the profile of the map as it is; if others only insert and no shard is resized there are no warnings. (Refuted otherwise: if entries are removed after they were visited the map is reported with up to twice its capacity -- never more, and never less than once, as long as no shard is resized -- and a warning; growth after the capacity was read gives a warning.)", "quantifier": "all interleavings of the visit with other threads, all contents of all shards at all times", "why_tests_cant": "depends on the schedule", "anchors": ["allocative/src/impls/dashmap.rs: DashMap, DashSet"]}
{"id": "C54", "title": "Several profiles at the same time", "statement": "If several threads profile the same data at the same time, each with a builder of its own, next to any other code: each builder ends up as if its thread had profiled alone, the content of each lock (target of each Weak) being present or absent; two profiles are never inside the same lock if one has it exclusively; one that is over holds nothing, though others go on; they never wait for each other (only for a DashMap shard that other code is writing), so that without other code every one of them can always go on and all end; and then what one profile leaves out of a lock another is visiting at that moment, unless the lock was poisoned or a profile has panicked.", "quantifier": "all interleavings of any number of visits and of other code, all programs of nested locks", "why_tests_cant": "depends on the schedule", "anchors": ["allocative/src/impls/std/sync.rs: Mutex, RwLock, Weak", "allocative/src/impls/std/cell.rs: RefCell", "allocative/src/impls/lock_api.rs", "allocative/src/impls/tokio.rs", "allocative/src/impls/dashmap.rs", "allocative/src/flamegraph.rs: FlameGraphBuilder, visit_root"]}
{"id": "C55", "title": "The profile of a running process", "statement": "visit_global_roots called with a new builder in a process whose other threads register further statics and change everything Rust lets them change: the finished flame graph is the report of the statics registered before it asked -- once per registration, in registration order, among them every static with #[root] and everything whose registration had returned before the call -- each put together from pieces that were there at some moment; a panic in one static's visit keeps what was visited up to it and leaves out the rest; while statics are visited the registry is free (no register_root waits for the profile) and the profile can always take its next step.", "quantifier": "all interleavings of the profiling thread with threads that register roots and change memory, all well-typed statics", "why_tests_cant": "depends on the schedule and on what other threads do", "anchors": ["allocative/src/global_root.rs: register_root, roots", "allocative/src/flamegraph.rs: visit_global_roots, visit_root, finish", "allocative_derive/src/root.rs", "allocative/src/impls/std/sync.rs"]}
{"id": "C56", "title": "Destructors run by a visit", "statement": "If the last other owner of a value drops it while it is visited through a Weak, the visit drops the value and so runs its destructor, with the locks the visit holds at that point. Such destructors do not affect the profile, and when the visit is over nothing is held, by it or by them. The profiling thread then also waits for what destructors wait for; it waits for itself -- for ever, whatever other threads do -- only if a destructor takes a lock around a Weak in what is visited (a cache of Weaks whose entries remove themselves from it when dropped does deadlock).", "quantifier": "all interleavings of a visit with other code, all destructors that take locks and drop further shared pointers", "why_tests_cant": "needs a last drop during the visit", "anchors": ["allocative/src/impls/std/sync.rs: Weak, Mutex, RwLock", "allocative/src/impls/lock_api.rs", "allocative/src/impls/tokio.rs", "allocative/src/impls/dashmap.rs", "allocative/src/visitor.rs: Visitor"]}
{"id": "C57", "title": "What a profile takes", "statement": "However often and through however many roots stacks and shared pointers are entered, the builder keeps one node per different stack (and one for the root) and one entry per different shared pointer; lines of the flame graph and warnings together are at most as many as different stacks, so at most as many as calls to enter_*, and no line has more frames than scopes were nested. finish recurses exactly as deep as the longest stack has frames, and once more for the root, so with a stack deep enough for the visit it does not overflow at a depth the visit did not reach. Profiling the same roots again any number of times takes no more memory, provided no visit panics. (Refuted otherwise: the visit after a panic inside a shared pointer goes past it and reaches more.)", "quantifier": "all lists of roots and numbers of repetitions, all programs of enter/exit calls", "why_tests_cant": "resources grow with histories of any length", "anchors": ["allocative/src/flamegraph.rs: Tree, FlameGraphBuilder, finish, update_sizes, write_flame_graph, enter_shared_impl", "allocative/src/visitor.rs: Visitor"]}
{"id": "C58", "title": "Flame graphs after an overflow panic", "statement": "Whatever overflow panics of FlameGraph::add, add_child and add_self are caught, and however the graphs they leave behind are used further: every graph stays one that can be obtained without panics, so its total_size() and its text stay exact. An add that panics has done nothing, or has added the other graph's own bytes and some of its children, each completely; add_child and add_self that panic have done nothing. (Refuted: that an add that panics changes nothing.)", "quantifier": "all sequences of operations with caught panics, all graphs", "why_tests_cant": "all crash points", "anchors": ["allocative/src/flamegraph.rs: FlameGraph::add, add_child, add_self, total_size, write"]}
{"id": "C59", "title": "How deep a visit nests and how much it does", "statement": "visit_root of a value needs room on the stack for a certain number of nested visitors, does exactly the same with more and overflows with less; that number is at most the scopes nested in the value itself plus those in each allocation reachable from it, each counted once (whatever has been visited before); and the number of enter* calls of a session is at most the scopes of the roots plus those of the reachable allocations, each counted once however many pointers and routes lead there -- exactly that, if nothing overflows. Both bounds are reached: k pairs of Arcs each leading to the next pair have 2^k routes, are visited with 12k+8 calls and need room for exactly 7k+7 visitors. (So it is refuted that some stack size is enough for every value.)", "quantifier": "all stores of values, all sharing patterns (cycles included), all root lists, all sizes of the stack", "why_tests_cant": "no bound on sizes and depths", "anchors": ["allocative/src/visitor.rs: Visitor, enter, enter_unique, enter_shared", "allocative/src/flamegraph.rs: visit_root, enter_shared_impl", "allocative/src/impls/std/sync.rs: Arc, Rc, Weak", "allocative/src/allocative_trait.rs"]}
{"id": "C60", "title": "What the total consists of", "statement": "Whatever visits declare, and whether they return or panic: total_size() of the finished graph is the bytes of the memory blocks (scopes opened at top level, directly inside a unique pointer or a shared pointee), plus the bytes opened inside inline scopes at stacks also entered as unique, plus, for each warning, the difference of the two numbers it quotes. So no block is ever lost; without mixed stacks the total equals the blocks exactly if there is no warning, and exceeds them by at most what the scopes overspend.", "quantifier": "all visit histories below 2^63 declared bytes", "why_tests_cant": "all inputs", "anchors": ["allocative/src/flamegraph.rs: Tree, finish, update_sizes, FlameGraph::total_size", "allocative/src/visitor.rs: Visitor"]}
{"id": "C61", "title": "Profiles of any size", "statement": "Without overflow checks (release builds) no visit and no finish() panics over sizes, and the report is this function of what was declared: all sums modulo 2^64, own bytes of a stack = two's complement reading of the bytes declared there minus that of the bytes declared directly inside, cut off at the isize range; positive ones are shown, negative ones reported. So a stack is exact if both numbers are below 2^63; one with consistent declarations is exact unless 2^63 lies between them, and then it is reported as wrong and its bytes are missing. (Refuted: that bytes shown were declared or a warning appears.) With overflow checks a session that ends without a panic in finish() gives the same report; visits panic exactly when the bytes declared at one stack no longer fit in 64 bits, leaving the builder unusable, and finish() exactly when the bytes declared directly inside one stack, or those shown in the graph, do not fit.", "quantifier": "all visit histories without any bound on sizes, both build modes", "why_tests_cant": "sizes near 2^63 cannot be allocated in a test", "anchors": ["allocative/src/flamegraph.rs: Tree, add_size, finish, update_sizes, write_flame_graph, FlameGraph::add_child, total_size", "allocative/src/visitor.rs: Visitor"]}
{"id": "C62", "title": "Destructors that panic during a visit", "statement": "If a destructor that the visit runs (the last other owner drops a value while it is visited through a Weak) panics, the visit panics there: the profile keeps exactly what was visited before, the builder can be used further and finished, and nothing is held any more, by the visit or by destructors. All std mutexes locked at that moment -- those around the Weak in what is visited too, although no implementation of visit panicked -- are poisoned, no other lock is. The process is aborted exactly if a destructor panics while the thread is panicking already. Destructors that do not panic change nothing of what a visit next to other code guarantees.", "quantifier": "all interleavings of a visit with other code, all destructors that take and try locks, drop further shared pointers, have fields and locals, and panic anywhere", "why_tests_cant": "needs a last drop during the visit, at every crash point", "anchors": ["allocative/src/impls/std/sync.rs: Weak, Mutex, RwLock", "allocative/src/impls/lock_api.rs", "allocative/src/impls/tokio.rs", "allocative/src/impls/dashmap.rs", "allocative/src/visitor.rs: Visitor, Drop", "allocative/src/flamegraph.rs: exit_impl"]}
{"id": "C63", "title": "Profiling next to threads that wait for each other", "statement": "What the threads of a program do and hold next to any number of profiles they could also do and hold without them (their try_lock calls may fail). So profiles that meet no DashMap or DashSet cause no deadlock: participants that wait for each other for ever could do so without the profiles. With them this holds if threads that have a shard for writing wait for no other lock and only those who have a shard keep its readers out; or, if waiting writers do too, for one profile, if threads that have a shard at all wait for no other lock and no shard is met again inside itself. If everybody who waits for a lock has only locks before it in some order, there is no deadlock at all, and whoever waits is delayed, in the end, by one that goes on. (In general refuted: a profile inside a Mutex waits for a shard in it while a thread that has the shard waits for the Mutex; and two profiles of maps that reach each other, with a writer waiting for each, if waiting writers keep readers out.)", "quantifier": "all programs of any number of threads that wait for, try and give back locks, all interleavings with any number of visits, locks with and without precedence of writers", "why_tests_cant": "deadlocks depend on the schedule; tests see few", "anchors": ["allocative/src/impls/dashmap.rs", "allocative/src/impls/std/sync.rs: Mutex, RwLock, Weak", "allocative/src/impls/lock_api.rs", "allocative/src/impls/tokio.rs", "allocative/src/impls/std/cell.rs", "allocative/src/visitor.rs: Visitor"]}
{"id": "C64", "title": "Profiling while DashMaps and everything else change", "statement": "DashMaps and DashSets anywhere in what is visited, with keys and values of any kind (locks, shared pointers and further maps among them), while other threads insert, remove, resize, replace contents of locks, free and reuse memory: the builder ends up as after visiting, with nothing else running, a value put together from pieces each of which was there at some moment. Unless a visit panics every shard is shown with all the entries it had at one moment, so an entry that stays in its shard is shown. While the entries of a shard are visited the visit has its read guard and the shard does not change; nothing is looked at that is not part of the root, guarded or behind a shared pointer. The visit waits for nothing but the read lock of a shard another thread has exclusively (never for itself), comes to an end when contents no longer change, and then holds nothing. As long as entries are only replaced and none inserted or removed, what a session without panics reports is the report of well-typed values seen this way (in which no shared pointer dangles), and contains no warnings. (Refuted in general: a map is not always shown as it was at any one moment; an entry that is moved to another shard during the visit can be shown twice.)", "quantifier": "all interleavings of a session with other code that changes maps, locks, reference counts and allocations; all values", "why_tests_cant": "depends on the schedule and on what other threads do", "anchors": ["allocative/src/impls/dashmap.rs: DashMap, DashSet", "allocative/src/impls/std/sync.rs: Mutex, RwLock, OnceLock, Arc, Rc, Weak", "allocative/src/impls/lock_api.rs", "allocative/src/impls/tokio.rs", "allocative/src/flamegraph.rs: visit_root, finish", "allocative/src/visitor.rs: Visitor"]}
{"id": "C65", "title": "size_of_unique while everything changes", "statement": "size_of_unique_allocated_data and size_of_unique of a value with locks, DashMaps and shared pointers in it, while other threads insert, remove, resize, replace contents of locks, free and reuse memory: the result (or panic) is that of the same call, with nothing else running, for a value put together from pieces each of which was there at some moment; unless it panics every shard is counted with all the entries it had at one moment. For DashMaps updated in place (the numbers of slots and entries do not change) the result is the bytes owned by such a value, size_of_unique adding the size of the argument. An entry moved to another shard during the call can be counted twice. The call only looks at parts of the argument, of contents of locks whose guard it has and of entries of shards whose read guard it has, never at anything behind a shared pointer, and those do not change meanwhile; what allocations there are makes no difference. It waits only for the read lock of a shard that another thread has exclusively, never for itself; at the end it holds nothing; if contents stop changing and locks and maps are nested finitely deep, it ends, reference cycles or not.", "quantifier": "all interleavings of a call with other code that changes maps, locks, reference counts and allocations; all values; both build modes", "why_tests_cant": "depends on the schedule and on what other threads do", "anchors": ["allocative/src/size_of.rs: size_of_unique_allocated_data, size_of_unique", "allocative/src/impls/dashmap.rs: DashMap, DashSet", "allocative/src/impls/std/sync.rs: Mutex, RwLock, OnceLock, Weak", "allocative/src/impls/lock_api.rs", "allocative/src/impls/tokio.rs", "allocative/src/visitor.rs: Visitor"]}
{"id": "C66", "title": "Several profiles and calls of size_of_unique at once, while everything changes", "statement": "Any number of sessions (each with its own builder and roots) and of calls of size_of_unique_allocated_data, in different threads, over the same values (with DashMaps, locks, shared pointers in them), while still other threads insert, remove, resize, replace contents of locks, free and reuse memory: the sessions do not mix, and neither they nor the calls change what the others report. Each builder ends up as after visiting, alone, a value put together from pieces each of which was there at some moment, and each call has the result (or panic) for such a value; only a panic of its own visits makes a session lose entries or contents without a reason. With DashMaps updated in place each session without panics has the report of well-typed values, and each call returns the bytes owned by one. Who is inside a lock or at the entries of a shard has its guard, alone if it is exclusive, and meanwhile nobody changes what it protects: participants never change contents at all. Each participant looks only at its roots (argument), at what its own guards protect and, sessions only, at allocations. It waits for nothing but the read lock of a shard that other code has exclusively; never for who only reads, for another participant or for itself. So as long as other code has no lock exclusively everybody who is not over can go on. If the memory is finite and contents no longer change, they cannot take turns for ever, and if other code then has no lock exclusively they stop only when all are over (or the process was aborted). When one is over it holds nothing, even if others go on.", "quantifier": "all interleavings of any number of sessions and calls with other code that changes maps, locks, reference counts and allocations; all values", "why_tests_cant": "depends on the schedule and on what other threads do", "anchors": ["allocative/src/flamegraph.rs: visit_root, finish", "allocative/src/size_of.rs: size_of_unique_allocated_data", "allocative/src/impls/dashmap.rs: DashMap, DashSet", "allocative/src/impls/std/sync.rs: Mutex, RwLock, OnceLock, Arc, Rc, Weak", "allocative/src/impls/lock_api.rs", "allocative/src/impls/tokio.rs", "allocative/src/visitor.rs: Visitor"]}
{"id": "C67", "title": "The profile of a running process with DashMaps", "statement": "visit_global_roots called with a new builder in a process whose other threads register further statics and change everything, DashMaps and DashSets (with keys and values of any kind) included: the statics in the profile are those registered before it asked, once per registration, in registration order, among them every static with #[root]; before each static and when it returns the builder is as after visiting, with nothing else running, the statics up to here as values put together from pieces each of which was there at some moment (every shard with all the entries it had at one moment), and with DashMaps updated in place the flame graph is the report of these values (and of further values, if the program goes on with visit_root). A panic in one static's visit keeps what was visited up to it and leaves out the rest. While statics are visited the registry is free, also while the profile waits; it waits for nothing but the read lock of a shard that is held exclusively (and for that as long as it is held: for ever if by the caller itself), holds nothing between visits or after a panic, does not go on for ever when contents no longer change, and returns (or panics) by itself from any moment on at which no other thread has a lock exclusively.", "quantifier": "all interleavings of the profiling thread with threads that register roots and change maps, locks, reference counts and allocations; all statics", "why_tests_cant": "depends on the schedule and on what other threads do", "anchors": ["allocative/src/global_root.rs: register_root, roots", "allocative/src/flamegraph.rs: visit_global_roots, visit_root, finish", "allocative_derive/src/root.rs", "allocative/src/impls/dashmap.rs: DashMap, DashSet", "allocative/src/impls/std/sync.rs: Mutex, RwLock, OnceLock, Arc, Rc, Weak", "allocative/src/impls/lock_api.rs", "allocative/src/impls/tokio.rs", "allocative/src/visitor.rs: Visitor"]}
