# Formal model of facebookexperimental/allocative in Rocq (Coq 8.16.1)

The model is plain Gallina over the standard library (`list`, `N`, `Z`, `string`,
records).  No axioms are added.  See "Trusted base" at the end.

## Files (rocq/theories)

Model files contain definitions only (each with the file and lines of /repo it models);
`*Spec.v` files contain the independent vocabulary in which properties are stated;
`*Facts.v`/`*Props.v` contain lemmas; `Properties*.v` contain the theorems named in
MANIFEST.json, each followed by `Print Assumptions`, with an `Example ..._satisfiable`
that shows a concrete case meeting its hypotheses.

| file | contents | models |
|------|----------|--------|
| `Base.v` | machine integers (64-bit `usize`/`isize`, debug = overflow panics, release = wraps), byte strings, byte-wise order, decimal printing | Rust core semantics used by the crate |
| `KeyModel.v` | `Key`, FNV-1a loop, `new`, `new_unchecked`, `Eq`, `Ord`; the proc macro's own `hash` | key.rs, derive_allocative.rs 34-44, 152-158 |
| `HMap.v` | `HashMap<Key,V>` as association list; list order = iteration order | std HashMap |
| `FlameModel.v` | `FlameGraph` and all of its methods | flamegraph.rs 26-96 |
| `BuilderModel.v` | `TreeData`, `Trees`, `TreeStack`, `FlameGraphBuilder`, `finish`, warnings | flamegraph.rs 98-495 |
| `VisitorModel.v` | visit programs (`vprog`): every client of the `Visitor` API, with both answers of `enter_shared` and with panics; their execution on the builder including unwinding; event-level semantics with leaks; the `Visitor::visit_*` helpers | visitor.rs, allocative_trait.rs |
| `SizeOfModel.v` | `size_of_unique_allocated_data`, `size_of_unique` and their visitor | size_of.rs |
| `GlobalModel.v` | root registry, threads, `visit_global_roots` as a small-step interleaving semantics | global_root.rs, flamegraph.rs 365-371 |
| `LayoutModel.v` | `Layout::extend/pad_to_align/array`, RcBox, triomphe reprs, hashbrown estimate, bump counters | impls/std/sync.rs, triomphe.rs, hashbrown_util.rs, bumpalo.rs |
| `ImplModel.v` | one function per `impl Allocative` (all of impls/**), and a universe of nested values over them | impls/** |
| `DeriveModel.v` | attribute parser, generics, generated code and its evaluation with variable scoping; `#[root]` | allocative_derive/** |
| `IdentityModel.v` | which address each shared pointer passes to `enter_shared`, for allocations placed in memory | sync.rs, triomphe.rs, futures.rs |
| `LockModel.v` | visits with `try_lock`/`try_read`/`try_borrow`, `upgrade` and waiting read locks, step by step, interleaved with other threads; unwinding, poisoning | sync.rs, cell.rs, lock_api.rs, tokio.rs, dashmap.rs |
| `SnapshotModel.v` | whole values with locks: the implementations of ImplModel, with the contents of locks and the targets of `Weak`s asked for when the visit gets there; sessions next to other threads | impls/**, flamegraph.rs |
| `ChangeModel.v` | the same for memory that changes during the visit: contents of locks are replaced, allocations made, freed and changed, addresses reused; what the visit sees is read when it gets there | impls/**, flamegraph.rs |
| `PoolModel.v`, `DropModel.v`, `UnwindModel.v`, `WaitModel.v`, `DashModel.v`, `MixModel.v`, `SizeMixModel.v`, `MixPoolModel.v`, `WholeModel.v`, `WholeMixModel.v` | several visits at a time; destructors run by a visit, also panicking ones; threads that wait for locks; a `DashMap` that changes; `DashMap`s and everything else that changes; registry and memory together, without and with `DashMap`s | the same files |
| `Spec.v`, `LayoutSpec.v`, `GlobalSpec.v`, `ImplSpec.v`, `DeriveSpec.v`, `ReportSpec.v`, `IdentitySpec.v`, `SessionSpec.v`, `LockSpec.v`, `GrowthSpec.v`, `SnapshotSpec.v`, `ChangeSpec.v` and the other `*Spec.v` | specifications: traces, bytes at a stack, blocks, sorted listings, parser, reachability, least-layout, histories, owned bytes, the table of reports, sessions, ... | — |
| `Conformance.v` | the repository's own tests and golden files (`*.src`), recomputed with the model (tests of the model's fidelity, not proofs) | tests in src/** |
| `Instances.v` | one executable instance per property theorem; `violated` lists those a (mutated) model falsifies; used by `tools/mutate.py` | — |

`tools/` holds scripts: `gen_properties.py`, `gen_manifest.py`, `coqproject.sh`,
`mutants.py` (seeded bugs), `mutate.py` (applies each, records what breaks).

## Modelling decisions

* `usize` is 64 bit.  Every `+`, `-`, `*` on `usize` in the code goes through
  `uadd`/`usub`/`umul` with a `mode` argument: `Debug` yields a panic on
  overflow, `Release` wraps modulo 2^64.  `as isize` wraps, `saturating_sub` saturates.
* A panic is an explicit value.  For the builder the state at the time of the
  panic is kept because `Drop for Visitor` runs on it while unwinding; a panic
  in that `drop` aborts.
* Rust strings are byte strings (`string`), a superset of UTF-8.
* `HashMap` is an association list whose order is its iteration order.
  Real iteration order is arbitrary, so theorems about observable output are
  also proved invariant under any permutation of any map.
* The arena `Trees` is a list indexed by position; out-of-range indexing is a panic.
* `vprog` is inductive: `Ret`, `Crash`, `Inline`, `Unique`, `Shared k s p body ct cf`.
  It is the most general deterministic client of `&mut Visitor` (the only
  information a client gets back is the `Option` returned by `enter_shared`).
  Cyclic heaps are modelled by linking a finite heap of visit programs to a
  given depth; running out of depth is `Crash`, and termination is the theorem
  that `Crash` is not reached (C15, C43).
* `mem::forget` on a `Visitor` is covered by the event-level semantics (C11).
* A Rust value is a tree `Node shape children` with a shape per implementing type;
  sizes, names and the `needs_drop` flag come with the shape (`tinfo`), because
  layout and type names are chosen by rustc.  `typed` states what rustc guarantees
  about them (a field fits in its struct, an element array is n elements, ...).
* Pointees of shared pointers live in a store (address to value); stores may be cyclic.

## Property plan

| id | what is modelled, how it is proved |
|----|------------------------------------|
| C01 | op sequences over a store of graphs; invariant "cache = sum" by induction |
| C02 | `size_at` = sum over matching children; induction on the merged graph |
| C03 | from C02 and extensionality of `write`/`total_size` in `size_at` |
| C04 | `write` = concatenation of lines of a strictly sorted list characterised by membership |
| C05 | mutual permutation relation on graphs/arenas; outputs equal |
| C06 | independent parser in Spec; round trip |
| C07 | decodable iff no separators; refuted in general by witness `Vec<[u8; 4]>` |
| C08, C09 | order laws by induction over strings; loops equal FNV-1a fold |
| C10-C14, C41 | ghost path list gives the arena its meaning; simulation of `run` by the trace semantics |
| C15, C16 | linked heaps; visited set = reachable set; trace is a permutation of per-object traces |
| C17, C18, C20, C21, C38 | sums over traces |
| C19 | induction on `vprog` |
| C22, C39 | machine vs exact arithmetic |
| C23 | crash = truncation; induction on `vprog` |
| C24, C25 | small-step interleaving semantics, invariant |
| C26-C29, C42 | generator + evaluator, induction over fields/tokens |
| C30, C31, C40 | N arithmetic; least-block specification |
| C32-C37, C45 | induction over the value universe |
| C43, C44 | stores of values refine the heaps of C15; a table of owning type names places every unique scope of every visit (C44_by_names) |
| C46 | a table of reports per shape; the trace of a visit is a permutation of it |
| C47 | allocations as intervals; arithmetic on disjoint intervals |
| C48 | relational specification of a session; simulation of the visited set |
| C49 | small-step semantics of visit and other threads; invariant "guards held = open blocks"; simulation by lock-free visits |
| C50 | traces of a longer history extend those of a shorter one; sums over traces |
| C51 | values with locks; every run of a visit resolves to a lock-free visit of some state; states of separately visited allocations are combined |
| C52 | small steps over changing memory; every run is a big-step run; the answers of locks and pointers along it are collected into values and a store (`appears`), of which a lock-free visit gives the same result; termination by (unvisited allocations, remaining code) |
| C53 | small steps over shards that change unless guarded; each answer of a shard is a `reads` of the history; termination by lexicographic position |
| C54 | any number of the visits of C49 interleaved; each is projected to a single visit by renaming owners (`view`), so C49 applies to each; guards held = open blocks of somebody |
| C55 | registry of C24, changing memory of C52 and the loop of `visit_global_roots` as one small-step system; executions project to executions of C24 and sessions of C52 |
| C56 | C49's steps with the destructor of the last upgraded pointer run on the profiling thread; guards of destructors are counted; locks around a `Weak` tracked through the stack of scopes |
| C57 | invariant of the builder: nodes correspond one to one to entered stacks; `finish` with a limit on nested calls (`ExtentModel.v`) compared with `finish`; repetition of a session adds no stack |
| C58 | the FlameGraph operations with the graph they leave when they panic (`InterruptModel.v`); everything such a call leaves is obtainable without panics, by induction over the merged children |
| C59 | `run` with a limit on the visitors alive at a time, and the number of `enter*` calls (`NestModel.v`); the exact depth by induction over programs, the bounds by induction over object graphs (each allocation is entered once), values by the correspondence of C43; the family of examples by induction on k |
| C60 | the sums behind C17 and C18 without the assumption of consistent declarations: per stack, shown + inline children = declared + excess; the excess is bounded by distributing each scope's own overspending over the stacks (`TotalSpec.v`, `TotalFacts.v`); applied to changing DashMaps in `DashTotal.v` (C53_at_most_twice) |
| C61 | the invariants of C12 with sizes modulo 2^64 and no bound (`WrapSpec.v`, `WrapRun.v`, `WrapFinish.v`); what a successful debug `finish` implies (`WrapPanic.v`); debug and release runs of any program compared step by step (`WrapModes.v`) |
| C62 | C56's machine with destructors that panic (`UnwindModel.v`): code, fields and locals dropped in any case, poisoning, abort on a second panic; at most one unwinding at a time and its place are invariants (`UnwindFacts.v`); backward big-step argument as C49 with one more outcome behind a `Weak` (`UnwindProfile.v`); bisimulation with C56 for destructors that do not panic (`UnwindProps.v`) |
| C63 | C54's visits next to threads that ask for locks, wait and give them back (`WaitModel.v`); a process projects to the same threads without visits (`without_profiles`) and to C54's pool; deadlock = a set of participants each obstructed by one of it (`WaitSpec.v`), shown to last for ever; induction on the rank of the lock waited for; straight-line threads by counting guards (`WaitCases.v`) |
| C64 | C52's machine with the shards of `DashMap`s as further locks whose tables others change, and with the loops over shards step by step (`MixModel.v`); what a visit amounts to as a program over pieces of memory (`shown`, `MixSpec.v`), by the backward big-step argument of C52 (`MixRun.v`, `MixFacts.v`, `MixSession.v`); guards by the invariant of C49 (`MixGuard.v`, `MixLooks.v`); termination by counting steps and allocations left (`MixEnds.v`); maps updated in place: values whose visits are what was seen, then C46 and C35 (`MixTypedSpec.v`, `MixTyped.v`, `PropertiesMixTyped.v`) |
| C65 | C64's machine with the visitor of size_of.rs (`SizeMixModel.v`): same memory, code and interleavings; from steps to answers by the big-step argument of C64 for `run_so` (`SizeMixFacts.v`), then C33 for the values seen (`MixTyped.v`); guards by embedding into C64's machine (`yconf`, `SizeMixGuard.v`), termination by the ranks of locks alone (no shared pointer is followed); refutation and examples by runs (`SizeMixCases.v`) |
| C66 | sessions of C64 and calls of C65 side by side on one memory (`MixPoolModel.v`); each sees the memory as in C54 (`view`: its own guards as the visit's, those of the others as other code's); a step of one is quiet or a change to another (`seen_step`, `MixPoolFacts.v`), so each is a run of C64 or C65; what it saw was there (`MixPoolShown.v`), its guards exclude the others by `steady`; nobody waits for a participant, since what is waited for is a shard and what a participant has exclusively is not (`csep`, `MixApart.v`, also for C64, C65: `PropertiesMixApart.v`) |
| C67 | registry of C24, memory of C64 and the loop of `visit_global_roots` as one small-step system (`WholeMixModel.v`); executions project to executions of C24 and sessions of C64 (`WholeMixFacts.v`); nothing is held between visits (`resting`); termination by the order of C66_ends for one participant |

No property is left out as inexpressible; parts of the runtime that a model cannot
exhibit are listed below.

## Trusted base

* Coq 8.16.1's kernel (type checker, including `vm_compute`, used for concrete
  examples and refutation witnesses).
* Axioms: none.  `Print Assumptions` of every theorem in `Properties*.v` prints
  "Closed under the global context" (the build log shows it).  The whole-library
  listing of `coqchk` mentions seven constants of `Coq.ssr.ssrunder` (`Under_rel` and
  companions: the opaque module behind ssreflect's `under` tactic, in Coq's standard
  distribution); they are loaded through the standard library and no theorem here
  depends on them.  No other library than Coq's own is imported.
* No functors, module types, plugins or disabled checks.
* The reading of the Rust source in the model files (function by function, with line
  references) and of the properties in the specification files.  `Conformance.v`
  recomputes the repository's tests and golden files with the model as a check.

### Modelled

key.rs, visitor.rs, allocative_trait.rs, flamegraph.rs, size_of.rs, global_root.rs,
all of impls/**, derive_allocative.rs, root.rs, the `ident_key!` macro (as `Key::new` of
the identifier).

### Simplified or not modelled

* rustc: type checking (beyond name resolution of derived code, C28/C29), layout of
  types (`size_of`, `align_of`, `needs_drop` and `type_name` are data of a value,
  constrained by `typed`), monomorphisation, `const` evaluation, `ctor` running
  registrations before `main` (C42 takes the order in which the linker runs them as
  arbitrary).
* `syn`/`quote`: tokens are already lexed; spans, error texts and non-ident generic
  details are dropped; `to_lowercase` is ASCII only.
* The stack: C59 counts nested visitors, C57 the recursion of `finish`; sizes of stack frames, out-of-memory and signals are not modelled.
* `HashMap` internals; allocator behaviour (only disjointness of live blocks, C47).
* Reading through `&self` is taken to see one consistent value, except where C48 (between
  calls) and C49 (locks) say otherwise; data races are excluded by Rust's type system.
  The numbers `capacity()`/`len()` of a `DashMap` are read at different times: C53 models
  this for one map, C64 for maps anywhere in what is visited; elsewhere the model takes them as given.  The destructor that may run when an upgraded `Weak` is dropped
  last is identified in C49 and executed in C56 (its locks and further pointers only) and C62 (also panics; no `catch_unwind` inside it).
  C51: contents, lengths and types do not change during the profile (only lock status and
  reference counts do); C52 lifts this.  In both a `DashMap` is read at once (C49 has its
  shards one by one, C64 lifts it), and memory is sequentially consistent.  C49, C54: a writer that waits
  for a `DashMap` shard and meanwhile keeps new readers out is not modelled; in C63 it is.
  The iterator of a `DashMap` is taken to give back a shard before it asks for the next
  one, except in C64; if it does so afterwards, as in C64, the shard before is also held at that moment (of the
  theorems of C63 only the condition of C63_ordered then concerns it: shards of one map
  in order).
* Interior details of dependencies: hashbrown's bucket count (modelled from its
  published `capacity_to_buckets`), control-group padding (ignored, as in the code),
  bumpalo chunk sizes (given), `Arc`'s allocation layout (from std's source), futures'
  `Shared` (given by whether the result is ready).
* golden.rs and build.rs (test support, version detection) are not modelled, except
  for the normalisation needed to compare golden files in `Conformance.v`.
* UTF-8 validity and Unicode: strings are byte strings.
* 32-bit targets.

## Findings (properties the code does not have; each has a `_refuted` theorem)

* C05, C08: keys from `Key::new_unchecked` with a wrong hash make `==` and `cmp` disagree, and line order depend on iteration order.
* C07: type names such as `[u8; 4]` contain the frame separator `;`; different graphs can have the same text.
* C18: a stack entered both as unique and inline over-counts (by exactly the bytes stated).
* C20: a pointer directly inside a unique scope is counted by the flame graph but not by `size_of_unique`.
* C21: merging profiles of roots that share a pointer counts the pointee twice. So does a stack entered both as unique and otherwise, or a misdeclared one, change the sum.
* C22: the bound 2^63 is tight (`as isize` cast); C23: an overflow panic inside the builder leaves it unusable.
* C28: a field called `visitor`, or a `visit = f` named like a local, breaks derived code.
* C29: const-parameter defaults are kept in the impl header, which rustc rejects.
* C30: `ThinArc` with strictly aligned elements is under-reported.
* C31: the hash-table estimate is half the truth when `len` exceeds 7/8 of a power of two.
* C33: `Box<&T>`-like content that records nothing, and `ManuallyDrop` elements in vectors, are not seen.
* C34: entries of std maps and sets are not counted by `size_of_unique_allocated_data` and cause warnings.
* C41: a repeated `enter_shared` records the pointer field (the doc comment says it does nothing).
* C42: statics that differ only in case clash; raw identifiers make `#[root]` panic.
* C44: an array of `IndexSet`/`IndexMap`/`HashTable`/JSON maps is recorded under the element type's name; profiled together with such a value at the same place its bytes are counted twice.
* C47: a zero-sized value behind a std `Arc` followed in memory by a triomphe allocation hides the latter.
* C48: an address reused between two `visit_root` calls is taken for the old allocation.
* C50: visiting one more std map can make bytes shown elsewhere disappear (the entries of std maps are misdeclared).
* C51: a profile may show contents together that were never available at the same moment.
* C52: an allocation at the address of one visited earlier in the same visit and freed since is not shown; a visit follows a list that others keep appending to for ever.
* C53: a `DashMap` emptied after its entries were visited is reported with twice its capacity and a warning; one that grows after `capacity()` was read gives a warning.
* C64: an entry of a `DashMap` that is moved to another shard during the visit can be shown twice; a list behind mutexes that others keep appending to is followed ever deeper (`C64_unbounded_refuted`).
* C65: `size_of_unique` can count an entry of a `DashMap` twice that is moved to another shard during the call; it follows a list behind mutexes that others keep appending to, ever deeper in the recursion (`C65_unbounded_refuted`).
* C49: `DashMap` visits deadlock if the profiling thread holds a write guard; visiting a `Weak` may run a destructor.
* C56: visiting a `Mutex` with `Weak`s in it can deadlock with itself, if a destructor of what they point to locks it.
* C63: profiling a `Mutex` with a `DashMap` in it can deadlock with a thread that locks the mutex while it has a shard; two profiles can deadlock with two writers, if waiting writers keep readers out.
* C62: a destructor that panics during a visit poisons the `Mutex`es around the `Weak`, although nothing in `visit` panics.
* C67: `visit_global_roots` never returns if the calling thread itself keeps a shard of a registered `DashMap` exclusively (`C67_stays_put`).
