(** * Layout arithmetic: sizes of heap allocations (impls/std/sync.rs,
    impls/triomphe.rs, impls/hashbrown_util.rs, impls/bumpalo.rs). *)
From Verif Require Import Base.

(** [core::alloc::Layout] (standard library): size and alignment in bytes.
    Invariant of the type (checked by its constructors): the alignment is a
    power of two and the size rounded up to it does not exceed [isize::MAX].
    Models: used at sync.rs 54-64, triomphe.rs 61-66, 95-100. *)
Record layout := mkLayout { l_size : N; l_align : N }.

(** [core::alloc::Layout::from_size_align]: [None] is [Err(LayoutError)]; the
    alignment is a power of two by construction in this crate.
    Models: used at sync.rs 54-64. *)
Definition layout_from_size_align (size align : N) : option layout :=
  if size <=? two63 - align then Some (mkLayout size align) else None.

(** [core::alloc::Layout::padding_needed_for]:
    [((len + align - 1) & !(align - 1)) - len], all wrapping.
    Models: used at sync.rs 54-64. *)
Definition padding_needed_for (len align : N) : N :=
  wrapping_sub (N.ldiff (wrapping_sub ((len + align) mod two64) 1) (align - 1)) len.

(** [core::alloc::Layout::extend], first component ([None] = [Err]).
    Models: used at sync.rs 54-64, triomphe.rs 61-66, 95-100. *)
Definition layout_extend (l next : layout) : option layout :=
  let align := N.max (l_align l) (l_align next) in
  let offset := l_size l + padding_needed_for (l_size l) (l_align next) in
  if offset <? two64 then
    if offset + l_size next <? two64 then layout_from_size_align (offset + l_size next) align
    else None
  else None.

(** [core::alloc::Layout::pad_to_align].
    Models: used at sync.rs 54-64, triomphe.rs 61-66, 95-100. *)
Definition layout_pad_to_align (l : layout) : layout :=
  mkLayout (l_size l + padding_needed_for (l_size l) (l_align l)) (l_align l).

(** [core::alloc::Layout::array::<T>(n)]; [T] has size [sz], alignment [al].
    Models: used at triomphe.rs 61-66. *)
Definition layout_array (sz al n : N) : option layout :=
  if sz * n <=? two63 - al then Some (mkLayout (sz * n) al) else None.

(** [Layout::new::<RcBox<()>>()] (sync.rs 46-52: repr(C), two [usize]). *)
Definition rcbox_unit_layout : layout := mkLayout 16 8.

(** sync.rs 54-64 [RcBox::layout(val).size()]; [val] has layout [v];
    [None] = panic of [unwrap]. *)
Definition rcbox_layout_size (v : layout) : option N :=
  option_map (fun l => l_size (layout_pad_to_align l)) (layout_extend rcbox_unit_layout v).

(** [Layout::new::<ArcInnerRepr>()] (triomphe.rs 82-84: one [AtomicUsize]). *)
Definition arc_inner_repr_layout : layout := mkLayout 8 8.

(** triomphe.rs 95-100: size of a [triomphe::Arc] allocation. *)
Definition triomphe_arc_size (v : layout) : option N :=
  option_map (fun l => l_size (layout_pad_to_align l)) (layout_extend arc_inner_repr_layout v).

(** The layout of a [repr(C)] struct with the given fields: what rustc computes
    for [Layout::new::<S>()] (Rust reference, "The C representation").
    Models: structs of sync.rs 46-52, triomphe.rs 45-50. *)
Definition round_up (n a : N) : N := (n + a - 1) / a * a.
(** The next field of a [repr(C)] struct (structs of sync.rs 46-52, triomphe.rs 45-50). *)
Definition repr_c_add (l f : layout) : layout :=
  mkLayout (round_up (l_size l) (l_align f) + l_size f) (N.max (l_align l) (l_align f)).
(** All fields and the padding at the end (structs of sync.rs 46-52, triomphe.rs 45-50). *)
Definition repr_c (fields : list layout) : layout :=
  let l := fold_left repr_c_add fields (mkLayout 0 1) in
  mkLayout (round_up (l_size l) (l_align l)) (l_align l).

(** [Layout::new::<usize>()] on a 64-bit target (the counters of sync.rs 46-52, triomphe.rs 45-50). *)
Definition usize_layout : layout := mkLayout 8 8.

(** triomphe.rs 45-50 [ThinArcInnerRepr<H>]: repr(C) { AtomicUsize, H, usize }. *)
Definition thin_arc_inner_repr_layout (h : layout) : layout :=
  repr_c [usize_layout; h; usize_layout].

(** triomphe.rs 61-66: size of a [ThinArc<H, T>] allocation with [n] elements of
    size [sz] and alignment [al]. *)
Definition thin_arc_size (h : layout) (sz al n : N) : option N :=
  do a <- layout_array sz al n;
  option_map (fun l => l_size (layout_pad_to_align l)) (layout_extend (thin_arc_inner_repr_layout h) a).

(** [usize::next_power_of_two] (standard library): the smallest power of two
    [>= n]; overflow: panic in debug, 0 in release.
    Models: used at hashbrown_util.rs 21. *)
Definition next_power_of_two (m : mode) (n : N) : option N :=
  let p := if n <=? 1 then 1 else 2 ^ (N.log2 (n - 1) + 1) in
  if p <? two64 then Some p else match m with Debug => None | Release => Some 0 end.

(** hashbrown_util.rs 15-25 [raw_table_alloc_size_for_len::<T>(len)];
    [sz = size_of::<T>()]. *)
Definition raw_table_alloc_size_for_len (m : mode) (sz len : N) : option N :=
  do buckets <- (if len =? 0 then Some 0
                 else if len <? 4 then Some 4
                 else next_power_of_two m len);
  do entry <- uadd m sz 1;
  umul m entry buckets.

(** bumpalo.rs 23-35 [BumpCounters::collect]: [(used, unused)];
    [allocated] is [bump.allocated_bytes()], [chunks] the sizes of
    [iter_allocated_chunks_raw()]. *)
Definition bump_counters (m : mode) (allocated : N) (chunks : list N) : option (N * N) :=
  do used <- usum m 0 chunks;
  Some (used, wrapping_sub allocated used).
