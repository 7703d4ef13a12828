(** * Specification vocabulary for layouts. *)
From Verif Require Import Base LayoutModel.

Definition pow2 (a : N) : Prop := exists k, a = 2 ^ k.

(** The invariant of [core::alloc::Layout]. *)
Definition valid_layout (l : layout) : Prop :=
  pow2 (l_align l) /\ l_align l <= two63 /\ l_size l <= two63 - l_align l.

(** [S] bytes aligned like the whole can hold a header of [c] bytes (alignment
    8) followed by a value of layout [v]. *)
Definition holds (c : N) (v : layout) (S : N) : Prop :=
  N.divide 8 S /\ N.divide (l_align v) S /\
  exists offset, c <= offset /\ N.divide (l_align v) offset /\ offset + l_size v <= S.

(** The fields can be placed in order, each at a multiple of its alignment and
    none overlapping, from [start] on within [S] bytes. *)
Fixpoint placed (start : N) (fields : list layout) (S : N) : Prop :=
  match fields with
  | [] => start <= S
  | f :: fields' => exists offset, start <= offset /\ N.divide (l_align f) offset /\ placed (offset + l_size f) fields' S
  end.

(** [S] bytes are enough for a C struct with these fields. *)
Definition c_struct (fields : list layout) (S : N) : Prop :=
  placed 0 fields S /\ forall f, In f fields -> N.divide (l_align f) S.

(** ** ThinArc

    The allocation is triomphe's [ArcInner<HeaderSlice<HeaderWithLength<H>, [T]>>]:
    three nested repr(C) structs. *)
Definition header_slice_layout (h : layout) (sz al n : N) : layout :=
  repr_c [repr_c [h; usize_layout]; mkLayout (sz * n) al].
Definition thin_arc_real (h : layout) (sz al n : N) : layout :=
  repr_c [usize_layout; header_slice_layout h sz al n].

Definition sized (h : layout) : Prop := pow2 (l_align h) /\ N.divide (l_align h) (l_size h).

(** ** Hash tables *)

(** [p] is the least power of two that is at least [n]. *)
Definition least_pow2 (n p : N) : Prop := pow2 p /\ n <= p /\ forall q, pow2 q -> n <= q -> p <= q.

(** hashbrown's capacity of a table with [buckets] buckets
    (hashbrown raw.rs [bucket_mask_to_capacity]). *)
Definition hashbrown_capacity (buckets : N) : N :=
  if buckets <=? 8 then buckets - 1 else buckets / 8 * 7.
