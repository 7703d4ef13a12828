(** * Pointer identities: the addresses that implementations pass to [enter_shared].

    An allocation behind a shared pointer is a range of addresses; which address
    of it an implementation uses as identity depends on the pointer type. *)
From Verif Require Import Base BuilderModel VisitorModel LayoutModel LayoutSpec ImplModel.

(** A live allocation: its first address, how it is presented and the value in
    it.  [a_total], [a_offset]: for [futures::Shared] ([InBare]) the size of the
    [Arc<Inner>] block and where in it the result is; unused otherwise.
    Models: sync.rs 66-91, 105-129; triomphe.rs 52-111; futures.rs 23-41. *)
Record allocation := mkAlloc {
  a_base : N; a_inner : inner; a_value : value; a_total : N; a_offset : N }.

(** The size of the block.  std: [ArcInner]/[RcBox] is repr(C) with two counters
    (sync.rs 46-52 mirrors it); triomphe: one counter; [ThinArc]: LayoutSpec;
    futures: given. *)
Definition block_size (a : allocation) : N :=
  match a_inner a with
  | InArc al | InRc al => l_size (repr_c [usize_layout; usize_layout; mkLayout (size_of_val (a_value a)) al])
  | InTriomphe al => l_size (repr_c [usize_layout; mkLayout (size_of_val (a_value a)) al])
  | InThin _ h sz al n => l_size (thin_arc_real h sz al n)
  | InBare => a_total a
  end.

(** The identity.
    - sync.rs 76, 115: [Arc::as_ptr(self)], [Rc::as_ptr(self)]: the address of
      the value, which follows the two counters;
    - triomphe.rs 93: [Arc::heap_ptr(self)]: the start of the block;
    - triomphe.rs 59: [ThinArc::ptr(self)]: the start of the block;
    - futures.rs 33: the address of the result. *)
Definition identity (a : allocation) : ptr :=
  match a_inner a with
  | InArc al | InRc al => a_base a + round_up 16 al
  | InTriomphe _ | InThin _ _ _ _ _ => a_base a
  | InBare => a_base a + a_offset a
  end.

(** The allocations of a program as the store of [visit_in]: contents by identity.
    Models: the pointers of sync.rs 66-91, 105-129, triomphe.rs 52-111, futures.rs 23-41. *)
Definition store_of (mem : list allocation) : store :=
  map (fun a => (identity a, (a_inner a, a_value a))) mem.
