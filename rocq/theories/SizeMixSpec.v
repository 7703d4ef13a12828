(** * Specification vocabulary: what a call of [size_of_unique_allocated_data] does. *)
From Verif Require Import Base BuilderModel VisitorModel ImplModel LockModel SnapshotModel DashModel MixModel MixSpec SizeMixModel.

(** The guards the visit has; it is visiting the entries of shard [l]. *)
Definition zinside (c : zconf) (l : lock) (a : access) : Prop := exists rest, In (ZGuard l a rest) (z_stack c).
Definition ziterating (c : zconf) (l : lock) : Prop := exists kd ls rest, In (ZShard kd l ls rest) (z_stack c).
(** What the visit waits for, if it waits: the read lock of a shard. *)
Definition zneeds (c : zconf) (l : lock) : Prop :=
  match z_control c, z_stack c with
  | ZRun (XSum _ (l' :: _) _ _), _ | ZRun (XIter _ (l' :: _) _), _ => l' = l
  | ZRun XRet, ZShard _ _ (l' :: _) _ :: _ => l' = l
  | _, _ => False
  end.
(** The value it is about to visit. *)
Definition zlooks_at (c : zconf) (u : xvalue) : Prop := exists rest, z_control c = ZRun (XVisit u rest).
(** [u] is part of the argument [v]; or of what a lock now contains whose guard the
    visit has; or of a key or value that is now in a shard whose read guard it has.  (Not:
    behind a shared pointer.) *)
Definition zmay_look (v : xvalue) (g : xmemory) (u : xvalue) : Prop :=
  xpart_of u v \/
  (exists l a, In (Visit, a) (held (locks (x_shared g) l)) /\ xpart_of u (x_content g l)) \/
  (exists l e w, In (Visit, ReadOnly) (held (locks (x_shared g) l)) /\ In e (tb_entries (x_table g l)) /\ of_entry w e /\ xpart_of u w).
(** Locks and [DashMap]s are nested finitely deep (other than through shared pointers). *)
Definition znested (g : xmemory) : Prop :=
  exists rank : lock -> nat,
    (forall l l', In l' (xlocks (x_content g l)) -> (rank l' < rank l)%nat) /\
    (forall l l' e w, In e (tb_entries (x_table g l)) -> of_entry w e -> In l' (xlocks w) -> (rank l' < rank l)%nat).
(** The visit takes a step, after others have used locks and reference counts in any
    way, and changed allocations, but not the contents of locks and [DashMap]s. *)
Definition zunchanged_step (m : mode) (std : lock -> bool) (c c' : zconf) : Prop :=
  exists s objects, zstep m std (mkZ (mkX s (x_content (z_mem c)) objects (x_table (z_mem c))) (z_size c) (z_kind c) (z_control c) (z_stack c)) c'.
(** The same memory with other allocations. *)
Definition with_objects (f : ptr -> option (inner * xvalue)) (g : xmemory) : xmemory := mkX (x_shared g) (x_content g) f (x_table g).
