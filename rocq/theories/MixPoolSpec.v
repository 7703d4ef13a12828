(** * Specification vocabulary for several profiles at the same time, while everything
    changes. *)
From Verif Require Import Base BuilderModel VisitorModel LockModel DashModel DashSpec MixModel MixSpec PoolModel SizeMixModel MixPoolModel.

(** The memories of [M], as the [i]-th participant sees them. *)
Definition seen_from (i : nat) (M : xmemory -> Prop) (h : xmemory) : Prop := exists g, M g /\ xsame h (xview i g).

(** The [i]-th participant is a session that is over: builder, how it ended ([Aborted]:
    the process), and whether no visit of it panicked. *)
Definition session_over (P : xpool) (i : nat) (b : builder) (o : outcome) (calm : bool) : Prop :=
  match nth_error (q_all P) i with
  | Some (DRoots b0 [] calm0) => b = b0 /\ o = Done /\ calm = calm0
  | Some (DGone b0) => b = b0 /\ o = Aborted /\ calm = false
  | _ => False
  end.
(** It is a call of [size_of_unique_allocated_data] that is over, with this result
    ([None]: a panic). *)
Definition size_over (P : xpool) (i : nat) (r : option N) : Prop :=
  match nth_error (q_all P) i with
  | Some (DSize s nk k st) => zended (mkZ (q_mem P) s nk k st) /\ r = zresult (mkZ (q_mem P) s nk k st)
  | _ => False
  end.

(** The [i]-th participant is visiting the content of the lock [l], to which it has
    access [a], or the entries of the shard [l]. *)
Definition is_inside (P : xpool) (i : nat) (l : lock) (a : access) : Prop :=
  match nth_error (q_all P) i with
  | Some (DVisit _ _ st _ _) => (exists rest, In (YGuard l a rest) st) \/ (a = ReadOnly /\ exists kd ls rest, In (YShard kd l ls rest) st)
  | Some (DSize _ _ _ st) => (exists rest, In (ZGuard l a rest) st) \/ (a = ReadOnly /\ exists kd ls rest, In (ZShard kd l ls rest) st)
  | _ => False
  end.
(** The process was aborted, by the [i]-th participant. *)
Definition is_gone (P : xpool) (i : nat) : Prop :=
  match nth_error (q_all P) i with Some (DGone _) => True | Some (DVisit _ XLost _ _ _) => True | _ => False end.
(** If the [i]-th participant waits, it is for the read lock of the shard [l]. *)
Definition asks_for (P : xpool) (i : nat) (l : lock) : Prop :=
  match nth_error (q_all P) i with
  | Some (DVisit _ (XRun (XSum _ (l' :: _) _ _)) _ _ _) | Some (DVisit _ (XRun (XIter _ (l' :: _) _)) _ _ _)
  | Some (DVisit _ (XRun XRet) (YShard _ _ (l' :: _) _ :: _) _ _)
  | Some (DSize _ _ (ZRun (XSum _ (l' :: _) _ _)) _) | Some (DSize _ _ (ZRun (XIter _ (l' :: _) _)) _)
  | Some (DSize _ _ (ZRun XRet) (ZShard _ _ (l' :: _) _ :: _)) => l' = l
  | _ => False
  end.
(** The [i]-th participant is over. *)
Definition is_over (P : xpool) (i : nat) : Prop := (exists b o calm, session_over P i b o calm) \/ (exists r, size_over P i r).

(** What the [i]-th participant is about to visit. *)
Definition is_about_to_visit (P : xpool) (i : nat) (u : xvalue) : Prop :=
  match nth_error (q_all P) i with
  | Some (DVisit _ (XRun (XVisit u' _)) _ _ _) | Some (DSize _ _ (ZRun (XVisit u' _)) _) => u' = u
  | _ => False
  end.
(** [u] is part of [v]; or of what a lock now contains whose guard the [i]-th
    participant has; or of a key or value that is now in a shard whose read guard it has. *)
Definition in_its_hands (i : nat) (v : xvalue) (g : xmemory) (u : xvalue) : Prop :=
  xpart_of u v \/
  (exists l a, In (Other i, a) (held (locks (x_shared g) l)) /\ xpart_of u (x_content g l)) \/
  (exists l e w, In (Other i, ReadOnly) (held (locks (x_shared g) l)) /\ In e (tb_entries (x_table g l)) /\ of_entry w e /\ xpart_of u w).
(** [u] is part of an allocation, at some moment. *)
Definition was_allocated (M : xmemory -> Prop) (u : xvalue) : Prop := exists g x i w, M g /\ x_object g x = Some (i, w) /\ xpart_of u w.
