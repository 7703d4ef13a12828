(** * Specification vocabulary: what can be seen of memory with [DashMap]s that changes. *)
From Verif Require Import Base KeyModel HMap FlameModel BuilderModel VisitorModel LayoutModel Spec ImplModel LockModel SnapshotModel DashModel DashSpec MixModel.

(** The visit of a value of shape [s] is the same whatever its [i]-th contained value
    does: it is not visited (for example the elements of a [Vec] of a type without drop
    glue, visitor.rs 186-203). *)
Definition unvisited (m : mode) (s : shape) (sizes : list N) (i : nat) : Prop :=
  forall qs qs', length qs = length sizes -> length qs' = length sizes ->
    (forall j, j <> i -> nth_error qs j = nth_error qs' j) ->
    visit_shape m unseen s (combine sizes qs) = visit_shape m unseen s (combine sizes qs').

(** [size_of_val] of a value: that of its type, if it is not a [str] or a slice. *)
Definition bytes_of (v : xvalue) : N :=
  match v with
  | XPlain (SStr n) _ | XPlain (SOsStr n) _ => n
  | XPlain (SSlice e) cs => t_size e * N.of_nat (length cs)
  | XPlain s _ => match shape_info s with Some t => t_size t | None => 0 end
  | XLock t _ _ | XOnce t _ | XWeak t _ _ _ | XDash _ t _ _ => t_size t
  end.

Section Shown.
  Variable M : xmemory -> Prop.
  Variable m : mode.
  Variable panic : Prop.

  (** At a moment of [M] at which shard [l] could be read, the answer was [n] (after a
      [panic]: or it was never asked). *)
  Definition answered (w : asked) (l : lock) (n : N) : Prop :=
    panic \/ exists g, M g /\ LockModel.available (locks (x_shared g) l) ReadOnly /\
      n = match w with Capacity => tb_cap (x_table g l) | Length => N.of_nat (length (tb_entries (x_table g l))) end.

  (** [shown v q]: [q] is the visit of [v] put together from pieces of memory, each as
      it was at some moment of [M].  The content of a lock is that of a moment at which
      it could be taken; a lock is left out only if at some moment it was held or
      poisoned; the entries of a shard of a [DashMap] are those of one moment at which
      it could be read.  What is behind shared pointers is left open ([unseen]).  After
      a [panic] contents of locks and entries may be missing without a reason. *)
  Inductive shown : xvalue -> vprog -> Prop :=
  | sw_plain s cs qs : length qs = length cs ->
      (forall i c q, nth_error cs i = Some c -> nth_error qs i = Some q -> ~ unvisited m s (map xsize cs) i -> shown c q) ->
      shown (XPlain s cs) (visit_shape m unseen s (combine (map xsize cs) qs))
  | sw_open t l a g q : M g -> LockModel.available (locks (x_shared g) l) a -> poisoned (locks (x_shared g) l) = false ->
      shown (x_content g l) q -> shown (XLock t l a) (impl_cell t true [(xsize (x_content g l), q)])
  | sw_shut t l a : panic \/ (exists g, M g /\ (held (locks (x_shared g) l) <> [] \/ poisoned (locks (x_shared g) l) = true)) ->
      shown (XLock t l a) (impl_cell t false [])
  | sw_set t l g q : M g -> LockModel.available (locks (x_shared g) l) ReadOnly -> poisoned (locks (x_shared g) l) = false ->
      shown (x_content g l) q -> shown (XOnce t l) (impl_once t true [(xsize (x_content g l), q)])
  | sw_unset t l : panic \/ (exists g, M g /\ (held (locks (x_shared g) l) <> [] \/ poisoned (locks (x_shared g) l) = true)) ->
      shown (XOnce t l) (impl_once t false [])
  | sw_alive t t' ps x : (exists g, M g /\ strong (x_shared g) x <> []) ->
      shown (XWeak t t' ps x) (impl_weak unseen t (Some (t', ps, x)))
  | sw_dead t t' ps x : panic \/ (exists g, M g /\ strong (x_shared g) x = []) ->
      shown (XWeak t t' ps x) (impl_weak unseen t None)
  | sw_dash kd t e ls caps ens caps' lens :
      Forall2 (answered Capacity) ls caps -> Forall2 (yielded kd) ls ens ->
      Forall2 (answered Capacity) ls caps' -> Forall2 (answered Length) ls lens ->
      shown (XDash kd t e ls) (visit_told m kd t e caps ens caps' lens)
  (** The entries of a shard, key by key and value by value (of a [DashSet] there are
      only keys). *)
  with yielded : dash -> lock -> list entry -> Prop :=
  | yi_none kd l : panic -> yielded kd l []
  | yi_all kd l g es : M g -> LockModel.available (locks (x_shared g) l) ReadOnly -> these kd (tb_entries (x_table g l)) es -> yielded kd l es
  with these : dash -> list (xvalue * xvalue) -> list entry -> Prop :=
  | th_nil kd : these kd [] []
  | th_cons kd k v kvs id qk qv es : shown k qk -> (kd = IsMap -> shown v qv) -> these kd kvs es ->
      these kd ((k, v) :: kvs) (mkEntry id (xsize k, qk) (xsize v, qv) :: es).

  (** Allocations that were all there, at some moment each, and how they are visited. *)
  Definition shown_objects (h : list (ptr * vprog)) : Prop :=
    Forall (fun xp => exists g i v q, M g /\ x_object g (fst xp) = Some (i, v) /\ shown v q /\ snd xp = visit_inner i (xsize v, q)) h.
End Shown.

(** The allocation at [x]. *)
Fixpoint object_at (h : list (ptr * vprog)) (x : ptr) : option vprog :=
  match h with [] => None | (y, q) :: h' => if N.eqb x y then Some q else object_at h' x end.
(** The visit [p] where shared pointers lead to the allocations of [h] (followed [n]
    levels deep; going deeper or a dangling pointer is a panic). *)
Fixpoint pointing (at_ : ptr -> vprog) (p : vprog) : vprog :=
  match p with
  | VRet => VRet
  | VCrash => VCrash
  | VInline k s b r => VInline k s (pointing at_ b) (pointing at_ r)
  | VUnique k s b r => VUnique k s (pointing at_ b) (pointing at_ r)
  | VShared k s x _ r1 r2 => VShared k s x (at_ x) (pointing at_ r1) (pointing at_ r2)
  end.
Fixpoint target (n : nat) (h : list (ptr * vprog)) (x : ptr) : vprog :=
  match n with
  | O => VCrash
  | S n' => match object_at h x with Some q => pointing (target n' h) q | None => VCrash end
  end.
Definition linked (n : nat) (h : list (ptr * vprog)) (p : vprog) : vprog := pointing (target n h) p.

(** The guards the visit has. *)
Definition xinside (c : xconf) (l : lock) (a : access) : Prop := exists rest, In (YGuard l a rest) (xk_stack c).
(** It is visiting the entries of shard [l]. *)
Definition iterating (c : xconf) (l : lock) : Prop := exists kd ls rest, In (YShard kd l ls rest) (xk_stack c).
(** What the visit waits for, if it waits: the read lock of a shard. *)
Definition needs (c : xconf) (l : lock) : Prop :=
  match xk_control c, xk_stack c with
  | XRun (XSum _ (l' :: _) _ _), _ | XRun (XIter _ (l' :: _) _), _ => l' = l
  | XRun XRet, YShard _ _ (l' :: _) _ :: _ => l' = l
  | _, _ => False
  end.

(** [u] is [v] or inside it (not behind a lock, in a [DashMap] or behind a shared pointer). *)
Inductive xpart_of (u : xvalue) : xvalue -> Prop :=
| xpart_self : xpart_of u u
| xpart_child s cs v : In v cs -> xpart_of u v -> xpart_of u (XPlain s cs).
(** An [Arc], [Rc] or other owning pointer to [x]. *)
Definition xowns (u : xvalue) (x : ptr) : Prop :=
  match u with
  | XPlain (SShared _ _ y) _ | XPlain (SWeak _ (Some (_, _, y))) _ => y = x
  | _ => False
  end.
(** [u] is a key or a value of an entry. *)
Definition of_entry (u : xvalue) (e : xvalue * xvalue) : Prop := u = fst e \/ u = snd e.
(** [u] may be looked at: it is part of the root [v]; or of what a lock now contains
    whose guard the visit has; or of a key or value that is now in a shard whose read
    guard the visit has; or of an allocation (at some moment). *)
Definition xmay_look (M : xmemory -> Prop) (v : xvalue) (g : xmemory) (u : xvalue) : Prop :=
  xpart_of u v \/
  (exists l a, In (Visit, a) (held (locks (x_shared g) l)) /\ xpart_of u (x_content g l)) \/
  (exists l e w, In (Visit, ReadOnly) (held (locks (x_shared g) l)) /\ In e (tb_entries (x_table g l)) /\ of_entry w e /\ xpart_of u w) \/
  (exists g' x i w, M g' /\ x_object g' x = Some (i, w) /\ xpart_of u w).
(** [x] may be followed: an owning pointer to it may be looked at, or the visit has
    itself a strong reference to it. *)
Definition xmay_follow (M : xmemory -> Prop) (v : xvalue) (g : xmemory) (x : ptr) : Prop :=
  (exists u, xmay_look M v g u /\ xowns u x) \/ In Visit (strong (x_shared g) x).
(** What the visit is about to do: visit [u]; follow [x]. *)
Definition xlooks_at (c : xconf) (u : xvalue) : Prop := exists rest, xk_control c = XRun (XVisit u rest).
Definition xfollows (c : xconf) (x : ptr) : Prop := exists k n rest, xk_control c = XRun (XShared k n x rest).

(** The locks and shards in a value. *)
Fixpoint xlocks (v : xvalue) : list lock :=
  match v with
  | XPlain _ cs => concat (map xlocks cs)
  | XLock _ l _ | XOnce _ l => [l]
  | XWeak _ _ _ _ => []
  | XDash _ _ _ ls => ls
  end.
(** The memory is finite: there are finitely many allocations, and locks and [DashMap]s
    are nested finitely deep (other than through shared pointers). *)
Definition xfinite (g : xmemory) : Prop :=
  (exists xs : list ptr, forall x, x_object g x <> None -> In x xs) /\
  (exists rank : lock -> nat,
     (forall l l', In l' (xlocks (x_content g l)) -> (rank l' < rank l)%nat) /\
     (forall l l' e w, In e (tb_entries (x_table g l)) -> of_entry w e -> In l' (xlocks w) -> (rank l' < rank l)%nat)).
(** The visit takes a step, after others have used locks and reference counts in any
    way but have not changed any contents. *)
Definition xunchanged_step (m : mode) (std : lock -> bool) (c c' : xconf) : Prop :=
  exists s, xstep m std (mkXC (xset (xk_mem c) s) (xk_builder c) (xk_control c) (xk_stack c)) c'.
