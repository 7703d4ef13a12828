(** * Several profiles and calls of [size_of_unique] at the same time, while everything
    changes.

    The sessions of MixModel and the calls of SizeMixModel are run side by side on one
    memory, together with other code; builders and results are private. *)
From Verif Require Import Base KeyModel HMap FlameModel BuilderModel VisitorModel LayoutModel ImplModel SizeOfModel LockModel SnapshotModel DashModel MixModel PoolModel SizeMixModel.

(** A participant: a session between two root visits (which are left, and whether no
    visit has panicked so far), a session in a root visit, a session whose process was
    aborted, a call of [size_of_unique_allocated_data].
    Models: flamegraph.rs 310-323, 359-363, size_of.rs 76-83. *)
Inductive doing :=
| DRoots (b : builder) (roots : list xvalue) (calm : bool)
| DVisit (b : builder) (k : xcontrol) (st : list xframe) (roots : list xvalue) (calm : bool)
| DGone (b : builder)
| DSize (s : N) (nk : node_kind) (k : zcontrol) (st : list zframe).

(** The memory and the participants; the [i]-th one owns guards and references as
    [Other i].  Models: flamegraph.rs 310-323, size_of.rs 39-43. *)
Record xpool := mkXP { q_mem : xmemory; q_all : list doing }.

(** The memory as the [i]-th participant sees it, as [view] of PoolModel; equal
    memories, as [same] of PoolModel (sync.rs 36-44, 93-103, 209-217, dashmap.rs 29-70). *)
Definition xview (i : nat) (g : xmemory) : xmemory := xset g (view i (x_shared g)).
(** See above (sync.rs 36-44, 93-103, 209-217, dashmap.rs 29-70). *)
Definition xsame (g g' : xmemory) : Prop :=
  same (x_shared g) (x_shared g') /\ x_content g = x_content g' /\ x_object g = x_object g' /\ x_table g = x_table g'.

(** Code that is none of the [n] participants, as [xchange] of MixModel.
    Models: users of the types at sync.rs 36-44, 66-141, 209-217, cell.rs 19-47, lock_api.rs 22-40, tokio.rs 20-38, dashmap.rs 29-70. *)
Inductive xoutside (n : nat) : xmemory -> xmemory -> Prop :=
| xo_shared g s : outside n (x_shared g) s -> xoutside n g (xset g s)
| xo_write g l t v : (n <= t)%nat -> In (Other t, Exclusive) (held (locks (x_shared g) l)) ->
    xoutside n g (mkX (x_shared g) (fun l' => if N.eqb l' l then v else x_content g l') (x_object g) (x_table g))
| xo_object g x o : xoutside n g (mkX (x_shared g) (x_content g) (fun y => if N.eqb y x then o else x_object g y) (x_table g))
| xo_table g l t tb : (n <= t)%nat -> In (Other t, Exclusive) (held (locks (x_shared g) l)) ->
    xoutside n g (mkX (x_shared g) (x_content g) (x_object g) (fun l' => if N.eqb l' l then tb else x_table g l'))
| xo_next g l l2 t : (n <= t)%nat -> available (locks (x_shared g) l2) ReadOnly -> In (Other t, ReadOnly) (held (locks (x_shared g) l)) ->
    xoutside n g (xset g (release (acquire (x_shared g) l2 (Other t) ReadOnly) l (Other t) ReadOnly false)).

(** The [i]-th participant takes a step: [visit_root] is called (and may refuse: a
    panic), a step of a visit, [visit_root] returns (or panics, or aborts), a step of a
    call of size_of.rs.  Models: flamegraph.rs 359-363, visitor.rs 65-118, size_of.rs 76-83. *)
Inductive xturn (m : mode) (std : lock -> bool) (i : nat) : xpool -> xpool -> Prop :=
| xt_begin g all b v vs calm b1 : nth_error all i = Some (DRoots b (v :: vs) calm) -> root_visitor b = (b1, Fine) ->
    xturn m std i (mkXP g all) (mkXP g (upd all i (DVisit b1 (XRun (XVisit v XRet)) [] vs calm)))
| xt_refused g all b v vs calm b1 : nth_error all i = Some (DRoots b (v :: vs) calm) -> root_visitor b = (b1, Panicked) ->
    xturn m std i (mkXP g all) (mkXP g (upd all i (DRoots b1 vs false)))
| xt_visit g all b k st vs calm g1 b' k' st' g' : nth_error all i = Some (DVisit b k st vs calm) ->
    xstep m std (mkXC (xview i g) b k st) (mkXC g1 b' k' st') -> xsame (xview i g') g1 ->
    xturn m std i (mkXP g all) (mkXP g' (upd all i (DVisit b' k' st' vs calm)))
| xt_leave g all b k st vs calm b2 o2 : nth_error all i = Some (DVisit b k st vs calm) ->
    xended (mkXC g b k st) -> leave_scope (xresult (mkXC g b k st)) = (b2, o2) -> o2 <> Aborted ->
    xturn m std i (mkXP g all) (mkXP g (upd all i (DRoots b2 vs (match o2 with Done => calm | _ => false end))))
| xt_abort g all b k st vs calm b2 : nth_error all i = Some (DVisit b k st vs calm) ->
    xended (mkXC g b k st) -> leave_scope (xresult (mkXC g b k st)) = (b2, Aborted) ->
    xturn m std i (mkXP g all) (mkXP g (upd all i (DGone b2)))
| xt_size g all s nk k st g1 s' nk' k' st' g' : nth_error all i = Some (DSize s nk k st) ->
    zstep m std (mkZ (xview i g) s nk k st) (mkZ g1 s' nk' k' st') -> xsame (xview i g') g1 ->
    xturn m std i (mkXP g all) (mkXP g' (upd all i (DSize s' nk' k' st'))).

(** [xjoint M m std P P']: some interleaving leads from [P] to [P'], and at every moment
    the memory is one of [M].  Models: visitor.rs 65-118, flamegraph.rs 359-363, size_of.rs 76-83. *)
Inductive xjoint (M : xmemory -> Prop) (m : mode) (std : lock -> bool) : xpool -> xpool -> Prop :=
| xj_end P : M (q_mem P) -> xjoint M m std P P
| xj_turn i P P' P'' : M (q_mem P) -> xturn m std i P P' -> xjoint M m std P' P'' -> xjoint M m std P P''
| xj_other g g' all P'' : M g -> xoutside (length all) g g' -> xjoint M m std (mkXP g' all) P'' -> xjoint M m std (mkXP g all) P''.

(** What the participants are to do (flamegraph.rs 359-363, size_of.rs 76-83). *)
Inductive job := Session (b : builder) (roots : list xvalue) | SizeOf (v : xvalue).
(** They start: flamegraph.rs 359-363, size_of.rs 76-81. *)
Definition job_start (j : job) : doing :=
  match j with
  | Session b roots => DRoots b roots true
  | SizeOf v => DSize 0 NKRoot (ZRun (XVisit v XRet)) []
  end.
(** See above (flamegraph.rs 359-363, size_of.rs 76-81). *)
Definition xpool_start (g : xmemory) (js : list job) : xpool := mkXP g (map job_start js).
