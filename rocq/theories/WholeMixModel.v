(** * [visit_global_roots] in a running process with [DashMap]s (flamegraph.rs 365-371, global_root.rs).

    As WholeModel, with the memory of MixModel: shards, locks, allocations, all of which
    other threads change meanwhile. *)
From Verif Require Import Base KeyModel HMap FlameModel BuilderModel VisitorModel LayoutModel ImplModel LockModel SnapshotModel DashModel MixModel GlobalModel.

(** Where the profiling thread is.  Models: flamegraph.rs 365-371:
    [XAsks]: has not returned from [roots()] (367);
    [XNext rs b]: at the head of the loop, [rs] are left (367);
    [XWithin rs b k st]: inside [visit_root] (368, 359-363), [rs] are left;
    [XStopped b o]: left the loop by a panic, or the process is gone. *)
Inductive xphase :=
| XAsks (b : builder)
| XNext (rs : list groot) (b : builder)
| XWithin (rs : list groot) (b : builder) (k : xcontrol) (st : list xframe)
| XStopped (b : builder) (o : outcome).

(** The registry (global_root.rs 15), the memory and the profiling thread
    (flamegraph.rs 365-371). *)
Record xprocess := mkPX { o_reg : gstate; o_mem : xmemory; o_phase : xphase }.

(** One step of the profiling thread after [roots()] has returned.  [statics r] is the value
    of the static registered as [r] (a static is not replaced; what is inside its locks
    and allocations is in memory).
    Simplification: the visits do not themselves register roots (C25 has that).
    Models: flamegraph.rs 359-371, visitor.rs 65-69, dashmap.rs 29-70. *)
Inductive xown (m : mode) (std : lock -> bool) (statics : groot -> xvalue) : xprocess -> xprocess -> Prop :=
| xw_root r g x rs b b1 : root_visitor b = (b1, Fine) ->
    xown m std statics (mkPX r g (XNext (x :: rs) b)) (mkPX r g (XWithin rs b1 (XRun (XVisit (statics x) XRet)) []))
| xw_refused r g x rs b b1 : root_visitor b = (b1, Panicked) ->
    xown m std statics (mkPX r g (XNext (x :: rs) b)) (mkPX r g (XStopped b1 Unwinding))
| xw_visit r g rs b k st g' b' k' st' : xstep m std (mkXC g b k st) (mkXC g' b' k' st') ->
    xown m std statics (mkPX r g (XWithin rs b k st)) (mkPX r g' (XWithin rs b' k' st'))
| xw_leave r g rs b k st b' : xended (mkXC g b k st) -> leave_scope (xresult (mkXC g b k st)) = (b', Done) ->
    xown m std statics (mkPX r g (XWithin rs b k st)) (mkPX r g (XNext rs b'))
| xw_stop r g rs b k st b' o : xended (mkXC g b k st) -> leave_scope (xresult (mkXC g b k st)) = (b', o) -> o <> Done ->
    xown m std statics (mkPX r g (XWithin rs b k st)) (mkPX r g (XStopped b' o)).

(** One step of anything in the process; [me] is the profiling thread's name in the
    registry.
    Models: flamegraph.rs 359-371, global_root.rs 20-26. *)
Inductive xwstep (m : mode) (std : lock -> bool) (statics : groot -> xvalue) (me : tid) : xprocess -> list gevent -> xprocess -> Prop :=
(* the registry *)
| xw_registry r e r' g ph : gstep r e r' -> (forall n l, e <> [Ret me n Snapshot (RList l)]) ->
    xwstep m std statics me (mkPX r g ph) e (mkPX r' g ph)
| xw_snapshot r n l r' g b : gstep r [Ret me n Snapshot (RList l)] r' ->
    xwstep m std statics me (mkPX r g (XAsks b)) [Ret me n Snapshot (RList l)] (mkPX r' g (XNext l b))
(* other threads use the memory *)
| xw_change r g g' ph : xchange g g' -> xwstep m std statics me (mkPX r g ph) [] (mkPX r g' ph)
(* the loop *)
| xw_own s s' : xown m std statics s s' -> xwstep m std statics me s [] s'.

(** [xgoes M s H s']: some schedule leads from [s] to [s'], producing the events [H] at
    the registry; at every moment the memory is one of [M].
    Models: flamegraph.rs 359-371, global_root.rs 20-26. *)
Inductive xgoes (M : xmemory -> Prop) (m : mode) (std : lock -> bool) (statics : groot -> xvalue) (me : tid) : xprocess -> list gevent -> xprocess -> Prop :=
| xgo_end s : M (o_mem s) -> xgoes M m std statics me s [] s
| xgo_step s e s' H s'' : M (o_mem s) -> xwstep m std statics me s e s' -> xgoes M m std statics me s' H s'' ->
    xgoes M m std statics me s (e ++ H) s''.

(** The process starts: nothing is registered, the profiling thread has a new builder
    (flamegraph.rs 310-323).  What [#[root]] registers before [main] (root.rs 22-41) is the first
    part of the programs. *)
Definition xlaunch (progs : tid -> list gop) (g : xmemory) : xprocess := mkPX (g_init progs) g (XAsks b_default).
