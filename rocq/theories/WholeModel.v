(** * [visit_global_roots] in a running process (flamegraph.rs 365-371, global_root.rs).

    The registry of GlobalModel, memory that changes as in ChangeModel, and a
    thread that calls [visit_global_roots] with a fresh builder. *)
From Verif Require Import Base KeyModel HMap FlameModel BuilderModel VisitorModel ImplModel LockModel ChangeModel GlobalModel.

(** Where the profiling thread is.  Models: flamegraph.rs 365-371:
    [Asks]: has not returned from [roots()] (367);
    [Next rs b]: at the head of the loop, [rs] are left (367);
    [Within rs b k st]: inside [visit_root] (368, 359-363), [rs] are left;
    [Stopped b o]: left the loop by a panic, or the process is gone. *)
Inductive phase :=
| Asks (b : builder)
| Next (rs : list groot) (b : builder)
| Within (rs : list groot) (b : builder) (k : ccontrol) (st : list cframe)
| Stopped (b : builder) (o : outcome).

(** The registry (global_root.rs 15), the memory and the profiling thread
    (flamegraph.rs 365-371). *)
Record process := mkP { w_reg : gstate; w_mem : memory; w_phase : phase }.

(** One step of the profiling thread after [roots()] has returned.  [statics r] is the value
    of the static registered as [r] (a static is not replaced; what is inside its locks
    and allocations is in memory).
    Simplification: the visits do not themselves register roots (C25 has that).
    Models: flamegraph.rs 359-371, visitor.rs 65-69. *)
Inductive own (m : mode) (std : lock -> bool) (statics : groot -> mvalue) : process -> process -> Prop :=
| w_root r g x rs b b1 : root_visitor b = (b1, Fine) ->
    own m std statics (mkP r g (Next (x :: rs) b)) (mkP r g (Within rs b1 (Run (CVisit (statics x) CRet)) []))
| w_refused r g x rs b b1 : root_visitor b = (b1, Panicked) ->
    own m std statics (mkP r g (Next (x :: rs) b)) (mkP r g (Stopped b1 Unwinding))
| w_visit r g rs b k st g' b' k' st' : cstep m std (mkC g b k st) (mkC g' b' k' st') ->
    own m std statics (mkP r g (Within rs b k st)) (mkP r g' (Within rs b' k' st'))
| w_leave r g rs b k st b' : ended (mkC g b k st) -> leave_scope (result (mkC g b k st)) = (b', Done) ->
    own m std statics (mkP r g (Within rs b k st)) (mkP r g (Next rs b'))
| w_stop r g rs b k st b' o : ended (mkC g b k st) -> leave_scope (result (mkC g b k st)) = (b', o) -> o <> Done ->
    own m std statics (mkP r g (Within rs b k st)) (mkP r g (Stopped b' o)).

(** One step of anything in the process; [me] is the profiling thread's name in the
    registry.
    Models: flamegraph.rs 359-371, global_root.rs 20-26. *)
Inductive wstep (m : mode) (std : lock -> bool) (statics : groot -> mvalue) (me : tid) : process -> list gevent -> process -> Prop :=
(* the registry *)
| w_registry r e r' g ph : gstep r e r' -> (forall n l, e <> [Ret me n Snapshot (RList l)]) ->
    wstep m std statics me (mkP r g ph) e (mkP r' g ph)
| w_snapshot r n l r' g b : gstep r [Ret me n Snapshot (RList l)] r' ->
    wstep m std statics me (mkP r g (Asks b)) [Ret me n Snapshot (RList l)] (mkP r' g (Next l b))
(* other threads use the memory *)
| w_change r g g' ph : change g g' -> wstep m std statics me (mkP r g ph) [] (mkP r g' ph)
(* the loop *)
| w_own s s' : own m std statics s s' -> wstep m std statics me s [] s'.

(** [goes M s H s']: some schedule leads from [s] to [s'], producing the events [H] at
    the registry; at every moment the memory is one of [M].
    Models: flamegraph.rs 359-371, global_root.rs 20-26. *)
Inductive goes (M : memory -> Prop) (m : mode) (std : lock -> bool) (statics : groot -> mvalue) (me : tid) : process -> list gevent -> process -> Prop :=
| go_end s : M (w_mem s) -> goes M m std statics me s [] s
| go_step s e s' H s'' : M (w_mem s) -> wstep m std statics me s e s' -> goes M m std statics me s' H s'' ->
    goes M m std statics me s (e ++ H) s''.

(** The process starts: nothing is registered, the profiling thread has a new builder
    (flamegraph.rs 310-323).  What [#[root]] registers before [main] (root.rs 22-41) is the first
    part of the programs. *)
Definition launch (progs : tid -> list gop) (g : memory) : process := mkP (g_init progs) g (Asks b_default).
