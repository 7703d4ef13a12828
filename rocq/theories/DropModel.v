(** * Destructors run by a visit.

    The pointer that [Weak::upgrade] returned is dropped when it has been visited
    (impls/std/sync.rs 93-103, 131-141).  If every other owner has dropped its own
    meanwhile, this drops the value: its destructor runs on the profiling thread,
    with the guards the visit holds at that point.  LockModel stops at that point
    (C49_destroys_only); here the destructor is run. *)
From Verif Require Import Base KeyModel HMap FlameModel BuilderModel VisitorModel ImplModel LockModel PoolModel.

(** What a destructor does with locks and shared pointers: wait for a lock (which is
    released after [body]), drop a strong reference to [x] (named [t]) that the
    destroyed value owned.
    Models: user code, called from impls/std/sync.rs 93-103, 131-141. *)
Inductive dprog :=
| DRet
| DLock (l : lock) (a : access) (body rest : dprog)
| DDrop (x : ptr) (t : nat) (rest : dprog).
(** What is left to do of the destructors that are running.
    Models: user code, called from sync.rs 93-103, 131-141. *)
Inductive ditem := Code (p : dprog) | Release (l : lock) (a : access).

(** The visit and the destructors it is running (sync.rs 93-103, 131-141). *)
Record dstate := mkD { d_conf : config; d_todo : list ditem }.

(** The visit with another shared state (helper for sync.rs 93-103). *)
Definition with_shared (c : config) (s : shared) : config := mkConf s (c_builder c) (c_control c) (c_stack c).

(** The last strong reference to [x] goes (sync.rs 93-103). *)
Definition dies (s s' : shared) (x : ptr) : Prop := strong s x <> [] /\ strong s' x = [].

(** One step of the profiling thread; [dtor x] is the destructor of what [x] points
    to.  The guards a destructor takes are those of [Other 0].
    Simplification: a destructor does not panic, and nothing else of it matters here.
    Models: the steps of LockModel ([vstep]), and the drop of the upgraded pointer in
    sync.rs 93-103, 131-141. *)
Inductive dstep (m : mode) (std : lock -> bool) (dtor : ptr -> dprog) : dstate -> dstate -> Prop :=
| d_visit c c' : vstep m std c c' -> (forall x, ~ dies (c_shared c) (c_shared c') x) ->
    dstep m std dtor (mkD c []) (mkD c' [])
| d_visit_last c c' x : vstep m std c c' -> dies (c_shared c) (c_shared c') x ->
    dstep m std dtor (mkD c []) (mkD c' [Code (dtor x)])
| d_ret c todo : dstep m std dtor (mkD c (Code DRet :: todo)) (mkD c todo)
| d_lock c l a body rest todo : available (locks (c_shared c) l) a ->
    dstep m std dtor (mkD c (Code (DLock l a body rest) :: todo))
      (mkD (with_shared c (acquire (c_shared c) l (Other 0) a)) (Code body :: Release l a :: Code rest :: todo))
| d_release c l a todo :
    dstep m std dtor (mkD c (Release l a :: todo)) (mkD (with_shared c (release (c_shared c) l (Other 0) a false)) todo)
| d_drop c x t rest todo s' : In (Other t) (strong (c_shared c) x) ->
    s' = set_strong (c_shared c) x (remove_one owner_eqb (Other t) (strong (c_shared c) x)) -> strong s' x <> [] ->
    dstep m std dtor (mkD c (Code (DDrop x t rest) :: todo)) (mkD (with_shared c s') (Code rest :: todo))
| d_drop_last c x t rest todo s' : In (Other t) (strong (c_shared c) x) ->
    s' = set_strong (c_shared c) x (remove_one owner_eqb (Other t) (strong (c_shared c) x)) -> strong s' x = [] ->
    dstep m std dtor (mkD c (Code (DDrop x t rest) :: todo)) (mkD (with_shared c s') (Code (dtor x) :: Code rest :: todo))
| d_drop_gone c x t rest todo : ~ In (Other t) (strong (c_shared c) x) ->
    dstep m std dtor (mkD c (Code (DDrop x t rest) :: todo)) (mkD c (Code rest :: todo)).

(** [druns d d']: some interleaving with other threads ([Other 1], ...) leads from [d] to [d'].
    Models: as [dstep], and the users of the locks and pointers of sync.rs 36-44, 93-103, 209-217. *)
Inductive druns (m : mode) (std : lock -> bool) (dtor : ptr -> dprog) : dstate -> dstate -> Prop :=
| dr_refl d : druns m std dtor d d
| dr_step d d' d'' : dstep m std dtor d d' -> druns m std dtor d' d'' -> druns m std dtor d d''
| dr_other c todo s' d'' : outside 1 (c_shared c) s' -> druns m std dtor (mkD (with_shared c s') todo) d'' ->
    druns m std dtor (mkD c todo) d''.
