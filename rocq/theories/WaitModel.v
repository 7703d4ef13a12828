(** * Profiling next to threads that wait for locks.

    LockModel and PoolModel let other code take a lock at any moment at which it
    is free, but do not say who is waiting for it.  Here the rest of the program
    is a list of threads that ask for locks, wait until they get them and give
    them back; the visits of PoolModel (each with its own builder) run next to
    them.  The threads are arbitrary: the code in /repo does not say what the
    program that profiles itself does. *)
From Verif Require Import Base KeyModel HMap FlameModel BuilderModel VisitorModel ImplModel LockModel PoolModel.
Set Implicit Arguments.

(** What a thread does next: something without locks; [lock()], [read()], [write()]
    (waits); [try_lock()] and its like, with their answer; dropping a guard ([p]: it
    panicked, the lock is poisoned).
    Models: users of the locks of sync.rs 36-44, 209-217, cell.rs 19-27, lock_api.rs 22-40, tokio.rs 20-38, dashmap.rs 29-51. *)
Inductive deed :=
| Work
| Ask (l : lock) (a : access)
| Attempt (l : lock) (a : access) (got : bool)
| Give (l : lock) (a : access) (p : bool).

(** What the threads do: any transition relation over any set [T] of thread states.
    Models: users of the locks of sync.rs 36-44, 209-217, cell.rs 19-27, lock_api.rs 22-40, tokio.rs 20-38, dashmap.rs 29-51. *)
Definition program (T : Type) := T -> deed -> T -> Prop.

(** A thread and what it is waiting for.
    Models: users of the locks of sync.rs 36-44, 209-217, cell.rs 19-27, lock_api.rs 22-40, tokio.rs 20-38, dashmap.rs 29-51. *)
Record thread (T : Type) := mkThread { h_state : T; h_wants : option (lock * access) }.

(** The whole process: the visits with the shared state, and the threads.
    Models: flamegraph.rs 310-323, 359-363 (the visits). *)
Record process (T : Type) := mkProc { y_pool : pool; y_threads : list (thread T) }.

(** Some thread waits for the lock [l] to write.
    Models: users of dashmap.rs 29-51, sync.rs 36-44. *)
Definition writer_waits {T} (hs : list (thread T)) (l : lock) : Prop :=
  exists h, In h hs /\ h_wants h = Some (l, Exclusive).

(** [polite l]: those who wait for [l] to write keep new readers out (fair locks); if
    not, only those who have [l] do.
    Models: the wait for [iter()], [len()], [capacity()] in dashmap.rs 36-46. *)
Definition admitted {T} (polite : lock -> bool) (hs : list (thread T)) (l : lock) (a : access) : Prop :=
  a = ReadOnly -> polite l = true -> ~ writer_waits hs l.

(** One step of the thread [o]; [hs]: all threads; [spurious]: attempts may fail
    without a reason.
    Models: users of the locks of sync.rs 36-44, 209-217, cell.rs 19-27, lock_api.rs 22-40, tokio.rs 20-38, dashmap.rs 29-51. *)
Inductive thread_step {T} (prog : program T) (polite : lock -> bool) (spurious : bool) (hs : list (thread T)) (o : owner) :
  shared -> thread T -> shared -> thread T -> Prop :=
| h_work s u u' : prog u Work u' -> thread_step prog polite spurious hs o s (mkThread u None) s (mkThread u' None)
| h_ask s u u' l a : prog u (Ask l a) u' ->
    thread_step prog polite spurious hs o s (mkThread u None) s (mkThread u' (Some (l, a)))
| h_granted s u l a : available (locks s l) a -> admitted polite hs l a ->
    thread_step prog polite spurious hs o s (mkThread u (Some (l, a))) (acquire s l o a) (mkThread u None)
| h_got s u u' l a : prog u (Attempt l a true) u' -> available (locks s l) a ->
    thread_step prog polite spurious hs o s (mkThread u None) (acquire s l o a) (mkThread u' None)
| h_missed s u u' l a : prog u (Attempt l a false) u' -> held (locks s l) <> [] \/ spurious = true ->
    thread_step prog polite spurious hs o s (mkThread u None) s (mkThread u' None)
| h_give s u u' l a p : prog u (Give l a p) u' -> In (o, a) (held (locks s l)) ->
    thread_step prog polite spurious hs o s (mkThread u None) (release s l o a p) (mkThread u' None).

(** One step of the process.  The [j]-th thread owns guards as [Other (base + j)]
    (the visits are the owners below [base]).  Strong references, for which nobody
    waits, come and go.  A visit that waits for a shard is a reader.
    Models: visitor.rs 65-118 and the implementations cited at [vstep] (the visits). *)
Inductive moves {T} (m : mode) (std : lock -> bool) (prog : program T) (polite : lock -> bool) (spurious : bool) (base : nat) :
  process T -> process T -> Prop :=
| y_visit i P P' hs : turn m std i P P' ->
    (forall v l a body rest, nth_error (p_visits P) i = Some v -> v_control v = Exec (LWait l a body rest) -> admitted polite hs l a) ->
    moves m std prog polite spurious base (mkProc P hs) (mkProc P' hs)
| y_thread j s vs h s' h' hs : nth_error hs j = Some h ->
    thread_step prog polite spurious hs (Other (base + j)) s h s' h' ->
    moves m std prog polite spurious base (mkProc (mkPool s vs) hs) (mkProc (mkPool s' vs) (upd hs j h'))
| y_clear_poison s l vs hs :
    moves m std prog polite spurious base (mkProc (mkPool s vs) hs) (mkProc (mkPool (set_lock s l (mkLock (held (locks s l)) false)) vs) hs)
| y_clone s x t vs hs : (base <= t)%nat -> strong s x <> [] ->
    moves m std prog polite spurious base (mkProc (mkPool s vs) hs) (mkProc (mkPool (set_strong s x (Other t :: strong s x)) vs) hs)
| y_drop s x t vs hs : (base <= t)%nat -> In (Other t) (strong s x) ->
    moves m std prog polite spurious base (mkProc (mkPool s vs) hs)
      (mkProc (mkPool (set_strong s x (remove_one owner_eqb (Other t) (strong s x))) vs) hs).

(** Any number of steps, in any order.
    Models: visitor.rs 65-118 and the implementations cited at [vstep] (the visits). *)
Inductive executes {T} (m : mode) (std : lock -> bool) (prog : program T) (polite : lock -> bool) (spurious : bool) (base : nat) :
  process T -> process T -> Prop :=
| ex_refl Y : executes m std prog polite spurious base Y Y
| ex_step Y Y' Y'' : moves m std prog polite spurious base Y Y' -> executes m std prog polite spurious base Y' Y'' ->
    executes m std prog polite spurious base Y Y''.

(** The threads start, next to visits with these builders and code.
    Models: flamegraph.rs 359-363 (the visits). *)
Definition process_start {T} (s : shared) (bps : list (builder * lprog)) (us : list T) : process T :=
  mkProc (pool_start s bps) (map (fun u => mkThread u None) us).
