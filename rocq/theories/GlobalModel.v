(** * Global roots (allocative/src/global_root.rs) and
      [visit_global_roots] (allocative/src/flamegraph.rs 365-371). *)
From Verif Require Import Base KeyModel HMap FlameModel BuilderModel VisitorModel.

(** A [&'static dyn Allocative] (identity of the referenced static).
    Models: global_root.rs 15. *)
Definition groot := N.
(** Threads calling [register_root] and [roots] (global_root.rs 20-26). *)
Definition tid := nat.

(** ** The registry under concurrency

    The two operations on [static ROOTS: Mutex<Vec<..>>] (global_root.rs 15). *)
Inductive gop :=
| Register (r : groot)      (* global_root.rs 20-22 [register_root] *)
| Snapshot.                 (* global_root.rs 24-26 [roots] *)

Inductive gres := RUnit | RList (l : list groot).

(** Where a thread is inside an operation.  [Vec::push] reads the vector and
    then writes it back with one more element; [Vec::clone] copies one element
    at a time: without the mutex both would race.
    Simplification: poisoning is not modelled; a mutex is poisoned only if a
    holder panics, and neither pushing nor copying references can panic
    (allocation failure aborts).
    Models: global_root.rs 20-26. *)
Inductive pc :=
| Idle
| Waiting (o : gop)                       (* at [ROOTS.lock()] *)
| Locked (o : gop)                        (* guard obtained, [unwrap] passed *)
| PushRead (r : groot) (v : list groot)   (* inside [push] *)
| Copying (acc : list groot)              (* inside [clone] *)
| Unlocking (o : gop) (res : gres)        (* the guard temporary is dropped *)
| Returning (o : gop) (res : gres).       (* after the guard is dropped *)

(** A thread: remaining operations, position, number of operations returned.
    Models: global_root.rs 20-26. *)
Record thread := mkT { th_todo : list gop; th_pc : pc; th_done : nat }.

(** The static [ROOTS] (global_root.rs 15) and the threads. *)
Record gstate := mkG { g_roots : list groot; g_lock : option tid; g_threads : tid -> thread }.

(** Update of one thread (helper for global_root.rs 20-26). *)
Definition upd (f : tid -> thread) (t : tid) (x : thread) : tid -> thread :=
  fun t' => if Nat.eqb t' t then x else f t'.

(** One thread moves on (helper for global_root.rs 20-26). *)
Definition set_pc (s : gstate) (t : tid) (p : pc) : gstate :=
  mkG (g_roots s) (g_lock s)
    (upd (g_threads s) t (mkT (th_todo (g_threads s t)) p (th_done (g_threads s t)))).

(** Externally visible events: the [n]-th operation of thread [t] is called or
    has returned.
    Models: global_root.rs 20-26. *)
Inductive gevent :=
| Inv (t : tid) (n : nat) (o : gop)
| Ret (t : tid) (n : nat) (o : gop) (r : gres).

(** One step of one thread (any thread, at any time: all schedules).
    Models: global_root.rs 20-26. *)
Inductive gstep (s : gstate) : list gevent -> gstate -> Prop :=
| g_call t o os :
    th_pc (g_threads s t) = Idle -> th_todo (g_threads s t) = o :: os ->
    gstep s [Inv t (th_done (g_threads s t)) o]
      (mkG (g_roots s) (g_lock s) (upd (g_threads s) t (mkT os (Waiting o) (th_done (g_threads s t)))))
| g_lock_acquired t o :
    th_pc (g_threads s t) = Waiting o -> g_lock s = None ->
    gstep s [] (set_pc (mkG (g_roots s) (Some t) (g_threads s)) t (Locked o))
| g_push_read t r :
    th_pc (g_threads s t) = Locked (Register r) ->
    gstep s [] (set_pc s t (PushRead r (g_roots s)))
| g_push_write t r v :
    th_pc (g_threads s t) = PushRead r v ->
    gstep s [] (set_pc (mkG (v ++ [r]) (g_lock s) (g_threads s)) t (Unlocking (Register r) RUnit))
| g_clone_start t :
    th_pc (g_threads s t) = Locked Snapshot ->
    gstep s [] (set_pc s t (Copying []))
| g_clone_copy t acc x :
    th_pc (g_threads s t) = Copying acc -> nth_error (g_roots s) (length acc) = Some x ->
    gstep s [] (set_pc s t (Copying (acc ++ [x])))
| g_clone_end t acc :
    th_pc (g_threads s t) = Copying acc -> nth_error (g_roots s) (length acc) = None ->
    gstep s [] (set_pc s t (Unlocking Snapshot (RList acc)))
| g_unlock t o res :
    th_pc (g_threads s t) = Unlocking o res ->
    gstep s [] (set_pc (mkG (g_roots s) None (g_threads s)) t (Returning o res))
| g_return t o res :
    th_pc (g_threads s t) = Returning o res ->
    gstep s [Ret t (th_done (g_threads s t)) o res]
      (mkG (g_roots s) (g_lock s)
         (upd (g_threads s) t (mkT (th_todo (g_threads s t)) Idle (S (th_done (g_threads s t)))))).

(** Process start: empty registry, each thread with its program.
    Models: global_root.rs 15. *)
Definition g_init (progs : tid -> list gop) : gstate :=
  mkG [] None (fun t => mkT (progs t) Idle 0).

(** [gexec progs H s]: some schedule leads from the start to [s], producing the
    events [H] in this order.
    Models: global_root.rs 15-26. *)
Inductive gexec (progs : tid -> list gop) : list gevent -> gstate -> Prop :=
| gexec_start : gexec progs [] (g_init progs)
| gexec_step H s e s' : gexec progs H s -> gstep s e s' -> gexec progs (H ++ e) s'.

(** ** Visiting the global roots *)

(** Client code of a root that may also call [register_root].  A [GRegister] may
    equally be a registration by another thread that happens at this point.
    Models: calls of global_root.rs 20-26 and of visitor.rs 65-118. *)
Inductive gprog :=
| GRet
| GCrash
| GRegister (r : groot) (rest : gprog)
| GInline (k : key) (s : N) (body rest : gprog)
| GUnique (k : key) (s : N) (body rest : gprog)
| GShared (k : key) (s : N) (p : ptr) (body on_some on_none : gprog).

(** The registry as seen by this thread: [w_held] is true while this thread
    holds the mutex; locking it again deadlocks (std::sync::Mutex).
    Models: global_root.rs 15; flamegraph.rs 310-323. *)
Record world := mkW { w_roots : list groot; w_held : bool }.

(** [None]: deadlock.
    Models: [ROOTS.lock().unwrap()], global_root.rs 21, 25. *)
Definition w_lock (w : world) : option world :=
  if w_held w then None else Some (mkW (w_roots w) true).
(** The guard is dropped (end of the statements at global_root.rs 21, 25). *)
Definition w_unlock (w : world) : world := mkW (w_roots w) false.

(** global_root.rs 20-22: the guard is a temporary of the statement. *)
Definition register_root (w : world) (r : groot) : option world :=
  do w <- w_lock w; Some (w_unlock (mkW (w_roots w ++ [r]) (w_held w))).

(** global_root.rs 24-26. *)
Definition roots (w : world) : option (world * list groot) :=
  do w <- w_lock w; let l := w_roots w in Some (w_unlock w, l).

(** Running client code; [None]: deadlock.  Same as [run] (VisitorModel) with
    the registry threaded through.
    Models: visitor.rs 65-69. *)
Definition g_leave (r : option (world * (builder * outcome))) : option (world * (builder * outcome)) :=
  do wr <- r; let (w, r) := wr in Some (w, leave_scope r).
(** Sequencing; a panic drops the live visitors (visitor.rs 65-69). *)
Definition g_then (r : option (world * (builder * outcome)))
  (f : world -> builder -> option (world * (builder * outcome))) : option (world * (builder * outcome)) :=
  do wr <- r; match wr with (w, (b, Done)) => f w b | _ => Some wr end.

(** Running client code (global_root.rs 20-26, visitor.rs 65-118, flamegraph.rs 365-371). *)
Fixpoint grun (m : mode) (p : gprog) (w : world) (b : builder) : option (world * (builder * outcome)) :=
  match p with
  | GRet => Some (w, (b, Done))
  | GCrash => Some (w, (b, Unwinding))
  | GRegister r rest => do w <- register_root w r; grun m rest w b
  | GInline k s body rest =>
      match enter_inline m b k s with
      | (b, Panicked) => Some (w, (b, Unwinding))
      | (b, Fine) => g_then (g_leave (grun m body w b)) (grun m rest)
      end
  | GUnique k s body rest =>
      match enter_unique m b k s with
      | (b, Panicked) => Some (w, (b, Unwinding))
      | (b, Fine) => g_then (g_leave (grun m body w b)) (grun m rest)
      end
  | GShared k s x body r1 r2 =>
      match enter_shared m b k s x with
      | (b, Panicked, _) => Some (w, (b, Unwinding))
      | (b, Fine, true) => g_then (g_leave (grun m body w b)) (grun m r1)
      | (b, Fine, false) => grun m r2 w b
      end
  end.

(** flamegraph.rs 359-363. *)
Definition g_visit_root (m : mode) (p : gprog) (w : world) (b : builder) : option (world * (builder * outcome)) :=
  match root_visitor b with
  | (b, Panicked) => Some (w, (b, Unwinding))
  | (b, Fine) => g_leave (grun m p w b)
  end.

(** flamegraph.rs 367-371; [code i r] is what visiting root [r] does when it is
    the [i]-th of this call (values may change between visits).  A panic leaves
    the loop. *)
Fixpoint g_visit_list (m : mode) (code : nat -> groot -> gprog) (i : nat) (l : list groot) (w : world) (b : builder)
  : option (world * (builder * outcome)) :=
  match l with
  | [] => Some (w, (b, Done))
  | r :: l' => g_then (g_visit_root m (code i r) w b) (g_visit_list m code (S i) l')
  end.

(** flamegraph.rs 365-371: [visit_global_roots]. *)
Definition visit_global_roots (m : mode) (code : nat -> groot -> gprog) (w : world) (b : builder)
  : option (world * (builder * outcome)) :=
  do wl <- roots w; let (w, l) := wl in g_visit_list m code 0 l w b.
