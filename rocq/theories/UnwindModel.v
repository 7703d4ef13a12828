(** * Destructors run by a visit, that may panic.

    As DropModel: the pointer that [Weak::upgrade] returned is dropped when it has
    been visited (impls/std/sync.rs 93-103, 131-141), on the profiling thread; if it
    is the last one, the destructor of the value runs there.  Here the destructor is
    any code that waits for locks or tries them, drops further pointers, has local
    values and fields that are dropped in any case, and may panic anywhere.  A panic
    that leaves the destructor unwinds the visit: the scope of the [Weak]
    ([visitor], sync.rs 95, 133) and everything else that is open is dropped
    (visitor.rs 65-69). *)
From Verif Require Import Base KeyModel HMap FlameModel BuilderModel VisitorModel ImplModel LockModel PoolModel DropModel.

(** What a destructor does with locks and shared pointers:
    - [ULock l a ok bad rest]: wait for a lock; [bad] instead of [ok] if it is poisoned
      ([lock().unwrap()]: [bad = UPanic]); it is released after that;
    - [UTry l a body rest]: [try_lock];
    - [UDrop x t rest]: drop a strong reference to [x] (named [t]) that the destroyed
      value owned;
    - [UFinally body cleanup rest]: [cleanup] drops what [body] leaves behind (local
      variables; the fields, when [body] is the code of [Drop::drop]), also if [body]
      panics.
    Models: user code, called from impls/std/sync.rs 93-103, 131-141. *)
Inductive uprog :=
| URet
| UPanic
| ULock (l : lock) (a : access) (ok bad rest : uprog)
| UTry (l : lock) (a : access) (body rest : uprog)
| UDrop (x : ptr) (t : nat) (rest : uprog)
| UFinally (body cleanup rest : uprog).
(** What is left to do of the destructors that are running; [Resume]: the unwinding
    that was interrupted to run a [cleanup] goes on.
    Models: user code, called from sync.rs 93-103, 131-141. *)
Inductive uitem := Do (p : uprog) | Unlock (l : lock) (a : access) | Finally (p : uprog) | Resume.

(** The visit and the destructors it is running; [u_raised]: a destructor has panicked
    and is being unwound (sync.rs 93-103, 131-141). *)
Record ustate := mkU { u_conf : config; u_todo : list uitem; u_raised : bool }.

(** The visit with another control (helper for sync.rs 93-103). *)
Definition with_control (c : config) (k : control) : config := mkConf (c_shared c) (c_builder c) k (c_stack c).
(** The process is aborted (helper for sync.rs 93-103). *)
Definition gone (c : config) : config := mkConf (c_shared c) (c_builder c) Gone [].

(** [std::thread::panicking()] on the profiling thread: a panic inside a destructor
    that runs now would be the second one (sync.rs 93-103). *)
Definition panicking (d : ustate) : Prop := u_raised d = true \/ c_control (u_conf d) = Unwind \/ In Resume (u_todo d).

(** One step of the profiling thread; [dtor x] is the destructor of what [x] points
    to.  The guards a destructor takes are those of [Other 0].  A guard of std poisons
    its lock if a panic began while it was held, that is if unwinding drops it
    (std::sync::poison); a panic in a destructor during unwinding aborts the process.
    Models: the steps of LockModel ([vstep]), and the drop of the upgraded pointer in
    sync.rs 93-103, 131-141. *)
Inductive ustep (m : mode) (std : lock -> bool) (dtor : ptr -> uprog) : ustate -> ustate -> Prop :=
| u_visit c c' : vstep m std c c' -> (forall x, ~ dies (c_shared c) (c_shared c') x) ->
    ustep m std dtor (mkU c [] false) (mkU c' [] false)
| u_visit_last c c' x : vstep m std c c' -> dies (c_shared c) (c_shared c') x ->
    ustep m std dtor (mkU c [] false) (mkU c' [Do (dtor x)] false)
| u_ret c todo : ustep m std dtor (mkU c (Do URet :: todo) false) (mkU c todo false)
| u_lock c l a ok bad rest todo : available (locks (c_shared c) l) a ->
    ustep m std dtor (mkU c (Do (ULock l a ok bad rest) :: todo) false)
      (mkU (with_shared c (acquire (c_shared c) l (Other 0) a))
           (Do (if poisoned (locks (c_shared c) l) then bad else ok) :: Unlock l a :: Do rest :: todo) false)
| u_try c l a body rest todo : available (locks (c_shared c) l) a -> poisoned (locks (c_shared c) l) = false ->
    ustep m std dtor (mkU c (Do (UTry l a body rest) :: todo) false)
      (mkU (with_shared c (acquire (c_shared c) l (Other 0) a)) (Do body :: Unlock l a :: Do rest :: todo) false)
| u_try_fails c l a body rest todo : held (locks (c_shared c) l) <> [] \/ poisoned (locks (c_shared c) l) = true ->
    ustep m std dtor (mkU c (Do (UTry l a body rest) :: todo) false) (mkU c (Do rest :: todo) false)
| u_unlock c l a todo :
    ustep m std dtor (mkU c (Unlock l a :: todo) false) (mkU (with_shared c (release (c_shared c) l (Other 0) a false)) todo false)
| u_drop c x t rest todo s' : In (Other t) (strong (c_shared c) x) ->
    s' = set_strong (c_shared c) x (remove_one owner_eqb (Other t) (strong (c_shared c) x)) -> strong s' x <> [] ->
    ustep m std dtor (mkU c (Do (UDrop x t rest) :: todo) false) (mkU (with_shared c s') (Do rest :: todo) false)
| u_drop_last c x t rest todo s' : In (Other t) (strong (c_shared c) x) ->
    s' = set_strong (c_shared c) x (remove_one owner_eqb (Other t) (strong (c_shared c) x)) -> strong s' x = [] ->
    ustep m std dtor (mkU c (Do (UDrop x t rest) :: todo) false) (mkU (with_shared c s') (Do (dtor x) :: Do rest :: todo) false)
| u_drop_gone c x t rest todo : ~ In (Other t) (strong (c_shared c) x) ->
    ustep m std dtor (mkU c (Do (UDrop x t rest) :: todo) false) (mkU c (Do rest :: todo) false)
| u_finally c body cleanup rest todo :
    ustep m std dtor (mkU c (Do (UFinally body cleanup rest) :: todo) false) (mkU c (Do body :: Finally cleanup :: Do rest :: todo) false)
| u_cleanup c cleanup todo : ustep m std dtor (mkU c (Finally cleanup :: todo) false) (mkU c (Do cleanup :: todo) false)
(* panics *)
| u_panic c todo : ~ panicking (mkU c (Do UPanic :: todo) false) ->
    ustep m std dtor (mkU c (Do UPanic :: todo) false) (mkU c todo true)
| u_panic_again c todo : panicking (mkU c (Do UPanic :: todo) false) ->
    ustep m std dtor (mkU c (Do UPanic :: todo) false) (mkU (gone c) [] false)
(* unwinding of the destructors *)
| u_skip c p todo : ustep m std dtor (mkU c (Do p :: todo) true) (mkU c todo true)
| u_unwind_unlock c l a todo :
    ustep m std dtor (mkU c (Unlock l a :: todo) true)
      (mkU (with_shared c (release (c_shared c) l (Other 0) a (std l && access_eqb a Exclusive))) todo true)
| u_unwind_cleanup c cleanup todo :
    ustep m std dtor (mkU c (Finally cleanup :: todo) true) (mkU c (Do cleanup :: Resume :: todo) false)
| u_resume c todo : ustep m std dtor (mkU c (Resume :: todo) false) (mkU c todo true)
(* the panic leaves the destructors and reaches the visit *)
| u_reaches_visit c : ustep m std dtor (mkU c [] true) (mkU (with_control c Unwind) [] false).

(** [uruns d d']: some interleaving with other threads ([Other 1], ...) leads from [d] to [d'].
    Models: as [ustep], and the users of the locks and pointers of sync.rs 36-44, 93-103, 209-217. *)
Inductive uruns (m : mode) (std : lock -> bool) (dtor : ptr -> uprog) : ustate -> ustate -> Prop :=
| ur_refl d : uruns m std dtor d d
| ur_step d d' d'' : ustep m std dtor d d' -> uruns m std dtor d' d'' -> uruns m std dtor d d''
| ur_other c todo r s' d'' : outside 1 (c_shared c) s' -> uruns m std dtor (mkU (with_shared c s') todo r) d'' ->
    uruns m std dtor (mkU c todo r) d''.
