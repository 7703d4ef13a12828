(** * Profiling while other threads run: locks and reference counts.

    Implementations for lock types visit the content under a guard obtained with
    a [try_*] call; [Weak] visits under a strong reference obtained with
    [upgrade]; [DashMap]/[DashSet] wait for a read lock of each shard.  Here a
    visit is run step by step, interleaved with arbitrary steps of other threads
    on the same locks and reference counts. *)
From Verif Require Import Base KeyModel HMap FlameModel BuilderModel VisitorModel ImplModel.

(** A lock (its address); how it is held.
    Models: sync.rs 36-44, 209-217, cell.rs 19-27, lock_api.rs 22-40, tokio.rs 20-38, dashmap.rs 29-51. *)
Definition lock := N.
(** How a lock is taken: [try_read]/[try_borrow]/[read] or [try_lock] (sync.rs 36-44, 209-217, cell.rs 19-27, lock_api.rs 22-40, tokio.rs 20-38, dashmap.rs 29-51). *)
Inductive access := Exclusive | ReadOnly.

(** Who holds a guard or a strong reference: the profiling visit, or other code
    (a thread; also the profiling thread itself, outside of the visit).
    Models: sync.rs 36-44, 209-217, cell.rs 19-27, lock_api.rs 22-40, tokio.rs 20-38, dashmap.rs 29-51. *)
Inductive owner := Visit | Other (t : nat).

(** The guards that exist for a lock and its poison flag.
    Models: sync.rs 36-44, 209-217, cell.rs 19-27, lock_api.rs 22-40, tokio.rs 20-38, dashmap.rs 29-51. *)
Record lock_state := mkLock { held : list (owner * access); poisoned : bool }.

(** All locks, and the strong references to each allocation.  An allocation whose
    list of strong references has become empty has been destroyed.
    Models: sync.rs 36-44, 209-217, cell.rs 19-27, lock_api.rs 22-40, tokio.rs 20-38, dashmap.rs 29-51, sync.rs 93-103. *)
Record shared := mkShared { locks : lock -> lock_state; strong : ptr -> list owner }.

(** A guard of this kind can be given out.
    Models: sync.rs 36-44, 209-217, cell.rs 19-27, lock_api.rs 22-40, tokio.rs 20-38, dashmap.rs 29-51. *)
Definition available (s : lock_state) (a : access) : Prop :=
  match a with
  | Exclusive => held s = []
  | ReadOnly => forall o, ~ In (o, Exclusive) (held s)
  end.

(** Helper: the state of one lock changes (the locks of sync.rs 36-44, 209-217, cell.rs 19-27, lock_api.rs 22-40, tokio.rs 20-38, dashmap.rs 29-51). *)
Definition set_lock (s : shared) (l : lock) (x : lock_state) : shared :=
  mkShared (fun l' => if N.eqb l' l then x else locks s l') (strong s).
(** Helper: the number of strong pointers of one allocation changes (sync.rs 93-103). *)
Definition set_strong (s : shared) (x : ptr) (os : list owner) : shared :=
  mkShared (locks s) (fun y => if N.eqb y x then os else strong s y).

(** Helper: equality of owners (the locks of sync.rs 36-44, 209-217, cell.rs 19-27, lock_api.rs 22-40, tokio.rs 20-38, dashmap.rs 29-51). *)
Definition owner_eqb (a b : owner) : bool :=
  match a, b with Visit, Visit => true | Other t, Other u => Nat.eqb t u | _, _ => false end.
(** Helper: equality of accesses (the locks of sync.rs 36-44, 209-217, cell.rs 19-27, lock_api.rs 22-40, tokio.rs 20-38, dashmap.rs 29-51). *)
Definition access_eqb (a b : access) : bool :=
  match a, b with Exclusive, Exclusive | ReadOnly, ReadOnly => true | _, _ => false end.

(** Remove one element.
    Models: sync.rs 36-44, 209-217, cell.rs 19-27, lock_api.rs 22-40, tokio.rs 20-38, dashmap.rs 29-51. *)
Fixpoint remove_one {A} (eqb : A -> A -> bool) (x : A) (l : list A) : list A :=
  match l with [] => [] | y :: l' => if eqb x y then l' else y :: remove_one eqb x l' end.
(** A guard is dropped (sync.rs 36-44, 209-217, cell.rs 19-27, lock_api.rs 22-40, tokio.rs 20-38, dashmap.rs 29-51). *)
Definition remove_guard (o : owner) (a : access) (l : list (owner * access)) : list (owner * access) :=
  remove_one (fun x y => owner_eqb (fst x) (fst y) && access_eqb (snd x) (snd y)) (o, a) l.

(** A guard is made (sync.rs 36-44, 209-217, cell.rs 19-27, lock_api.rs 22-40, tokio.rs 20-38, dashmap.rs 29-51). *)
Definition acquire (s : shared) (l : lock) (o : owner) (a : access) : shared :=
  set_lock s l (mkLock ((o, a) :: held (locks s l)) (poisoned (locks s l))).
(** [p]: poison the lock.
    Models: sync.rs 36-44, 209-217, cell.rs 19-27, lock_api.rs 22-40, tokio.rs 20-38, dashmap.rs 29-51. *)
Definition release (s : shared) (l : lock) (o : owner) (a : access) (p : bool) : shared :=
  set_lock s l (mkLock (remove_guard o a (held (locks s l))) (poisoned (locks s l) || p)).

(** ** The code of a visit

    As [vprog] (VisitorModel), and:
    - [LTry l a body rest]: [if let Ok(data) = l.try_lock() { body } rest], the
      guard is dropped at the end of the block;
    - [LWait l a body rest]: [{ let guard = l.read(); body } rest];
    - [LUpgrade x body rest]: [if let Some(arc) = weak.upgrade() { body } rest].
    Models: sync.rs 36-44, 209-217, cell.rs 19-27, lock_api.rs 22-40, tokio.rs 20-38, dashmap.rs 29-51, sync.rs 93-103. *)
Inductive lprog :=
| LRet
| LCrash
| LInline (k : key) (s : N) (body rest : lprog)
| LUnique (k : key) (s : N) (body rest : lprog)
| LShared (k : key) (s : N) (p : ptr) (body on_some on_none : lprog)
| LTry (l : lock) (a : access) (body rest : lprog)
| LWait (l : lock) (a : access) (body rest : lprog)
| LUpgrade (x : ptr) (body rest : lprog).

(** Sequencing of client code (as [vseq], for visitor.rs 65-118). *)
Fixpoint lseq (p q : lprog) : lprog :=
  match p with
  | LRet => q
  | LCrash => LCrash
  | LInline k s b r => LInline k s b (lseq r q)
  | LUnique k s b r => LUnique k s b (lseq r q)
  | LShared k s x b r1 r2 => LShared k s x b (lseq r1 q) (lseq r2 q)
  | LTry l a b r => LTry l a b (lseq r q)
  | LWait l a b r => LWait l a b (lseq r q)
  | LUpgrade x b r => LUpgrade x b (lseq r q)
  end.
(** As [vseqs], for visitor.rs 65-118. *)
Fixpoint lseqs (l : list lprog) : lprog := match l with [] => LRet | p :: l' => lseq p (lseqs l') end.

(** ** The implementations

    [content]: [size_of_val] and visit of the content. *)

(** std/sync.rs 209-217 ([Mutex]: [Exclusive]), 36-44 ([RwLock]: [ReadOnly]);
    std/cell.rs 19-27 ([RefCell]: [ReadOnly]); lock_api.rs 22-30, 32-40;
    tokio.rs 20-28, 30-38. *)
Definition l_cell (t : tinfo) (l : lock) (a : access) (content : N * lprog) : lprog :=
  LInline (key_for_type_name (t_name t)) (t_size t)
    (LTry l a (LInline DATA_NAME (fst content) (snd content) LRet) LRet) LRet.

(** std/sync.rs 93-103, 131-141 ([Weak]); [arc] is the visit of the upgraded pointer. *)
Definition l_weak (t : tinfo) (x : ptr) (arc : lprog) : lprog :=
  LInline (key_for_type_name (t_name t)) (t_size t) (LUpgrade x arc LRet) LRet.

(** dashmap.rs 29-51 ([DashMap]).  A shard is its lock and its entries (key and
    value).  [capacity], [len] and [iter] of the dashmap crate lock the shards one
    after the other; [iter] keeps the guard of the shard whose entries it gives
    out.  Simplification: the numbers [cap] and [n] are given, although they are
    read at different times. *)
Definition shard := (lock * list ((N * lprog) * (N * lprog)))%type.
(** [capacity()] and [len()] (dashmap.rs 36-46): every shard is locked for a moment. *)
Definition l_count (shards : list shard) : lprog :=
  lseqs (map (fun s => LWait (fst s) ReadOnly LRet LRet) shards).
(** The loop over the entries of a shard (dashmap.rs 36-41). *)
Definition l_entries (es : list ((N * lprog) * (N * lprog))) : lprog :=
  lseqs (map (fun kv => LInline KEY_NAME (fst (fst kv)) (snd (fst kv))
                          (LInline VALUE_NAME (fst (snd kv)) (snd (snd kv)) LRet)) es).
(** dashmap.rs 29-51 ([DashMap]). *)
Definition l_dash_map (t e : tinfo) (n cap : N) (shards : list shard) : lprog :=
  LInline (key_for_type_name (t_name t)) (t_size t)
    (LUnique PTR_NAME ptr_size
      (lseq (l_count shards)
        (LInline CAPACITY_NAME (cap * t_size e)
          (lseq (lseqs (map (fun s => LWait (fst s) ReadOnly (l_entries (snd s)) LRet) shards))
            (lseq (l_count shards) (lseq (l_count shards)
              (LInline UNUSED_CAPACITY_NAME ((cap - n) * t_size e) LRet LRet)))) LRet)) LRet) LRet.

(** ** Steps *)

(** What is open: a scope, a guard, an upgraded pointer; and what follows.
    Models: visitor.rs 65-69. *)
Inductive frame :=
| FScope (rest : lprog)
| FGuard (l : lock) (a : access) (rest : lprog)
| FArc (x : ptr) (rest : lprog).

(** What the profiling thread does next: the visitors and guards it has (sync.rs 36-44, 209-217, cell.rs 19-27, lock_api.rs 22-40, tokio.rs 20-38, dashmap.rs 29-51). *)
Inductive control := Exec (p : lprog) | Unwind | Gone.

(** The profiling thread, its builder (flamegraph.rs 310-323) and the shared state. *)
Record config := mkConf { c_shared : shared; c_builder : builder; c_control : control; c_stack : list frame }.

(** One step of the visit.  [std l]: [l] is a lock of std (only these are
    poisoned, and only by exclusive guards: std::sync::poison).
    Models: sync.rs 36-44, 209-217, cell.rs 19-27, lock_api.rs 22-40, tokio.rs 20-38, dashmap.rs 29-51, sync.rs 93-103, visitor.rs 65-118. *)
Inductive vstep (m : mode) (std : lock -> bool) : config -> config -> Prop :=
(* leaving a block *)
| s_exit s b b' rest st : exit_impl b = (b', Fine) ->
    vstep m std (mkConf s b (Exec LRet) (FScope rest :: st)) (mkConf s b' (Exec rest) st)
| s_exit_abort s b b' rest st : exit_impl b = (b', Panicked) ->
    vstep m std (mkConf s b (Exec LRet) (FScope rest :: st)) (mkConf s b' Gone [])
| s_unlock s b l a rest st :
    vstep m std (mkConf s b (Exec LRet) (FGuard l a rest :: st)) (mkConf (release s l Visit a false) b (Exec rest) st)
| s_drop_arc s b x rest st :
    vstep m std (mkConf s b (Exec LRet) (FArc x rest :: st))
      (mkConf (set_strong s x (remove_one owner_eqb Visit (strong s x))) b (Exec rest) st)
(* a panic, and unwinding: everything open is dropped *)
| s_crash s b st : vstep m std (mkConf s b (Exec LCrash) st) (mkConf s b Unwind st)
| s_unwind_exit s b b' rest st : exit_impl b = (b', Fine) ->
    vstep m std (mkConf s b Unwind (FScope rest :: st)) (mkConf s b' Unwind st)
| s_unwind_abort s b b' rest st : exit_impl b = (b', Panicked) ->
    vstep m std (mkConf s b Unwind (FScope rest :: st)) (mkConf s b' Gone [])
| s_unwind_unlock s b l a rest st :
    vstep m std (mkConf s b Unwind (FGuard l a rest :: st))
      (mkConf (release s l Visit a (std l && access_eqb a Exclusive)) b Unwind st)
| s_unwind_arc s b x rest st :
    vstep m std (mkConf s b Unwind (FArc x rest :: st))
      (mkConf (set_strong s x (remove_one owner_eqb Visit (strong s x))) b Unwind st)
(* entering a scope *)
| s_inline s b b' k n body rest st : enter_inline m b k n = (b', Fine) ->
    vstep m std (mkConf s b (Exec (LInline k n body rest)) st) (mkConf s b' (Exec body) (FScope rest :: st))
| s_inline_panic s b b' k n body rest st : enter_inline m b k n = (b', Panicked) ->
    vstep m std (mkConf s b (Exec (LInline k n body rest)) st) (mkConf s b' Unwind st)
| s_unique s b b' k n body rest st : enter_unique m b k n = (b', Fine) ->
    vstep m std (mkConf s b (Exec (LUnique k n body rest)) st) (mkConf s b' (Exec body) (FScope rest :: st))
| s_unique_panic s b b' k n body rest st : enter_unique m b k n = (b', Panicked) ->
    vstep m std (mkConf s b (Exec (LUnique k n body rest)) st) (mkConf s b' Unwind st)
| s_shared s b b' k n x body r1 r2 st : enter_shared m b k n x = (b', Fine, true) ->
    vstep m std (mkConf s b (Exec (LShared k n x body r1 r2)) st) (mkConf s b' (Exec body) (FScope r1 :: st))
| s_shared_again s b b' k n x body r1 r2 st : enter_shared m b k n x = (b', Fine, false) ->
    vstep m std (mkConf s b (Exec (LShared k n x body r1 r2)) st) (mkConf s b' (Exec r2) st)
| s_shared_panic s b b' k n x body r1 r2 ret st : enter_shared m b k n x = (b', Panicked, ret) ->
    vstep m std (mkConf s b (Exec (LShared k n x body r1 r2)) st) (mkConf s b' Unwind st)
(* locks: [try_*] succeeds if the lock is available and not poisoned; it fails
   only if the lock is held (for [ReadOnly] also when a waiting writer keeps
   readers out) or poisoned *)
| s_try s b l a body rest st : available (locks s l) a -> poisoned (locks s l) = false ->
    vstep m std (mkConf s b (Exec (LTry l a body rest)) st) (mkConf (acquire s l Visit a) b (Exec body) (FGuard l a rest :: st))
| s_try_fails s b l a body rest st : held (locks s l) <> [] \/ poisoned (locks s l) = true ->
    vstep m std (mkConf s b (Exec (LTry l a body rest)) st) (mkConf s b (Exec rest) st)
| s_wait s b l a body rest st : available (locks s l) a ->
    vstep m std (mkConf s b (Exec (LWait l a body rest)) st) (mkConf (acquire s l Visit a) b (Exec body) (FGuard l a rest :: st))
(* [upgrade] *)
| s_upgrade s b x body rest st : strong s x <> [] ->
    vstep m std (mkConf s b (Exec (LUpgrade x body rest)) st) (mkConf (set_strong s x (Visit :: strong s x)) b (Exec body) (FArc x rest :: st))
| s_upgrade_dead s b x body rest st : strong s x = [] ->
    vstep m std (mkConf s b (Exec (LUpgrade x body rest)) st) (mkConf s b (Exec rest) st).

(** One step of other code.
    Models: the locks of sync.rs 36-44, 209-217, cell.rs 19-27, lock_api.rs 22-40, tokio.rs 20-38, dashmap.rs 29-51, the pointers of sync.rs 93-103. *)
Inductive ostep : shared -> shared -> Prop :=
| o_acquire s l t a : available (locks s l) a -> ostep s (acquire s l (Other t) a)
| o_release s l t a p : In (Other t, a) (held (locks s l)) -> ostep s (release s l (Other t) a p)
| o_clear_poison s l : ostep s (set_lock s l (mkLock (held (locks s l)) false))
| o_clone s x t : strong s x <> [] -> ostep s (set_strong s x (Other t :: strong s x))
| o_drop s x t : In (Other t) (strong s x) ->
    ostep s (set_strong s x (remove_one owner_eqb (Other t) (strong s x))).

(** [runs n c c']: some interleaving leads from [c] to [c'], with [n] steps of
    the visit.
    Models: of the code cited at [vstep], sync.rs 36-44, 209-217, cell.rs 19-27, lock_api.rs 22-40, tokio.rs 20-38, dashmap.rs 29-51. *)
Inductive runs (m : mode) (std : lock -> bool) : nat -> config -> config -> Prop :=
| runs_refl c : runs m std 0 c c
| runs_visit n c c' c'' : vstep m std c c' -> runs m std n c' c'' -> runs m std (S n) c c''
| runs_other n s s' b k st c'' : ostep s s' -> runs m std n (mkConf s' b k st) c'' ->
    runs m std n (mkConf s b k st) c''.
