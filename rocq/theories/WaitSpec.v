(** * Specification vocabulary: who waits for whom. *)
From Verif Require Import Base KeyModel HMap FlameModel BuilderModel VisitorModel ImplModel LockModel LockSpec PoolModel PoolSpec WaitModel.
Set Implicit Arguments.

(** The [t]-th participant (the visits are those below [base], then come the threads)
    waits for the lock [l]. *)
Definition waiting {T} (base : nat) (Y : process T) (t : nat) (l : lock) (a : access) : Prop :=
  (exists v body rest, nth_error (p_visits (y_pool Y)) t = Some v /\ v_control v = Exec (LWait l a body rest)) \/
  (exists j h, t = (base + j)%nat /\ nth_error (y_threads Y) j = Some h /\ h_wants h = Some (l, a)).
(** It has a guard of [l]. *)
Definition has {T} (Y : process T) (t : nat) (l : lock) (a : access) : Prop := In (Other t, a) (held (locks (p_shared (y_pool Y)) l)).

(** [t] waits, and [t'] is in its way: it has the lock (one of the two accesses being
    exclusive), or it is a thread that waits to write where writers keep readers out. *)
Definition obstructs {T} (polite : lock -> bool) (base : nat) (Y : process T) (t' t : nat) : Prop :=
  exists l a, waiting base Y t l a /\
    ((exists a', has Y t' l a' /\ (a = Exclusive \/ a' = Exclusive)) \/
     (a = ReadOnly /\ polite l = true /\ (base <= t')%nat /\ waiting base Y t' l Exclusive)).

(** A deadlock: participants each of which waits for one of them. *)
Definition deadlocked {T} (polite : lock -> bool) (base : nat) (Y : process T) (D : nat -> Prop) : Prop :=
  (exists t, D t) /\ forall t, D t -> exists t', D t' /\ obstructs polite base Y t' t.

(** The same process without the visits. *)
Definition without_profiles {T} (base : nat) (Y Y0 : process T) : Prop :=
  p_visits (y_pool Y0) = [] /\ y_threads Y0 = y_threads Y /\
  (forall l, held (locks (p_shared (y_pool Y0)) l) =
             filter (fun g => match fst g with Other t => (base <=? t)%nat | Visit => false end) (held (locks (p_shared (y_pool Y)) l))).

(** The program uses no [try_lock] and the like. *)
Definition never_tries {T} (prog : program T) : Prop := forall u l a g u', ~ prog u (Attempt l a g) u'.

(** Whenever the visit waits for a lock [l] while it visits the content of a lock
    [l'], [R l' l] holds ([around]: the locks around). *)
Fixpoint nested (R : lock -> lock -> Prop) (around : list lock) (p : lprog) : Prop :=
  match p with
  | LRet | LCrash => True
  | LInline _ _ b r | LUnique _ _ b r | LUpgrade _ b r => nested R around b /\ nested R around r
  | LShared _ _ _ b r1 r2 => nested R around b /\ nested R around r1 /\ nested R around r2
  | LTry l _ b r => nested R (l :: around) b /\ nested R around r
  | LWait l _ b r => (forall l', In l' around -> R l' l) /\ nested R (l :: around) b /\ nested R around r
  end.
(** It waits only for locks of a higher rank than those it is inside of. *)
Definition ascending (rank : lock -> nat) (p : lprog) : Prop := nested (fun l' l => (rank l' < rank l)%nat) [] p.

(** The shards of [DashMap]s these visits meet. *)
Definition shard_of (ps : list lprog) (l : lock) : Prop := exists p, In p ps /\ waits_for l p.

(** Whenever a thread waits for a lock [l] while it has [l'], [R l' a' l] holds: in
    every state the threads reach on their own (attempts may fail for no reason). *)
Definition threads_wait {T} (m : mode) (std : lock -> bool) (prog : program T) (polite : lock -> bool) (base : nat)
    (s : shared) (us : list T) (R : lock -> access -> lock -> Prop) : Prop :=
  forall Y t l a l' a', executes m std prog polite true base (process_start s [] us) Y ->
    waiting base Y t l a -> has Y t l' a' -> R l' a' l.

(** The next step of [t] is possible: it gets the lock it waits for. *)
Definition gets {T} (m : mode) (std : lock -> bool) (prog : program T) (polite : lock -> bool) (spurious : bool) (base : nat)
    (Y : process T) (t : nat) (l : lock) (a : access) : Prop :=
  exists Y', moves m std prog polite spurious base Y Y' /\
    held (locks (p_shared (y_pool Y')) l) = (Other t, a) :: held (locks (p_shared (y_pool Y)) l).
(** [t'] obstructs [t], or obstructs one that obstructs it, and so on. *)
Inductive delays {T} (polite : lock -> bool) (base : nat) (Y : process T) : nat -> nat -> Prop :=
| delays_self t : delays polite base Y t t
| delays_more t'' t' t : obstructs polite base Y t' t -> delays polite base Y t'' t' -> delays polite base Y t'' t.

(** Threads that run straight-line code: the list of what they still do. *)
Definition straight : program (list deed) := fun u d u' => u = d :: u'.
(** The number of guards of [l] a thread has after doing [past] (the latest first). *)
Fixpoint still_has (past : list deed) (l : lock) (a : access) : nat :=
  match past with
  | [] => 0
  | Ask l' a' :: rest | Attempt l' a' true :: rest => (if N.eqb l' l && access_eqb a' a then 1 else 0) + still_has rest l a
  | Give l' a' _ :: rest => still_has rest l a - (if N.eqb l' l && access_eqb a' a then 1 else 0)
  | _ :: rest => still_has rest l a
  end%nat.
(** Whenever the code [u] asks for [l] after [past], still having [l'], [R l' a' l] holds. *)
Fixpoint asks_well (R : lock -> access -> lock -> Prop) (past u : list deed) : Prop :=
  match u with
  | [] => True
  | d :: u' =>
    (match d with Ask l a => forall l' a', (0 < still_has past l' a')%nat -> R l' a' l | _ => True end) /\ asks_well R (d :: past) u'
  end.
