(** * Specification vocabulary for several profiles at the same time. *)
From Verif Require Import Base KeyModel HMap FlameModel BuilderModel VisitorModel ImplModel LockModel LockSpec PoolModel.

(** The [i]-th visit, as the single visit of LockModel. *)
Definition seen_by (i : nat) (P : pool) (c : config) : Prop :=
  exists v, nth_error (p_visits P) i = Some v /\
    c_builder c = v_builder v /\ c_control c = v_control v /\ c_stack c = v_stack v /\
    same (c_shared c) (view i (p_shared P)).

(** The [i]-th visit is over, with this result. *)
Definition finished (P : pool) (i : nat) (res : builder * outcome) : Prop :=
  exists c, seen_by i P c /\ over c /\ result_of c = res.

(** The [i]-th visit is visiting the content of the lock [l]. *)
Definition opens (P : pool) (i : nat) (l : lock) (a : access) : Prop :=
  exists v rest, nth_error (p_visits P) i = Some v /\ In (FGuard l a rest) (v_stack v).
(** Its next step is the [try_*] of [l]. *)
Definition tries (P : pool) (i : nat) (l : lock) : Prop :=
  exists v a body rest, nth_error (p_visits P) i = Some v /\ v_control v = Exec (LTry l a body rest).
(** Its next step is to wait for [l] (the shard of a [DashMap]). *)
Definition waits (P : pool) (i : nat) (l : lock) : Prop :=
  exists v a body rest, nth_error (p_visits P) i = Some v /\ v_control v = Exec (LWait l a body rest).
(** It has panicked. *)
Definition panicked (P : pool) (i : nat) : Prop :=
  exists v, nth_error (p_visits P) i = Some v /\ (v_control v = Unwind \/ v_control v = Gone).

(** The process was aborted (a panic while unwinding). *)
Definition process_gone (P : pool) : Prop := exists i v, nth_error (p_visits P) i = Some v /\ v_control v = Gone.

(** None of the first [n] owners holds anything. *)
Definition all_idle (n : nat) (s : shared) : Prop :=
  (forall l t a, In (Other t, a) (held (locks s l)) -> (n <= t)%nat) /\
  (forall x t, In (Other t) (strong s x) -> (n <= t)%nat) /\
  (forall l a, ~ In (Visit, a) (held (locks s l))) /\ (forall x, ~ In Visit (strong s x)).

(** The locks a visit waits for, and those it takes exclusively. *)
Fixpoint waits_for (l : lock) (p : lprog) : Prop :=
  match p with
  | LRet | LCrash => False
  | LInline _ _ b r | LUnique _ _ b r | LTry _ _ b r | LUpgrade _ b r => waits_for l b \/ waits_for l r
  | LShared _ _ _ b r1 r2 => waits_for l b \/ waits_for l r1 \/ waits_for l r2
  | LWait l' _ b r => l' = l \/ waits_for l b \/ waits_for l r
  end.
Fixpoint takes_exclusively (l : lock) (p : lprog) : Prop :=
  match p with
  | LRet | LCrash => False
  | LInline _ _ b r | LUnique _ _ b r | LUpgrade _ b r => takes_exclusively l b \/ takes_exclusively l r
  | LShared _ _ _ b r1 r2 => takes_exclusively l b \/ takes_exclusively l r1 \/ takes_exclusively l r2
  | LTry l' a b r | LWait l' a b r =>
      (l' = l /\ a = Exclusive) \/ takes_exclusively l b \/ takes_exclusively l r
  end.
(** Shards of a [DashMap] are read locks: no visit takes a lock exclusively that a
    visit waits for. *)
Definition shards_are_read (ps : list lprog) : Prop :=
  forall p q l, In p ps -> In q ps -> waits_for l p -> ~ takes_exclusively l q.
