(** * Several profiles at the same time.

    Every thread that profiles has a [FlameGraphBuilder] of its own; the builders
    share nothing (flamegraph.rs 310-323 has no statics), the profiled data and
    its locks are shared.  The visits of LockModel are run side by side, together
    with other code. *)
From Verif Require Import Base KeyModel HMap FlameModel BuilderModel VisitorModel ImplModel LockModel.

(** One of the visits: as in [config], without the shared state.
    Models: flamegraph.rs 310-323, 359-363. *)
Record visiting := mkVis { v_builder : builder; v_control : control; v_stack : list frame }.

(** The visits that are going on; the [i]-th one owns guards and references as [Other i].
    Models: flamegraph.rs 310-323, 359-363, one builder each. *)
Record pool := mkPool { p_shared : shared; p_visits : list visiting }.

(** The shared state as the [i]-th visit sees it: in LockModel the visit itself
    is [Visit] and everybody else [Other].
    Models: sync.rs 36-44, 209-217, cell.rs 19-27, lock_api.rs 22-40, tokio.rs 20-38, dashmap.rs 29-51, sync.rs 93-103. *)
Definition seat (i : nat) (o : owner) : owner :=
  match o with Visit => Other i | Other t => if Nat.eqb t i then Visit else Other t end.
(** See above (the locks and pointers of sync.rs 36-44, 93-103, 209-217). *)
Definition view (i : nat) (s : shared) : shared :=
  mkShared (fun l => mkLock (map (fun x => (seat i (fst x), snd x)) (held (locks s l))) (poisoned (locks s l)))
           (fun x => map (seat i) (strong s x)).
(** Equal states (functions compared pointwise).
    Models: the locks and pointers of sync.rs 36-44, 93-103, 209-217. *)
Definition same (s s' : shared) : Prop := (forall l, locks s l = locks s' l) /\ (forall x, strong s x = strong s' x).

(** Code that is not one of the [n] visits: as [ostep].
    Models: the locks of sync.rs 36-44, 209-217, cell.rs 19-27, lock_api.rs 22-40, tokio.rs 20-38, dashmap.rs 29-51, the pointers of sync.rs 93-103. *)
Inductive outside (n : nat) : shared -> shared -> Prop :=
| out_acquire s l t a : (n <= t)%nat -> available (locks s l) a -> outside n s (acquire s l (Other t) a)
| out_release s l t a p : (n <= t)%nat -> In (Other t, a) (held (locks s l)) -> outside n s (release s l (Other t) a p)
| out_clear_poison s l : outside n s (set_lock s l (mkLock (held (locks s l)) false))
| out_clone s x t : (n <= t)%nat -> strong s x <> [] -> outside n s (set_strong s x (Other t :: strong s x))
| out_drop s x t : (n <= t)%nat -> In (Other t) (strong s x) ->
    outside n s (set_strong s x (remove_one owner_eqb (Other t) (strong s x))).

(** The [i]-th visit takes a step.
    Models: visitor.rs 65-118 and the implementations cited at [vstep]. *)
Inductive turn (m : mode) (std : lock -> bool) (i : nat) : pool -> pool -> Prop :=
| turn_visit s vs v s1 b k st s' : nth_error vs i = Some v ->
    vstep m std (mkConf (view i s) (v_builder v) (v_control v) (v_stack v)) (mkConf s1 b k st) ->
    same (view i s') s1 ->
    turn m std i (mkPool s vs) (mkPool s' (upd vs i (mkVis b k st))).

(** [joint m std others n P P']: some interleaving leads from [P] to [P'], with [n]
    steps of the visits; [others = false]: nothing else runs.
    Models: visitor.rs 65-118 and the implementations cited at [vstep]. *)
Inductive joint (m : mode) (std : lock -> bool) (others : bool) : nat -> pool -> pool -> Prop :=
| joint_refl P : joint m std others 0 P P
| joint_turn n i P P' P'' : turn m std i P P' -> joint m std others n P' P'' -> joint m std others (S n) P P''
| joint_other n s s' vs P'' : others = true -> outside (length vs) s s' ->
    joint m std others n (mkPool s' vs) P'' -> joint m std others n (mkPool s vs) P''.

(** The visits start: builders (with root visitor) and code.
    Models: flamegraph.rs 359-363. *)
Definition pool_start (s : shared) (bps : list (builder * lprog)) : pool :=
  mkPool s (map (fun bp => mkVis (fst bp) (Exec (snd bp)) []) bps).
