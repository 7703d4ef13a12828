(** * Property C56: destructors run by a visit. *)
From Verif Require Import Base BaseFacts KeyModel KeyFacts HMap FlameModel BuilderModel VisitorModel Spec ImplModel LockModel LockSpec LockFacts PoolModel DropModel DropSpec DropFacts.

#[local] Arguments key_new : simpl never.

(** ** C56: a destructor that the visit runs, dropping the last pointer to a value it
    reached through a [Weak], does not interfere with the visit: to the visit it is
    other code, so everything C49 says of a visit next to other code holds. *)
Theorem C56_as_other_code : forall m std dtor s b p d, (forall l a, ~ In (Other 0, a) (held (locks s l))) ->
  druns m std dtor (mkD (start s b p) []) d -> exists n, runs m std n (start s b p) (d_conf d).
Proof. intros m std dtor s b p d H0 HR. exact (druns_runs HR (@start_counted s b p H0)). Qed.
Print Assumptions C56_as_other_code.

(** The profile is that of a visit without destructors. *)
Theorem C56_profile : forall m std dtor s b p d, (forall l a, ~ In (Other 0, a) (held (locks s l))) ->
  druns m std dtor (mkD (start s b p) []) d -> d_over d -> exists q, resolves p q /\ run m q b = result_of (d_conf d).
Proof. intros m std dtor s b p d H0 HR [_ HO]. destruct (druns_runs HR (@start_counted s b p H0)) as (n & R). exact (C49_profile_lemma R HO). Qed.
Print Assumptions C56_profile.

(** ** C56: a destructor runs at once when the profiling thread drops the last pointer
    to a value. *)
Theorem C56_runs : forall m std dtor d d' x, dstep m std dtor d d' -> dies (c_shared (d_conf d)) (c_shared (d_conf d')) x ->
  exists todo, d_todo d' = Code (dtor x) :: todo.
Proof. exact C56_runs_lemma. Qed.
Print Assumptions C56_runs.

(** ** C56: when the visit is over neither it nor the destructors it ran hold anything. *)
Theorem C56_released : forall m std dtor s b p d,
  (forall l, lock_ok (locks s l)) -> holds_nothing s -> (forall l a, ~ In (Other 0, a) (held (locks s l))) ->
  druns m std dtor (mkD (start s b p) []) d -> d_over d -> c_control (d_conf d) <> Gone ->
  holds_nothing (c_shared (d_conf d)) /\ forall l a, ~ In (Other 0, a) (held (locks (c_shared (d_conf d)) l)).
Proof. exact C56_released_lemma. Qed.
Print Assumptions C56_released.

(** ** C56: what the profiling thread can wait for: the shard of a [DashMap], or a
    lock that the destructor of a value takes. *)
Theorem C56_waits : forall m std dtor d,
  d_over d \/ (exists d', dstep m std dtor d d') \/
  (exists l a body rest, d_todo d = [] /\ c_control (d_conf d) = Exec (LWait l a body rest) /\ ~ available (locks (c_shared (d_conf d)) l) a) \/
  (exists l a, wants d l a /\ ~ available (locks (c_shared (d_conf d)) l) a).
Proof. exact C56_waits_lemma. Qed.
Print Assumptions C56_waits.

(** ** C56: a destructor waits for the visit itself only if it takes a lock that is
    around a [Weak] in what is visited. *)
Theorem C56_no_self_deadlock : forall m std dtor s b p d l a,
  (forall l, lock_ok (locks s l)) -> holds_nothing s -> (forall l a, ~ In (Other 0, a) (held (locks s l))) ->
  (forall l x, weak_inside l p -> ~ d_takes l (dtor x)) ->
  druns m std dtor (mkD (start s b p) []) d -> wants d l a ->
  forall a', ~ In (Visit, a') (held (locks (c_shared (d_conf d)) l)).
Proof. exact C56_no_self_deadlock_lemma. Qed.
Print Assumptions C56_no_self_deadlock.

(** If it does wait for the visit itself, it does so for ever, whatever others do. *)
Theorem C56_for_ever : forall m std dtor d d' l a a', wants d l a -> In (Visit, a') (held (locks (c_shared (d_conf d)) l)) ->
  a = Exclusive \/ a' = Exclusive -> druns m std dtor d d' -> wants d' l a /\ ~ d_over d'.
Proof. exact C56_for_ever_lemma. Qed.
Print Assumptions C56_for_ever.

(** ** Concrete executions *)

(** A cache of [Weak]s in a mutex (7), whose entries remove themselves from it when
    they are dropped; and a list of [Weak]s in a mutex (8). *)
Definition t_cache := mkT "std::sync::Mutex<alloc::vec::Vec<std::sync::Weak<Entry>>>" 32 true.
Definition t_entry := mkT "std::sync::Weak<Entry>" 8 true.
Definition entry_visit : lprog := LShared PTR_NAME 8 5 (LInline (key_new "ArcInner") 20 LRet LRet) LRet LRet.
Definition cache (l : lock) : lprog := l_cell t_cache l Exclusive (24, l_weak t_entry 5 entry_visit).
Definition forget_me (x : ptr) : dprog := if N.eqb x 5 then DLock 7 Exclusive DRet DRet else DRet.
Definition quiet_world : shared := mkShared (fun _ => mkLock [] false) (fun x => if N.eqb x 5 then [Other 1] else []).

Lemma quiet_world_ok : (forall l, lock_ok (locks quiet_world l)) /\ holds_nothing quiet_world /\ (forall l a, ~ In (Other 0, a) (held (locks quiet_world l))).
Proof.
  split; [intros l o []|]. split; [|intros l a []]. split; [intros l a []|]. intros x. unfold quiet_world. cbn [strong].
  destruct (N.eqb x 5); cbn; [intros [H|[]]; discriminate | intros []].
Qed.

Ltac nodeath := intros y [D1 D2]; first [ exact (D1 D2) | apply D1; exact D2
  | unfold set_strong in D2; cbn [c_shared strong] in D1, D2; destruct (N.eqb y 5); [discriminate D2 | exact (D1 D2)] ].
Ltac god := eapply dr_step; [eapply d_visit; [first
  [ eapply s_exit; vm_compute; reflexivity | eapply s_unlock
  | eapply s_inline; vm_compute; reflexivity | eapply s_shared; vm_compute; reflexivity
  | eapply s_try; vm_compute; reflexivity | eapply s_upgrade; vm_compute; discriminate ] | nodeath]|].

(** "Profiling cannot deadlock on its own" is refuted: while the cache is visited the
    last owner drops an entry; the visit, which has the cache locked, then drops the
    entry, whose destructor waits for the cache. *)
Theorem C56_self_deadlock_refuted : exists d, let m := Debug in let std := fun _ : lock => true in
  druns m std forget_me (mkD (start quiet_world (fst (root_visitor b_default)) (cache 7)) []) d /\
  wants d 7 Exclusive /\ forall d', druns m std forget_me d d' -> ~ d_over d'.
Proof.
  eexists. cbv zeta. split; [|split].
  - unfold start, cache, l_cell, l_weak, entry_visit. do 5 god. 
    eapply dr_other; [apply out_drop with (x := 5) (t := 1%nat); [constructor | vm_compute; tauto]|]. cbn [with_shared c_shared c_builder c_control c_stack].
    do 4 god. eapply dr_step; [eapply d_visit_last with (x := 5); [eapply s_drop_arc | split; vm_compute; [discriminate | reflexivity]]|]. apply dr_refl.
  - eexists _, _, _. reflexivity.
  - intros d' HR. refine (proj2 (C56_for_ever_lemma (l := 7) (a := Exclusive) (a' := Exclusive) _ _ _ HR)); [eexists _, _, _; reflexivity | vm_compute; tauto | now left].
Qed.
Print Assumptions C56_self_deadlock_refuted.

(** In the other mutex the [Weak]s are no danger: the destructor runs to its end. *)
Theorem C56_satisfiable : let m := Debug in let std := fun _ : lock => true in
  (forall l x, weak_inside l (cache 8) -> ~ d_takes l (forget_me x)) /\
  exists d d', druns m std forget_me (mkD (start quiet_world (fst (root_visitor b_default)) (cache 8)) []) d /\ wants d 7 Exclusive /\
    inside_lock (d_conf d) 8 Exclusive /\ druns m std forget_me d d' /\ d_over d' /\ strong (c_shared (d_conf d')) 5 = [] /\
    c_control (d_conf d') = Exec LRet.
Proof.
  cbv zeta. split.
  { intros l x H. cbn in H. unfold forget_me. destruct (N.eqb x 5); cbn; [|tauto]. intros [E|[E|E]]; intuition congruence. }
  eexists _, _. split; [|split; [|split; [|split; [|split; [|split]]]]].
  - unfold start, cache, l_cell, l_weak, entry_visit. do 5 god.
    eapply dr_other; [apply out_drop with (x := 5) (t := 1%nat); [constructor | vm_compute; tauto]|]. cbn [with_shared c_shared c_builder c_control c_stack].
    do 4 god. eapply dr_step; [eapply d_visit_last with (x := 5); [eapply s_drop_arc | split; vm_compute; [discriminate | reflexivity]]|]. apply dr_refl.
  - eexists _, _, _. reflexivity.
  - eexists. cbn. right. right. left. reflexivity.
  - eapply dr_step; [apply d_lock; vm_compute; reflexivity|]. eapply dr_step; [apply d_ret|]. eapply dr_step; [apply d_release|].
    eapply dr_step; [apply d_ret|]. cbn [with_shared c_shared c_builder c_control c_stack]. do 4 god. apply dr_refl.
  - split; [reflexivity | exact I].
  - reflexivity.
  - reflexivity.
Qed.
Print Assumptions C56_satisfiable.
