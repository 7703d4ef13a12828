(** * Property C62: destructors run by a visit, that panic. *)
From Verif Require Import Base BaseFacts KeyModel KeyFacts HMap FlameModel BuilderModel VisitorModel Spec BuilderProps ImplModel LockModel LockSpec LockFacts PoolModel
  DropModel DropSpec DropFacts UnwindModel UnwindSpec UnwindFacts UnwindProfile UnwindProps.

#[local] Arguments key_new : simpl never.

(** ** C62: the profile.  It is that of a visit that panics where the destructor does:
    behind the target of a [Weak]. *)
Theorem C62_profile : forall m std dtor s b p d, uruns m std dtor (u_start s b p) d -> u_over d -> c_control (u_conf d) <> Gone ->
  exists q, resolves_or_panics p q /\ run m q b = result_of (u_conf d).
Proof. exact C62_profile_lemma. Qed.
Print Assumptions C62_profile.

(** What is reported is what was visited before: an initial part of the profile without
    the panic (C23_recorded says so of [cut]). *)
Theorem C62_recorded : forall m std dtor s b p d, uruns m std dtor (u_start s b p) d -> u_over d -> c_control (u_conf d) <> Gone ->
  exists q0 q, resolves p q0 /\ cut q0 q /\ run m q b = result_of (u_conf d).
Proof.
  intros m std dtor s b p d HR HO HG. destruct (C62_profile_lemma HR HO HG) as (q & H & E). destruct (rp_cut H) as (q0 & H0 & C). eauto.
Qed.
Print Assumptions C62_recorded.

(** ** C62: the builder can be used further: more roots can be visited and it can be
    finished. *)
Theorem C62_usable : forall m std dtor l b b1 s p d,
  visit_roots m l b_default = (b, Done) -> root_visitor b = (b1, Fine) ->
  (forall q, resolves_or_panics p q -> total_declared (root_events (l ++ [q])) < two63) ->
  uruns m std dtor (u_start s b1 p) d -> u_over d -> c_control (u_conf d) <> Gone ->
  exists b' o, (leave_scope (result_of (u_conf d)) = (b', Done) \/ leave_scope (result_of (u_conf d)) = (b', Unwinding)) /\
    snd (root_visitor b') = Fine /\ finish m b' = Some o.
Proof.
  intros m std dtor l b b1 s p d Hl Hb Hq HR HO HG. destruct (C62_profile_lemma HR HO HG) as (q & H & E).
  destruct (@C23_usable_lemma l q (Hq q H)) as (b0 & b' & o & X). destruct (X m) as (X1 & X2 & X3 & X4). rewrite Hl in X1. inversion X1; subst b0.
  exists b', o. unfold visit_root in X2. rewrite Hb, E in X2. auto.
Qed.
Print Assumptions C62_usable.

(** ** C62: a panic that leaves a destructor is not swallowed: it leaves the visit. *)
Theorem C62_panics : forall m std dtor s b p d d', uruns m std dtor (u_start s b p) d -> u_raised d = true ->
  uruns m std dtor d d' -> u_over d' -> c_control (u_conf d') = Unwind \/ c_control (u_conf d') = Gone.
Proof.
  intros m std dtor s b p d d' HR E HR' (O1 & O2 & _). destruct (panicking_runs HR' (orderly_runs HR (@start_orderly s b p)) (or_introl E)) as [[P|[P|P]]|P]; auto.
  - congruence.
  - rewrite O1 in P. destruct P.
Qed.
Print Assumptions C62_panics.

(** ** C62: the process is aborted only if a destructor panics while the thread is
    panicking already. *)
Theorem C62_aborts_only : forall m std dtor l b b1 s p d,
  visit_roots m l b_default = (b, Done) -> root_visitor b = (b1, Fine) ->
  (forall q, resolves_or_panics p q -> total_declared (root_events (l ++ [q])) < two63) ->
  uruns m std dtor (u_start s b1 p) d -> c_control (u_conf d) = Gone ->
  exists d1, uruns m std dtor (u_start s b1 p) d1 /\ uruns m std dtor d1 d /\ about_to_panic d1 /\ panicking d1.
Proof.
  intros m std dtor l b b1 s p d Hl Hb Hq HR HG. destruct (C62_aborts_lemma HR HG) as [H|(q & b' & H & E)]; [exact H|]. exfalso.
  destruct (@C23_usable_lemma l q (Hq q H)) as (b0 & b2 & o & X). destruct (X m) as (X1 & X2 & _). rewrite Hl in X1. inversion X1; subst b0.
  unfold visit_root in X2. rewrite Hb, E in X2. cbn in X2. destruct X2; discriminate.
Qed.
Print Assumptions C62_aborts_only.
(** Then it is. *)
Theorem C62_aborts : forall m std dtor d d', about_to_panic d -> panicking d -> ustep m std dtor d d' -> c_control (u_conf d') = Gone.
Proof.
  intros m std dtor [c todo r] d' (E1 & todo' & E2) P H. cbn [u_raised u_todo] in E1, E2. subst. inversion H; subst; [contradiction | reflexivity].
Qed.
Print Assumptions C62_aborts.

(** ** C62: when the visit is over, also by a panic, neither it nor the destructors hold anything. *)
Theorem C62_released : forall m std dtor s b p d,
  (forall l, lock_ok (locks s l)) -> holds_nothing s -> (forall l a, ~ In (Other 0, a) (held (locks s l))) ->
  uruns m std dtor (u_start s b p) d -> u_over d -> c_control (u_conf d) <> Gone ->
  holds_nothing (c_shared (u_conf d)) /\ forall l a, ~ In (Other 0, a) (held (locks (c_shared (u_conf d)) l)).
Proof. exact C62_released_lemma. Qed.
Print Assumptions C62_released.

(** ** C62: the profiling thread poisons a lock only if it is one of std, it is held
    exclusively (by the visit or a destructor), and there is a panic; *)
Theorem C62_poisons_only : forall m std dtor d d' l, ustep m std dtor d d' ->
  poisoned (locks (c_shared (u_conf d)) l) = false -> poisoned (locks (c_shared (u_conf d')) l) = true ->
  panicking d /\ std l = true /\ (inside_lock (u_conf d) l Exclusive \/ u_holds d l Exclusive).
Proof. exact C62_poisons_only_lemma. Qed.
Print Assumptions C62_poisons_only.
(** and when a destructor panics all of these are poisoned: also the mutexes around the
    [Weak], although no implementation of [visit] panicked. *)
Theorem C62_poisons : forall m std dtor s b p d d', uruns m std dtor (u_start s b p) d -> u_raised d = true ->
  u_alone m std dtor d d' -> u_over d' -> c_control (u_conf d') <> Gone ->
  forall l, poisoned (locks (c_shared (u_conf d')) l) = true <->
    poisoned (locks (c_shared (u_conf d)) l) = true \/ std l = true /\ (inside_lock (u_conf d) l Exclusive \/ u_holds d l Exclusive).
Proof. exact C62_poisons_lemma. Qed.
Print Assumptions C62_poisons.

(** ** C62: what the profiling thread can wait for; waiting for itself (as C56). *)
Theorem C62_waits : forall m std dtor s b p d, uruns m std dtor (u_start s b p) d ->
  u_over d \/ (exists d', ustep m std dtor d d') \/
  (exists l a body rest, u_todo d = [] /\ u_raised d = false /\ c_control (u_conf d) = Exec (LWait l a body rest) /\ ~ available (locks (c_shared (u_conf d)) l) a) \/
  (exists l a, u_wants d l a /\ ~ available (locks (c_shared (u_conf d)) l) a).
Proof. exact C62_waits_lemma. Qed.
Print Assumptions C62_waits.
Theorem C62_no_self_deadlock : forall m std dtor s b p d l a,
  (forall l, lock_ok (locks s l)) -> holds_nothing s -> (forall l a, ~ In (Other 0, a) (held (locks s l))) ->
  (forall l x, weak_inside l p -> ~ u_takes l (dtor x)) ->
  uruns m std dtor (u_start s b p) d -> u_wants d l a ->
  forall a', ~ In (Visit, a') (held (locks (c_shared (u_conf d)) l)).
Proof. exact C62_no_self_deadlock_lemma. Qed.
Print Assumptions C62_no_self_deadlock.
Theorem C62_for_ever : forall m std dtor d d' l a a', u_wants d l a -> In (Visit, a') (held (locks (c_shared (u_conf d)) l)) ->
  a = Exclusive \/ a' = Exclusive -> uruns m std dtor d d' -> u_wants d' l a /\ ~ u_over d'.
Proof. exact C62_for_ever_lemma. Qed.
Print Assumptions C62_for_ever.

(** ** C62: a destructor runs at once when the profiling thread drops the last pointer. *)
Theorem C62_runs : forall m std dtor d d' x, ustep m std dtor d d' -> dies (c_shared (u_conf d)) (c_shared (u_conf d')) x ->
  u_raised d' = false /\ exists todo, u_todo d' = Do (dtor x) :: todo.
Proof. exact C62_runs_lemma. Qed.
Print Assumptions C62_runs.

(** ** C62: destructors that do not panic do not interfere with the visit: to it they
    are other code (C49), as in C56, of whose destructors the executions are the same. *)
Theorem C62_calm : forall m std dtor s b p d, (forall x, never_panics (dtor x)) -> (forall l a, ~ In (Other 0, a) (held (locks s l))) ->
  uruns m std dtor (u_start s b p) d -> u_raised d = false /\ exists n, runs m std n (start s b p) (u_conf d).
Proof. exact C62_calm_lemma. Qed.
Print Assumptions C62_calm.
Theorem C62_conservative : forall m std dtor s b p e,
  uruns m std (fun x => quietly (dtor x)) (u_start s b p) e <-> exists d, e = quietly_state d /\ druns m std dtor (mkD (start s b p) []) d.
Proof. exact C62_conservative_lemma. Qed.
Print Assumptions C62_conservative.

(** ** Concrete executions *)

(** A list of [Weak]s in a mutex (8); the destructor of an entry locks a registry (7),
    panics there, and then drops its field, a pointer to 6. *)
Definition t_list := mkT "std::sync::Mutex<alloc::vec::Vec<std::sync::Weak<Job>>>" 32 true.
Definition t_job := mkT "std::sync::Weak<Job>" 8 true.
Definition job_visit : lprog := LShared PTR_NAME 8 5 (LInline (key_new "ArcInner") 20 LRet LRet) LRet LRet.
Definition jobs : lprog := l_cell t_list 8 Exclusive (24, l_weak t_job 5 job_visit).
Definition fails (x : ptr) : uprog :=
  if N.eqb x 5 then UFinally (ULock 7 Exclusive UPanic UPanic URet) (UDrop 6 0 URet) URet
  else if N.eqb x 6 then UTry 9 Exclusive URet URet else URet.
Definition job_world : shared := mkShared (fun _ => mkLock [] false) (fun x => if N.eqb x 5 then [Other 1] else if N.eqb x 6 then [Other 0] else []).

Lemma job_world_ok : (forall l, lock_ok (locks job_world l)) /\ holds_nothing job_world /\ (forall l a, ~ In (Other 0, a) (held (locks job_world l))).
Proof.
  split; [intros l o []|]. split; [|intros l a []]. split; [intros l a []|]. intros x. unfold job_world. cbn [strong].
  destruct (N.eqb x 5); cbn; [intros [H|[]]; discriminate|]. destruct (N.eqb x 6); cbn; [intros [H|[]]; discriminate | intros []].
Qed.

Ltac nodeath := intros y [D1 D2]; first [ exact (D1 D2) | apply D1; exact D2
  | unfold set_strong in D2; cbn [c_shared strong] in D1, D2; destruct (N.eqb y 5); [discriminate D2 | exact (D1 D2)] ].
Ltac gou := eapply ur_step; [eapply u_visit; [first
  [ eapply s_exit; vm_compute; reflexivity | eapply s_unlock | eapply s_unwind_exit; vm_compute; reflexivity | eapply s_unwind_unlock
  | eapply s_inline; vm_compute; reflexivity | eapply s_shared; vm_compute; reflexivity
  | eapply s_try; vm_compute; reflexivity | eapply s_upgrade; vm_compute; discriminate ] | nodeath]|].
Ltac goa := eapply ua_step; [eapply u_visit; [first [ eapply s_unwind_exit; vm_compute; reflexivity | eapply s_unwind_unlock ] | nodeath]|].

(** The last owner drops the job while it is visited; the visit drops it, its destructor
    panics.  Both mutexes are poisoned -- no implementation of [visit] has panicked --,
    the field is dropped, the visit ends by unwinding, the builder is usable. *)
Theorem C62_satisfiable : exists d d' b' o, let m := Debug in let std := fun _ : lock => true in
  uruns m std fails (u_start job_world (fst (root_visitor b_default)) jobs) d /\ u_raised d = true /\
  inside_lock (u_conf d) 8 Exclusive /\ u_holds d 7 Exclusive /\
  u_alone m std fails d d' /\ u_over d' /\ c_control (u_conf d') = Unwind /\
  poisoned (locks (c_shared (u_conf d')) 8) = true /\ poisoned (locks (c_shared (u_conf d')) 7) = true /\ poisoned (locks (c_shared (u_conf d')) 9) = false /\
  strong (c_shared (u_conf d')) 6 = [] /\
  leave_scope (result_of (u_conf d')) = (b', Unwinding) /\ finish m b' = Some o.
Proof.
  eexists _, _, _, _. cbv zeta. split; [|split; [|split; [|split; [|split; [|split; [|split; [|split; [|split; [|split; [|split; [|split]]]]]]]]]]].
  - unfold u_start, start, jobs, l_cell, l_weak, job_visit. do 5 gou.
    eapply ur_other; [apply out_drop with (x := 5) (t := 1%nat); [constructor | vm_compute; tauto]|]. cbn [with_shared c_shared c_builder c_control c_stack].
    do 4 gou. eapply ur_step; [eapply u_visit_last with (x := 5); [eapply s_drop_arc | split; vm_compute; [discriminate | reflexivity]]|].
    eapply ur_step; [apply u_finally|]. eapply ur_step; [apply u_lock; vm_compute; reflexivity|].
    eapply ur_step; [|apply ur_refl]. apply u_panic. intros [X|[X|X]]; [discriminate | discriminate |].
    vm_compute in X. repeat (destruct X as [X|X]; [discriminate|]). destruct X.
  - reflexivity.
  - eexists. cbn. right. right. left. reflexivity.
  - left. reflexivity.
  - eapply ua_step; [apply u_unwind_unlock|]. eapply ua_step; [apply u_skip|]. eapply ua_step; [apply u_unwind_cleanup|].
    eapply ua_step; [eapply u_drop_last; [vm_compute; tauto | reflexivity | vm_compute; reflexivity]|].
    eapply ua_step; [apply u_try; vm_compute; reflexivity|]. eapply ua_step; [apply u_ret|]. eapply ua_step; [apply u_unlock|]. 
    eapply ua_step; [apply u_ret|]. eapply ua_step; [apply u_ret|]. eapply ua_step; [apply u_resume|]. eapply ua_step; [apply u_skip|].
    eapply ua_step; [apply u_reaches_visit|]. cbn [with_shared with_control c_shared c_builder c_control c_stack]. do 4 goa. apply ua_refl.
  - split; [reflexivity|]. split; [reflexivity | exact I].
  - reflexivity.
  - reflexivity.
  - reflexivity.
  - reflexivity.
  - reflexivity.
  - vm_compute. reflexivity.
  - vm_compute. reflexivity.
Qed.
Print Assumptions C62_satisfiable.

(** The hypothesis of C62_usable and C62_aborts_only. *)
Example C62_usable_satisfiable : forall q, resolves_or_panics jobs q -> total_declared (root_events ([] ++ [q])) < two63.
Proof.
  intros q H. unfold jobs, l_cell, l_weak, job_visit in H. cbn [fst snd] in H.
  repeat match goal with X : resolves_or_panics ?p _ |- _ => is_var p; fail 1 | X : resolves_or_panics _ _ |- _ => inversion X; subst; clear X end; vm_compute; reflexivity.
Qed.

(** If also the field panics, the process is aborted. *)
Definition fails_twice (x : ptr) : uprog := if N.eqb x 5 then UFinally UPanic UPanic URet else URet.
Example C62_abort_satisfiable : exists d, let m := Debug in let std := fun _ : lock => true in
  uruns m std fails_twice (u_start job_world (fst (root_visitor b_default)) jobs) d /\ c_control (u_conf d) = Gone.
Proof.
  eexists. cbv zeta. split.
  { unfold u_start, start, jobs, l_cell, l_weak, job_visit. do 5 gou.
  eapply ur_other; [apply out_drop with (x := 5) (t := 1%nat); [constructor | vm_compute; tauto]|]. cbn [with_shared c_shared c_builder c_control c_stack].
  do 4 gou. eapply ur_step; [eapply u_visit_last with (x := 5); [eapply s_drop_arc | split; vm_compute; [discriminate | reflexivity]]|].
  eapply ur_step; [apply u_finally|]. eapply ur_step; [apply u_panic; intros [X|[X|X]]; [discriminate | discriminate |]; vm_compute in X; repeat (destruct X as [X|X]; [discriminate|]); destruct X|].
  eapply ur_step; [apply u_unwind_cleanup|]. eapply ur_step; [apply u_panic_again; right; right; cbn; tauto|]. apply ur_refl. }
  reflexivity.
Qed.

(** A destructor that takes no lock around a [Weak] of what is visited. *)
Example C62_no_self_deadlock_satisfiable : forall l x, weak_inside l jobs -> ~ u_takes l (fails x).
Proof.
  intros l x H. cbn in H. unfold fails. destruct (N.eqb x 5); [cbn; intuition congruence|]. destruct (N.eqb x 6); cbn; intuition congruence.
Qed.
