(** * Property C49: profiling next to other threads. *)
From Verif Require Import Base BaseFacts KeyModel KeyFacts HMap FlameModel BuilderModel VisitorModel Spec ImplModel LockModel LockSpec LockFacts GuardFacts.

#[local] Arguments key_new : simpl never.

(** ** C49: contents are read only under their guard: while the content of a lock
    is visited no other code has exclusive access to it (none at all, if the
    guard is exclusive), and what is reached through a [Weak] is alive; under
    every interleaving. *)
Theorem C49_guarded : forall m std n s b p c, (forall l, lock_ok (locks s l)) -> holds_nothing s ->
  runs m std n (start s b p) c ->
  (forall l, inside_lock c l Exclusive -> held (locks (c_shared c) l) = [(Visit, Exclusive)]) /\
  (forall l, inside_lock c l ReadOnly ->
     In (Visit, ReadOnly) (held (locks (c_shared c) l)) /\ forall o, ~ In (o, Exclusive) (held (locks (c_shared c) l))) /\
  (forall x, inside_weak c x -> In Visit (strong (c_shared c) x)).
Proof. exact C49_guarded_lemma. Qed.
Print Assumptions C49_guarded.

(** The same seen from the profile: what is reported only for the content of a lock
    (or only through a [Weak]) is reported while the visit has the guard (a strong
    reference). *)
Theorem C49_content_guarded : forall m std n s b p c k, (forall l, lock_ok (locks s l)) -> holds_nothing s ->
  runs m std n (start s b p) c -> entering c k ->
  (forall l, only_in_lock l k p -> exists a, In (Visit, a) (held (locks (c_shared c) l))) /\
  (forall x, only_through x k p -> In Visit (strong (c_shared c) x)).
Proof. intros m std n s b p c k H1 H2 HR HE. split; [intros l HO; eapply content_guarded; eauto | intros x HO; eapply weak_guarded; eauto]. Qed.
Print Assumptions C49_content_guarded.

(** ** C49: everything is released: when the visit is over (returned or unwound by
    a panic) it holds no guard and no strong reference. *)
Theorem C49_released : forall m std n s b p c, (forall l, lock_ok (locks s l)) -> holds_nothing s ->
  runs m std n (start s b p) c -> over c -> c_control c <> Gone -> holds_nothing (c_shared c).
Proof. exact C49_released_lemma. Qed.
Print Assumptions C49_released.

(** ** C49: other code is not disturbed: no step of the visit changes the guards
    or references others hold, nor takes away or poisons a lock it does not hold. *)
Theorem C49_others_undisturbed : forall m std c c', vstep m std c c' ->
  (forall l, others (held (locks (c_shared c') l)) = others (held (locks (c_shared c) l))) /\
  (forall x, other_refs (strong (c_shared c') x) = other_refs (strong (c_shared c) x)) /\
  (forall l, poisoned (locks (c_shared c') l) <> poisoned (locks (c_shared c) l) ->
     std l = true /\ c_control c = Unwind /\ inside_lock c l Exclusive).
Proof. exact C49_others_undisturbed_lemma. Qed.
Print Assumptions C49_others_undisturbed.

(** If the visit cannot go on it waits for the lock of a [DashMap] shard. *)
Theorem C49_waits_only_for_shards : forall m std c,
  over c \/ (exists c', vstep m std c c') \/
  exists l a body rest, c_control c = Exec (LWait l a body rest) /\ ~ available (locks (c_shared c) l) a.
Proof. exact C49_waits_only_for_shards_lemma. Qed.
Print Assumptions C49_waits_only_for_shards.

(** ** C49: a visit that meets no [DashMap] takes at most [steps p] steps and can
    always take the next one, whatever the locks are doing: it never waits. *)
Theorem C49_never_waits : forall m std n s b p c, no_waiting p -> runs m std n (start s b p) c ->
  (n <= steps p)%nat /\ (over c \/ exists c', vstep m std c c').
Proof. exact C49_never_waits_lemma. Qed.
Print Assumptions C49_never_waits.

(** ** C49: the profile: whatever other code does, the visit leaves the builder as
    a visit without locks would in which the content of each lock (and target of
    each [Weak]) is present or absent. *)
Theorem C49_profile : forall m std n s b p c, runs m std n (start s b p) c -> over c ->
  exists q, resolves p q /\ run m q b = result_of c.
Proof. exact C49_profile_lemma. Qed.
Print Assumptions C49_profile.

(** ** C49: with no other code running and no lock held at the start (and no lock
    met again inside its own content), everything is visited except poisoned
    locks and dead [Weak]s. *)
Theorem C49_alone : forall m std s b p c, (forall l, held (locks s l) = []) -> holds_nothing s -> no_reentry [] p ->
  alone m std (start s b p) c -> over c -> run m (everything s p) b = result_of c.
Proof. exact C49_alone_lemma. Qed.
Print Assumptions C49_alone.

(** ** C49: a panic inside the content of a [std::sync::Mutex] poisons exactly the
    mutexes whose content is being visited; other lock types are not. *)
Theorem C49_poisons : forall m std c c', c_control c = Unwind -> alone m std c c' -> over c' -> c_control c' <> Gone ->
  forall l, poisoned (locks (c_shared c') l) = true <->
    poisoned (locks (c_shared c) l) = true \/ std l = true /\ inside_lock c l Exclusive.
Proof. exact C49_poisons_lemma. Qed.
Print Assumptions C49_poisons.

(** ** C49: the implementations.  Their two outcomes are those of ImplModel. *)
Theorem C49_cells : forall t l a n content q,
  resolves (l_cell t l a (n, content)) q <->
  (exists x, q = impl_cell t false x) \/ (exists content', resolves content content' /\ q = impl_cell t true [(n, content')]).
Proof. exact C49_cells_lemma. Qed.
Print Assumptions C49_cells.

(** [arc] stands for the visit of the upgraded pointer. *)
Theorem C49_weaks : forall t x t' ps pointee arc q, (forall q', resolves arc q' <-> q' = impl_shared_ptr pointee t' ps x) ->
  (resolves (l_weak t x arc) q <-> q = impl_weak pointee t None \/ q = impl_weak pointee t (Some (t', ps, x))).
Proof. exact C49_weaks_lemma. Qed.
Print Assumptions C49_weaks.

Theorem C49_dash_maps : forall m t e n cap shards q, n <= cap -> cap * t_size e < two64 ->
  (resolves (l_dash_map t e n cap shards) q <->
   exists cs, Forall2 resolved_sub (shard_entries shards) cs /\ q = impl_dash_map m t e n cap cs).
Proof. exact C49_dash_maps_lemma. Qed.
Print Assumptions C49_dash_maps.

(** "Profiling never blocks" is refuted for [DashMap]: if the profiling thread
    itself holds a [RefMut] into the map while it profiles, the visit is stuck for
    good. *)
Definition held_shard : shared := mkShared (fun l => if N.eqb l 7 then mkLock [(Other 0, Exclusive)] false else mkLock [] false) (fun _ => []).
Theorem C49_dash_map_refuted : exists t e b c, let p := l_dash_map t e 0 4 [(7, [])] in
  (forall l, lock_ok (locks held_shard l)) /\ holds_nothing held_shard /\
  alone Debug (fun _ => true) (start held_shard b p) c /\ ~ over c /\
  forall c', ~ vstep Debug (fun _ => true) c c'.
Proof.
  exists (mkT "dashmap::DashMap<u8, u8>" 40 true), (mkT "(u8, u8)" 2 false), (fst (root_visitor b_default)).
  destruct (enter_inline Debug (fst (root_visitor b_default)) (key_for_type_name "dashmap::DashMap<u8, u8>") 40) as [b1 st1] eqn:E1.
  destruct (enter_unique Debug b1 PTR_NAME ptr_size) as [b2 st2] eqn:E2.
  vm_compute in E1. inversion E1; subst b1 st1. vm_compute in E2. inversion E2; subst b2 st2.
  eexists. split; [|split; [|split; [|split]]].
  - intros l o. unfold held_shard. cbn [locks]. destruct (N.eqb l 7); cbn; [intros [[= ->]|[]]; reflexivity | intros []].
  - split; [|intros x []]. intros l a. unfold held_shard. cbn [locks]. destruct (N.eqb l 7); cbn; [intros [H|[]]; discriminate | intros []].
  - eapply alone_step; [eapply s_inline; vm_compute; reflexivity|]. eapply alone_step; [eapply s_unique; vm_compute; reflexivity|]. apply alone_refl.
  - intros [].
  - intros c' H. inversion H as [| | | | | | | | | | | | | | | | | |? ? ? ? ? ? ? Ha| |]; subst. cbn in Ha. apply (Ha (Other 0)). now left.
Qed.
Print Assumptions C49_dash_map_refuted.

(** ** C49: values destroyed by the visit.  "Profiling destroys nothing" is refuted:
    if the last owner drops an [Arc] while it is visited through a [Weak], the
    visit drops the last reference (and runs the destructor).  That is the only way. *)
Theorem C49_destroys_only : forall m std c c' x, vstep m std c c' ->
  strong (c_shared c) x <> [] -> strong (c_shared c') x = [] ->
  inside_weak c x /\ strong (c_shared c) x = [Visit].
Proof.
  intros m std c c' x H H1 H2.
  assert (X : forall y rest st s0, c_stack c = FArc y rest :: st -> c_shared c = s0 ->
    strong (set_strong s0 y (remove_one owner_eqb Visit (strong s0 y))) x = [] -> inside_weak c x /\ strong (c_shared c) x = [Visit]).
  { intros y rest st s0 E <- E2. unfold set_strong in E2. cbn [strong] in E2. destruct (N.eqb x y) eqn:F; [|contradiction].
    apply N.eqb_eq in F. subst y. split; [exists rest; rewrite E; now left|].
    destruct (strong (c_shared c) x) as [|o r]; [contradiction|]. cbn [remove_one] in E2.
    destruct (owner_eqb_spec Visit o) as [<-|]; [now rewrite E2 | discriminate]. }
  destruct H; cbn [c_shared] in *; try contradiction; try (eapply X; [reflexivity | reflexivity | exact H2]).
  unfold set_strong in H2. cbn [strong] in H2. destruct (N.eqb x x0); [discriminate | contradiction].
Qed.
Print Assumptions C49_destroys_only.

(** ** Concrete executions *)
Definition t_mutex := mkT "std::sync::Mutex<u32>" 8 true.
Definition t_weak := mkT "std::sync::Weak<u32>" 8 true.
Definition two_locks : lprog :=
  LInline (key_for_type_name "Both") 24
    (LInline (key_new "a") 8 (l_cell t_mutex 7 Exclusive (4, LInline (key_for_type_name "u32") 4 LRet LRet))
      (LInline (key_new "b") 8 (l_cell t_mutex 8 Exclusive (4, LInline (key_for_type_name "u32") 4 LRet LRet))
        (LInline (key_new "c") 8 (l_weak t_weak 5 (LShared PTR_NAME 8 5 (LInline (key_new "ArcInner") 20 LRet LRet) LRet LRet)) LRet))) LRet.
Definition busy : shared :=
  mkShared (fun l => if N.eqb l 8 then mkLock [(Other 1, Exclusive)] false else mkLock [] false)
           (fun x => if N.eqb x 5 then [Other 2] else []).

Lemma busy_ok : (forall l, lock_ok (locks busy l)) /\ holds_nothing busy.
Proof.
  split; [|split].
  - intros l o. unfold busy. cbn [locks]. destruct (N.eqb l 8); cbn; [intros [[= ->]|[]]; reflexivity | intros []].
  - intros l a. unfold busy. cbn [locks]. destruct (N.eqb l 8); cbn; [intros [H|[]]; discriminate | intros []].
  - intros x. unfold busy. cbn [strong]. destruct (N.eqb x 5); cbn; [intros [H|[]]; discriminate | intros []].
Qed.

Ltac go := eapply runs_visit; [first
  [ eapply s_exit; vm_compute; reflexivity | eapply s_unlock | eapply s_drop_arc
  | eapply s_inline; vm_compute; reflexivity | eapply s_shared; vm_compute; reflexivity
  | eapply s_try; vm_compute; reflexivity | eapply s_try_fails; left; vm_compute; discriminate
  | eapply s_upgrade; vm_compute; discriminate ]|].

(** The first mutex is visited while the second is locked elsewhere; the owner of
    the target of the [Weak] drops it during the visit, and the visit destroys it.
    ([busy] and [two_locks] meet the hypotheses of the theorems above.) *)
Theorem C49_destroys_refuted : exists n1 n2 n3 c1 c2 c3,
  let m := Debug in let std := fun _ : lock => true in
  runs m std n1 (start busy (fst (root_visitor b_default)) two_locks) c1 /\
  inside_lock c1 7 Exclusive /\ no_waiting two_locks /\
  runs m std n2 c1 c2 /\ inside_weak c2 5 /\ strong (c_shared c2) 5 = [Visit] /\
  runs m std n3 c2 c3 /\ over c3 /\ strong (c_shared c3) 5 = [] /\
  finish_and_write m (fst (exit_impl (c_builder c3))) = Some
"ArcInner 20
Both;a;std::sync::Mutex<u32> 4
Both;a;std::sync::Mutex<u32>;data;u32 4
Both;b;std::sync::Mutex<u32> 8
Both;c;std::sync::Weak<u32>;ptr 8
"%string.
Proof.
  eexists 5%nat, _, _, _, _, _. cbv zeta. split; [|split; [|split; [|split; [|split; [|split; [|split; [|split; [|split]]]]]]]].
  - unfold start, two_locks, l_cell, l_weak. do 5 go. apply runs_refl.
  - unfold inside_lock. cbn. eexists. right. left. reflexivity.
  - cbn. tauto.
  - do 14 go. eapply runs_other; [apply o_drop with (x := 5) (t := 2%nat); vm_compute; tauto|]. apply runs_refl.
  - unfold inside_weak. cbn. eexists. left. reflexivity.
  - vm_compute. reflexivity.
  - do 8 go. apply runs_refl.
  - exact I.
  - vm_compute. reflexivity.
  - vm_compute. reflexivity.
Qed.
Print Assumptions C49_destroys_refuted.

(** Alone, with nothing locked; and a panic inside the first mutex, which is
    poisoned (the second is not) and skipped by the next visit. *)
Definition idle : shared := mkShared (fun _ => mkLock [] false) (fun x => if N.eqb x 5 then [Other 2] else []).
Definition panicking : lprog :=
  l_cell t_mutex 7 Exclusive (4, LInline (key_for_type_name "u32") 4 LCrash LRet).
Ltac goa := eapply alone_step; [first
  [ eapply s_exit; vm_compute; reflexivity | eapply s_unlock | eapply s_drop_arc
  | eapply s_inline; vm_compute; reflexivity | eapply s_shared; vm_compute; reflexivity
  | eapply s_try; vm_compute; reflexivity | eapply s_crash
  | eapply s_unwind_exit; vm_compute; reflexivity | eapply s_unwind_unlock
  | eapply s_try_fails; right; vm_compute; reflexivity
  | eapply s_upgrade; vm_compute; discriminate ]|].
Theorem C49_satisfiable : let m := Debug in let std := fun _ : lock => true in let b := fst (root_visitor b_default) in
  (forall l, held (locks idle l) = []) /\ holds_nothing idle /\ no_reentry [] two_locks /\
  (exists c, alone m std (start idle b two_locks) c /\ over c /\ c_control c = Exec LRet) /\
  (exists c1 c2 c3, alone m std (start idle b panicking) c1 /\ c_control c1 = Unwind /\
     alone m std c1 c2 /\ over c2 /\ c_control c2 = Unwind /\
     poisoned (locks (c_shared c2) 7) = true /\ poisoned (locks (c_shared c2) 8) = false /\
     alone m std (start (c_shared c2) (c_builder c2) panicking) c3 /\ c_control c3 = Exec LRet /\ over c3).
Proof.
  cbv zeta. split; [reflexivity|]. split.
  { split; [intros l a []|]. intros x. unfold idle. cbn [strong]. destruct (N.eqb x 5); cbn; [intros [H|[]]; discriminate | intros []]. }
  split; [cbn; intuition congruence|]. split.
  - eexists. split; [|split].
    + unfold start, two_locks, l_cell, l_weak. do 32 goa. apply alone_refl.
    + exact I.
    + reflexivity.
  - eexists _, _, _. split; [|split; [|split; [|split; [|split; [|split; [|split; [|split; [|split]]]]]]]].
    + unfold start, panicking, l_cell. do 5 goa. apply alone_refl.
    + reflexivity.
    + do 4 goa. apply alone_refl.
    + exact I.
    + reflexivity.
    + vm_compute. reflexivity.
    + vm_compute. reflexivity.
    + unfold start, panicking, l_cell. do 3 goa. apply alone_refl.
    + reflexivity.
    + exact I.
Qed.
Print Assumptions C49_satisfiable.

Example C49_content_satisfiable : exists n c, runs Debug (fun _ => true) n (start idle (fst (root_visitor b_default)) panicking) c /\
  entering c (key_for_type_name "u32") /\ only_in_lock 7 (key_for_type_name "u32") panicking /\
  (forall l, lock_ok (locks idle l)) /\ held (locks (c_shared c) 7) = [(Visit, Exclusive)].
Proof.
  eexists _, _. split; [|split; [|split; [|split]]].
  - unfold start, panicking, l_cell. do 3 go. apply runs_refl.
  - reflexivity.
  - cbn. repeat split; auto; discriminate.
  - intros l o [].
  - reflexivity.
Qed.
