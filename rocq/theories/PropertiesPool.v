(** * Property C54: several profiles at the same time. *)
From Verif Require Import Base BaseFacts KeyModel KeyFacts HMap FlameModel BuilderModel VisitorModel Spec ImplModel LockModel LockSpec LockFacts PoolModel PoolSpec PoolFacts PoolProps.

#[local] Arguments key_new : simpl never.

(** ** C54: each of the visits is, for itself, a visit next to other code as in
    C49: the other visits are other code to it (so C49 holds of each of them). *)
Theorem C54_each : forall m std o n s bps P i b p,
  (forall l, lock_ok (locks s l)) -> all_idle (length bps) s -> joint m std o n (pool_start s bps) P ->
  nth_error bps i = Some (b, p) ->
  exists n' c, runs m std n' (start (view i s) b p) c /\ seen_by i P c.
Proof. exact C54_each_lemma. Qed.
Print Assumptions C54_each.

(** ** C54: the profiles do not mix: each visit leaves its builder as a visit that
    runs alone, without locks, would, the content of each lock (target of each
    [Weak]) being present or absent. *)
Theorem C54_profile : forall m std o n s bps P i b p res,
  (forall l, lock_ok (locks s l)) -> all_idle (length bps) s -> joint m std o n (pool_start s bps) P ->
  nth_error bps i = Some (b, p) -> finished P i res ->
  exists q, resolves p q /\ run m q b = res.
Proof. exact C54_profile_lemma. Qed.
Print Assumptions C54_profile.

(** ** C54: two visits are never inside the same lock if one of them has it
    exclusively. *)
Theorem C54_exclusive : forall m std o n s bps P i l,
  (forall l, lock_ok (locks s l)) -> all_idle (length bps) s -> joint m std o n (pool_start s bps) P ->
  opens P i l Exclusive ->
  held (locks (p_shared P) l) = [(Other i, Exclusive)] /\ forall j a, opens P j l a -> j = i.
Proof. intros m std o n s bps P i l Hk Hi HJ. apply (C54_exclusive_lemma Hk Hi HJ). Qed.
Print Assumptions C54_exclusive.

(** ** C54: each visit that is over holds nothing, though others go on. *)
Theorem C54_released : forall m std o n s bps P i res,
  (forall l, lock_ok (locks s l)) -> all_idle (length bps) s -> joint m std o n (pool_start s bps) P ->
  finished P i res -> snd res <> Aborted ->
  (forall l a, ~ In (Other i, a) (held (locks (p_shared P) l))) /\ (forall x, ~ In (Other i) (strong (p_shared P) x)).
Proof. intros m std o n s bps P i res Hk Hi HJ. apply (C54_released_lemma Hk Hi HJ). Qed.
Print Assumptions C54_released.

(** ** C54: visits do not wait for each other: one that cannot go on waits for a
    [DashMap] shard that code other than the visits has locked for writing. *)
Theorem C54_waits : forall m std o n s bps P i,
  (forall l, lock_ok (locks s l)) -> all_idle (length bps) s -> joint m std o n (pool_start s bps) P ->
  shards_are_read (map snd bps) -> (i < length bps)%nat ->
  (exists res, finished P i res) \/ (exists P', turn m std i P P') \/
  (exists l t, waits P i l /\ (length bps <= t)%nat /\ In (Other t, Exclusive) (held (locks (p_shared P) l))) \/
  process_gone P.
Proof. intros m std o n s bps P i Hk Hi HJ. apply (C54_waits_lemma Hk Hi HJ). Qed.
Print Assumptions C54_waits.

(** ** C54: with nothing else running (and nothing locked at the start) every visit
    can always go on: no deadlock. *)
Theorem C54_never_stuck : forall m std n s bps P i,
  (forall l, held (locks s l) = []) -> all_idle (length bps) s -> joint m std false n (pool_start s bps) P ->
  shards_are_read (map snd bps) -> (i < length bps)%nat ->
  (exists res, finished P i res) \/ (exists P', turn m std i P P') \/ process_gone P.
Proof. exact C54_never_stuck_lemma. Qed.
Print Assumptions C54_never_stuck.

(** Together they take at most as many steps as each for itself. *)
Theorem C54_ends : forall m std o n s bps P, joint m std o n (pool_start s bps) P ->
  (n <= list_sum (map (fun bp => steps (snd bp)) bps))%nat.
Proof. exact C54_ends_lemma. Qed.
Print Assumptions C54_ends.

(** ** C54: with nothing else running, what one visit leaves out another is
    visiting at that moment: when a [try_*] was made, some visit is inside that
    lock, or it was poisoned from the start, or a visit has panicked. *)
Theorem C54_opened : forall m std n s bps P i P' l,
  (forall l, held (locks s l) = []) -> all_idle (length bps) s -> joint m std false n (pool_start s bps) P ->
  tries P i l -> turn m std i P P' ->
  (exists j a, opens P' j l a) \/ poisoned (locks s l) = true \/ exists j, panicked P j.
Proof. exact C54_opened_lemma. Qed.
Print Assumptions C54_opened.

(** ** C54: only the shards of [DashMap]s are waited for, and these are never taken
    exclusively by the visit of the map itself; a lock is taken exclusively only where
    its implementation says so.  (So [shards_are_read] holds unless a shard's lock is
    also used in another way.) *)
Theorem C54_dash_maps : forall t e n cap shards l,
  (takes_exclusively l (l_dash_map t e n cap shards) ->
   exists s kv, In s shards /\ In kv (snd s) /\ (takes_exclusively l (snd (fst kv)) \/ takes_exclusively l (snd (snd kv)))) /\
  (waits_for l (l_dash_map t e n cap shards) ->
   exists s, In s shards /\ (fst s = l \/ exists kv, In kv (snd s) /\ (waits_for l (snd (fst kv)) \/ waits_for l (snd (snd kv))))).
Proof. intros. split; [apply C54_takes_lemma | apply C54_waits_for_lemma]. Qed.
Print Assumptions C54_dash_maps.
Theorem C54_cells : forall t l' a n content l,
  (takes_exclusively l (l_cell t l' a (n, content)) <-> l' = l /\ a = Exclusive \/ takes_exclusively l content) /\
  (waits_for l (l_cell t l' a (n, content)) <-> waits_for l content).
Proof. intros. unfold l_cell. cbn. tauto. Qed.
Print Assumptions C54_cells.

(** ** Concrete executions *)
Definition t_mutex := mkT "std::sync::Mutex<u32>" 8 true.
Definition one_mutex : lprog := l_cell t_mutex 7 Exclusive (4, LInline (key_for_type_name "u32") 4 LRet LRet).
Definition b0 : builder := fst (root_visitor b_default).
Definition free : shared := mkShared (fun _ => mkLock [] false) (fun _ => []).
Lemma free_ok n : (forall l, lock_ok (locks free l)) /\ all_idle n free /\ (forall l, held (locks free l) = []).
Proof. unfold all_idle, lock_ok, free. cbn. intuition. Qed.

Ltac turn_of i := eapply (@joint_turn _ _ _ _ i); [eapply turn_visit; [reflexivity | first
  [ eapply s_exit; vm_compute; reflexivity | eapply s_unlock | eapply s_drop_arc
  | eapply s_inline; vm_compute; reflexivity | eapply s_shared; vm_compute; reflexivity
  | eapply s_try; vm_compute; reflexivity | eapply s_try_fails; left; vm_compute; discriminate
  | eapply s_unique; vm_compute; reflexivity | eapply s_wait; vm_compute; intuition discriminate ]
  | apply view_view]; cbn [upd v_builder v_control v_stack]|].

(** Two threads profile the same [Mutex<u32>]; the second comes while the first is
    inside: it reports the mutex without its content. *)
Theorem C54_satisfiable : exists n1 n2 P1 P2 r0 r1, let m := Debug in let std := fun _ : lock => true in
  joint m std false n1 (pool_start free [(b0, one_mutex); (b0, one_mutex)]) P1 /\
  opens P1 0 7 Exclusive /\ tries P1 1 7 /\ (exists P', turn m std 1 P1 P') /\
  joint m std false n2 P1 P2 /\ finished P2 0 r0 /\ finished P2 1 r1 /\ snd r0 = Done /\ snd r1 = Done /\
  finish_and_write m (fst (exit_impl (fst r0))) = Some
"std::sync::Mutex<u32> 4
std::sync::Mutex<u32>;data;u32 4
"%string /\
  finish_and_write m (fst (exit_impl (fst r1))) = Some
"std::sync::Mutex<u32> 8
"%string.
Proof.
  eexists _, _, _, _, _, _. cbv zeta. split; [|split; [|split; [|split; [|split; [|split; [|split; [|split; [|split; [|split]]]]]]]]].
  - unfold pool_start, one_mutex, l_cell. cbn [map fst snd]. turn_of 1%nat. do 2 turn_of 0%nat. apply joint_refl.
  - unfold opens. cbn. eexists _, _. split; [reflexivity | left; reflexivity].
  - unfold tries. cbn. eexists _, _, _, _. split; reflexivity.
  - eexists. eapply turn_visit; [reflexivity | eapply s_try_fails; left; vm_compute; discriminate | apply view_view].
  - do 2 turn_of 1%nat. do 6 turn_of 0%nat. apply joint_refl.
  - unfold finished. eexists (mkConf _ _ _ _). split; [eexists; split; [reflexivity|]; cbn; repeat split; reflexivity | split; [exact I | reflexivity]].
  - unfold finished. eexists (mkConf _ _ _ _). split; [eexists; split; [reflexivity|]; cbn; repeat split; reflexivity | split; [exact I | reflexivity]].
  - reflexivity.
  - reflexivity.
  - vm_compute. reflexivity.
  - vm_compute. reflexivity.
Qed.
Print Assumptions C54_satisfiable.

(** Two threads profile the same [DashMap<u32, u32>] (two shards, one entry) and
    are inside the same shard at the same time. *)
Definition lu32 : N * lprog := (4, LInline (key_for_type_name "u32") 4 LRet LRet).
Definition one_map : lprog :=
  l_dash_map (mkT "dashmap::DashMap<u32, u32>" 40 true) (mkT "(u32, u32)" 8 true) 1 3 [(1, []); (2, [(lu32, lu32)])].
Theorem C54_shards_satisfiable : exists n P,
  shards_are_read [one_map; one_map] /\ waits_for 2 one_map /\
  joint Debug (fun _ => false) false n (pool_start free [(b0, one_map); (b0, one_map)]) P /\
  opens P 0 2 ReadOnly /\ opens P 1 2 ReadOnly.
Proof.
  eexists _, _. split; [|split; [|split; [|split]]].
  - intros p q l [<-|[<-|[]]] [<-|[<-|[]]] _ H; cbn in H; intuition discriminate.
  - cbn. tauto.
  - unfold pool_start, one_map, l_dash_map, l_count, l_entries. cbn [map fst snd lseq lseqs]. do 10 turn_of 0%nat. do 10 turn_of 1%nat. apply joint_refl.
  - unfold opens. cbn. eexists _, _. split; [reflexivity | left; reflexivity].
  - unfold opens. cbn. eexists _, _. split; [reflexivity | left; reflexivity].
Qed.
Print Assumptions C54_shards_satisfiable.
