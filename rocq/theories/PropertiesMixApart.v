(** * Properties C64, C65, C66: nothing waits for itself. *)
From Coq Require Import Lia.
From Verif Require Import Base BaseFacts KeyModel KeyFacts HMap FlameModel BuilderModel BuilderFacts VisitorModel Spec LayoutModel ImplModel SizeOfModel
  LockModel LockSpec LockFacts SnapshotModel DashModel DashSpec MixModel MixSpec MixGuard MixCases PropertiesMix PoolModel PoolSpec PoolFacts
  SizeMixModel SizeMixSpec SizeMixGuard SizeMixCases PropertiesSizeMix MixPoolModel MixPoolSpec MixPoolFacts MixPoolShown PropertiesMixPool MixApartSpec MixApart MixPoolEnds.

#[local] Arguments key_new : simpl never.

(** ** C64: the locks of the shards of [DashMap]s are private to them ([shard]: which
    these are).  So a visit never waits for itself: it is over, or can go on, or waits for
    the read lock of a shard that another thread, alone, has exclusively. *)
Theorem C64_waits_for_others : forall (shard : lock -> Prop) (M : xmemory -> Prop) m std g b v c,
  (forall g, M g -> mem_apart shard g) -> apart shard v ->
  (forall l, lock_ok (locks (x_shared g) l)) -> holds_nothing (x_shared g) -> xpasses M m std (xbegin g b v) c ->
  xended c \/ (exists c', xstep m std c c') \/
  (exists l t, needs c l /\ shard l /\ held (locks (x_shared (xk_mem c)) l) = [(Other t, Exclusive)]).
Proof.
  intros shard M m std g b v c HM HV H1 H2 HP. pose proof (xsep_passes HM HP (xbegin_sep g b HV)) as D.
  destruct (C64_waits_for_shards H1 H2 HP) as [H|[H|(l & Hn & [(t & H)|H])]]; [now left | right; now left | |].
  - right; right. exists l, t. split; [exact Hn|]. split; [exact (needs_shard D Hn) | exact H].
  - elim (inside_no_shard D H (needs_shard D Hn)).
Qed.
Print Assumptions C64_waits_for_others.

(** ** C65: nor does a call of [size_of_unique_allocated_data]. *)
Theorem C65_waits_for_others : forall (shard : lock -> Prop) (M : xmemory -> Prop) m std g v c,
  (forall g, M g -> mem_apart shard g) -> apart shard v ->
  (forall l, lock_ok (locks (x_shared g) l)) -> holds_nothing (x_shared g) -> zpasses M m std (zbegin g v) c ->
  zended c \/ (exists c', zstep m std c c') \/
  (exists l t, zneeds c l /\ shard l /\ held (locks (x_shared (z_mem c)) l) = [(Other t, Exclusive)]).
Proof.
  intros shard M m std g v c HM HV H1 H2 HP. pose proof (zsep_passes HM HP (zbegin_sep g HV)) as D.
  destruct (C65_waits_for_shards H1 H2 HP) as [H|[H|(l & Hn & [(t & H)|H])]]; [now left | right; now left | |].
  - right; right. exists l, t. split; [exact Hn|]. split; [exact (needs_shard D (zneeds_y Hn)) | exact H].
  - apply zinside_y in H. elim (inside_no_shard D H (needs_shard D (zneeds_y Hn))).
Qed.
Print Assumptions C65_waits_for_others.

(** What a participant waits for is a shard; what it has exclusively is not. *)
Lemma participant_apart (shard : lock -> Prop) (M : xmemory -> Prop) m std g js P i l :
  (forall g, M g -> mem_apart shard g) -> (forall j, In j js -> job_apart shard j) ->
  (forall l, lock_ok (locks (x_shared g) l)) -> all_idle (length js) (x_shared g) -> xjoint M m std (xpool_start g js) P ->
  (asks_for P i l -> shard l) /\ (is_inside P i l Exclusive -> ~ shard l).
Proof.
  intros HM HJs Hk Hi HJ. pose proof (@start_steady g js Hk Hi) as S0.
  pose proof (joint_now HJ S0 (@start_now M m std g js Hk Hi (joint_here HJ))) as N.
  pose proof (joint_all HJ) as L. cbn [xpool_start q_all] in L. rewrite map_length in L.
  assert (HM' : forall h, seen_from i M h -> mem_apart shard h).
  { intros h Hh. destruct (seen_moment Hh) as (g0 & Hg0 & _ & _ & _ & _ & _ & C & O & T). destruct (HM g0 Hg0) as (A1 & A2 & A3).
    unfold mem_apart. rewrite <- C, <- O, <- T. auto. }
  unfold asks_for, is_inside. destruct (nth_error (q_all P) i) as [d|] eqn:Hd; [|tauto]. assert (Hl : (i < length js)%nat) by (rewrite <- L; apply nth_error_Some; congruence).
  destruct (nth_error js i) as [j|] eqn:Hj; [|apply nth_error_None in Hj; lia]. pose proof (N i d j Hd Hj) as X. pose proof (HJs j (nth_error_In _ _ Hj)) as A.
  destruct d as [b vs calm|b k st vs calm|b|s nk k st], j as [b0 roots|v0]; try contradiction; try tauto; cbn [now_one job_apart] in X, A.
  - destruct X as (pre & v & h0 & b1 & h & E & _ & HP & _). assert (Av : apart shard v) by (apply A; rewrite E; apply in_or_app; right; now left).
    pose proof (xsep_passes HM' HP (xbegin_sep h0 b1 Av)) as D. split.
    + intros H. apply (needs_shard D). unfold needs. cbn [xk_control xk_stack]. destruct k as [p| |]; try contradiction. destruct p; try contradiction; exact H.
    + intros [H|[[=] _]]. exact (inside_no_shard D H).
  - destruct X as (h0 & h & _ & HP & _). pose proof (zsep_passes HM' HP (zbegin_sep h0 A)) as D. split.
    + intros H. apply (needs_shard D), zneeds_y. unfold zneeds. cbn [z_control z_stack]. destruct k as [p|]; try contradiction. destruct p; try contradiction; exact H.
    + intros [H|[[=] _]]. apply (inside_no_shard D (l := l) (a := Exclusive)). apply zinside_y. exact H.
Qed.

(** ** C66: sessions and calls never wait for each other: each is over, or can go on, or
    waits for the read lock of a shard that code which is none of them has exclusively. *)
Theorem C66_waits_for_others : forall (shard : lock -> Prop) (M : xmemory -> Prop) m std g js P i,
  (forall g, M g -> mem_apart shard g) -> (forall j, In j js -> job_apart shard j) ->
  (forall l, lock_ok (locks (x_shared g) l)) -> all_idle (length js) (x_shared g) -> xjoint M m std (xpool_start g js) P ->
  (i < length js)%nat -> (forall j, ~ is_gone P j) ->
  is_over P i \/ (exists P', xturn m std i P P') \/
  (exists l t, asks_for P i l /\ shard l /\ (length js <= t)%nat /\ In (Other t, Exclusive) (held (locks (x_shared (q_mem P)) l))).
Proof.
  intros shard M m std g js P i HM HJs Hk Hi HJ Hl HG.
  destruct (C66_waits Hk Hi HJ Hl HG) as [H|[H|(l & t & Ha & Hh & Ht)]]; [now left | right; now left | right; right].
  pose proof (proj1 (@participant_apart shard M m std g js P i l HM HJs Hk Hi HJ) Ha) as X. exists l, t. split; [exact Ha|]. split; [exact X|].
  destruct Ht as [Ht|Ht]; [now split|]. elim (proj2 (@participant_apart shard M m std g js P t l HM HJs Hk Hi HJ) Ht X).
Qed.
Print Assumptions C66_waits_for_others.

(** ** C66: so there is no deadlock among them: as long as other code has no lock
    exclusively, every session and every call that is not over can go on. *)
Theorem C66_no_deadlock : forall (shard : lock -> Prop) (M : xmemory -> Prop) m std g js P,
  (forall g, M g -> mem_apart shard g) -> (forall j, In j js -> job_apart shard j) ->
  (forall l, lock_ok (locks (x_shared g) l)) -> all_idle (length js) (x_shared g) -> xjoint M m std (xpool_start g js) P ->
  (forall j, ~ is_gone P j) ->
  (forall l t, In (Other t, Exclusive) (held (locks (x_shared (q_mem P)) l)) -> (t < length js)%nat) ->
  forall i, (i < length js)%nat -> is_over P i \/ exists P', xturn m std i P P'.
Proof.
  intros shard M m std g js P HM HJs Hk Hi HJ HG HO i Hl.
  destruct (@C66_waits_for_others shard M m std g js P i HM HJs Hk Hi HJ Hl HG) as [H|[H|(l & t & _ & _ & Ht & Hh)]]; [now left | now right | apply HO in Hh; lia].
Qed.
Print Assumptions C66_no_deadlock.

(** ** C66: they end if other code lets them: if the memory is finite and its contents are
    no longer changed (locks and reference counts may be), the sessions and calls together
    cannot take turns for ever. *)
Theorem C66_ends : forall m std P, xfinite (q_mem P) -> Acc (fun P' P => unchanged_turn m std P P') P.
Proof. intros m std P. apply pool_ends. Qed.
Print Assumptions C66_ends.

Lemma gone_dec P : (exists j, is_gone P j) \/ forall j, ~ is_gone P j.
Proof.
  assert (X : forall n, (exists j, is_gone P j) \/ forall j, (j < n)%nat -> ~ is_gone P j).
  { induction n as [|n [H|H]]; [right; lia | now left |].
    assert (D : is_gone P n \/ ~ is_gone P n) by (unfold is_gone; destruct (nth_error (q_all P) n) as [[|? [] | |]|]; tauto).
    destruct D as [D|D]; [left; eauto | right]. intros j Hj. destruct (Nat.eq_dec j n) as [->|]; [exact D | apply H; lia]. }
  destruct (X (length (q_all P))) as [H|H]; [now left | right]. intros j. destruct (Nat.lt_ge_cases j (length (q_all P))) as [L|L]; [now apply H|].
  unfold is_gone. apply nth_error_None in L. rewrite L. tauto.
Qed.

(** ** C66: if from some moment on other code has no lock exclusively and does nothing,
    then however the participants take turns they come to an end, and that is when all
    are over (or the process was aborted). *)
Theorem C66_all_over : forall (shard : lock -> Prop) (M : xmemory -> Prop) m std g js P,
  (forall g, M g -> mem_apart shard g) -> (forall j, In j js -> job_apart shard j) ->
  (forall l, lock_ok (locks (x_shared g) l)) -> all_idle (length js) (x_shared g) -> xjoint M m std (xpool_start g js) P ->
  (forall l t, In (Other t, Exclusive) (held (locks (x_shared (q_mem P)) l)) -> (t < length js)%nat) ->
  (forall P', only_turns m std P P' -> (forall i P'', ~ xturn m std i P' P'') -> (exists j, is_gone P' j) \/ forall i, (i < length js)%nat -> is_over P' i) /\
  (xfinite (q_mem P) -> exists P', only_turns m std P P' /\ ((exists j, is_gone P' j) \/ forall i, (i < length js)%nat -> is_over P' i)).
Proof.
  intros shard M m std g js P HM HJs Hk Hi HJ HO. apply (joint_more (M' := mem_apart shard) HM) in HJ. pose proof (@start_steady g js Hk Hi) as S0.
  assert (Good : forall P P', xjoint (mem_apart shard) m std (xpool_start g js) P -> (forall l t, In (Other t, Exclusive) (held (locks (x_shared (q_mem P)) l)) -> (t < length js)%nat) ->
    forall i, xturn m std i P P' -> xjoint (mem_apart shard) m std (xpool_start g js) P' /\ (forall l t, In (Other t, Exclusive) (held (locks (x_shared (q_mem P')) l)) -> (t < length js)%nat)).
  { clear P HJ HO. intros P P' HJ HO i HT. split.
    - apply (joint_turn HJ HT). destruct (turn_contents HT) as (E1 & E2 & E3). destruct (joint_there HJ) as (A1 & A2 & A3). unfold mem_apart. rewrite <- E1, <- E2, <- E3. auto.
    - intros l t Hin. destruct (Nat.eq_dec t i) as [->|Hti].
      + pose proof (turn_index HT) as L. rewrite (joint_all HJ) in L. cbn [xpool_start q_all] in L. now rewrite map_length in L.
      + apply (HO l t). exact (turn_others HT (joint_steady HJ S0) Hti Hin). }
  assert (D : forall P, xjoint (mem_apart shard) m std (xpool_start g js) P -> (forall l t, In (Other t, Exclusive) (held (locks (x_shared (q_mem P)) l)) -> (t < length js)%nat) ->
    (exists j, is_gone P j) \/ (forall i, (i < length js)%nat -> is_over P i) \/ exists i P', xturn m std i P P').
  { clear P HJ HO. intros P HJ HO. destruct (gone_dec P) as [G|G]; [now left | right].
    pose proof (@C66_no_deadlock shard (mem_apart shard) m std g js P ltac:(auto) HJs Hk Hi HJ G HO) as X. clear - X. induction (length js) as [|n IH]; [left; lia|].
    destruct IH as [IH|IH]; [intros i Hl; apply X; lia | | now right]. destruct (X n ltac:(lia)) as [Hn|(P' & HT)]; [left | right; eauto].
    intros i Hl. destruct (Nat.eq_dec i n) as [->|]; [exact Hn | apply IH; lia]. }
  split.
  - intros P' HT. induction HT as [P|i P P' P'' H _ IH]; intros HN.
    + destruct (D P HJ HO) as [G|[A|(i & P' & HT)]]; [now left | now right | elim (HN i P' HT)].
    + destruct (Good _ _ HJ HO i H) as [HJ' HO']. now apply IH.
  - intros Hf. pose proof (pool_ends m std (P := P) Hf) as A. clear Hf. induction A as [P _ IH].
    destruct (D P HJ HO) as [G|[A|(i & P' & HT)]]; [exists P; split; [constructor | now left] | exists P; split; [constructor | now right] |].
    destruct (Good _ _ HJ HO i HT) as [HJ' HO']. destruct (IH P') as (P'' & H1 & H2); [|exact HJ' | exact HO'|].
    + exists (x_shared (q_mem P)), i. destruct P as [g1 all]. cbn [q_mem q_all]. destruct g1. exact HT.
    + exists P''. split; [eapply ot_turn; eauto | exact H2].
Qed.
Print Assumptions C66_all_over.

(** ** The hypotheses can be met: locks 1 and 2 are those of the shards, 7 is that of a
    mutex. *)
Definition shard12 (l : lock) : Prop := l = 1 \/ l = 2.
Definition apart_jobs : list job := [Session b_default [zmutex; zmap]; SizeOf zmap].
Lemma apart_zmap : apart shard12 zmap.
Proof. constructor. intros l [<-|[<-|[]]]; [now left | now right]. Qed.
Lemma apart_mutex : apart shard12 zmutex.
Proof. constructor. intros [H|H]; discriminate. Qed.
Lemma apart_key : apart shard12 xkey.
Proof. constructor. intros c []. Qed.
Lemma replace_apart g : replace_memory g -> mem_apart shard12 g.
Proof.
  intros (H1 & H2 & H3 & H4). split; [|split].
  - intros l. rewrite H1. apply apart_key.
  - intros x i v. rewrite H4. discriminate.
  - assert (V : forall n, apart shard12 (zvec n)) by (intros n; constructor; intros c []).
    intros l e w He Hw. destruct (N.eq_dec l 1) as [->|Hl]; [|rewrite H2 in He by exact Hl; destruct He].
    destruct H3 as [E|E]; rewrite E in He; destruct He as [<-|[]]; destruct Hw as [->| ->]; first [apply apart_key | apply V].
Qed.
Lemma map_apart g : map_memory g -> mem_apart shard12 g.
Proof.
  intros (H1 & H2 & H3). assert (A : apart shard12 xarc) by (constructor; intros c []). split; [|split].
  - intros l. now rewrite H1.
  - intros x i v. rewrite H3. destruct (N.eqb x 5); [|discriminate]. intros [= <- <-]. constructor. intros c [].
  - intros l e w He Hw. destruct (H2 l) as [E|E]; rewrite E in He; [|destruct He]. destruct He as [<-|[]]. destruct Hw as [->| ->]; [apply apart_key | exact A].
Qed.

(** The session has the mutex, the call is at the first shard, nobody waits. *)
Lemma nobody_waits_run : exists P, let m := Debug in let std := fun _ : lock => true in
  xjoint replace_memory m std (xpool_start zstart apart_jobs) P /\
  is_inside P 0 7 Exclusive /\ is_inside P 1 1 ReadOnly /\ (forall j, ~ is_gone P j) /\
  (forall l t, In (Other t, Exclusive) (held (locks (x_shared (q_mem P)) l)) -> (t < length apart_jobs)%nat) /\ xfinite (q_mem P).
Proof.
  eexists. cbv zeta. split; [|split; [|split; [|split; [|split]]]].
  - unfold xpool_start, apart_jobs. cbn [map job_start]. pto_first 0%nat (YGuard 7). pto_first 1%nat (ZShard IsMap 1). apply xj_end. pmem.
  - left. eexists. cbn. left. reflexivity.
  - right. split; [reflexivity|]. do 3 eexists. cbn. left. reflexivity.
  - intros [|[|j]]; cbn; auto. destruct j; cbn; auto.
  - intros l t H. cbn in H. repeat (match type of H with context [N.eqb ?a ?b] => destruct (N.eqb a b) end; cbn in H);
      repeat (destruct H as [H|H]; [try discriminate; injection H as <-; cbn; lia|]); destruct H.
  - split; [exists []; intros x Hx; elim Hx; reflexivity|]. exists (fun _ => 0%nat). split; [intros l l' []|].
    intros l l' e w He Hw Hl. cbn in He. destruct (N.eqb l 1); cbn in He; [|contradiction]. destruct He as [<-|[]]. destruct Hw as [->| ->]; destruct Hl.
Qed.

(** The call is at the second shard when another thread takes the first one, for which the
    session now waits. *)
Lemma one_waits_run : exists P, let m := Debug in let std := fun _ : lock => true in
  xjoint replace_memory m std (xpool_start zstart two_jobs) P /\ (0 < length two_jobs)%nat /\ (forall j, ~ is_gone P j) /\ asks_for P 0 1 /\
  In (Other 2, Exclusive) (held (locks (x_shared (q_mem P)) 1)).
Proof.
  eexists. cbv zeta. split; [|split; [|split; [|split]]].
  - unfold xpool_start, two_jobs. cbn [map job_start]. pto_second. pto_sum.
    pother; [apply xo_shared, (@out_acquire _ _ 1 2%nat Exclusive); [cbn; lia | vm_compute; reflexivity]|]. apply xj_end. pmem.
  - cbn. lia.
  - intros [|[|j]]; cbn; auto. destruct j; cbn; auto.
  - reflexivity.
  - vm_compute. now left.
Qed.

Theorem C66_apart_satisfiable : let m := Debug in let std := fun _ : lock => true in
  (forall g, replace_memory g -> mem_apart shard12 g) /\ (forall g, map_memory g -> mem_apart shard12 g) /\
  (forall j, In j two_jobs \/ In j three_jobs \/ In j apart_jobs -> job_apart shard12 j) /\
  (* a visit that waits for another thread *)
  (exists c, apart shard12 xmap /\ xpasses map_memory m std (xbegin map_start (set_entered b_default true) xmap) c /\ needs c 1 /\
     held (locks (x_shared (xk_mem c)) 1) = [(Other 3, Exclusive)]) /\
  (* so does a call *)
  (exists c, zpasses replace_memory m std (zbegin zstart zmap) c /\ zneeds c 1 /\ held (locks (x_shared (z_mem c)) 1) = [(Other 3, Exclusive)]) /\
  (* a session that waits for another thread, next to a call that does not *)
  (exists P, xjoint replace_memory m std (xpool_start zstart two_jobs) P /\ (0 < length two_jobs)%nat /\ (forall j, ~ is_gone P j) /\ asks_for P 0 1 /\
     In (Other 2, Exclusive) (held (locks (x_shared (q_mem P)) 1))) /\
  (* both go on, though one has a mutex and the other a shard *)
  (exists P, xjoint replace_memory m std (xpool_start zstart apart_jobs) P /\ is_inside P 0 7 Exclusive /\ is_inside P 1 1 ReadOnly /\ (forall j, ~ is_gone P j) /\
     (forall l t, In (Other t, Exclusive) (held (locks (x_shared (q_mem P)) l)) -> (t < length apart_jobs)%nat) /\ xfinite (q_mem P)).
Proof.
  cbv zeta. split; [exact replace_apart|]. split; [exact map_apart|]. split; [|split; [|split; [|split]]].
  - assert (Z : forall v, v = zmap \/ v = zmutex -> apart shard12 v) by (intros v [->| ->]; [apply apart_zmap | apply apart_mutex]).
    intros j H. cbn in H. repeat (destruct H as [H|H]; try contradiction; try (subst j; cbn; try (intros v Hv; cbn in Hv; apply Z; intuition); try (apply Z; auto); fail)).
  - destruct C64_satisfiable as (_ & _ & _ & _ & _ & _ & (c & H1 & H2 & H3)). exists c. split; [constructor; intros l [<-|[<-|[]]]; [now left | now right]|]. auto.
  - exact zwaiting_run.
  - exact one_waits_run.
  - exact nobody_waits_run.
Qed.
Print Assumptions C66_apart_satisfiable.
