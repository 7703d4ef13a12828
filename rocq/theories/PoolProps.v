(** * Proofs for C54. *)
From Coq Require Import Lia.
From Verif Require Import Base BaseFacts KeyModel HMap FlameModel BuilderModel VisitorModel ImplModel LockModel LockSpec LockFacts PoolModel PoolSpec PoolFacts.

Lemma joint_length m std o n P P' : joint m std o n P P' -> length (p_visits P') = length (p_visits P).
Proof.
  induction 1 as [P|n i P P' P'' H _ IH|n s s' vs P'' Ho H _ IH]; [reflexivity | rewrite IH | exact IH].
  destruct H. cbn. apply upd_len.
Qed.

(** ** Per visit *)
Lemma gone_empty_runs m std n c c' : runs m std n c c' -> (c_control c = Gone -> c_stack c = []) -> c_control c' = Gone -> c_stack c' = [].
Proof.
  induction 1 as [c|n c c' c'' H _ IH|n s s' b k st c'' H _ IH]; intros H0; [exact H0 | | exact (IH H0)].
  apply IH. destruct H; cbn; auto; discriminate.
Qed.

Definition part (l : lock) (p q : lprog) : Prop :=
  (waits_for l q -> waits_for l p) /\ (takes_exclusively l q -> takes_exclusively l p).
Definition from (l : lock) (p : lprog) (c : config) : Prop :=
  (match c_control c with Exec q => part l p q | _ => True end) /\
  Forall (fun f => part l p (frame_rest f) /\ match f with FGuard l' Exclusive _ => l' = l -> takes_exclusively l p | _ => True end) (c_stack c).
Lemma part_nothing l p q : (~ waits_for l q) -> ~ takes_exclusively l q -> part l p q.
Proof. unfold part. tauto. Qed.
Lemma from_step m std l p c c' : vstep m std c c' -> from l p c -> from l p c'.
Proof.
  intros H [H1 H2]. destruct H; unfold from in *; cbn [c_control c_stack] in *;
    try (inversion H2 as [|? ? [H3 H4] H5]; subst); cbn [frame_rest] in *; unfold part in *;
    cbn [waits_for takes_exclusively] in *;
    repeat (split || constructor); cbn [frame_rest]; auto; try tauto.
  all: destruct a; [intros ->; tauto | exact I].
Qed.
Lemma from_runs m std n l p c c' : runs m std n c c' -> from l p c -> from l p c'.
Proof.
  induction 1 as [c|n c c' c'' H _ IH|n s s' b k st c'' H _ IH]; intros F; [exact F | apply IH; eapply from_step; eauto | apply IH; exact F].
Qed.
Lemma from_start l s b p : from l p (start s b p).
Proof. split; [split; auto | constructor]. Qed.

Definition no_visit (s : shared) : Prop := (forall l a, ~ In (Visit, a) (held (locks s l))) /\ (forall x, ~ In Visit (strong s x)).
Lemma no_visit_same s t : same s t -> no_visit s -> no_visit t.
Proof. intros [E1 E2] [H1 H2]. split; intros; rewrite <- ?E1, <- ?E2; auto. Qed.
Lemma no_visit_acquire s l t a : no_visit s -> no_visit (acquire s l (Other t) a).
Proof. intros [H1 H2]. split; [|exact H2]. intros l' a'. cbn. destruct (N.eqb l' l); [intros [E|H]; [discriminate | eapply H1; eauto] | apply H1]. Qed.
Lemma no_visit_release s l t a p : no_visit s -> no_visit (release s l t a p).
Proof. intros [H1 H2]. split; [|exact H2]. intros l' a'. cbn. destruct (N.eqb l' l); [intros H; apply remove_one_sub in H; eapply H1; eauto | apply H1]. Qed.
Lemma no_visit_clone s x t : no_visit s -> no_visit (set_strong s x (Other t :: strong s x)).
Proof. intros [H1 H2]. split; [exact H1|]. intros y. cbn. destruct (N.eqb y x); [intros [E|H]; [discriminate | eapply H2; eauto] | apply H2]. Qed.
Lemma no_visit_drop s x t : no_visit s -> no_visit (set_strong s x (remove_one owner_eqb t (strong s x))).
Proof. intros [H1 H2]. split; [exact H1|]. intros y. cbn. destruct (N.eqb y x); [intros H; apply remove_one_sub in H; eapply H2; eauto | apply H2]. Qed.
Lemma turn_no_visit m std i P P' : turn m std i P P' -> no_visit (p_shared P) -> no_visit (p_shared P').
Proof.
  intros [s vs v s1 b k st s' Hv H Hs] HN. cbn [p_shared] in *.
  destruct (turn_effect H Hs) as [E|[(l & a & E & Ha)|[(l & a & p & rest & st0 & E & _)|[(x & E & Hx)|(x & rest & st0 & E & _)]]]];
    (eapply no_visit_same; [apply same_sym, E|]); auto using no_visit_acquire, no_visit_release, no_visit_clone, no_visit_drop.
Qed.
Lemma outside_no_visit k s s' : outside k s s' -> no_visit s -> no_visit s'.
Proof.
  intros H HN. destruct H; auto using no_visit_acquire, no_visit_release, no_visit_clone, no_visit_drop.
  destruct HN as [H1 H2]. split; [|exact H2]. intros l' a'. cbn. destruct (N.eqb_spec l' l) as [->|]; apply H1.
Qed.

Section Reached.
  Variables (m : mode) (std : lock -> bool) (o : bool) (n : nat) (s0 : shared) (bps : list (builder * lprog)) (P : pool).
  Hypothesis (Hk : forall l, lock_ok (locks s0 l)) (Hi : all_idle (length bps) s0) (HJ : joint m std o n (pool_start s0 bps) P).

  Lemma reached_length : length (p_visits P) = length bps.
  Proof. rewrite (joint_length HJ). cbn. apply map_length. Qed.
  Lemma reached_prog i v : nth_error (p_visits P) i = Some v -> exists b p, nth_error bps i = Some (b, p).
  Proof.
    intros H. assert (L : (i < length bps)%nat) by (rewrite <- reached_length; apply nth_error_Some; congruence).
    apply nth_error_Some in L. destruct (nth_error bps i) as [[b p]|]; [eauto | congruence].
  Qed.
  Lemma reached_sound : sound_pool P.
  Proof. eapply joint_sound; [exact HJ | now apply start_pool_sound]. Qed.
  Lemma reached_from i v b p l : nth_error (p_visits P) i = Some v -> nth_error bps i = Some (b, p) ->
    (match v_control v with Exec q => part l p q | _ => True end) /\
    (forall rest, In (FGuard l Exclusive rest) (v_stack v) -> takes_exclusively l p) /\
    (v_control v = Gone -> v_stack v = []).
  Proof.
    intros Hv Hb. destruct (C54_each_lemma Hk Hi HJ Hb) as (n' & c & HR & w & Hw & _ & E1 & E2 & _).
    rewrite Hv in Hw. inversion Hw; subst w. rewrite <- E1, <- E2.
    destruct (from_runs HR (from_start l (view i s0) b p)) as [F1 F2]. split; [exact F1|]. split.
    - intros rest Hin. rewrite Forall_forall in F2. destruct (F2 _ Hin) as [_ F]. now apply F.
    - apply (gone_empty_runs HR). cbn. discriminate.
  Qed.

  (** A guard in the state belongs to an open block, and the other way round. *)
  Lemma open_held i l a : opens P i l a -> In (Other i, a) (held (locks (p_shared P) l)).
  Proof.
    intros (v & rest & Hv & Hin). destruct (reached_prog Hv) as (b & p & Hb).
    assert (HG : v_control v <> Gone).
    { intros E. destruct (reached_from l Hv Hb) as (_ & _ & X). rewrite (X E) in Hin. destruct Hin. }
    pose proof (reached_sound Hv HG) as C. pose proof (co_guards C l a) as G. cbn [conf_at c_shared c_stack] in G.
    assert (X : In (Visit, a) (held (locks (view i (p_shared P)) l))).
    { apply guards_in. rewrite G. eapply inside_guards; eauto. }
    apply view_in_held in X. exact X.
  Qed.
  Lemma held_open i v l a : nth_error (p_visits P) i = Some v -> v_control v <> Gone ->
    In (Other i, a) (held (locks (p_shared P) l)) -> opens P i l a.
  Proof.
    intros Hv HG Hin. pose proof (reached_sound Hv HG) as C. pose proof (co_guards C l a) as G. cbn [conf_at c_shared c_stack] in G.
    assert (X : In (Visit, a) (held (locks (view i (p_shared P)) l))) by (apply view_in_held; exact Hin).
    apply in_guards in X. rewrite G in X. unfold open_guards in X.
    destruct (filter (frame_guard l a) (v_stack v)) as [|f r] eqn:E; [cbn in X; lia|].
    assert (Y : In f (filter (frame_guard l a) (v_stack v))) by (rewrite E; now left).
    apply filter_In in Y as [Y1 Y2]. destruct f as [|l' a' rest|]; cbn in Y2; try discriminate.
    apply andb_prop in Y2 as [Y2 Y3]. apply N.eqb_eq in Y2. subst l'.
    assert (a' = a) by (destruct a', a; cbn in Y3; congruence). subst a'. exists v, rest. auto.
  Qed.

  Lemma C54_exclusive_lemma i l : opens P i l Exclusive ->
    held (locks (p_shared P) l) = [(Other i, Exclusive)] /\ forall j a, opens P j l a -> j = i.
  Proof.
    intros H. pose proof (open_held H) as Hh.
    assert (E : held (locks (p_shared P) l) = [(Other i, Exclusive)]).
    { destruct H as (v & rest & Hv & Hin). destruct (reached_prog Hv) as (b & p & Hb).
      assert (HG : v_control v <> Gone).
      { intros E. destruct (reached_from l Hv Hb) as (_ & _ & X). rewrite (X E) in Hin. destruct Hin. }
      pose proof (@co_ok _ _ (reached_sound Hv HG) l) as K. cbn [conf_at c_shared] in K.
      assert (X : In (Visit, Exclusive) (held (locks (view i (p_shared P)) l))) by (apply view_in_held; exact Hh).
      specialize (K Visit X). cbn in K. destruct (held (locks (p_shared P) l)) as [|[o1 a1] [|x r]]; try discriminate.
      cbn in K. injection K as K1 K2. subst a1. f_equal. f_equal. rewrite <- (seat_seat i o1), K1. reflexivity. }
    split; [exact E|]. intros j a Hj. apply open_held in Hj. rewrite E in Hj. destruct Hj as [Hj|[]]. congruence.
  Qed.

  Lemma turn_exists i v c' : nth_error (p_visits P) i = Some v -> vstep m std (conf_at (p_shared P) i v) c' ->
    exists P', turn m std i P P'.
  Proof.
    destruct P as [s vs]. destruct c' as [s1 b k st]. cbn [p_visits p_shared]. intros Hv H. eexists.
    eapply turn_visit with (s' := view i s1); [exact Hv | exact H | apply view_view].
  Qed.

  Lemma reached_no_visit : (forall l a, ~ In (Visit, a) (held (locks (p_shared P) l))) /\ (forall x, ~ In Visit (strong (p_shared P) x)).
  Proof.
    assert (X : forall P P', joint m std o n P P' -> no_visit (p_shared P) -> no_visit (p_shared P')).
    { clear. induction 1 as [P|n i P P' P'' H _ IH|n s s' vs P'' Ho H _ IH]; intros N; [exact N | apply IH; eapply turn_no_visit; eauto | apply IH; eapply outside_no_visit; eauto]. }
    apply (X _ _ HJ). destruct Hi as (_ & _ & H3 & H4). split; auto.
  Qed.

  Lemma C54_waits_lemma i : shards_are_read (map snd bps) -> (i < length bps)%nat ->
    (exists res, finished P i res) \/ (exists P', turn m std i P P') \/
    (exists l t, waits P i l /\ (length bps <= t)%nat /\ In (Other t, Exclusive) (held (locks (p_shared P) l))) \/
    process_gone P.
  Proof.
    intros Hs Hlt. assert (L : (i < length (p_visits P))%nat) by now rewrite reached_length.
    apply nth_error_Some in L. destruct (nth_error (p_visits P) i) as [v|] eqn:Hv; [clear L | congruence].
    destruct (@C49_waits_only_for_shards_lemma m std (conf_at (p_shared P) i v)) as [H|[(c' & H)|(l & a & body & rest & Ec & Ha)]].
    - left. exists (result_of (conf_at (p_shared P) i v)), (conf_at (p_shared P) i v). split; [|auto].
      exists v. cbn. repeat split; auto.
    - right; left. eapply turn_exists; eauto.
    - right; right. destruct (reached_prog Hv) as (b & p & Hb). destruct (reached_from l Hv Hb) as (F1 & _).
      cbn [conf_at c_control c_shared] in *. rewrite Ec in F1. destruct F1 as [F1 F2]. cbn [waits_for takes_exclusively] in F1, F2.
      assert (Inp : In p (map snd bps)) by (apply in_map_iff; exists (b, p); split; [reflexivity | eapply nth_error_In; eauto]).
      assert (W : waits_for l p) by (apply F1; now left).
      destruct a; [exfalso; eapply Hs; [exact Inp | exact Inp | exact W | apply F2; left; auto]|].
      assert (X : exists o1, In (o1, Exclusive) (held (locks (p_shared P) l))).
      { rewrite view_available in Ha. clear -Ha. cbn in Ha. induction (held (locks (p_shared P) l)) as [|[o1 a1] h IH].
        - exfalso. apply Ha. intros o1 [].
        - destruct a1; [exists o1; now left|]. destruct IH as (o2 & H2); [|exists o2; now right].
          intros H. apply Ha. intros o2 [E|H2]; [discriminate | eapply H; eauto]. }
      destruct X as ([|t] & Hh); [exfalso; eapply (proj1 reached_no_visit), Hh|].
      destruct (Nat.lt_ge_cases t (length bps)) as [Ht|Ht]; [|left; exists l, t; split; [exists v, ReadOnly, body, rest|]; auto].
      assert (Lt : (t < length (p_visits P))%nat) by now rewrite reached_length.
      apply nth_error_Some in Lt. destruct (nth_error (p_visits P) t) as [w|] eqn:Hw; [clear Lt | congruence].
      destruct (v_control w) as [q| |] eqn:Eg; try (right; exists t, w; auto; fail).
      all: exfalso; destruct (@held_open t w l Exclusive Hw) as (w' & rest' & Hw' & Hin); [congruence | exact Hh |];
        rewrite Hw in Hw'; inversion Hw'; subst w'; destruct (reached_prog Hw) as (b' & p' & Hb');
        destruct (reached_from l Hw Hb') as (_ & F3 & _); eapply Hs; [exact Inp | | exact W | eapply F3; exact Hin];
        apply in_map_iff; exists (b', p'); split; [reflexivity | eapply nth_error_In; eauto].
  Qed.

  Lemma C54_released_lemma i res : finished P i res -> snd res <> Aborted ->
    (forall l a, ~ In (Other i, a) (held (locks (p_shared P) l))) /\ (forall x, ~ In (Other i) (strong (p_shared P) x)).
  Proof.
    intros (c0 & HS0 & Ho & <-) Hr. pose proof HS0 as (v & Hv & _). destruct (reached_prog Hv) as (b & p & Hb).
    destruct (C54_each_lemma Hk Hi HJ Hb) as (n' & c & HR & HS). destruct (over_same HS0 HS Ho) as [Ho' Er].
    assert (HG : c_control c <> Gone) by (intros E; apply Hr; rewrite <- Er; unfold result_of; rewrite E; reflexivity).
    assert (Lt : (i < length bps)%nat) by (apply nth_error_Some; congruence).
    destruct (C49_released_lemma (fun l => @view_lock_ok i s0 l (@Hk l)) (view_idle Hi Lt) HR Ho' HG) as [R1 R2].
    destruct HS as (w & _ & _ & _ & _ & [E1 E2]). split.
    - intros l a Hin. apply (R1 l a). rewrite E1. apply view_in_held. exact Hin.
    - intros x Hin. apply (R2 x). rewrite E2. apply view_in_strong. exact Hin.
  Qed.
End Reached.

(** ** Steps *)
Definition nowhere : shared := mkShared (fun _ => mkLock [] false) (fun _ => []).
Definition vis_steps (v : visiting) : nat := conf_steps (mkConf nowhere (v_builder v) (v_control v) (v_stack v)).
Definition pool_steps (vs : list visiting) : nat := list_sum (map vis_steps vs).
Lemma pool_steps_upd vs i v w : nth_error vs i = Some v -> (vis_steps w < vis_steps v)%nat -> (pool_steps (upd vs i w) < pool_steps vs)%nat.
Proof.
  unfold pool_steps. revert i. induction vs as [|x vs IH]; intros [|i] H Hlt; cbn in *; try discriminate.
  - inversion H; subst. lia.
  - specialize (IH i H Hlt). unfold list_sum in IH. lia.
Qed.
Lemma joint_steps m std o n P P' : joint m std o n P P' -> (n + pool_steps (p_visits P') <= pool_steps (p_visits P))%nat.
Proof.
  induction 1 as [P|n i P P' P'' H _ IH|n s s' vs P'' Ho H _ IH]; [lia | | exact IH].
  destruct H as [s vs v s1 b k st s' Hv H Hs]. cbn [p_visits] in *. apply vstep_steps in H.
  assert (X : (vis_steps (mkVis b k st) < vis_steps v)%nat) by exact H.
  pose proof (pool_steps_upd Hv X). lia.
Qed.
Lemma C54_ends_lemma : forall m std o n s bps P, joint m std o n (pool_start s bps) P -> (n <= list_sum (map (fun bp => steps (snd bp)) bps))%nat.
Proof.
  intros m std o n s bps P H. apply joint_steps in H. cbn [pool_start p_visits] in H.
  assert (E : pool_steps (map (fun bp => mkVis (fst bp) (Exec (snd bp)) []) bps) = list_sum (map (fun bp => steps (snd bp)) bps)).
  { clear. unfold pool_steps. rewrite map_map. f_equal. apply map_ext. intros [b p]. unfold vis_steps, conf_steps. cbn. lia. }
  lia.
Qed.

(** ** Nobody but the visits *)
Definition only_pool (n : nat) (s : shared) : Prop := forall l t a, In (t, a) (held (locks s l)) -> exists i, (i < n)%nat /\ t = Other i.

Lemma turn_only m std i P P' : turn m std i P P' -> only_pool (length (p_visits P)) (p_shared P) -> only_pool (length (p_visits P')) (p_shared P').
Proof.
  intros [s vs v s1 b k st s' Hv H Hs] HO. cbn [p_visits p_shared] in *. rewrite upd_len.
  assert (Hi : (i < length vs)%nat) by (apply nth_error_Some; congruence).
  destruct (turn_effect H Hs) as [[E _]|[(l & a & [E _] & Ha)|[(l & a & p & rest & st0 & [E _] & _)|[(x & [E _] & Hx)|(x & rest & st0 & [E _] & _)]]]];
    intros l' t a' Hin; rewrite E in Hin; cbn in Hin; try (eapply HO; exact Hin).
  - destruct (N.eqb l' l) eqn:Q; [|eapply HO; exact Hin]. destruct Hin as [X|Hin]; [inversion X; subst; eauto | eapply HO; exact Hin].
  - destruct (N.eqb l' l) eqn:Q; [|eapply HO; exact Hin]. eapply HO. eapply remove_one_sub. exact Hin.
Qed.
Lemma joint_only m std n P P' : joint m std false n P P' -> only_pool (length (p_visits P)) (p_shared P) -> only_pool (length (p_visits P')) (p_shared P').
Proof.
  intros HJ. remember false as o. induction HJ as [P|n i P P' P'' H _ IH|n s s' vs P'' Ho H _ IH]; intros HO; [exact HO | apply IH; auto; eapply turn_only; eauto | congruence].
Qed.

Lemma turn_panicked m std i P P' j : turn m std i P P' -> panicked P j -> panicked P' j.
Proof.
  intros [s vs v s1 b k st s' Hv H Hs] (w & Hw & Hc). cbn [p_visits] in *. destruct (Nat.eq_dec i j) as [->|Hij].
  - rewrite Hv in Hw. inversion Hw; subst w. exists (mkVis b k st). split; [cbn; now apply (nth_upd_eq _ Hv)|]. cbn.
    destruct v as [b0 k0 st0]. cbn in *. destruct Hc as [->| ->]; inversion H; subst; auto.
  - exists w. cbn. rewrite nth_upd_ne by exact Hij. auto.
Qed.
Lemma turn_poison m std i P P' l : turn m std i P P' -> poisoned (locks (p_shared P') l) = true ->
  poisoned (locks (p_shared P) l) = true \/ panicked P i.
Proof.
  intros [s vs v s1 b k st s' Hv H Hs] Hp. cbn [p_shared] in *.
  destruct (poisoned (locks s l)) eqn:E; [now left | right].
  destruct (C49_others_undisturbed_lemma H) as (_ & _ & X). cbn [c_shared c_control] in X.
  destruct (X l) as (_ & Y & _).
  - rewrite <- (proj1 Hs l). cbn. rewrite Hp, E. discriminate.
  - exists v. cbn. auto.
Qed.
Lemma joint_poison m std n P P' l : joint m std false n P P' -> poisoned (locks (p_shared P') l) = true ->
  poisoned (locks (p_shared P) l) = true \/ exists j, panicked P' j.
Proof.
  intros HJ. remember false as o.
  assert (K : forall j, panicked P j -> panicked P' j).
  { clear l. induction HJ as [P|n i P P' P'' H _ IH|n s s' vs P'' Ho H _ IH]; intros j Hj; [exact Hj | apply IH; auto; eapply turn_panicked; eauto | congruence]. }
  revert K. induction HJ as [P|n i P P' P'' H HJ IH|n s s' vs P'' Ho H _ IH]; intros K Hp; [now left | | congruence].
  assert (K' : forall j, panicked P' j -> panicked P'' j).
  { clear -HJ Heqo. induction HJ as [P|n i P P' P'' H _ IH|n s s' vs P'' Ho H _ IH]; intros j Hj; [exact Hj | apply IH; auto; eapply turn_panicked; eauto | congruence]. }
  destruct (IH K' Hp) as [X|X]; [|now right]. destruct (turn_poison H X) as [Y|Y]; [now left | right; exists i; auto].
Qed.

Lemma C54_opened_lemma : forall m std n s bps P i P' l,
  (forall l, held (locks s l) = []) -> all_idle (length bps) s -> joint m std false n (pool_start s bps) P ->
  tries P i l -> turn m std i P P' ->
  (exists j a, opens P' j l a) \/ poisoned (locks s l) = true \/ exists j, panicked P j.
Proof.
  intros m std n s bps P i P' l Hf Hi HJ (v & a & body & rest & Hv & Ev) HT.
  assert (Hk : forall l, lock_ok (locks s l)) by (intros l' o' H; rewrite Hf in H; destruct H).
  destruct HT as [s1 vs w s2 b k st s' Hw H Hs]. cbn [p_visits] in Hv. rewrite Hv in Hw. inversion Hw; subst w. clear Hw.
  destruct v as [vb vc vst]. cbn [v_builder v_control v_stack] in *. subst vc. inversion H; subst.
  - left. exists i, a. exists (mkVis b (Exec body) (FGuard l a rest :: vst)), rest. split; [cbn; now apply (nth_upd_eq _ Hv) | now left].
  - match goal with Z : _ \/ _ |- _ => rename Z into HZ end. destruct HZ as [HX|HX].
    + cbn in HX. destruct (held (locks s1 l)) as [|[o1 a1] h] eqn:Eh; [now elim HX|].
      assert (O : only_pool (length vs) s1).
      { pose proof (joint_only HJ) as O. cbn [pool_start p_visits p_shared] in O. apply O. intros l' t a' Hin. rewrite Hf in Hin. destruct Hin. }
      destruct (O l o1 a1) as (j & Hj & ->); [rewrite Eh; now left|].
      apply nth_error_Some in Hj. destruct (nth_error vs j) as [w|] eqn:Hw; [clear Hj | congruence].
      destruct (v_control w) as [q| |] eqn:Eg.
      1, 2: left; exists j, a1; destruct (@held_open m std false n s bps _ Hk Hi HJ j w l a1 Hw) as (w' & r' & Hw' & Hin);
        [congruence | cbn [p_shared]; rewrite Eh; now left |];
        cbn [p_visits] in Hw'; rewrite Hw in Hw'; inversion Hw'; subst w';
        destruct (Nat.eq_dec i j) as [->|Hij];
        [rewrite Hv in Hw; inversion Hw; subst w; eexists _, r'; split; [cbn; apply (nth_upd_eq _ Hv) | exact Hin]
        | exists w, r'; split; [cbn; now rewrite nth_upd_ne | exact Hin]].
      right; right. exists j, w. cbn. auto.
    + right. cbn in HX. destruct (@joint_poison m std n _ _ l HJ HX) as [Y|Y]; [now left | now right].
Qed.

Lemma C54_never_stuck_lemma : forall m std n s bps P i,
  (forall l, held (locks s l) = []) -> all_idle (length bps) s -> joint m std false n (pool_start s bps) P ->
  shards_are_read (map snd bps) -> (i < length bps)%nat ->
  (exists res, finished P i res) \/ (exists P', turn m std i P P') \/ process_gone P.
Proof.
  intros m std n s bps P i Hf Hi HJ Hs Hlt.
  assert (Hk : forall l, lock_ok (locks s l)) by (intros l' o' H; rewrite Hf in H; destruct H).
  destruct (C54_waits_lemma Hk Hi HJ Hs Hlt) as [H|[H|[(l & t & _ & Ht & Hin)|H]]]; auto.
  exfalso. assert (O : only_pool (length (p_visits P)) (p_shared P)).
  { apply (joint_only HJ). intros l' t' a' Hin'. cbn [pool_start p_shared] in Hin'. rewrite Hf in Hin'. destruct Hin'. }
  destruct (O _ _ _ Hin) as (j & Hj & E). inversion E; subst j. rewrite (joint_length HJ) in Hj. cbn in Hj. rewrite map_length in Hj. lia.
Qed.

(** ** What the implementations wait for and take *)
Lemma waits_lseq l p : forall q, waits_for l (lseq p q) -> waits_for l p \/ waits_for l q.
Proof. induction p; intros q H; cbn in *; try tauto; intuition; repeat match goal with IH : forall q, waits_for l (lseq ?p q) -> _, X : waits_for l (lseq ?p _) |- _ => apply IH in X end; tauto. Qed.
Lemma takes_lseq l p : forall q, takes_exclusively l (lseq p q) -> takes_exclusively l p \/ takes_exclusively l q.
Proof. induction p; intros q H; cbn in *; try tauto; intuition; repeat match goal with IH : forall q, takes_exclusively l (lseq ?p q) -> _, X : takes_exclusively l (lseq ?p _) |- _ => apply IH in X end; tauto. Qed.
Lemma waits_lseqs l ps : waits_for l (lseqs ps) -> exists p, In p ps /\ waits_for l p.
Proof. induction ps as [|p ps IH]; cbn; [tauto|]. intros H. apply waits_lseq in H as [H|H]; [eauto|]. destruct (IH H) as (q & H1 & H2). eauto. Qed.
Lemma takes_lseqs l ps : takes_exclusively l (lseqs ps) -> exists p, In p ps /\ takes_exclusively l p.
Proof. induction ps as [|p ps IH]; cbn; [tauto|]. intros H. apply takes_lseq in H as [H|H]; [eauto|]. destruct (IH H) as (q & H1 & H2). eauto. Qed.

Lemma C54_takes_lemma : forall t e n cap shards l, takes_exclusively l (l_dash_map t e n cap shards) ->
  exists s kv, In s shards /\ In kv (snd s) /\ (takes_exclusively l (snd (fst kv)) \/ takes_exclusively l (snd (snd kv))).
Proof.
  assert (C : forall shards l, ~ takes_exclusively l (l_count shards)).
  { intros shards l H. apply takes_lseqs in H as (p & Hp & H). apply in_map_iff in Hp as (s & <- & _). cbn in H. intuition discriminate. }
  intros t e n cap shards l H. unfold l_dash_map in H. cbn [takes_exclusively] in H.
  destruct H as [[H|[]]|[]]. apply takes_lseq in H as [H|H]; [now apply C in H|]. cbn [takes_exclusively] in H.
  destruct H as [H|[]]. apply takes_lseq in H as [H|H].
  - apply takes_lseqs in H as (p & Hp & H). apply in_map_iff in Hp as (s & <- & Hs). cbn [takes_exclusively] in H.
    destruct H as [[_ H]|[H|[]]]; [discriminate|]. apply takes_lseqs in H as (p & Hp & H). apply in_map_iff in Hp as (kv & <- & Hkv).
    cbn [takes_exclusively] in H. exists s, kv. tauto.
  - repeat (apply takes_lseq in H as [H|H]; [now apply C in H|]). cbn in H. tauto.
Qed.
Lemma C54_waits_for_lemma : forall t e n cap shards l, waits_for l (l_dash_map t e n cap shards) ->
  exists s, In s shards /\ (fst s = l \/ exists kv, In kv (snd s) /\ (waits_for l (snd (fst kv)) \/ waits_for l (snd (snd kv)))).
Proof.
  assert (C : forall shards l, waits_for l (l_count shards) -> exists s, In s shards /\ fst s = l).
  { intros shards l H. apply waits_lseqs in H as (p & Hp & H). apply in_map_iff in Hp as (s & <- & Hs). cbn in H. exists s. tauto. }
  assert (C' : forall shards l, waits_for l (l_count shards) -> exists s : shard, In s shards /\ (fst s = l \/ exists kv, In kv (snd s) /\ (waits_for l (snd (fst kv)) \/ waits_for l (snd (snd kv))))).
  { intros shards l H. destruct (C _ _ H) as (s & H1 & H2). eauto. }
  intros t e n cap shards l H. unfold l_dash_map in H. cbn [waits_for] in H.
  destruct H as [[H|[]]|[]]. apply waits_lseq in H as [H|H]; [now apply C' in H|]. cbn [waits_for] in H.
  destruct H as [H|[]]. apply waits_lseq in H as [H|H].
  - apply waits_lseqs in H as (p & Hp & H). apply in_map_iff in Hp as (s & <- & Hs). cbn [waits_for] in H. exists s. split; [exact Hs|].
    destruct H as [H|[H|[]]]; [auto|]. apply waits_lseqs in H as (p & Hp & H). apply in_map_iff in Hp as (kv & <- & Hkv).
    cbn [waits_for] in H. right. exists kv. tauto.
  - repeat (apply waits_lseq in H as [H|H]; [now apply C' in H|]). cbn in H. tauto.
Qed.
