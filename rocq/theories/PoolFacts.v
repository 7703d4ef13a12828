(** * Facts for C54: every visit of a pool is a visit of LockModel. *)
From Coq Require Import Lia.
From Verif Require Import Base BaseFacts KeyModel HMap FlameModel BuilderModel VisitorModel ImplModel LockModel LockSpec LockFacts PoolModel PoolSpec.

(** ** Equal states *)
Lemma same_refl s : same s s. Proof. split; auto. Qed.
Lemma same_sym s t : same s t -> same t s. Proof. intros [H1 H2]. split; intros; symmetry; auto. Qed.
Lemma same_trans s t u : same s t -> same t u -> same s u.
Proof. intros [H1 H2] [H3 H4]. split; intros; etransitivity; eauto. Qed.

Lemma same_set_lock s t l x : same s t -> same (set_lock s l x) (set_lock t l x).
Proof. intros [H1 H2]. split; [|exact H2]. intros l'. cbn. destruct (N.eqb l' l); auto. Qed.
Lemma same_acquire s t l o a : same s t -> same (acquire s l o a) (acquire t l o a).
Proof. intros H. unfold acquire. rewrite (proj1 H l). now apply same_set_lock. Qed.
Lemma same_release s t l o a p : same s t -> same (release s l o a p) (release t l o a p).
Proof. intros H. unfold release. rewrite (proj1 H l). now apply same_set_lock. Qed.
Lemma same_set_strong s t x os : same s t -> same (set_strong s x os) (set_strong t x os).
Proof. intros [H1 H2]. split; [exact H1|]. intros y. cbn. destruct (N.eqb y x); auto. Qed.

Lemma same_vstep m std s b k st s1 b1 k1 st1 t : vstep m std (mkConf s b k st) (mkConf s1 b1 k1 st1) -> same s t ->
  exists t1, vstep m std (mkConf t b k st) (mkConf t1 b1 k1 st1) /\ same s1 t1.
Proof.
  intros H Hs. pose proof Hs as [HL HR].
  inversion H; subst;
    try (eexists; split; [econstructor; eassumption | exact Hs]);
    try (eexists; split; [econstructor | exact Hs]; rewrite <- ?HL, <- ?HR; eassumption).
  - eexists. split; [apply s_unlock | now apply same_release].
  - eexists. split; [apply s_drop_arc |]. rewrite (HR x). now apply same_set_strong.
  - eexists. split; [apply s_unwind_unlock | now apply same_release].
  - eexists. split; [apply s_unwind_arc |]. rewrite (HR x). now apply same_set_strong.
  - eexists. split; [apply s_try; rewrite <- HL; assumption | now apply same_acquire].
  - eexists. split; [apply s_wait; rewrite <- HL; assumption | now apply same_acquire].
  - eexists. split; [apply s_upgrade; rewrite <- HR; assumption |]. rewrite (HR x). now apply same_set_strong.
Qed.

Lemma same_ostep s s1 t : ostep s s1 -> same s t -> exists t1, ostep t t1 /\ same s1 t1.
Proof.
  intros H Hs. pose proof Hs as [HL HR]. destruct H as [s l o a Ha|s l o a p Hin|s l|s x o Hx|s x o Hin].
  - eexists. split; [apply o_acquire; rewrite <- HL; exact Ha | now apply same_acquire].
  - eexists. split; [apply o_release; rewrite <- HL; exact Hin | now apply same_release].
  - eexists. split; [apply o_clear_poison|]. rewrite (HL l). now apply same_set_lock.
  - eexists. split; [apply o_clone; rewrite <- HR; exact Hx|]. rewrite (HR x). now apply same_set_strong.
  - eexists. split; [apply o_drop; rewrite <- HR; exact Hin|]. rewrite (HR x). now apply same_set_strong.
Qed.

(** ** Views *)
Lemma seat_seat i o : seat i (seat i o) = o.
Proof. destruct o as [|t]; cbn; [now rewrite Nat.eqb_refl|]. destruct (Nat.eqb_spec t i) as [->|H]; cbn; [reflexivity|]. destruct (Nat.eqb_spec t i); congruence. Qed.
Lemma seat_inj i a b : seat i a = seat i b -> a = b.
Proof. intros H. rewrite <- (seat_seat i a), H. apply seat_seat. Qed.
Lemma seat_other i j : i <> j -> seat j (Other i) = Other i.
Proof. intros H. cbn. destruct (Nat.eqb_spec i j); congruence. Qed.
Lemma seat_mine i : seat i (Other i) = Visit.
Proof. cbn. now rewrite Nat.eqb_refl. Qed.

Lemma view_view i s : same (view i (view i s)) s.
Proof.
  split; [intros l | intros x]; cbn.
  - destruct (locks s l) as [h p]. cbn. f_equal. rewrite map_map. rewrite <- map_id. apply map_ext. intros [o a]. cbn. now rewrite seat_seat.
  - rewrite map_map. rewrite <- map_id. apply map_ext. apply seat_seat.
Qed.
Lemma same_view i s t : same s t -> same (view i s) (view i t).
Proof. intros [H1 H2]. split; intros; cbn; now rewrite ?H1, ?H2. Qed.

Lemma view_set_lock i s l h p : same (view i (set_lock s l (mkLock h p)))
  (set_lock (view i s) l (mkLock (map (fun x => (seat i (fst x), snd x)) h) p)).
Proof. split; [|reflexivity]. intros l'. cbn. destruct (N.eqb l' l); reflexivity. Qed.
Lemma view_acquire i s l o a : same (view i (acquire s l o a)) (acquire (view i s) l (seat i o) a).
Proof. unfold acquire. eapply same_trans; [apply view_set_lock|]. cbn. apply same_refl. Qed.
Lemma view_set_strong i s x os : same (view i (set_strong s x os)) (set_strong (view i s) x (map (seat i) os)).
Proof. split; [reflexivity|]. intros y. cbn. destruct (N.eqb y x); reflexivity. Qed.

Lemma owner_eqb_seat i a b : owner_eqb (seat i a) (seat i b) = owner_eqb a b.
Proof.
  destruct (owner_eqb_spec a b) as [E|E]; destruct (owner_eqb_spec (seat i a) (seat i b)) as [E'|E']; try reflexivity.
  - subst. congruence.
  - apply seat_inj in E'. congruence.
Qed.
Lemma map_remove_guard i o a h : map (fun x => (seat i (fst x), snd x)) (remove_guard o a h) =
  remove_guard (seat i o) a (map (fun x : owner * access => (seat i (fst x), snd x)) h).
Proof.
  unfold remove_guard. induction h as [|[o' a'] h IH]; [reflexivity|]. cbn [remove_one map fst snd]. rewrite owner_eqb_seat.
  destruct (owner_eqb o o' && access_eqb a a'); [reflexivity|]. cbn [map fst snd]. now rewrite IH.
Qed.
Lemma map_remove_ref i o h : map (seat i) (remove_one owner_eqb o h) = remove_one owner_eqb (seat i o) (map (seat i) h).
Proof.
  induction h as [|o' h IH]; [reflexivity|]. cbn [remove_one map]. rewrite owner_eqb_seat.
  destruct (owner_eqb o o'); [reflexivity|]. cbn [map]. now rewrite IH.
Qed.
Lemma view_release i s l o a p : same (view i (release s l o a p)) (release (view i s) l (seat i o) a p).
Proof. unfold release. eapply same_trans; [apply view_set_lock|]. rewrite map_remove_guard. cbn. apply same_refl. Qed.
Lemma view_drop i s x o : same (view i (set_strong s x (remove_one owner_eqb o (strong s x))))
  (set_strong (view i s) x (remove_one owner_eqb (seat i o) (strong (view i s) x))).
Proof. eapply same_trans; [apply view_set_strong|]. rewrite map_remove_ref. apply same_refl. Qed.
Lemma view_clone i s x o : same (view i (set_strong s x (o :: strong s x)))
  (set_strong (view i s) x (seat i o :: strong (view i s) x)).
Proof. apply view_set_strong. Qed.

Lemma view_in_held i s l o a : In (o, a) (held (locks (view i s) l)) <-> In (seat i o, a) (held (locks s l)).
Proof.
  cbn. rewrite in_map_iff. split.
  - intros ([o' a'] & E & H). inversion E; subst. now rewrite seat_seat.
  - intros H. exists (seat i o, a). cbn. now rewrite seat_seat.
Qed.
Lemma view_in_strong i s x o : In o (strong (view i s) x) <-> In (seat i o) (strong s x).
Proof.
  cbn. rewrite in_map_iff. split.
  - intros (o' & <- & H). now rewrite seat_seat.
  - intros H. exists (seat i o). now rewrite seat_seat.
Qed.
Lemma view_available i s l a : available (locks (view i s) l) a <-> available (locks s l) a.
Proof.
  destruct a; cbn.
  - split; [apply map_eq_nil | intros ->; reflexivity].
  - split; intros H o Hin; [apply (H (seat i o)) | apply (H (seat i o))].
    + apply (view_in_held i s l). now rewrite seat_seat.
    + apply (view_in_held i s l). exact Hin.
Qed.
Lemma view_lock_ok i s l : lock_ok (locks s l) -> lock_ok (locks (view i s) l).
Proof.
  intros H o Hin. apply view_in_held in Hin. cbn. rewrite (H _ Hin). cbn. now rewrite seat_seat.
Qed.
Lemma view_idle n i s : all_idle n s -> (i < n)%nat -> holds_nothing (view i s).
Proof.
  intros (H1 & H2 & H3 & H4) Hi. split; [intros l a Hin | intros x Hin].
  - apply view_in_held in Hin. cbn in Hin. apply H1 in Hin. lia.
  - apply view_in_strong in Hin. cbn in Hin. apply H2 in Hin. lia.
Qed.

(** ** A step of one visit, seen by another one *)
Definition quiet_or_ostep (s s' : shared) : Prop := same s s' \/ exists t, ostep s t /\ same t s'.

(** The effect of a step on the state without the view. *)
Lemma turn_effect m std i s b k st s1 b1 k1 st1 s' :
  vstep m std (mkConf (view i s) b k st) (mkConf s1 b1 k1 st1) -> same (view i s') s1 ->
  same s' s
  \/ (exists l a, same s' (acquire s l (Other i) a) /\ available (locks s l) a)
  \/ (exists l a p rest st0, same s' (release s l (Other i) a p) /\ st = FGuard l a rest :: st0)
  \/ (exists x, same s' (set_strong s x (Other i :: strong s x)) /\ strong s x <> [])
  \/ (exists x rest st0, same s' (set_strong s x (remove_one owner_eqb (Other i) (strong s x))) /\ st = FArc x rest :: st0).
Proof.
  intros H Hs.
  assert (B : forall t, same s1 (view i t) -> same s' t).
  { intros t Ht. eapply same_trans; [apply same_sym, (view_view i)|]. eapply same_trans; [|apply (view_view i)].
    apply same_view. eapply same_trans; eassumption. }
  assert (Q : seat i (Other i) = Visit) by apply seat_mine.
  inversion H; subst; try (left; apply B, same_refl).
  - right; right; left. exists l, a, false, rest, st1. split; [|reflexivity]. apply B. eapply same_trans; [|apply same_sym, view_release]. rewrite Q. apply same_refl.
  - right; right; right; right. exists x, rest, st1. split; [|reflexivity]. apply B. eapply same_trans; [|apply same_sym, view_drop]. rewrite Q. apply same_refl.
  - right; right; left. eexists l, a, _, rest, st1. split; [|reflexivity]. apply B. eapply same_trans; [|apply same_sym, view_release]. rewrite Q. apply same_refl.
  - right; right; right; right. exists x, rest, st1. split; [|reflexivity]. apply B. eapply same_trans; [|apply same_sym, view_drop]. rewrite Q. apply same_refl.
  - right; left. exists l, a. split; [|match goal with Ha : available _ _ |- _ => now apply view_available in Ha end]. apply B. eapply same_trans; [|apply same_sym, view_acquire]. rewrite Q. apply same_refl.
  - right; left. exists l, a. split; [|match goal with Ha : available _ _ |- _ => now apply view_available in Ha end]. apply B. eapply same_trans; [|apply same_sym, view_acquire]. rewrite Q. apply same_refl.
  - right; right; right; left. exists x. split; [|match goal with Hx : strong _ _ <> [] |- _ => intros E; apply Hx; cbn; now rewrite E end]. apply B. eapply same_trans; [|apply same_sym, view_clone]. rewrite Q. apply same_refl.
Qed.

Lemma seen_by_other m std i j s b k st s1 b1 k1 st1 s' : i <> j -> k <> Gone ->
  sound (mkConf (view i s) b k st) ->
  vstep m std (mkConf (view i s) b k st) (mkConf s1 b1 k1 st1) -> same (view i s') s1 ->
  quiet_or_ostep (view j s) (view j s').
Proof.
  intros Hij Hk So H Hs. pose proof (seat_other Hij) as Q. specialize (So Hk). pose proof (co_guards So) as G. pose proof (co_refs So) as R. cbn [c_shared c_stack] in G, R.
  destruct (turn_effect H Hs) as [E|[(l & a & E & Ha)|[(l & a & p & rest & st0 & E & ->)|[(x & E & Hx)|(x & rest & st0 & E & ->)]]]].
  - left. apply same_view, same_sym, E.
  - right. eexists. split; [apply o_acquire with (l := l) (t := i) (a := a); now apply view_available|].
    eapply same_trans; [|apply same_view, same_sym, E]. eapply same_trans; [|apply same_sym, view_acquire]. rewrite Q. apply same_refl.
  - right. eexists. split; [apply o_release with (l := l) (t := i) (a := a) (p := p)|].
    + apply view_in_held. rewrite Q. specialize (G l a).
      assert (X : In (Visit, a) (held (locks (view i s) l))).
      { apply guards_in. rewrite G. rewrite open_guards_cons. rewrite N.eqb_refl. destruct a; cbn; lia. }
      apply view_in_held in X. exact X.
    + eapply same_trans; [|apply same_view, same_sym, E]. eapply same_trans; [|apply same_sym, view_release]. rewrite Q. apply same_refl.
  - right. eexists. split; [apply o_clone with (x := x) (t := i); cbn; intros C; apply map_eq_nil in C; contradiction|].
    eapply same_trans; [|apply same_view, same_sym, E]. eapply same_trans; [|apply same_sym, view_clone]. rewrite Q. apply same_refl.
  - right. eexists. split; [apply o_drop with (x := x) (t := i)|].
    + apply view_in_strong. rewrite Q. specialize (R x).
      assert (X : In Visit (strong (view i s) x)).
      { apply refs_in. rewrite R, open_refs_cons, N.eqb_refl. lia. }
      apply view_in_strong in X. exact X.
    + eapply same_trans; [|apply same_view, same_sym, E]. eapply same_trans; [|apply same_sym, view_drop]. rewrite Q. apply same_refl.
Qed.

Lemma outside_seen n i s s' : (i < n)%nat -> outside n s s' -> quiet_or_ostep (view i s) (view i s').
Proof.
  intros Hi H. right.
  assert (Q : forall t, (n <= t)%nat -> seat i (Other t) = Other t) by (intros t Ht; apply seat_other; lia).
  destruct H as [s l t a Ht Ha|s l t a p Ht Hin|s l|s x t Ht Hx|s x t Ht Hin].
  - eexists. split; [apply o_acquire with (l := l) (t := t) (a := a); now apply view_available|]. eapply same_trans; [|apply same_sym, view_acquire]. rewrite Q by lia. apply same_refl.
  - eexists. split; [apply o_release with (l := l) (t := t) (a := a) (p := p); apply view_in_held; now rewrite Q|]. eapply same_trans; [|apply same_sym, view_release]. rewrite Q by lia. apply same_refl.
  - eexists. split; [apply o_clear_poison with (l := l)|]. apply same_sym, view_set_lock.
  - eexists. split; [apply o_clone with (x := x) (t := t); cbn; intros C; apply map_eq_nil in C; contradiction|]. eapply same_trans; [|apply same_sym, view_clone]. rewrite Q by lia. apply same_refl.
  - eexists. split; [apply o_drop with (x := x) (t := t); apply view_in_strong; now rewrite Q|]. eapply same_trans; [|apply same_sym, view_drop]. rewrite Q by lia. apply same_refl.
Qed.

(** ** Pools *)
Definition conf_at (s : shared) (i : nat) (v : visiting) : config := mkConf (view i s) (v_builder v) (v_control v) (v_stack v).

Lemma sound_same s t b k st : same s t -> sound (mkConf s b k st) -> sound (mkConf t b k st).
Proof.
  intros [HL HR] H Hk. destruct (H Hk) as [H1 H2 H3]. cbn [c_shared c_stack] in *. constructor.
  - intros l. rewrite <- HL. apply H1.
  - intros l a. specialize (H2 l a). unfold guards_held in *. now rewrite <- HL.
  - intros x. specialize (H3 x). unfold refs_held in *. now rewrite <- HR.
Qed.

Definition sound_pool (P : pool) : Prop := forall i v, nth_error (p_visits P) i = Some v -> sound (conf_at (p_shared P) i v).

Lemma nth_upd_eq {A} (l : list A) i a x : nth_error l i = Some x -> nth_error (upd l i a) i = Some a.
Proof. revert i. induction l as [|y l IH]; intros [|i]; cbn; try discriminate; auto. Qed.
Lemma nth_upd_ne {A} (l : list A) i j a : i <> j -> nth_error (upd l i a) j = nth_error l j.
Proof. revert i j. induction l as [|y l IH]; intros [|i] [|j] H; cbn; auto; try congruence. Qed.
Lemma upd_len {A} (l : list A) i a : length (upd l i a) = length l.
Proof. revert i. induction l as [|y l IH]; intros [|i]; cbn; auto. Qed.

Lemma gone_stuck m std c c' : vstep m std c c' -> c_control c <> Gone.
Proof. destruct 1; discriminate. Qed.

Lemma sound_quiet s s' b k st : quiet_or_ostep s s' -> sound (mkConf s b k st) -> sound (mkConf s' b k st).
Proof.
  intros [E|(t & Ho & E)] H; [eapply sound_same; eauto|].
  eapply sound_same; [exact E|]. intros Hk. eapply consistent_other; [exact Ho|]. apply H, Hk.
Qed.

Lemma turn_sound m std i P P' : turn m std i P P' -> sound_pool P -> sound_pool P'.
Proof.
  intros [s vs v s1 b k st s' Hv H Hs] S j w Hw. cbn [p_visits p_shared] in *.
  destruct (Nat.eq_dec i j) as [->|Hij].
  - rewrite (nth_upd_eq _ Hv) in Hw. inversion Hw; subst w. apply sound_same with (s := s1); [now apply same_sym|].
    eapply (sound_step H). apply (S j v Hv).
  - rewrite nth_upd_ne in Hw by exact Hij. eapply sound_quiet; [|exact (S j w Hw)]. cbn [p_shared].
    eapply seen_by_other; [exact Hij | apply (gone_stuck H) | apply (S i v Hv) | exact H | exact Hs].
Qed.
Lemma outside_sound vs s s' : outside (length vs) s s' -> sound_pool (mkPool s vs) -> sound_pool (mkPool s' vs).
Proof.
  intros H S i v Hv. cbn [p_visits p_shared] in *. eapply sound_quiet; [|exact (S i v Hv)].
  eapply outside_seen; [|exact H]. apply nth_error_Some. congruence.
Qed.
Lemma joint_sound m std o n P P' : joint m std o n P P' -> sound_pool P -> sound_pool P'.
Proof.
  induction 1 as [P|n i P P' P'' H _ IH|n s s' vs P'' Ho H _ IH]; intros S; [exact S | apply IH; eapply turn_sound; eauto | apply IH; eapply outside_sound; eauto].
Qed.
Lemma start_pool_sound s bps : (forall l, lock_ok (locks s l)) -> all_idle (length bps) s -> sound_pool (pool_start s bps).
Proof.
  intros Hk Hi i v Hv. cbn [pool_start p_visits p_shared] in *. rewrite nth_error_map in Hv.
  destruct (nth_error bps i) as [[b p]|] eqn:E; [|discriminate]. inversion Hv; subst v. cbn.
  apply start_sound.
  - intros l. apply view_lock_ok, Hk.
  - eapply view_idle; [exact Hi|]. apply nth_error_Some. congruence.
Qed.

(** ** Each visit on its own *)
Lemma joint_each m std o n P P' : joint m std o n P P' -> sound_pool P ->
  forall i v t, nth_error (p_visits P) i = Some v -> same t (view i (p_shared P)) ->
  exists n' c, (n' <= n)%nat /\ runs m std n' (mkConf t (v_builder v) (v_control v) (v_stack v)) c /\ seen_by i P' c.
Proof.
  induction 1 as [P|n j P P' P'' H HJ IH|n s s' vs P'' Ho H HJ IH]; intros S i v t Hv Ht.
  - exists 0%nat, (mkConf t (v_builder v) (v_control v) (v_stack v)). split; [lia|]. split; [constructor|]. exists v. cbn. auto.
  - specialize (IH (turn_sound H S)). destruct H as [s vs w s1 b k st s' Hw H Hs]. cbn [p_visits p_shared] in *.
    destruct (Nat.eq_dec j i) as [->|Hij].
    + rewrite Hv in Hw. inversion Hw; subst w. clear Hw.
      destruct (same_vstep H (same_sym Ht)) as (t1 & H1 & Ht1).
      destruct (IH i (mkVis b k st) t1) as (n' & c & Hn & HR & HS); [now apply (nth_upd_eq _ Hv) | |].
      { eapply same_trans; [apply same_sym, Ht1 | apply same_sym, Hs]. }
      exists (Datatypes.S n'), c. split; [lia|]. split; [|exact HS]. eapply runs_visit; [exact H1 | exact HR].
    + assert (Q : quiet_or_ostep (view i s) (view i s')).
      { eapply seen_by_other with (i := j); [exact Hij | apply (gone_stuck H) | apply (S j w Hw) | exact H | exact Hs]. }
      destruct Q as [E|(t1 & Ho1 & E)].
      * destruct (IH i v t) as (n' & c & Hn & HR & HS); [rewrite nth_upd_ne; auto | eapply same_trans; eauto |].
        exists n', c. split; [lia|]. auto.
      * destruct (same_ostep Ho1 (same_sym Ht)) as (t2 & Ho2 & E2).
        destruct (IH i v t2) as (n' & c & Hn & HR & HS); [rewrite nth_upd_ne; auto | eapply same_trans; [apply same_sym, E2 | exact E] |].
        exists n', c. split; [lia|]. split; [|exact HS]. eapply runs_other; [exact Ho2 | exact HR].
  - specialize (IH (outside_sound H S)). cbn [p_visits p_shared] in *.
    assert (Hi : (i < length vs)%nat) by (apply nth_error_Some; congruence).
    destruct (outside_seen Hi H) as [E|(t1 & Ho1 & E)].
    + destruct (IH i v t) as (n' & c & Hn & HR & HS); [auto | eapply same_trans; eauto |]. exists n', c. auto.
    + destruct (same_ostep Ho1 (same_sym Ht)) as (t2 & Ho2 & E2).
      destruct (IH i v t2) as (n' & c & Hn & HR & HS); [auto | eapply same_trans; [apply same_sym, E2 | exact E] |].
      exists n', c. split; [lia|]. split; [|exact HS]. eapply runs_other; [exact Ho2 | exact HR].
Qed.

Lemma pool_start_nth s bps i b p : nth_error bps i = Some (b, p) ->
  nth_error (p_visits (pool_start s bps)) i = Some (mkVis b (Exec p) []).
Proof. intros H. cbn. rewrite nth_error_map, H. reflexivity. Qed.

Lemma C54_each_lemma : forall m std o n s bps P i b p,
  (forall l, lock_ok (locks s l)) -> all_idle (length bps) s -> joint m std o n (pool_start s bps) P ->
  nth_error bps i = Some (b, p) ->
  exists n' c, runs m std n' (start (view i s) b p) c /\ seen_by i P c.
Proof.
  intros m std o n s bps P i b p Hk Hi HJ Hn.
  destruct (joint_each HJ (start_pool_sound Hk Hi) (pool_start_nth s Hn) (same_refl _)) as (n' & c & _ & HR & HS).
  exists n', c. split; [exact HR | exact HS].
Qed.

Lemma over_same i P c c' : seen_by i P c -> seen_by i P c' -> over c -> over c' /\ result_of c' = result_of c.
Proof.
  intros (v & Hv & H1 & H2 & H3 & _) (w & Hw & H4 & H5 & H6 & _). rewrite Hv in Hw. inversion Hw; subst w.
  unfold over, result_of. rewrite H1, H2, H3, H4, H5, H6. auto.
Qed.
Lemma C54_profile_lemma : forall m std o n s bps P i b p res,
  (forall l, lock_ok (locks s l)) -> all_idle (length bps) s -> joint m std o n (pool_start s bps) P ->
  nth_error bps i = Some (b, p) -> finished P i res ->
  exists q, resolves p q /\ run m q b = res.
Proof.
  intros m std o n s bps P i b p res Hk Hi HJ Hn (c0 & HS0 & Ho & <-).
  destruct (C54_each_lemma Hk Hi HJ Hn) as (n' & c & HR & HS).
  destruct (over_same HS0 HS Ho) as [Ho' <-]. eapply C49_profile_lemma; eauto.
Qed.
