(** * Facts about processes whose threads wait for locks. *)
From Verif Require Import Base KeyModel HMap FlameModel BuilderModel VisitorModel ImplModel LockModel LockSpec LockFacts PoolModel PoolSpec PoolFacts WaitModel WaitSpec.
Set Implicit Arguments.

Lemma executes_trans T m std (prog : program T) polite sp base Y Y' Y'' :
  executes m std prog polite sp base Y Y' -> executes m std prog polite sp base Y' Y'' -> executes m std prog polite sp base Y Y''.
Proof. induction 1; eauto using ex_step. Qed.

(** ** Guards of others stay *)
Lemma in_remove_other o a o' a' h : o <> o' -> In (o, a) h -> In (o, a) (remove_guard o' a' h).
Proof.
  intros Hne. unfold remove_guard. induction h as [|[x y] h IH]; cbn; [auto|].
  intros [E|Hin].
  - inversion E; subst. destruct (owner_eqb o' o) eqn:Q; [|now left].
    destruct (owner_eqb_spec o' o); [congruence|discriminate].
  - destruct (owner_eqb o' x && access_eqb a' y); [auto | right; auto].
Qed.
Lemma in_held_acquire s l o a l' o' a' : In (o', a') (held (locks s l')) -> In (o', a') (held (locks (acquire s l o a) l')).
Proof. intros H. cbn. destruct (N.eqb_spec l' l) as [->|]; cbn; [now right | exact H]. Qed.
Lemma in_held_release s l o a p l' o' a' : o' <> o -> In (o', a') (held (locks s l')) -> In (o', a') (held (locks (release s l o a p) l')).
Proof. intros Hne H. cbn. destruct (N.eqb_spec l' l) as [->|]; cbn; [now apply in_remove_other | exact H]. Qed.

Lemma turn_keeps m std i P P' t l a : turn m std i P P' -> t <> i ->
  In (Other t, a) (held (locks (p_shared P) l)) -> In (Other t, a) (held (locks (p_shared P') l)).
Proof.
  intros [s vs v s1 b k st s' Hv H Hs] Hne Hin. cbn [p_shared] in *.
  destruct (turn_effect H Hs) as [E|[(l0 & a0 & E & _)|[(l0 & a0 & p & rest & st0 & E & _)|[(x & E & _)|(x & rest & st0 & E & _)]]]];
    rewrite (proj1 E l); [exact Hin | now apply in_held_acquire | apply in_held_release; [congruence | exact Hin] | exact Hin | exact Hin].
Qed.

(** ** A deadlock stays *)
Lemma obstructed_no_grant T polite base (Y : process T) t l a t' : (length (p_visits (y_pool Y)) <= base)%nat ->
  (exists a', has Y t' l a' /\ (a = Exclusive \/ a' = Exclusive)) \/
  (a = ReadOnly /\ polite l = true /\ (base <= t')%nat /\ waiting base Y t' l Exclusive) ->
  available (locks (p_shared (y_pool Y)) l) a -> admitted polite (y_threads Y) l a -> waiting base Y t l a -> False.
Proof.
  intros Hb [(a' & Hh & Hc)|(-> & Hp & Hge & Hw)] Ha Hd _.
  - unfold has in Hh. destruct a.
    + cbn in Ha. rewrite Ha in Hh. exact Hh.
    + destruct Hc as [C| ->]; [discriminate|]. apply (Ha _ Hh).
  - apply (Hd eq_refl Hp). destruct Hw as [(v & body & rest & Hv & _)|(j & h & -> & Hj & Hw)].
    + apply nth_error_Some_lt in Hv || (assert (t' < length (p_visits (y_pool Y)))%nat by (apply nth_error_Some; congruence); lia).
    + exists h. split; [eapply nth_error_In; eauto | exact Hw].
Qed.

Lemma waiting_fun T base (Y : process T) t l a l' a' : (length (p_visits (y_pool Y)) <= base)%nat ->
  waiting base Y t l a -> waiting base Y t l' a' -> l = l' /\ a = a'.
Proof.
  intros Hb [(v & b & r & Hv & Hc)|(j & h & -> & Hj & Hw)] [(v' & b' & r' & Hv' & Hc')|(j' & h' & E & Hj' & Hw')].
  - rewrite Hv in Hv'. inversion Hv'; subst v'. rewrite Hc in Hc'. inversion Hc'. auto.
  - assert (t < length (p_visits (y_pool Y)))%nat by (apply nth_error_Some; congruence). lia.
  - assert (base + j < length (p_visits (y_pool Y)))%nat by (apply nth_error_Some; congruence). lia.
  - assert (j = j') by lia. subst j'. rewrite Hj in Hj'. inversion Hj'; subst h'. rewrite Hw in Hw'. inversion Hw'. auto.
Qed.

Lemma moves_visits T m std (prog : program T) polite sp base Y Y' : moves m std prog polite sp base Y Y' ->
  length (p_visits (y_pool Y')) = length (p_visits (y_pool Y)).
Proof. destruct 1 as [i P P' hs H _| | | | ]; cbn; try reflexivity. destruct H. cbn. apply upd_len. Qed.

Lemma wait_step m std i P P' v l a body rest : turn m std i P P' -> nth_error (p_visits P) i = Some v ->
  v_control v = Exec (LWait l a body rest) -> available (locks (p_shared P) l) a.
Proof.
  intros [s vs w s1 b k st s' Hw H Hs] Hv Hc. cbn [p_visits p_shared] in *. rewrite Hv in Hw. inversion Hw; subst w.
  rewrite Hc in H. inversion H; subst; try congruence. now apply view_available in H8 || (match goal with Ha : available _ _ |- _ => now apply view_available in Ha end).
Qed.

(** A participant of a deadlock does not move. *)
Lemma deadlock_step T m std (prog : program T) polite sp base Y Y' D :
  moves m std prog polite sp base Y Y' -> (length (p_visits (y_pool Y)) <= base)%nat -> deadlocked polite base Y D ->
  deadlocked polite base Y' D /\ (forall t l a, D t -> waiting base Y t l a -> waiting base Y' t l a).
Proof.
  intros Hm Hb [[t0 Ht0] HD].
  assert (W : forall t, D t -> exists l a, waiting base Y t l a) by (intros t Ht; destruct (HD t Ht) as (t' & _ & l & a & Hw & _); eauto).
  enough (A : (forall t l a, D t -> waiting base Y t l a -> waiting base Y' t l a) /\ (forall t l a, D t -> has Y t l a -> has Y' t l a)).
  { destruct A as [A1 A2]. split; [|exact A1]. split; [eauto|]. intros t Ht. destruct (HD t Ht) as (t' & Ht' & l & a & Hw & Ho).
    exists t'. split; [exact Ht'|]. exists l, a. split; [eauto|]. destruct Ho as [(a' & Hh & Hc)|(-> & Hp & Hge & Hw')]; [left | right]; eauto 8. }
  destruct Hm as [i P P' hs H Hadm|j s vs h s' h' hs Hj H|s l vs hs|s x t vs hs Ht Hx|s x t vs hs Ht Hx]; cbn [y_pool y_threads] in *.
  - assert (Hi : ~ D i).
    { intros Di. destruct (HD i Di) as (t' & Ht' & l & a & Hw & Ho). pose proof Hw as Hw0.
      destruct Hw as [(v & body & rest & Hv & Hc)|(j & h & -> & Hj & Hw)]; cbn [y_pool y_threads] in *.
      - eapply (obstructed_no_grant (Y := mkProc P hs)); [exact Hb | exact Ho | | | exact Hw0]; cbn [y_pool y_threads].
        + eapply wait_step; eauto.
        + eapply Hadm; eauto.
      - destruct H as [s vs v ? ? ? ? ? Hv _ _]. cbn [p_visits] in *. assert (base + j < length vs)%nat by (apply nth_error_Some; congruence). lia. }
    split.
    + intros t l a Dt [(v & body & rest & Hv & Hc)|R]; [left | now right]. exists v, body, rest. split; [|exact Hc].
      destruct H as [s vs w s1 b k st s' Hw H Hs]. cbn [y_pool p_visits] in *. rewrite nth_upd_ne by (intros ->; contradiction). exact Hv.
    + intros t l a Dt Hh. unfold has in *. cbn [y_pool] in *. eapply turn_keeps; [exact H | intros ->; contradiction | exact Hh].
  - assert (Hi : ~ D (base + j)%nat).
    { intros Di. destruct (HD _ Di) as (t' & Ht' & l & a & Hw & Ho). pose proof Hw as Hw0.
      destruct Hw as [(v & body & rest & Hv & Hc)|(j' & h0 & E & Hj' & Hw)]; cbn [y_pool y_threads p_visits] in *.
      - assert (base + j < length vs)%nat by (apply nth_error_Some; congruence). lia.
      - assert (j' = j) by lia. subst j'. rewrite Hj in Hj'. inversion Hj'; subst h0. clear Hj' E.
        inversion H; subst; cbn [h_wants] in Hw; try discriminate. inversion Hw; subst.
        eapply (obstructed_no_grant (Y := mkProc (mkPool s vs) hs)); [exact Hb | exact Ho | | | exact Hw0]; assumption. }
    split.
    + intros t l a Dt [L|(j' & h0 & -> & Hj' & Hw)]; [now left | right]. cbn [y_threads] in *. exists j', h0. split; [reflexivity|]. split; [|exact Hw].
      cbn [y_threads]. rewrite nth_upd_ne; [exact Hj'|]. intros ->. contradiction.
    + intros t l a Dt Hh. unfold has in *. cbn [y_pool p_shared] in *. assert (Hne : Other t <> Other (base + j)) by (intros E; inversion E; subst; contradiction).
      inversion H; subst; auto using in_held_acquire, in_held_release.
  - split; [intros t l0 a _ Hw; exact Hw|]. intros t l0 a _ Hh. unfold has in *. cbn in *. destruct (N.eqb_spec l0 l) as [->|]; exact Hh.
  - split; [intros t' l0 a _ Hw; exact Hw|]. intros t' l0 a _ Hh. exact Hh.
  - split; [intros t' l0 a _ Hw; exact Hw|]. intros t' l0 a _ Hh. exact Hh.
Qed.

Lemma C63_for_ever_lemma T m std (prog : program T) polite sp base Y Y' D :
  executes m std prog polite sp base Y Y' -> (length (p_visits (y_pool Y)) <= base)%nat -> deadlocked polite base Y D ->
  forall t l a, D t -> waiting base Y t l a -> waiting base Y' t l a.
Proof.
  induction 1 as [Y|Y Y1 Y2 H _ IH]; intros Hb HD t l a Dt Hw; [exact Hw|].
  destruct (deadlock_step H Hb HD) as [HD' K]. apply IH; auto. now rewrite (moves_visits H).
Qed.

(** ** Without the profiles *)
Definition app_guard (base : nat) (g : owner * access) : bool := match fst g with Other t => (base <=? t)%nat | Visit => false end.

Lemma filter_remove_app base o a h : app_guard base (o, a) = true ->
  filter (app_guard base) (remove_guard o a h) = remove_guard o a (filter (app_guard base) h).
Proof.
  intros Ho. unfold remove_guard. induction h as [|[x y] h IH]; cbn [remove_one filter]; [reflexivity|].
  cbn [fst snd]. destruct (owner_eqb o x && access_eqb a y) eqn:E.
  - apply andb_prop in E as [E1 E2]. destruct (owner_eqb_spec o x); [subst x|discriminate].
    assert (Q : app_guard base (o, y) = true) by exact Ho. rewrite Q. cbn [remove_one fst snd].
    destruct (owner_eqb_spec o o); [|congruence]. rewrite E2. reflexivity.
  - cbn [filter]. destruct (app_guard base (x, y)); cbn [remove_one fst snd]; rewrite ?E; now rewrite IH.
Qed.
Lemma filter_remove_visit base o a h : app_guard base (o, a) = false ->
  filter (app_guard base) (remove_guard o a h) = filter (app_guard base) h.
Proof.
  intros Ho. unfold remove_guard. induction h as [|[x y] h IH]; cbn [remove_one filter]; [reflexivity|].
  cbn [fst snd]. destruct (owner_eqb o x && access_eqb a y) eqn:E.
  - apply andb_prop in E as [E1 E2]. destruct (owner_eqb_spec o x); [subst x|discriminate].
    assert (Q : app_guard base (o, y) = false) by exact Ho. now rewrite Q.
  - cbn [filter]. now rewrite IH.
Qed.
Lemma turn_app m std i P P' base l : turn m std i P P' -> (length (p_visits P) <= base)%nat ->
  filter (app_guard base) (held (locks (p_shared P') l)) = filter (app_guard base) (held (locks (p_shared P) l)).
Proof.
  intros [s vs v s1 b k st s' Hv H Hs] Hb. cbn [p_shared p_visits] in *.
  assert (Hi : (i < base)%nat) by (assert (i < length vs)%nat by (apply nth_error_Some; congruence); lia).
  assert (Q : forall a, app_guard base (Other i, a) = false) by (intros a; cbn; apply Nat.leb_gt; exact Hi).
  destruct (turn_effect H Hs) as [E|[(l0 & a0 & E & _)|[(l0 & a0 & p & rest & st0 & E & _)|[(x & E & _)|(x & rest & st0 & E & _)]]]];
    rewrite (proj1 E l); cbn; try reflexivity; destruct (N.eqb_spec l l0) as [->|]; cbn; try reflexivity.
  - assert (B : (base <=? i)%nat = false) by now apply Nat.leb_gt. change (app_guard base (Other i, a0)) with (base <=? i)%nat. now rewrite B.
  - now apply filter_remove_visit.
Qed.

Lemma avail_sub (f : owner * access -> bool) h h' p p' a : h' = filter f h -> available (mkLock h p) a -> available (mkLock h' p') a.
Proof.
  intros -> Ha. destruct a; cbn in *; [now rewrite Ha|]. intros o Hin. apply filter_In in Hin as [Hin _]. apply (Ha _ Hin).
Qed.
Lemma avail_sub' (f : owner * access -> bool) x y a : held y = filter f (held x) -> available x a -> available y a.
Proof. destruct x, y. cbn [LockModel.held]. intros E. now apply avail_sub with (f := f). Qed.

Lemma without_step T m std (prog : program T) polite sp sp0 base Y Y' Y0 :
  moves m std prog polite sp base Y Y' -> (length (p_visits (y_pool Y)) <= base)%nat -> without_profiles base Y Y0 ->
  sp0 = true \/ never_tries prog ->
  exists Y0', executes m std prog polite sp0 base Y0 Y0' /\ without_profiles base Y' Y0'.
Proof.
  intros Hm Hb (Hv0 & Ht0 & HL0) Hsp. destruct Y0 as [[s0 vs0] hs0]. cbn [y_pool p_visits p_shared y_threads] in *. subst vs0 hs0.
  change (fun g : owner * access => match fst g with Other t => (base <=? t)%nat | Visit => false end) with (app_guard base) in *.
  destruct Hm as [i P P' hs H Hadm|j s vs h s' h' hs Hj H|s l vs hs|s x t vs hs Ht Hx|s x t vs hs Ht Hx]; cbn [y_pool y_threads p_shared p_visits] in *.
  - eexists. split; [constructor|]. split; [reflexivity|]. split; [reflexivity|]. intros l. cbn [y_pool p_shared].
    rewrite HL0. symmetry. eapply turn_app; eauto.
  - assert (Q : forall a, app_guard base (Other (base + j), a) = true) by (intros a; cbn; apply Nat.leb_le; lia).
    enough (E : exists s0', thread_step prog polite sp0 hs (Other (base + j)) s0 h s0' h' /\
                  forall l, held (locks s0' l) = filter (app_guard base) (held (locks s' l))).
    { destruct E as (s0' & E1 & E2). eexists. split; [eapply ex_step; [eapply y_thread; eauto | constructor]|].
      split; [reflexivity|]. split; [reflexivity|]. exact E2. }
    assert (Hav : forall l a, available (locks s l) a -> available (locks s0 l) a).
    { intros l a. now apply (@avail_sub' (app_guard base)). }
    inversion H; subst.
    + eexists. split; [eapply h_work; eauto | exact HL0].
    + eexists. split; [eapply h_ask; eauto | exact HL0].
    + eexists. split; [eapply h_granted; auto|]. intros l'. cbn. destruct (N.eqb_spec l' l) as [->|]; cbn [LockModel.held]; [|apply HL0].
      cbn [filter]. rewrite Q. f_equal. apply HL0.
    + eexists. split; [eapply h_got; eauto|]. intros l'. cbn. destruct (N.eqb_spec l' l) as [->|]; cbn [LockModel.held]; [|apply HL0].
      cbn [filter]. rewrite Q. f_equal. apply HL0.
    + destruct Hsp as [-> | N]; [|exfalso; eapply N; eauto]. eexists. split; [eapply h_missed; eauto | exact HL0].
    + eexists. split; [eapply h_give with (p := p); eauto|].
      * rewrite HL0. apply filter_In. split; [assumption | apply Q].
      * intros l'. cbn. destruct (N.eqb_spec l' l) as [->|]; cbn [LockModel.held]; [|apply HL0]. rewrite HL0. symmetry. now apply filter_remove_app.
  - eexists. split; [constructor|]. split; [reflexivity|]. split; [reflexivity|]. intros l0. cbn. rewrite HL0. destruct (N.eqb_spec l0 l) as [->|]; reflexivity.
  - eexists. split; [constructor|]. split; [reflexivity|]. split; [reflexivity|]. exact HL0.
  - eexists. split; [constructor|]. split; [reflexivity|]. split; [reflexivity|]. exact HL0.
Qed.

Lemma without_executes T m std (prog : program T) polite sp sp0 base Y Y' :
  executes m std prog polite sp base Y Y' -> (length (p_visits (y_pool Y)) <= base)%nat -> sp0 = true \/ never_tries prog ->
  forall Y0, without_profiles base Y Y0 ->
  exists Y0', executes m std prog polite sp0 base Y0 Y0' /\ without_profiles base Y' Y0'.
Proof.
  induction 1 as [Y|Y Y1 Y2 H _ IH]; intros Hb Hsp Y0 H0; [exists Y0; split; [constructor | exact H0]|].
  destruct (without_step H Hb H0 Hsp) as (Y1' & E1 & H1). rewrite <- (moves_visits H) in Hb.
  destruct (IH Hb Hsp _ H1) as (Y2' & E2 & H2). exists Y2'. split; [eapply executes_trans; eauto | exact H2].
Qed.

Lemma without_start T s bps (us : list T) : all_idle (length bps) s ->
  without_profiles (length bps) (process_start s bps us) (process_start s [] us).
Proof.
  intros (H1 & _ & H3 & _). split; [reflexivity|]. split; [reflexivity|]. intros l. cbn.
  specialize (H1 l). specialize (H3 l). induction (held (locks s l)) as [|[o a] h IH]; cbn; [reflexivity|].
  destruct o as [|t]; [exfalso; apply (H3 a); now left|]. cbn [fst].
  replace (length bps <=? t)%nat with true by (symmetry; apply Nat.leb_le, (H1 t a); now left). f_equal. apply IH.
  - intros t' a' Hin. apply (H1 t' a'). now right.
  - intros a' Hin. apply (H3 a'). now right.
Qed.

Lemma C63_application_lemma T m std (prog : program T) polite sp sp0 s bps (us : list T) Y :
  all_idle (length bps) s -> sp0 = true \/ never_tries prog ->
  executes m std prog polite sp (length bps) (process_start s bps us) Y ->
  exists Y0, executes m std prog polite sp0 (length bps) (process_start s [] us) Y0 /\ without_profiles (length bps) Y Y0.
Proof.
  intros Hi Hsp He. eapply without_executes; eauto using without_start. cbn. now rewrite map_length.
Qed.

(** ** The pool of visits *)
Lemma moves_joint T m std (prog : program T) polite sp Y Y' : moves m std prog polite sp (length (p_visits (y_pool Y))) Y Y' ->
  exists n, joint m std true n (y_pool Y) (y_pool Y').
Proof.
  intros H. remember (length (p_visits (y_pool Y))) as base eqn:Eb.
  destruct H as [i P P' hs H _|j s vs h s' h' hs Hj H|s l vs hs|s x t vs hs Ht Hx|s x t vs hs Ht Hx]; cbn [y_pool p_visits] in *; subst base.
  - exists 1%nat. econstructor; [exact H | constructor].
  - assert (O : s' = s \/ outside (length vs) s s').
    { inversion H; subst; auto; right.
      - apply out_acquire; [lia | assumption].
      - apply out_acquire; [lia | assumption].
      - apply out_release; [lia | assumption]. }
    exists 0%nat. destruct O as [-> | O]; [constructor|]. eapply joint_other; [reflexivity | exact O | constructor].
  - exists 0%nat. eapply joint_other; [reflexivity | apply out_clear_poison | constructor].
  - exists 0%nat. eapply joint_other; [reflexivity | exact (@out_clone _ s x t Ht Hx) | constructor].
  - exists 0%nat. eapply joint_other; [reflexivity | exact (@out_drop _ s x t Ht Hx) | constructor].
Qed.
Lemma joint_trans m std o n n' P P' P'' : joint m std o n P P' -> joint m std o n' P' P'' -> joint m std o (n + n') P P''.
Proof. induction 1; intros J; cbn; [exact J | econstructor; eauto | eapply joint_other; eauto]. Qed.

Lemma executes_joint T m std (prog : program T) polite sp base Y Y' : executes m std prog polite sp base Y Y' ->
  base = length (p_visits (y_pool Y)) -> exists n, joint m std true n (y_pool Y) (y_pool Y').
Proof.
  induction 1 as [Y|Y Y1 Y2 H _ IH]; intros ->; [exists 0%nat; constructor|].
  destruct IH as [n2 J2]; [symmetry; apply (moves_visits H)|]. destruct (moves_joint H) as [n1 J1]. exists (n1 + n2)%nat. eapply joint_trans; eauto.
Qed.
Lemma C63_profiles_lemma T m std (prog : program T) polite sp s bps (us : list T) Y :
  executes m std prog polite sp (length bps) (process_start s bps us) Y -> exists n, joint m std true n (pool_start s bps) (y_pool Y).
Proof. intros H. apply (executes_joint H). cbn. now rewrite map_length. Qed.
