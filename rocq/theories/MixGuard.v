(** * Lemmas for property C64: guards, progress. *)
From Verif Require Import Base BaseFacts KeyModel KeyFacts HMap FlameModel BuilderModel BuilderFacts VisitorModel Spec LayoutModel ImplModel
  LockModel LockSpec LockFacts SnapshotModel DashModel DashSpec MixModel MixSpec.

#[local] Arguments key_new : simpl never.

(** The guards and references of a stack, as in LockModel. *)
Fixpoint xplain_stack (st : list xframe) : list LockModel.frame :=
  match st with
  | [] => []
  | YScope _ :: st' => FScope LRet :: xplain_stack st'
  | YGuard l a _ :: st' => FGuard l a LRet :: xplain_stack st'
  | YArc x _ :: st' => FArc x LRet :: xplain_stack st'
  | YThen _ :: st' => xplain_stack st'
  | YShard _ l _ _ :: st' => FGuard l ReadOnly LRet :: xplain_stack st'
  end.
Definition xsteady (c : xconf) : Prop := xk_control c <> XLost -> consistent (x_shared (xk_mem c)) (xplain_stack (xk_stack c)).

Lemma consistent_swap s f f' st : consistent s (f :: f' :: st) -> consistent s (f' :: f :: st).
Proof.
  intros [H1 H2 H3]. constructor; [exact H1 | |].
  - intros l a. rewrite H2. unfold open_guards. cbn [filter]. destruct (frame_guard l a f), (frame_guard l a f'); reflexivity.
  - intros x. rewrite H3. unfold open_refs. cbn [filter]. destruct (frame_ref x f), (frame_ref x f'); reflexivity.
Qed.

Lemma xsteady_step m std c c' : xstep m std c c' -> xsteady c -> xsteady c'.
Proof.
  intros H S. unfold xsteady in *. destruct H; cbn [xk_control xk_mem xk_stack xplain_stack x_shared xset] in *; intros HA; try congruence;
    (assert (S' := S ltac:(discriminate)));
    try (apply consistent_scope in S'); try (apply consistent_scope); auto using consistent_acquire, consistent_upgrade.
  all: try solve [eapply consistent_release; eassumption | eapply consistent_drop; eassumption].
  eapply (@consistent_release _ l ReadOnly LRet). apply consistent_swap. now apply consistent_acquire.
Qed.
Lemma in_acquire s l l2 o a o' a' : In (o, a) (held (locks s l)) -> In (o, a) (held (locks (acquire s l2 o' a') l)).
Proof. intros H. cbn. destruct (N.eqb_spec l l2) as [->|]; [now right | exact H]. Qed.
Lemma xsteady_change g g' b k st : xchange g g' -> xsteady (mkXC g b k st) -> xsteady (mkXC g' b k st).
Proof.
  intros H S HA. specialize (S HA). cbn [xk_mem xk_stack] in *. destruct H as [g s Hs|g l t v Hl|g x o|g l t tb Hl|g l l2 t Ha Hin]; cbn [x_shared xset]; auto; [eapply consistent_other; eauto|].
  eapply consistent_other; [apply o_release|eapply consistent_other; [apply o_acquire, Ha | exact S]]. now apply in_acquire.
Qed.
Lemma xsteady_passes M m std c c' : xpasses M m std c c' -> xsteady c -> xsteady c'.
Proof.
  induction 1 as [c _|c c' c'' _ H _ IH|g g' b k st c'' _ H _ IH]; intros S; [exact S | apply IH; eapply xsteady_step; eauto | apply IH; eapply xsteady_change; eauto].
Qed.
Lemma xbegin_steady g b v : (forall l, lock_ok (locks (x_shared g) l)) -> holds_nothing (x_shared g) -> xsteady (xbegin g b v).
Proof. intros H1 H2 _. apply (@start_sound _ b LRet H1 H2). discriminate. Qed.

Lemma xsteady_held c l a : xsteady c -> xk_control c <> XLost -> In (FGuard l a LRet) (xplain_stack (xk_stack c)) ->
  In (Visit, a) (held (locks (x_shared (xk_mem c)) l)) /\ lock_ok (locks (x_shared (xk_mem c)) l).
Proof. intros S HL Hin. specialize (S HL). destruct S as [S1 S2 S3]. split; [|apply S1]. apply guards_in. rewrite S2. now apply (@inside_guards _ l a LRet). Qed.
Lemma inside_plain c l a : xinside c l a -> In (FGuard l a LRet) (xplain_stack (xk_stack c)).
Proof. intros (rest & Hin). induction (xk_stack c) as [|f st IH]; [destruct Hin|]. destruct Hin as [->|Hin]; [cbn; now left|]. destruct f; cbn; auto. Qed.
Lemma iterating_plain c l : iterating c l -> In (FGuard l ReadOnly LRet) (xplain_stack (xk_stack c)).
Proof. intros (kd & ls & rest & Hin). induction (xk_stack c) as [|f st IH]; [destruct Hin|]. destruct Hin as [->|Hin]; [cbn; now left|]. destruct f; cbn; auto. Qed.

Lemma held_stable c g' l a : xsteady c -> xk_control c <> XLost -> In (FGuard l a LRet) (xplain_stack (xk_stack c)) -> xchange (xk_mem c) g' ->
  x_content g' l = x_content (xk_mem c) l /\ x_table g' l = x_table (xk_mem c) l.
Proof.
  intros S HL Hin H. destruct (xsteady_held S HL Hin) as [G1 G2].
  assert (X : forall t, ~ In (Other t, Exclusive) (held (locks (x_shared (xk_mem c)) l))).
  { intros t Hl. apply G2 in Hl. rewrite Hl in G1. destruct G1 as [[= ]|[]]. }
  inversion H as [? s Hs|? l0 t v Hl|? x o|? l0 t tb Hl|? l0 l2 t Ha Hl]; subst; split; try reflexivity; cbn [x_content x_table]; (destruct (N.eqb_spec l l0) as [<-|]; [|reflexivity]); exfalso; eapply X; eassumption.
Qed.

(** Who holds what the visit waits for. *)
Lemma unreadable s : ~ available s ReadOnly -> exists o, In (o, Exclusive) (held s).
Proof.
  intros H. destruct (existsb (fun x => access_eqb (snd x) Exclusive) (held s)) eqn:E.
  - apply existsb_exists in E as ([o a] & Hin & Ha). cbn in Ha. destruct a; [|discriminate]. eauto.
  - elim H. cbn. intros o Hin. assert (X : existsb (fun x => access_eqb (snd x) Exclusive) (held s) = true) by (apply existsb_exists; exists (o, Exclusive); auto). congruence.
Qed.

Lemma xprogress m std c : xended c \/ (exists c', xstep m std c c') \/
  (exists l o, needs c l /\ In (o, Exclusive) (held (locks (x_shared (xk_mem c)) l))).
Proof.
  assert (W : forall c l, needs c l -> (available (locks (x_shared (xk_mem c)) l) ReadOnly -> exists c', xstep m std c c') ->
    (exists c', xstep m std c c') \/ (exists l o, needs c l /\ In (o, Exclusive) (held (locks (x_shared (xk_mem c)) l)))).
  { intros c0 l Hn Hs. destruct (avail_dec (locks (x_shared (xk_mem c0)) l) ReadOnly) as [Ha|Ha]; [left; auto|].
    right. destruct (unreadable Ha) as (o & Ho). eauto. }
  destruct c as [g b k st]. destruct k as [p| |]; [|destruct st as [|[rest|l a rest|x rest|rest|kd l ls rest] st]|left; exact I].
  - destruct p as [| |k s body rest|k s body rest|k s x rest|l a field rest|x body rest|v rest|w ls acc k|kd ls rest].
    + destruct st as [|[rest|l a rest|x rest|rest|kd l ls rest] st]; [left; exact I | | | | |]; right.
      * left. destruct (exit_impl b) as [b' [|]] eqn:E; eexists; [eapply x_exit; eassumption | eapply x_exit_abort; eassumption].
      * left. eexists; apply x_unlock.
      * left. eexists; apply x_drop_arc.
      * left. eexists; apply x_return.
      * destruct ls as [|l2 ls]; [left; eexists; apply x_last_shard|]. apply (W _ l2); [reflexivity|]. intros Ha. eexists; now apply x_next_shard.
    + right. left. eexists; apply x_crash.
    + right. left. destruct (enter_inline m b k s) as [b' [|]] eqn:E; eexists; [eapply x_inline; eassumption | eapply x_inline_panic; eassumption].
    + right. left. destruct (enter_unique m b k s) as [b' [|]] eqn:E; eexists; [eapply x_unique; eassumption | eapply x_unique_panic; eassumption].
    + right. left. destruct (enter_shared m b k s x) as [[b' [|]] [|]] eqn:E; eexists; [eapply x_shared_new; eassumption | eapply x_shared_again; eassumption | |]; eapply x_shared_panic; exact E.
    + right. left. destruct (poisoned (locks (x_shared g) l)) eqn:Ep; [eexists; apply x_try_fails; auto|].
      destruct (avail_dec (locks (x_shared g) l) a) as [Ha|Ha]; eexists; [apply x_try; assumption | apply x_try_fails; left; eapply unavailable_held, Ha].
    + right. left. destruct (strong (x_shared g) x) eqn:Es; eexists; [eapply x_upgrade_dead; eassumption | apply x_upgrade; congruence].
    + right. left. eexists; apply x_visit.
    + right. destruct ls as [|l ls]; [left; eexists; apply x_sum_done|]. apply (W _ l); [reflexivity|]. intros Ha. cbn in Ha.
      destruct (uadd m acc (count w (x_table g l))) as [n|] eqn:E; eexists; [eapply x_sum; eassumption | eapply x_sum_overflow; eassumption].
    + right. destruct ls as [|l ls]; [left; eexists; apply x_no_shard|]. apply (W _ l); [reflexivity|]. intros Ha. eexists; now apply x_first_shard.
  - left; exact I.
  - right. left. destruct (exit_impl b) as [b' [|]] eqn:E; eexists; [eapply x_unwind_exit; eassumption | eapply x_unwind_abort; eassumption].
  - right. left. eexists; apply x_unwind_unlock.
  - right. left. eexists; apply x_unwind_arc.
  - right. left. eexists; apply x_unwind_then.
  - right. left. eexists; apply x_unwind_shard.
Qed.
