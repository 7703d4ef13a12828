(** * Lemmas for property C49: profiling next to other threads. *)
From Verif Require Import Base BaseFacts KeyModel KeyFacts HMap FlameModel BuilderModel VisitorModel Spec ImplModel LockModel LockSpec.

#[local] Arguments key_new : simpl never.

(** ** Guards and references of the visit are exactly those of the open blocks *)
Definition frame_guard (l : lock) (a : access) (f : frame) : bool :=
  match f with FGuard l' a' _ => N.eqb l' l && access_eqb a' a | _ => false end.
Definition frame_ref (x : ptr) (f : frame) : bool := match f with FArc y _ => N.eqb y x | _ => false end.
Definition open_guards (st : list frame) (l : lock) (a : access) : nat := length (filter (frame_guard l a) st).
Definition open_refs (st : list frame) (x : ptr) : nat := length (filter (frame_ref x) st).

Lemma access_eqb_spec a b : reflect (a = b) (access_eqb a b).
Proof. destruct a, b; cbn; constructor; congruence. Qed.
Lemma owner_eqb_spec a b : reflect (a = b) (owner_eqb a b).
Proof. destruct a as [|t], b as [|u]; cbn; try (constructor; congruence). destruct (Nat.eqb_spec t u); constructor; congruence. Qed.

Record consistent (s : shared) (st : list frame) : Prop := {
  co_ok : forall l, lock_ok (locks s l);
  co_guards : forall l a, guards_held s l a = open_guards st l a;
  co_refs : forall x, refs_held s x = open_refs st x }.

Definition is_mine (a : access) (x : owner * access) : bool := owner_eqb (fst x) Visit && access_eqb (snd x) a.

Lemma lock_ok_cons s o a : lock_ok s -> available s a -> lock_ok (mkLock ((o, a) :: held s) (poisoned s)).
Proof.
  intros Hk Ha o' Hin. cbn [held] in *. destruct a; cbn [available] in Ha.
  - rewrite Ha in *. destruct Hin as [E|[]]. inversion E; subst. reflexivity.
  - destruct Hin as [E|Hin]; [discriminate|]. exfalso. eapply Ha, Hin.
Qed.
Lemma remove_one_sub {A} (eqb : A -> A -> bool) x y l : In y (remove_one eqb x l) -> In y l.
Proof. induction l as [|z l IH]; cbn; [auto|]. destruct (eqb x z); cbn; tauto. Qed.
Lemma lock_ok_remove s o a p : lock_ok s -> lock_ok (mkLock (remove_guard o a (held s)) p).
Proof.
  intros Hk o' Hin. cbn [held] in *. pose proof (Hk o' (remove_one_sub Hin)) as E. rewrite E in *.
  unfold remove_guard in *. cbn [remove_one] in *. destruct (owner_eqb _ _ && access_eqb _ _); [destruct Hin | reflexivity].
Qed.

Lemma mine_remove_other t a a' l : length (filter (is_mine a') (remove_guard (Other t) a l)) = length (filter (is_mine a') l).
Proof.
  induction l as [|[o b] l IH]; [reflexivity|]. unfold remove_guard in *. cbn [remove_one fst snd].
  destruct (owner_eqb_spec (Other t) o) as [<-|H]; cbn [andb].
  - destruct (access_eqb_spec a b) as [<-|H]; cbn [filter is_mine fst snd owner_eqb andb]; [reflexivity | exact IH].
  - cbn [filter]. destruct (is_mine a' (o, b)); cbn [length]; now rewrite IH.
Qed.
Lemma mine_remove_visit a a' l : (0 < length (filter (is_mine a) l))%nat ->
  (length (filter (is_mine a') (remove_guard Visit a l)) + (if access_eqb a a' then 1 else 0) = length (filter (is_mine a') l))%nat.
Proof.
  induction l as [|[o b] l IH]; cbn [filter]; [cbn; lia|]. unfold remove_guard in *. cbn [remove_one fst snd].
  destruct o as [|t]; unfold is_mine in *; cbn [owner_eqb fst snd andb] in *.
  - destruct (access_eqb_spec a b) as [<-|H].
    + intros _. rewrite (eq_refl : access_eqb a a = true) || idtac. destruct (access_eqb_spec a a'); cbn [length]; lia.
    + assert (E : access_eqb b a = false) by (destruct (access_eqb_spec b a); congruence). rewrite E. intros Hp. specialize (IH Hp).
      cbn [filter owner_eqb fst snd andb]. destruct (access_eqb b a'); cbn [length]; lia.
  - intros Hp. apply IH. exact Hp.
Qed.

Lemma refs_remove_other t l : length (filter (owner_eqb Visit) (remove_one owner_eqb (Other t) l)) = length (filter (owner_eqb Visit) l).
Proof.
  induction l as [|o l IH]; [reflexivity|]. cbn [remove_one]. destruct (owner_eqb_spec (Other t) o) as [<-|H]; [reflexivity|].
  cbn [filter]. destruct (owner_eqb Visit o); cbn [length]; now rewrite IH.
Qed.
Lemma refs_remove_visit l : (0 < length (filter (owner_eqb Visit) l))%nat ->
  S (length (filter (owner_eqb Visit) (remove_one owner_eqb Visit l))) = length (filter (owner_eqb Visit) l).
Proof.
  induction l as [|o l IH]; cbn [filter]; [cbn; lia|]. cbn [remove_one]. destruct (owner_eqb_spec Visit o) as [<-|H].
  - intros _. reflexivity.
  - intros Hp. cbn [filter]. destruct (owner_eqb_spec Visit o); [congruence|]. now apply IH.
Qed.

Lemma guards_acquire s l o a l' a' : guards_held (acquire s l o a) l' a' =
  ((if N.eqb l' l && owner_eqb o Visit && access_eqb a a' then 1 else 0) + guards_held s l' a')%nat.
Proof.
  unfold guards_held, acquire, set_lock. cbn [locks]. destruct (N.eqb_spec l' l) as [->|H]; [|reflexivity]. cbn [held filter andb].
  unfold is_mine. cbn [fst snd]. destruct (owner_eqb o Visit && access_eqb a a'); reflexivity.
Qed.

Lemma open_guards_cons l a rest st l' a' : open_guards (FGuard l a rest :: st) l' a' =
  ((if N.eqb l l' && access_eqb a a' then 1 else 0) + open_guards st l' a')%nat.
Proof. unfold open_guards. cbn [filter frame_guard]. destruct (N.eqb l l' && access_eqb a a'); reflexivity. Qed.
Lemma open_refs_cons x rest st x' : open_refs (FArc x rest :: st) x' = ((if N.eqb x x' then 1 else 0) + open_refs st x')%nat.
Proof. unfold open_refs. cbn [filter frame_ref]. destruct (N.eqb x x'); reflexivity. Qed.

Lemma consistent_acquire s l a rest st : available (locks s l) a -> consistent s st ->
  consistent (acquire s l Visit a) (FGuard l a rest :: st).
Proof.
  intros Ha [H1 H2 H3]. constructor.
  - intros l'. unfold acquire, set_lock. cbn [locks]. destruct (N.eqb_spec l' l) as [->|H]; [now apply lock_ok_cons | apply H1].
  - intros l' a'. rewrite guards_acquire, open_guards_cons, H2. cbn [owner_eqb]. rewrite (N.eqb_sym l' l), andb_true_r. reflexivity.
  - exact H3.
Qed.
Lemma consistent_release s l a rest st p : consistent s (FGuard l a rest :: st) -> consistent (release s l Visit a p) st.
Proof.
  intros [H1 H2 H3]. constructor.
  - intros l'. unfold release, set_lock. cbn [locks]. destruct (N.eqb_spec l' l) as [->|H]; [apply lock_ok_remove | ]; apply H1.
  - intros l' a'. pose proof (H2 l' a') as E. rewrite open_guards_cons in E. unfold guards_held, release, set_lock in *. cbn [locks].
    destruct (N.eqb_spec l' l) as [->|H].
    + cbn [held]. pose proof (H2 l a) as P. rewrite open_guards_cons, N.eqb_refl in P. rewrite N.eqb_refl in E. cbn [andb] in *.
      assert (E1 : access_eqb a a = true) by (destruct a; reflexivity). rewrite E1 in P.
      pose proof (@mine_remove_visit a a' (held (locks s l))) as X. unfold is_mine in X. unfold guards_held in P. lia.
    + destruct (N.eqb_spec l l') as [->|_]; [congruence|]. cbn [andb] in E. exact E.
  - exact H3.
Qed.
Lemma consistent_upgrade s x rest st : consistent s st -> consistent (set_strong s x (Visit :: strong s x)) (FArc x rest :: st).
Proof.
  intros [H1 H2 H3]. constructor; [exact H1 | exact H2 |]. intros y. rewrite open_refs_cons, <- H3. unfold refs_held, set_strong. cbn [strong].
  rewrite (N.eqb_sym x y). destruct (N.eqb_spec y x) as [->|H]; reflexivity.
Qed.
Lemma consistent_drop s x rest st : consistent s (FArc x rest :: st) ->
  consistent (set_strong s x (remove_one owner_eqb Visit (strong s x))) st.
Proof.
  intros [H1 H2 H3]. constructor; [exact H1 | exact H2 |]. intros y. pose proof (H3 y) as E. rewrite open_refs_cons in E.
  unfold refs_held, set_strong in *. cbn [strong]. rewrite (N.eqb_sym x y) in E. destruct (N.eqb y x) eqn:Q; [apply N.eqb_eq in Q; subst y | exact E].
  assert (X : (0 < length (filter (owner_eqb Visit) (strong s x)))%nat) by lia. pose proof (refs_remove_visit X). lia.
Qed.
Lemma consistent_scope s rest st : consistent s (FScope rest :: st) <-> consistent s st.
Proof. split; intros [H1 H2 H3]; constructor; auto. Qed.

Lemma consistent_other s s' st : ostep s s' -> consistent s st -> consistent s' st.
Proof.
  intros Hs [H1 H2 H3]. destruct Hs as [s l t a Ha|s l t a p Hin|s l|s x t Hx|s x t Hin].
  - constructor; [| |exact H3].
    + intros l'. unfold acquire, set_lock. cbn [locks]. destruct (N.eqb_spec l' l) as [->|H]; [now apply lock_ok_cons | apply H1].
    + intros l' a'. rewrite guards_acquire. cbn [owner_eqb]. rewrite andb_false_r. apply H2.
  - constructor; [| |exact H3].
    + intros l'. unfold release, set_lock. cbn [locks]. destruct (N.eqb_spec l' l) as [->|H]; [apply lock_ok_remove | ]; apply H1.
    + intros l' a'. rewrite <- H2. unfold guards_held, release, set_lock. cbn [locks]. destruct (N.eqb_spec l' l) as [->|H]; [|reflexivity].
      cbn [held]. apply mine_remove_other.
  - constructor; [| |exact H3].
    + intros l' o. unfold set_lock. cbn [locks]. destruct (N.eqb_spec l' l) as [->|H]; apply H1.
    + intros l' a'. rewrite <- H2. unfold guards_held, set_lock. cbn [locks]. destruct (N.eqb_spec l' l) as [->|H]; reflexivity.
  - constructor; [exact H1 | exact H2 |]. intros y. rewrite <- H3. unfold refs_held, set_strong. cbn [strong]. destruct (N.eqb_spec y x) as [->|H]; reflexivity.
  - constructor; [exact H1 | exact H2 |]. intros y. rewrite <- H3. unfold refs_held, set_strong. cbn [strong].
    destruct (N.eqb_spec y x) as [->|H]; [apply refs_remove_other | reflexivity].
Qed.

Definition sound (c : config) : Prop := c_control c <> Gone -> consistent (c_shared c) (c_stack c).

Lemma sound_step m std c c' : vstep m std c c' -> sound c -> sound c'.
Proof.
  intros H S. unfold sound in *. destruct H; cbn [c_control c_shared c_stack] in *; intros HA; try congruence;
    (assert (S' := S ltac:(discriminate)));
    try (apply consistent_scope in S'); try (apply consistent_scope); auto using consistent_acquire, consistent_upgrade.
  all: first [eapply consistent_release; eassumption | eapply consistent_drop; eassumption | idtac].
Qed.

Lemma sound_runs m std n c c' : runs m std n c c' -> sound c -> sound c'.
Proof.
  induction 1 as [c|n c c' c'' H _ IH|n s s' b k st c'' H _ IH]; intros S; [exact S | apply IH; eapply sound_step; eauto|].
  apply IH. intros HA. cbn in *. eapply consistent_other; [exact H | apply S; exact HA].
Qed.

Lemma start_sound s b p : (forall l, lock_ok (locks s l)) -> holds_nothing s -> sound (start s b p).
Proof.
  intros H1 [H2 H3] _. constructor; [exact H1 | |]; cbn [start c_shared c_stack].
  - intros l a. unfold guards_held, open_guards. cbn. apply length_zero_iff_nil.
    destruct (filter _ (held (locks s l))) as [|[o a'] r] eqn:E; [reflexivity|]. exfalso.
    assert (Hin : In (o, a') (filter (fun x => owner_eqb (fst x) Visit && access_eqb (snd x) a) (held (locks s l)))) by (rewrite E; now left).
    apply filter_In in Hin as [Hin X]. cbn in X. destruct (owner_eqb_spec o Visit) as [->|]; [|discriminate]. eapply H2, Hin.
  - intros x. unfold refs_held, open_refs. cbn. apply length_zero_iff_nil.
    destruct (filter _ (strong s x)) as [|o r] eqn:E; [reflexivity|]. exfalso.
    assert (Hin : In o (filter (owner_eqb Visit) (strong s x))) by (rewrite E; now left).
    apply filter_In in Hin as [Hin X]. destruct (owner_eqb_spec Visit o) as [<-|]; [|discriminate]. eapply H3, Hin.
Qed.

Lemma guards_in s l a : (0 < guards_held s l a)%nat -> In (Visit, a) (held (locks s l)).
Proof.
  unfold guards_held. destruct (filter _ (held (locks s l))) as [|[o a'] r] eqn:E; cbn; [lia|]. intros _.
  assert (Hin : In (o, a') (filter (fun x => owner_eqb (fst x) Visit && access_eqb (snd x) a) (held (locks s l)))) by (rewrite E; now left).
  apply filter_In in Hin as [Hin X]. cbn in X. destruct (owner_eqb_spec o Visit) as [->|]; [|discriminate].
  destruct (access_eqb_spec a' a) as [->|]; [exact Hin | discriminate].
Qed.
Lemma in_guards s l a : In (Visit, a) (held (locks s l)) -> (0 < guards_held s l a)%nat.
Proof.
  intros Hin. unfold guards_held.
  assert (X : In (Visit, a) (filter (fun x => owner_eqb (fst x) Visit && access_eqb (snd x) a) (held (locks s l)))).
  { apply filter_In. split; [exact Hin|]. cbn. destruct a; reflexivity. }
  destruct (filter _ _); [destruct X | cbn; lia].
Qed.
Lemma refs_in s x : (0 < refs_held s x)%nat <-> In Visit (strong s x).
Proof.
  unfold refs_held. split.
  - destruct (filter _ (strong s x)) as [|o r] eqn:E; cbn; [lia|]. intros _.
    assert (Hin : In o (filter (owner_eqb Visit) (strong s x))) by (rewrite E; now left).
    apply filter_In in Hin as [Hin X]. destruct (owner_eqb_spec Visit o) as [<-|]; [exact Hin | discriminate].
  - intros Hin. assert (X : In Visit (filter (owner_eqb Visit) (strong s x))) by (apply filter_In; auto).
    destruct (filter _ _); [destruct X | cbn; lia].
Qed.
Lemma inside_guards st l a rest : In (FGuard l a rest) st -> (0 < open_guards st l a)%nat.
Proof.
  intros Hin. unfold open_guards.
  assert (X : In (FGuard l a rest) (filter (frame_guard l a) st)).
  { apply filter_In. split; [exact Hin|]. cbn. rewrite N.eqb_refl. destruct a; reflexivity. }
  destruct (filter _ _); [destruct X | cbn; lia].
Qed.
Lemma inside_refs st x rest : In (FArc x rest) st -> (0 < open_refs st x)%nat.
Proof.
  intros Hin. unfold open_refs.
  assert (X : In (FArc x rest) (filter (frame_ref x) st)) by (apply filter_In; split; [exact Hin | cbn; apply N.eqb_refl]).
  destruct (filter _ _); [destruct X | cbn; lia].
Qed.

(** ** C49: contents are read only under their guard: while the content of a lock
    is visited no other code has exclusive access to it (none at all, if the
    guard is exclusive), and what is reached through a [Weak] is alive; under
    every interleaving. *)
Lemma C49_guarded_lemma : forall m std n s b p c, (forall l, lock_ok (locks s l)) -> holds_nothing s ->
  runs m std n (start s b p) c ->
  (forall l, inside_lock c l Exclusive -> held (locks (c_shared c) l) = [(Visit, Exclusive)]) /\
  (forall l, inside_lock c l ReadOnly ->
     In (Visit, ReadOnly) (held (locks (c_shared c) l)) /\ forall o, ~ In (o, Exclusive) (held (locks (c_shared c) l))) /\
  (forall x, inside_weak c x -> In Visit (strong (c_shared c) x)).
Proof.
  intros m std n s b p c H1 H2 HR. pose proof (sound_runs HR (@start_sound s b p H1 H2)) as S. unfold sound in S.
  destruct c as [s' b' k st]. cbn [c_control c_shared c_stack] in *.
  assert (HA : k = Gone -> st = []).
  { clear - HR. remember (start s b p) as c0 eqn:E0. remember (mkConf s' b' k st) as c1 eqn:E1.
    assert (X : c_control c0 = Gone -> c_stack c0 = []) by (subst c0; discriminate). clear E0.
    assert (Y : c_control c1 = Gone -> c_stack c1 = []); [|now subst c1].
    clear E1. induction HR as [c|n c c' c'' H _ IH|n s0 s0' b0 k0 st0 c'' H _ IH]; [exact X | | apply IH; exact X].
    apply IH. destruct H; cbn; try discriminate; auto. }
  assert (Hin : forall f, In f st -> consistent s' st) by (intros f Hf; apply S; intros ->; rewrite HA in Hf by reflexivity; destruct Hf).
  unfold inside_lock, inside_weak. cbn [c_stack c_shared]. split; [|split].
  - intros l (rest & Hf). destruct (Hin _ Hf) as [O G R]. apply O. apply guards_in. rewrite G. eapply inside_guards, Hf.
  - intros l (rest & Hf). destruct (Hin _ Hf) as [O G R].
    assert (X : In (Visit, ReadOnly) (held (locks s' l))) by (apply guards_in; rewrite G; eapply inside_guards, Hf).
    split; [exact X|]. intros o Ho. apply O in Ho. rewrite Ho in X. destruct X as [X|[]]. discriminate.
  - intros x (rest & Hf). destruct (Hin _ Hf) as [O G R]. apply refs_in. rewrite R. eapply inside_refs, Hf.
Qed.

(** ** C49: everything is released: when the visit is over (returned or unwound by
    a panic) it holds no guard and no strong reference. *)
Lemma C49_released_lemma : forall m std n s b p c, (forall l, lock_ok (locks s l)) -> holds_nothing s ->
  runs m std n (start s b p) c -> over c -> c_control c <> Gone -> holds_nothing (c_shared c).
Proof.
  intros m std n s b p c H1 H2 HR Ho HA. pose proof (sound_runs HR (@start_sound s b p H1 H2) HA) as [O G R].
  assert (E : c_stack c = []).
  { unfold over in Ho. destruct (c_control c) as [[]| |]; try contradiction; destruct (c_stack c); auto; contradiction. }
  rewrite E in *. split.
  - intros l a Hin. apply in_guards in Hin. rewrite G in Hin. cbn in Hin. lia.
  - intros x Hin. apply refs_in in Hin. rewrite R in Hin. cbn in Hin. lia.
Qed.

(** ** C49: other code is not disturbed: no step of the visit changes the guards
    or references others hold, nor takes away or poisons a lock it does not hold. *)
Lemma others_remove a l : others (remove_guard Visit a l) = others l.
Proof.
  induction l as [|[o b] l IH]; [reflexivity|]. unfold remove_guard, others in *. cbn [remove_one fst snd].
  destruct (owner_eqb_spec Visit o) as [<-|H]; cbn [andb].
  - destruct (access_eqb a b); cbn [filter fst owner_eqb negb]; [reflexivity | exact IH].
  - cbn [filter fst]. rewrite IH. reflexivity.
Qed.
Lemma other_refs_remove l : other_refs (remove_one owner_eqb Visit l) = other_refs l.
Proof.
  induction l as [|o l IH]; [reflexivity|]. unfold other_refs in *. cbn [remove_one]. destruct (owner_eqb_spec Visit o) as [<-|H]; [reflexivity|].
  cbn [filter]. now rewrite IH.
Qed.

Lemma C49_others_undisturbed_lemma : forall m std c c', vstep m std c c' ->
  (forall l, others (held (locks (c_shared c') l)) = others (held (locks (c_shared c) l))) /\
  (forall x, other_refs (strong (c_shared c') x) = other_refs (strong (c_shared c) x)) /\
  (forall l, poisoned (locks (c_shared c') l) <> poisoned (locks (c_shared c) l) ->
     std l = true /\ c_control c = Unwind /\ inside_lock c l Exclusive).
Proof.
  intros m std c c' H.
  assert (D : forall s : shared, (forall l, others (held (locks s l)) = others (held (locks s l))) /\
    (forall x, other_refs (strong s x) = other_refs (strong s x))) by (split; reflexivity).
  destruct H; cbn [c_shared c_control c_stack]; unfold inside_lock; cbn [c_stack]; try (split; [reflexivity | split; [reflexivity | congruence]]);
    unfold acquire, release, set_lock, set_strong; cbn [locks strong].
  - split; [|split; [reflexivity|]]; intros l0; destruct (N.eqb_spec l0 l) as [->|Hl]; cbn [held poisoned]; auto using others_remove; try congruence.
    rewrite orb_false_r. congruence.
  - split; [reflexivity|]. split; [|congruence]. intros y. destruct (N.eqb_spec y x) as [->|Hy]; auto using other_refs_remove.
  - split; [|split; [reflexivity|]]; intros l0; destruct (N.eqb_spec l0 l) as [->|Hl]; cbn [held poisoned]; auto using others_remove; try congruence.
    intros Hp. destruct (std l), a; cbn [andb access_eqb] in Hp; rewrite ?orb_false_r in Hp; try congruence.
    split; [reflexivity|]. split; [reflexivity|]. exists rest. now left.
  - split; [reflexivity|]. split; [|congruence]. intros y. destruct (N.eqb_spec y x) as [->|Hy]; auto using other_refs_remove.
  - split; [|split; [reflexivity|]]; intros l0; destruct (N.eqb_spec l0 l) as [->|Hl]; cbn [held poisoned]; auto; congruence.
  - split; [|split; [reflexivity|]]; intros l0; destruct (N.eqb_spec l0 l) as [->|Hl]; cbn [held poisoned]; auto; congruence.
  - split; [reflexivity|]. split; [|congruence]. intros y. destruct (N.eqb_spec y x) as [->|Hy]; auto.
Qed.

(** ** C49: profiling does not wait for locks: at any moment, whatever locks other
    code holds, the visit can make its next step, and there are at most
    [steps p] of them; [DashMap]/[DashSet] excepted. *)
Definition frame_steps (f : frame) : nat :=
  match f with FScope r | FGuard _ _ r | FArc _ r => 1 + steps r end.
Definition conf_steps (c : config) : nat :=
  (match c_control c with Exec p => steps p | Unwind | Gone => 0 end + list_sum (map frame_steps (c_stack c)))%nat.
Lemma vstep_steps m std c c' : vstep m std c c' -> (conf_steps c' < conf_steps c)%nat.
Proof. destruct 1; unfold conf_steps; cbn [c_control c_stack map list_sum fold_right frame_steps steps]; try lia. Qed.
Lemma runs_steps m std n c c' : runs m std n c c' -> (n + conf_steps c' <= conf_steps c)%nat.
Proof.
  induction 1 as [c|n c c' c'' H _ IH|n s s' b k st c'' H _ IH]; [lia | apply vstep_steps in H; lia | exact IH].
Qed.

Lemma avail_dec s a : available s a \/ ~ available s a.
Proof.
  destruct s as [h p], a; cbn.
  - destruct h; [now left | right; discriminate].
  - induction h as [|[o b] h IH]; [left; auto|]. destruct b.
    + right. intros H. apply (H o). now left.
    + destruct IH as [IH|IH]; [left | right]; intros; [intros [H|H]; [discriminate | eapply IH, H]|].
      intros H. apply IH. intros o' Ho. apply (H o'). now right.
Qed.
Lemma unavailable_held s a : ~ available s a -> held s <> [].
Proof. intros H E. apply H. destruct a; cbn; rewrite E; [reflexivity | auto]. Qed.

(** If the visit cannot go on it waits for the lock of a [DashMap] shard. *)
Lemma C49_waits_only_for_shards_lemma : forall m std c,
  over c \/ (exists c', vstep m std c c') \/
  exists l a body rest, c_control c = Exec (LWait l a body rest) /\ ~ available (locks (c_shared c) l) a.
Proof.
  intros m std [s b k st]. unfold over. cbn [c_control c_stack c_shared].
  destruct k as [p| |]; [|destruct st as [|f st]; [now left | right; left]; destruct f; try (eexists; constructor; fail)|now left].
  - destruct p as [| |k n body rest|k n body rest|k n x body r1 r2|l a body rest|l a body rest|x body rest].
    + destruct st as [|f st]; [now left|]. right; left. destruct f; try (eexists; constructor; fail).
      destruct (exit_impl b) as [b' []] eqn:E; eexists; [eapply s_exit | eapply s_exit_abort]; eauto.
    + right; left. eexists. constructor.
    + right; left. destruct (enter_inline m b k n) as [b' []] eqn:E; eexists; [eapply s_inline | eapply s_inline_panic]; eauto.
    + right; left. destruct (enter_unique m b k n) as [b' []] eqn:E; eexists; [eapply s_unique | eapply s_unique_panic]; eauto.
    + right; left. destruct (enter_shared m b k n x) as [[b' []] []] eqn:E; eexists; first [eapply s_shared; eassumption | eapply s_shared_again; eassumption | eapply s_shared_panic; eassumption].
    + right; left. destruct (avail_dec (locks s l) a) as [H|H]; [destruct (poisoned (locks s l)) eqn:E|].
      * eexists. apply s_try_fails. now right.
      * eexists. now apply s_try.
      * eexists. apply s_try_fails. left. eapply unavailable_held, H.
    + right. destruct (avail_dec (locks s l) a) as [H|H]; [left; eexists; now apply s_wait | right; eauto 8].
    + right; left. destruct (strong s x) eqn:E; [eexists; now apply s_upgrade_dead | eexists; apply s_upgrade; congruence].
  - destruct (exit_impl b) as [b' []] eqn:E; eexists; [eapply s_unwind_exit | eapply s_unwind_abort]; eauto.
Qed.

Definition frame_rest (f : frame) : lprog := match f with FScope r | FGuard _ _ r | FArc _ r => r end.
Definition calm (c : config) : Prop :=
  (match c_control c with Exec p => no_waiting p | _ => True end) /\ Forall (fun f => no_waiting (frame_rest f)) (c_stack c).
Lemma calm_runs m std n c c' : runs m std n c c' -> calm c -> calm c'.
Proof.
  induction 1 as [c|n c c' c'' H _ IH|n s s' b k st c'' H _ IH]; [auto | | exact IH]. intros HC. apply IH. clear IH. unfold calm in *.
  destruct H; cbn [c_control c_stack no_waiting] in *; destruct HC as [H1 H2];
    try (inversion H2; subst); repeat (split || constructor); cbn [frame_rest] in *; try tauto.
Qed.

Lemma C49_never_waits_lemma : forall m std n s b p c, no_waiting p -> runs m std n (start s b p) c ->
  (n <= steps p)%nat /\ (over c \/ exists c', vstep m std c c').
Proof.
  intros m std n s b p c Hp HR. split.
  - pose proof (runs_steps HR) as X. unfold conf_steps, start in X. cbn in X. lia.
  - assert (HC : calm c) by (eapply calm_runs; [exact HR | split; [exact Hp | constructor]]).
    destruct (@C49_waits_only_for_shards_lemma m std c) as [H|[H|(l & a & body & rest & E & _)]]; [now left | now right |].
    destruct HC as [HC _]. rewrite E in HC. destruct HC.
Qed.

(** ** C49: the profile: whatever other code does, the visit leaves the builder as
    a visit without locks would in which the content of each lock (and target of
    each [Weak]) is present or absent. *)
Lemma run_vseq m p q : forall b, run m (vseq p q) b = and_then (run m p b) (run m q).
Proof.
  assert (A : forall r f g, and_then (and_then r f) g = and_then r (fun b => and_then (f b) g)) by (intros [b []] f g; reflexivity).
  assert (X : forall r f g, (forall b, f b = g b) -> and_then r f = and_then r g) by (intros [b []] f g H; cbn; auto).
  induction p as [| |k s body IHb rest IHr|k s body IHb rest IHr|k s x body IHb r1 IH1 r2 IH2]; intros b; cbn [vseq run]; try reflexivity.
  - destruct (enter_inline m b k s) as [b' []]; [|reflexivity]. rewrite A. apply X, IHr.
  - destruct (enter_unique m b k s) as [b' []]; [|reflexivity]. rewrite A. apply X, IHr.
  - destruct (enter_shared m b k s x) as [[b' []] []]; [| |reflexivity|reflexivity]; [rewrite A; apply X, IH1 | apply IH2].
Qed.

Inductive resolved_stack : list frame -> list (bool * vprog) -> Prop :=
| rs_nil : resolved_stack [] []
| rs_scope r r' st st' : resolves r r' -> resolved_stack st st' -> resolved_stack (FScope r :: st) ((true, r') :: st')
| rs_guard l a r r' st st' : resolves r r' -> resolved_stack st st' -> resolved_stack (FGuard l a r :: st) ((false, r') :: st')
| rs_arc x r r' st st' : resolves r r' -> resolved_stack st st' -> resolved_stack (FArc x r :: st) ((false, r') :: st').

Fixpoint back (m : mode) (st : list (bool * vprog)) (r : builder * outcome) : builder * outcome :=
  match st with
  | [] => r
  | (scope, rest) :: st' => back m st' (and_then (if scope then leave_scope r else r) (run m rest))
  end.
Lemma back_abort m st b : back m st (b, Aborted) = (b, Aborted).
Proof. induction st as [|[[] r] st IH]; cbn; auto. Qed.

Lemma resolves_some p : exists q, resolves p q.
Proof.
  induction p as [| |k s b [b' Hb] r [r' Hr]|k s b [b' Hb] r [r' Hr]|k s x b [b' Hb] r1 [r1' H1] r2 [r2' H2]|l a b [b' Hb] r [r' Hr]|l a b [b' Hb] r [r' Hr]|x b [b' Hb] r [r' Hr]];
    eexists; econstructor; eauto.
Qed.
Lemma resolved_stack_some st : exists st', resolved_stack st st'.
Proof.
  induction st as [|f st [st' IH]]; [eexists; constructor|].
  destruct f as [r|l a r|x r]; destruct (resolves_some r) as [r' Hr]; eexists; econstructor; eauto.
Qed.

Definition means (m : mode) (c : config) (res : builder * outcome) : Prop :=
  match c_control c with
  | Exec p => exists q st', resolves p q /\ resolved_stack (c_stack c) st' /\ back m st' (run m q (c_builder c)) = res
  | Unwind => exists st', resolved_stack (c_stack c) st' /\ back m st' (c_builder c, Unwinding) = res
  | Gone => (c_builder c, Aborted) = res
  end.

Lemma means_step m std c c' res : vstep m std c c' -> means m c' res -> means m c res.
Proof.
  intros H. destruct H; unfold means; cbn [c_control c_stack c_builder].
  - intros (q & st' & H1 & H2 & H3). exists VRet, ((true, q) :: st'). split; [constructor|]. split; [now constructor|]. cbn. now rewrite H.
  - intros <-. destruct (resolves_some rest) as [r' Hr]. destruct (resolved_stack_some st) as [st' Hs].
    exists VRet, ((true, r') :: st'). split; [constructor|]. split; [now constructor|]. cbn. rewrite H. cbn. apply back_abort.
  - intros (q & st' & H1 & H2 & H3). exists VRet, ((false, q) :: st'). split; [constructor|]. split; [now constructor|]. exact H3.
  - intros (q & st' & H1 & H2 & H3). exists VRet, ((false, q) :: st'). split; [constructor|]. split; [now constructor|]. exact H3.
  - intros (st' & H2 & H3). exists VCrash, st'. split; [constructor|]. split; [exact H2 | exact H3].
  - intros (st' & H2 & H3). destruct (resolves_some rest) as [r' Hr]. exists ((true, r') :: st'). split; [now constructor|]. cbn. now rewrite H.
  - intros <-. destruct (resolves_some rest) as [r' Hr]. destruct (resolved_stack_some st) as [st' Hs].
    exists ((true, r') :: st'). split; [now constructor|]. cbn. rewrite H. cbn. apply back_abort.
  - intros (st' & H2 & H3). destruct (resolves_some rest) as [r' Hr]. exists ((false, r') :: st'). split; [now constructor|]. exact H3.
  - intros (st' & H2 & H3). destruct (resolves_some rest) as [r' Hr]. exists ((false, r') :: st'). split; [now constructor|]. exact H3.
  - intros (q & st' & H1 & H2 & H3). inversion H2; subst. exists (VInline k n q r'), st'0. split; [now constructor|]. split; [assumption|].
    cbn [run back] in *. now rewrite H.
  - intros (st' & H2 & H3). destruct (resolves_some (LInline k n body rest)) as [q Hq]. exists q, st'. split; [exact Hq|]. split; [exact H2|].
    inversion Hq; subst. cbn [run]. now rewrite H.
  - intros (q & st' & H1 & H2 & H3). inversion H2; subst. exists (VUnique k n q r'), st'0. split; [now constructor|]. split; [assumption|].
    cbn [run back] in *. now rewrite H.
  - intros (st' & H2 & H3). destruct (resolves_some (LUnique k n body rest)) as [q Hq]. exists q, st'. split; [exact Hq|]. split; [exact H2|].
    inversion Hq; subst. cbn [run]. now rewrite H.
  - intros (q & st' & H1 & H2 & H3). inversion H2; subst. destruct (resolves_some r2) as [r2' Hr2].
    exists (VShared k n x q r' r2'), st'0. split; [now constructor|]. split; [assumption|]. cbn [run back] in *. now rewrite H.
  - intros (q & st' & H1 & H2 & H3). destruct (resolves_some r1) as [r1' Hr1]. destruct (resolves_some body) as [b0 Hb0].
    exists (VShared k n x b0 r1' q), st'. split; [now constructor|]. split; [assumption|]. cbn [run]. now rewrite H.
  - intros (st' & H2 & H3). destruct (resolves_some (LShared k n x body r1 r2)) as [q Hq]. exists q, st'. split; [exact Hq|]. split; [exact H2|].
    inversion Hq; subst. cbn [run]. now rewrite H.
  - intros (q & st' & H1 & H2 & H3). inversion H2; subst. exists (vseq q r'), st'0. split; [now constructor|]. split; [assumption|].
    rewrite run_vseq. reflexivity.
  - intros (q & st' & H1 & H2 & H3). exists q, st'. split; [now apply r_try_not|]. auto.
  - intros (q & st' & H1 & H2 & H3). inversion H2; subst. exists (vseq q r'), st'0. split; [now constructor|]. split; [assumption|].
    rewrite run_vseq. reflexivity.
  - intros (q & st' & H1 & H2 & H3). inversion H2; subst. exists (vseq q r'), st'0. split; [now constructor|]. split; [assumption|].
    rewrite run_vseq. reflexivity.
  - intros (q & st' & H1 & H2 & H3). exists q, st'. split; [now apply r_upgrade_not|]. auto.
Qed.

Lemma C49_profile_lemma : forall m std n s b p c, runs m std n (start s b p) c -> over c ->
  exists q, resolves p q /\ run m q b = result_of c.
Proof.
  intros m std n s b p c HR Ho.
  assert (M : means m c (result_of c)).
  { destruct c as [s' b' k st]. unfold over, means, result_of in *. cbn [c_control c_stack c_builder] in *. destruct k as [q| |]; [|destruct st; [|contradiction]; exists []; split; [constructor | reflexivity] | reflexivity].
    destruct q, st; try contradiction. exists VRet, []. repeat split; constructor. }
  assert (X : means m (start s b p) (result_of c)).
  { revert M. generalize (result_of c) as res. clear Ho. induction HR as [c|k c c' c'' H _ IH|k s0 s0' b0 k0 st0 c'' H _ IH]; intros res M; auto.
    - eapply means_step; eauto.
    - apply IH in M. exact M. }
  destruct X as (q & st' & H1 & H2 & H3). cbn [c_stack start] in H2. inversion H2; subst. exists q. split; [exact H1 | exact H3].
Qed.

(** ** C49: without interference nothing is missing: if no lock is held when the
    visit starts and no other code runs, exactly the contents of poisoned locks
    and the targets of dead [Weak]s are left out. *)
Definition frame_locks (f : frame) : list lock := match f with FGuard l _ _ => [l] | _ => [] end.
Definition stack_locks (st : list frame) : list lock := flat_map frame_locks st.
Fixpoint stack_fine (st : list frame) : Prop :=
  match st with [] => True | f :: st' => no_reentry (stack_locks st') (frame_rest f) /\ stack_fine st' end.

Definition stack_guards (st : list frame) (l : lock) : list (owner * access) :=
  flat_map (fun f => match f with FGuard l' a _ => if N.eqb l' l then [(Visit, a)] else [] | _ => [] end) st.
Lemma stack_guards_none st l : ~ In l (stack_locks st) -> stack_guards st l = [].
Proof.
  induction st as [|[r|l' a r|x r] st IH]; cbn; auto. intros H. destruct (N.eqb_spec l' l) as [->|E]; [exfalso; apply H; now left | cbn; apply IH; tauto].
Qed.

Record quiet (s : shared) (c : config) : Prop := {
  q_poison : forall l, poisoned (locks (c_shared c) l) = poisoned (locks s l);
  q_held : forall l, held (locks (c_shared c) l) = stack_guards (c_stack c) l;
  q_strong : forall x, other_refs (strong (c_shared c) x) = strong s x;
  q_refs : forall x, In Visit (strong (c_shared c) x) -> strong s x <> [];
  q_code : match c_control c with Exec p => no_reentry (stack_locks (c_stack c)) p | _ => False end;
  q_stack : stack_fine (c_stack c) }.

Definition present_stack (s : shared) (st : list frame) : list (bool * vprog) :=
  map (fun f => (match f with FScope _ => true | _ => false end, everything s (frame_rest f))) st.
Definition means_all (m : mode) (s : shared) (c : config) (res : builder * outcome) : Prop :=
  match c_control c with
  | Exec p => back m (present_stack s (c_stack c)) (run m (everything s p) (c_builder c)) = res
  | Unwind => back m (present_stack s (c_stack c)) (c_builder c, Unwinding) = res
  | Gone => (c_builder c, Aborted) = res
  end.

Lemma strong_empty s c x : quiet s c -> (strong (c_shared c) x = [] <-> strong s x = []).
Proof.
  intros [_ _ H1 H2 _ _]. specialize (H1 x). specialize (H2 x). split.
  - intros E. rewrite <- H1, E. reflexivity.
  - intros E. rewrite E in *. destruct (strong (c_shared c) x) as [|[|t] r]; [reflexivity | exfalso; apply H2; [now left | reflexivity] | discriminate H1].
Qed.

Lemma unwind_means m std c c' s res : vstep m std c c' -> c_control c = Unwind -> means_all m s c' res -> means_all m s c res.
Proof.
  intros H E. destruct H; cbn [c_control] in E; try discriminate; unfold means_all; cbn [c_control c_stack c_builder present_stack map back frame_rest and_then leave_scope].
  - unfold present_stack. now rewrite H.
  - intros <-. rewrite H. apply back_abort.
  - auto.
  - auto.
Qed.
Lemma unwind_stays m std c c' : vstep m std c c' -> c_control c = Unwind -> c_control c' = Unwind \/ c_control c' = Gone.
Proof. intros H E. destruct H; cbn in *; try discriminate; auto. Qed.
Lemma unwind_alone m std c c' s : alone m std c c' -> c_control c = Unwind \/ c_control c = Gone -> over c' -> means_all m s c (result_of c').
Proof.
  induction 1 as [c|c c' c'' H _ IH]; intros E Ho.
  - destruct c as [s' b k st]. unfold means_all, result_of, over in *. cbn [c_control c_stack c_builder] in *. destruct E as [-> | ->]; [|reflexivity].
    destruct st; [reflexivity | contradiction].
  - destruct E as [E|E]; [|destruct H; discriminate E].
    eapply unwind_means; [exact H | exact E |]. apply IH; [eapply unwind_stays; eauto | exact Ho].
Qed.


Lemma quiet_release s s0 b b' a rest st l k : quiet s (mkConf s0 b k (FGuard l a rest :: st)) ->
  quiet s (mkConf (release s0 l Visit a false) b' (Exec rest) st).
Proof.
  intros [Q1 Q2 Q3 Q4 Q5 Q6]. cbn [c_control c_stack c_builder c_shared] in *. cbn [stack_fine frame_rest] in Q6. constructor; cbn [c_control c_stack c_shared]; try tauto.
  - intros l'. rewrite <- Q1. unfold release, set_lock. cbn [locks]. destruct (N.eqb_spec l' l) as [->|H]; cbn [poisoned]; [apply orb_false_r | reflexivity].
  - intros l'. specialize (Q2 l'). cbn [stack_guards flat_map] in Q2. fold (stack_guards st l') in Q2. unfold release, set_lock. cbn [locks].
    rewrite (N.eqb_sym l l') in Q2. destruct (N.eqb l' l) eqn:X; [apply N.eqb_eq in X; subst l' | exact Q2]. cbn [held]. rewrite Q2. cbn [app]. unfold remove_guard. cbn [remove_one fst snd owner_eqb].
    destruct a; reflexivity.
Qed.
Lemma quiet_acquire s s0 b b' a body rest st l k : quiet s (mkConf s0 b k st) -> no_reentry (l :: stack_locks st) body -> no_reentry (stack_locks st) rest ->
  quiet s (mkConf (acquire s0 l Visit a) b' (Exec body) (FGuard l a rest :: st)).
Proof.
  intros [Q1 Q2 Q3 Q4 Q5 Q6] Hb Hr. cbn [c_control c_stack c_builder c_shared] in *. constructor; cbn [c_control c_stack c_shared stack_fine frame_rest]; auto.
  - intros l'. rewrite <- Q1. unfold acquire, set_lock. cbn [locks]. destruct (N.eqb_spec l' l) as [->|H]; reflexivity.
  - intros l'. specialize (Q2 l'). cbn [stack_guards flat_map]. fold (stack_guards st l'). unfold acquire, set_lock. cbn [locks].
    rewrite (N.eqb_sym l l'). destruct (N.eqb_spec l' l) as [->|H]; [|exact Q2]. cbn [held]. rewrite Q2. reflexivity.
Qed.
Lemma quiet_drop s s0 b b' rest st x k : quiet s (mkConf s0 b k (FArc x rest :: st)) ->
  quiet s (mkConf (set_strong s0 x (remove_one owner_eqb Visit (strong s0 x))) b' (Exec rest) st).
Proof.
  intros [Q1 Q2 Q3 Q4 Q5 Q6]. cbn [c_control c_stack c_builder c_shared] in *. cbn [stack_fine frame_rest] in Q6. constructor; cbn [c_control c_stack c_shared]; try tauto.
  - intros y. rewrite <- Q3. unfold set_strong. cbn [strong]. destruct (N.eqb_spec y x) as [->|H]; auto using other_refs_remove.
  - intros y Hy. apply Q4. unfold set_strong in Hy. cbn [strong] in Hy. destruct (N.eqb y x) eqn:X; [apply N.eqb_eq in X; subst y; eapply remove_one_sub, Hy | exact Hy].
Qed.
Lemma quiet_upgrade s s0 b b' body rest st x k : quiet s (mkConf s0 b k st) -> strong s x <> [] -> no_reentry (stack_locks st) body -> no_reentry (stack_locks st) rest ->
  quiet s (mkConf (set_strong s0 x (Visit :: strong s0 x)) b' (Exec body) (FArc x rest :: st)).
Proof.
  intros [Q1 Q2 Q3 Q4 Q5 Q6] Hx Hb Hr. cbn [c_control c_stack c_builder c_shared] in *. constructor; cbn [c_control c_stack c_shared stack_fine frame_rest]; auto.
  - intros y. rewrite <- Q3. unfold set_strong. cbn [strong]. destruct (N.eqb_spec y x) as [->|H]; reflexivity.
  - intros y Hy. unfold set_strong in Hy. cbn [strong] in Hy. destruct (N.eqb y x) eqn:X; [apply N.eqb_eq in X; subst y; exact Hx | apply Q4, Hy].
Qed.
Lemma quiet_code s s0 b b' p st k : quiet s (mkConf s0 b k st) -> no_reentry (stack_locks st) p -> quiet s (mkConf s0 b' (Exec p) st).
Proof. intros [Q1 Q2 Q3 Q4 Q5 Q6] H. constructor; auto. Qed.
Lemma quiet_scope s s0 b b' p rest st k : quiet s (mkConf s0 b k st) -> no_reentry (stack_locks st) p -> no_reentry (stack_locks st) rest ->
  quiet s (mkConf s0 b' (Exec p) (FScope rest :: st)).
Proof. intros [Q1 Q2 Q3 Q4 Q5 Q6] H. constructor; cbn; auto. Qed.
Lemma quiet_exit s s0 b b' rest st k : quiet s (mkConf s0 b k (FScope rest :: st)) -> quiet s (mkConf s0 b' (Exec rest) st).
Proof. intros [Q1 Q2 Q3 Q4 Q5 [Q6 Q7]]. constructor; cbn in *; auto. Qed.

Lemma quiet_step m std s c c' : quiet s c -> vstep m std c c' ->
  (quiet s c' \/ c_control c' = Unwind \/ c_control c' = Gone) /\ forall res, means_all m s c' res -> means_all m s c res.
Proof.
  intros Q H. pose proof (fun x => @strong_empty s c x Q) as SE. pose proof (q_code Q) as Q5.
  destruct H; cbn [c_control c_stack c_builder c_shared no_reentry] in *; unfold means_all; cbn [c_control c_stack c_builder c_shared]; try contradiction.
  - split; [left; eapply quiet_exit, Q|]. intros res <-. cbn. now rewrite H.
  - split; [auto|]. intros res <-. cbn. rewrite H. cbn. apply back_abort.
  - split; [left; eapply quiet_release, Q|]. intros res <-. reflexivity.
  - split; [left; eapply quiet_drop, Q|]. intros res <-. reflexivity.
  - split; [auto|]. intros res <-. reflexivity.
  - split; [left; eapply quiet_scope; [exact Q | |]; tauto|]. intros res <-. cbn [everything run]. now rewrite H.
  - split; [auto|]. intros res <-. cbn [everything run]. now rewrite H.
  - split; [left; eapply quiet_scope; [exact Q | |]; tauto|]. intros res <-. cbn [everything run]. now rewrite H.
  - split; [auto|]. intros res <-. cbn [everything run]. now rewrite H.
  - split; [left; eapply quiet_scope; [exact Q | |]; tauto|]. intros res <-. cbn [everything run]. now rewrite H.
  - split; [left; eapply quiet_code; [exact Q | tauto]|]. intros res <-. cbn [everything run]. now rewrite H.
  - split; [auto|]. intros res <-. cbn [everything run]. now rewrite H.
  - split; [left; eapply quiet_acquire; [exact Q | |]; tauto|]. intros res <-. cbn [everything].
    pose proof (q_poison Q l) as P. cbn in P. rewrite <- P, H0, run_vseq. reflexivity.
  - split; [left; eapply quiet_code; [exact Q | tauto]|]. intros res <-. cbn [everything].
    pose proof (q_poison Q l) as P. pose proof (q_held Q l) as HH. cbn [c_shared c_stack] in P, HH. rewrite stack_guards_none in HH by tauto.
    destruct H as [H|H]; [congruence|]. now rewrite <- P, H.
  - split; [left; eapply quiet_acquire; [exact Q | |]; tauto|]. intros res <-. cbn [everything]. rewrite run_vseq. reflexivity.
  - assert (X : strong s x <> []) by (rewrite <- SE; exact H).
    split; [left; eapply quiet_upgrade; [exact Q | exact X | |]; tauto|]. intros res <-. cbn [everything].
    destruct (strong s x); [congruence|]. rewrite run_vseq. reflexivity.
  - split; [left; eapply quiet_code; [exact Q | tauto]|]. intros res <-. cbn [everything]. rewrite (proj1 (SE x) H). reflexivity.
Qed.

Lemma quiet_alone m std s c c' : alone m std c c' -> quiet s c -> over c' -> means_all m s c (result_of c').
Proof.
  induction 1 as [c|c c' c'' H HA IH]; intros Q Ho.
  - destruct c as [s' b k st]. pose proof (q_code Q) as X. unfold means_all, result_of, over in *. cbn [c_control c_stack c_builder] in *.
    destruct k as [p| |]; try contradiction. destruct p, st; try contradiction. reflexivity.
  - destruct (quiet_step Q H) as [[Q'|E] M]; apply M; [now apply IH | eapply unwind_alone; eauto].
Qed.

Lemma C49_alone_lemma : forall m std s b p c, (forall l, held (locks s l) = []) -> holds_nothing s -> no_reentry [] p ->
  alone m std (start s b p) c -> over c -> run m (everything s p) b = result_of c.
Proof.
  intros m std s b p c Hs [_ Hn] Hp HA Ho. apply (@quiet_alone m std s _ c HA); [|exact Ho].
  constructor; cbn; auto; [|intros x Hx; exfalso; eapply Hn, Hx].
  intros x. unfold other_refs. specialize (Hn x). induction (strong s x) as [|o r IH]; [reflexivity|]. cbn.
  destruct (owner_eqb_spec o Visit) as [->|H]; [exfalso; apply Hn; now left|]. cbn. f_equal. apply IH. intros X. apply Hn. now right.
Qed.

(** ** C49: a panic inside the content of a [std::sync::Mutex] poisons exactly the
    mutexes whose content is being visited; other lock types are not. *)
Lemma C49_poisons_lemma : forall m std c c', c_control c = Unwind -> alone m std c c' -> over c' -> c_control c' <> Gone ->
  forall l, poisoned (locks (c_shared c') l) = true <->
    poisoned (locks (c_shared c) l) = true \/ std l = true /\ inside_lock c l Exclusive.
Proof.
  intros m std c c' E HA. induction HA as [c|c c' c'' H HA IH]; intros Ho Hn l.
  - destruct c as [s b k st]. cbn in *. subst k. unfold over, inside_lock in *. cbn in *. destruct st; [|contradiction].
    split; [auto|]. intros [X|(_ & rest & [])]. exact X.
  - destruct (unwind_stays H E) as [E'|E'].
    + rewrite (IH E' Ho Hn l). clear IH. destruct H; cbn [c_control] in *; try discriminate; unfold inside_lock; cbn [c_stack c_shared].
      * split; intros [X|(X & r & Hin)]; auto; [right | right]; (split; [exact X|]); [exists r; now right | destruct Hin as [Hin|Hin]; [discriminate | eauto]].
      * unfold release, set_lock. cbn [locks]. destruct (N.eqb_spec l l0) as [->|Hl]; cbn [poisoned].
        -- rewrite orb_true_iff, andb_true_iff. split.
           ++ intros [[X|[X Y]]|(X & r & Hin)]; auto.
              ** destruct a; [|discriminate]. right. split; [exact X|]. exists rest. now left.
              ** right. split; [exact X|]. exists r. now right.
           ++ intros [X|(X & r & Hin)]; auto. destruct Hin as [Hin|Hin]; [inversion Hin; subst; auto | right; eauto].
        -- split; intros [X|(X & r & Hin)]; auto; right; (split; [exact X|]); [exists r; now right|].
           destruct Hin as [Hin|Hin]; [inversion Hin; congruence | eauto].
      * split; intros [X|(X & r & Hin)]; auto; right; (split; [exact X|]); [exists r; now right|].
        destruct Hin as [Hin|Hin]; [discriminate | eauto].
    + exfalso. apply Hn. clear - HA E'. inversion HA; subst; [exact E'|]. destruct H; discriminate E'.
Qed.

(** ** C49: the implementations.  Their two outcomes are those of ImplModel. *)
Lemma C49_cells_lemma : forall t l a n content q,
  resolves (l_cell t l a (n, content)) q <->
  (exists x, q = impl_cell t false x) \/ (exists content', resolves content content' /\ q = impl_cell t true [(n, content')]).
Proof.
  intros t l a n content q. unfold l_cell, impl_cell, enter_self, v_enter_self. cbn [fst snd]. split.
  - intros H. inversion H as [| |? ? ? ? ? ? Hb Hr| | | | | | |]; subst. inversion Hr; subst. inversion Hb as [| | | | |? ? ? b2 ? ? Hc Hr2|? ? ? ? ? Hr2| | |]; subst.
    + inversion Hr2; subst. inversion Hc as [| |? ? ? ? ? ? Hd Hr3| | | | | | |]; subst. inversion Hr3; subst. right. eexists. split; [exact Hd | reflexivity].
    + inversion Hr2; subst. left. exists []. reflexivity.
  - intros [[x ->]|(c' & Hc & ->)].
    + constructor; [apply r_try_not; constructor | constructor].
    + constructor; [|constructor]. apply (@r_try_ok l a _ (VInline DATA_NAME n c' VRet) _ VRet); [|constructor]. constructor; [exact Hc | constructor].
Qed.

Lemma vseq_ret p : vseq p VRet = p.
Proof. induction p; cbn; congruence. Qed.
Lemma vseq_assoc p q r : vseq (vseq p q) r = vseq p (vseq q r).
Proof. induction p; cbn; congruence. Qed.

Lemma C49_weaks_lemma : forall t x t' ps pointee arc q, (forall q', resolves arc q' <-> q' = impl_shared_ptr pointee t' ps x) ->
  (resolves (l_weak t x arc) q <-> q = impl_weak pointee t None \/ q = impl_weak pointee t (Some (t', ps, x))).
Proof.
  intros t x t' ps pointee arc q HA. unfold l_weak, impl_weak, enter_self, v_enter_self. split.
  - intros H. inversion H as [| |? ? ? ? ? ? Hb Hr| | | | | | |]; subst. inversion Hr; subst.
    inversion Hb as [| | | | | | | |? ? b2 ? ? Hc Hr2|? ? ? ? Hr2]; subst; inversion Hr2; subst; [|now left].
    right. apply HA in Hc. subst b2. reflexivity.
  - intros [->| ->]; (constructor; [|constructor]); [apply r_upgrade_not; constructor|].
    rewrite <- (vseq_ret (impl_shared_ptr pointee t' ps x)). apply r_upgrade_ok; [now apply HA | constructor].
Qed.

Fixpoint plain_spine (p : lprog) : Prop :=
  match p with
  | LRet => True
  | LCrash | LShared _ _ _ _ _ _ => False
  | LInline _ _ _ r | LUnique _ _ _ r => plain_spine r
  | LTry _ _ b r | LWait _ _ b r | LUpgrade _ b r => plain_spine r
  end.
Lemma resolves_lseq p : plain_spine p -> forall q r, resolves (lseq p q) r <-> exists p' q', resolves p p' /\ resolves q q' /\ r = vseq p' q'.
Proof.
  induction p as [| |k s b IHb r0 IHr|k s b IHb r0 IHr|k s x b IHb r1 IH1 r2 IH2|l a b IHb r0 IHr|l a b IHb r0 IHr|x b IHb r0 IHr];
    cbn [plain_spine]; try contradiction; intros Hp q r; cbn [lseq].
  - split; [intros H; exists VRet, r; repeat split; [constructor | exact H] | intros (p' & q' & H1 & H2 & ->); inversion H1; subst; exact H2].
  - split.
    + intros H. inversion H as [| |? ? ? b' ? ? Hb Hr| | | | | | |]; subst. apply IHr in Hr as (p' & q' & H1 & H2 & ->); [|exact Hp].
      exists (VInline k s b' p'), q'. repeat split; [now constructor | exact H2].
    + intros (p' & q' & H1 & H2 & ->). inversion H1; subst. cbn. constructor; [assumption|]. apply IHr; eauto.
  - split.
    + intros H. inversion H as [| | |? ? ? b' ? ? Hb Hr| | | | | |]; subst. apply IHr in Hr as (p' & q' & H1 & H2 & ->); [|exact Hp].
      exists (VUnique k s b' p'), q'. repeat split; [now constructor | exact H2].
    + intros (p' & q' & H1 & H2 & ->). inversion H1; subst. cbn. constructor; [assumption|]. apply IHr; eauto.
  - split.
    + intros H. inversion H as [| | | | |? ? ? b' ? ? Hb Hr|? ? ? ? ? Hr| | |]; subst; apply IHr in Hr as (p' & q' & H1 & H2 & ->); try exact Hp.
      * exists (vseq b' p'), q'. repeat split; [now constructor | exact H2 | now rewrite vseq_assoc].
      * exists p', q'. repeat split; [now apply r_try_not | exact H2].
    + intros (p' & q' & H1 & H2 & ->). inversion H1; subst; [rewrite vseq_assoc; constructor; [assumption|]; apply IHr; eauto | apply r_try_not; apply IHr; eauto].
  - split.
    + intros H. inversion H as [| | | | | | |? ? ? b' ? ? Hb Hr| |]; subst; apply IHr in Hr as (p' & q' & H1 & H2 & ->); try exact Hp.
      exists (vseq b' p'), q'. repeat split; [now constructor | exact H2 | now rewrite vseq_assoc].
    + intros (p' & q' & H1 & H2 & ->). inversion H1; subst. rewrite vseq_assoc; constructor; [assumption|]; apply IHr; eauto.
  - split.
    + intros H. inversion H as [| | | | | | | |? ? b' ? ? Hb Hr|? ? ? ? Hr]; subst; apply IHr in Hr as (p' & q' & H1 & H2 & ->); try exact Hp.
      * exists (vseq b' p'), q'. repeat split; [now constructor | exact H2 | now rewrite vseq_assoc].
      * exists p', q'. repeat split; [now apply r_upgrade_not | exact H2].
    + intros (p' & q' & H1 & H2 & ->). inversion H1; subst; [rewrite vseq_assoc; constructor; [assumption|]; apply IHr; eauto | apply r_upgrade_not; apply IHr; eauto].
Qed.

Lemma plain_count shards : plain_spine (l_count shards).
Proof. induction shards as [|s shards IH]; cbn; auto. Qed.
Lemma resolves_count shards q : resolves (l_count shards) q <-> q = VRet.
Proof.
  revert q. induction shards as [|s shards IH]; intros q; unfold l_count in *; cbn [map lseqs lseq].
  - split; [intros H; now inversion H | intros ->; constructor].
  - split.
    + intros H. inversion H as [| | | | | | |? ? ? b' ? ? Hb Hr| |]; subst. inversion Hb; subst. apply IH in Hr. now subst.
    + intros ->. apply (@r_wait _ _ _ VRet _ VRet); [constructor | now apply IH].
Qed.
Lemma plain_entries es : plain_spine (l_entries es).
Proof. induction es as [|[[? ?] [? ?]] es IH]; cbn; auto. Qed.
Lemma resolves_entries es : forall q, resolves (l_entries es) q <->
  exists cs, Forall2 resolved_sub (flat_entries es) cs /\ q = fields_kv KEY_NAME VALUE_NAME cs.
Proof.
  induction es as [|[[kn kp] [vn vp]] es IH]; intros q; unfold l_entries in *; cbn [map lseqs lseq flat_entries flat_map app fst snd].
  - split; [intros H; inversion H; subst; exists []; split; [constructor | reflexivity] | intros (cs & H & ->); inversion H; subst; constructor].
  - split.
    + intros H. inversion H as [| |? ? ? k' ? ? Hk Hr| | | | | | |]; subst. inversion Hr as [| |? ? ? v' ? ? Hv Hr2| | | | | | |]; subst.
      apply IH in Hr2 as (cs & H1 & ->). exists ((kn, k') :: (vn, v') :: cs). split; [|reflexivity].
      constructor; [split; auto|]. constructor; [split; auto|]. exact H1.
    + intros (cs & H & ->). inversion H as [|? [n1 k'] ? cs1 [E1 R1] H1]; subst. inversion H1 as [|? [n2 v'] ? cs2 [E2 R2] H2]; subst.
      cbn [fst snd] in *. subst. cbn. constructor; [exact R1|]. constructor; [exact R2|]. apply IH. eauto.
Qed.
Lemma fields_kv_app es : forall a b, Forall2 resolved_sub (flat_entries es) a ->
  fields_kv KEY_NAME VALUE_NAME (a ++ b) = vseq (fields_kv KEY_NAME VALUE_NAME a) (fields_kv KEY_NAME VALUE_NAME b).
Proof.
  induction es as [|[k v] es IH]; intros a b H; cbn [flat_entries flat_map app fst snd] in H.
  - inversion H; subst. reflexivity.
  - inversion H as [|? x ? a1 _ H1]; subst. inversion H1 as [|? y ? a2 _ H2]; subst. cbn [app fields_kv]. now rewrite (IH _ _ H2).
Qed.
Lemma Forall2_app_split {A B} (R : A -> B -> Prop) l1 l2 c : Forall2 R (l1 ++ l2) c -> exists c1 c2, c = c1 ++ c2 /\ Forall2 R l1 c1 /\ Forall2 R l2 c2.
Proof. intros H. apply Forall2_app_inv_l in H as (c1 & c2 & H1 & H2 & ->). eauto 6. Qed.
Lemma resolves_shards shards : forall q, resolves (lseqs (map (fun s => LWait (fst s) ReadOnly (l_entries (snd s)) LRet) shards)) q <->
  exists cs, Forall2 resolved_sub (shard_entries shards) cs /\ q = fields_kv KEY_NAME VALUE_NAME cs.
Proof.
  induction shards as [|[l es] shards IH]; intros q; cbn [map lseqs lseq shard_entries flat_map fst snd].
  - split; [intros H; inversion H; subst; exists []; split; [constructor | reflexivity] | intros (cs & H & ->); inversion H; subst; constructor].
  - split.
    + intros H. inversion H as [| | | | | | |? ? ? b' ? ? Hb Hr| |]; subst. apply resolves_entries in Hb as (c1 & H1 & ->). apply IH in Hr as (c2 & H2 & ->).
      exists (c1 ++ c2). split; [now apply Forall2_app | now rewrite (fields_kv_app c2 H1)].
    + intros (cs & H & ->). apply Forall2_app_split in H as (c1 & c2 & -> & H1 & H2). rewrite (fields_kv_app c2 H1).
      constructor; [apply resolves_entries; eauto | apply IH; eauto].
Qed.
Lemma plain_shards shards : plain_spine (lseqs (map (fun s => LWait (fst s) ReadOnly (l_entries (snd s)) LRet) shards)).
Proof. induction shards as [|[l es] shards IH]; cbn; auto. Qed.

Lemma C49_dash_maps_lemma : forall m t e n cap shards q, n <= cap -> cap * t_size e < two64 ->
  (resolves (l_dash_map t e n cap shards) q <->
   exists cs, Forall2 resolved_sub (shard_entries shards) cs /\ q = impl_dash_map m t e n cap cs).
Proof.
  intros m t e n cap shards q Hn Hc. unfold impl_dash_map. rewrite umul_exact by exact Hc. cbn [with_val].
  assert (Es : usaturating_sub cap n = cap - n) by reflexivity. rewrite Es.
  rewrite umul_exact by nia. cbn [with_val].
  unfold l_dash_map, enter_self, v_enter_self. split.
  - intros H. inversion H as [| |? ? ? b0 ? ? H0 Hr| | | | | | |]; subst. inversion Hr; subst.
    inversion H0 as [| | |? ? ? b1 ? ? H1 Hr1| | | | | |]; subst. inversion Hr1; subst.
    apply resolves_lseq in H1 as (p' & q' & Hp & Hq & ->); [|apply plain_count]. apply resolves_count in Hp. subst p'.
    inversion Hq as [| |? ? ? b2 ? ? H2 Hr2| | | | | | |]; subst. inversion Hr2; subst.
    apply resolves_lseq in H2 as (p' & q' & Hp & Hq' & ->); [|apply plain_shards]. apply resolves_shards in Hp as (cs & Hcs & ->).
    apply resolves_lseq in Hq' as (p' & q2 & Hp & Hq2 & ->); [|apply plain_count]. apply resolves_count in Hp. subst p'.
    apply resolves_lseq in Hq2 as (p' & q3 & Hp & Hq3 & ->); [|apply plain_count]. apply resolves_count in Hp. subst p'.
    inversion Hq3 as [| |? ? ? b3 ? ? H3 Hr3| | | | | | |]; subst. inversion H3; subst. inversion Hr3; subst.
    exists cs. split; [exact Hcs | reflexivity].
  - intros (cs & Hcs & ->). constructor; [|constructor]. constructor; [|constructor].
    apply resolves_lseq; [apply plain_count|]. eexists VRet, _. split; [now apply resolves_count|]. split; [|reflexivity].
    constructor; [|constructor]. apply resolves_lseq; [apply plain_shards|]. eexists _, _. split; [apply resolves_shards; eauto|]. split; [|reflexivity].
    apply resolves_lseq; [apply plain_count|]. eexists VRet, _. split; [now apply resolves_count|]. split; [|reflexivity].
    apply resolves_lseq; [apply plain_count|]. eexists VRet, _. split; [now apply resolves_count|]. split; [|reflexivity].
    constructor; constructor.
Qed.
