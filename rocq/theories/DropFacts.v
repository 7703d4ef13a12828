(** * Proofs for C56. *)
From Coq Require Import Lia.
From Verif Require Import Base BaseFacts KeyModel HMap FlameModel BuilderModel VisitorModel ImplModel LockModel LockSpec LockFacts PoolModel DropModel DropSpec.

(** ** The guards of destructors *)
Definition is_own (a : access) (x : owner * access) : bool := owner_eqb (fst x) (Other 0) && access_eqb (snd x) a.
Definition own_guards (s : shared) (l : lock) (a : access) : nat := length (filter (is_own a) (held (locks s l))).
Definition is_release (l : lock) (a : access) (i : ditem) : bool :=
  match i with Release l' a' => N.eqb l' l && access_eqb a' a | Code _ => false end.
Definition open_own (todo : list ditem) (l : lock) (a : access) : nat := length (filter (is_release l a) todo).

Lemma own_others a l : filter (is_own a) l = filter (is_own a) (others l).
Proof.
  induction l as [|[o b] l IH]; [reflexivity|]. unfold others. cbn [filter]. destruct o as [|t]; cbn [fst owner_eqb negb]; [exact IH|].
  cbn [filter]. unfold others in IH. now rewrite IH.
Qed.
Lemma own_vstep m std c c' l a : vstep m std c c' -> own_guards (c_shared c') l a = own_guards (c_shared c) l a.
Proof. intros H. unfold own_guards. rewrite own_others, (own_others a (held (locks (c_shared c) l))). now rewrite (proj1 (C49_others_undisturbed_lemma H)). Qed.
Lemma own_remove_other o a a' l : o <> Other 0 -> length (filter (is_own a') (remove_guard o a l)) = length (filter (is_own a') l).
Proof.
  intros Ho. unfold remove_guard. induction l as [|[o1 a1] l IH]; [reflexivity|]. cbn [remove_one fst snd].
  destruct (owner_eqb_spec o o1) as [<-|H]; cbn [andb].
  - destruct (access_eqb_spec a a1) as [<-|H]; cbn [filter].
    + unfold is_own at 2. cbn [fst]. destruct (owner_eqb_spec o (Other 0)); [contradiction | reflexivity].
    + destruct (is_own a' (o, a1)); cbn [length]; now rewrite IH.
  - cbn [filter]. destruct (is_own a' (o1, a1)); cbn [length]; now rewrite IH.
Qed.
Lemma own_remove_own a a' l : In (Other 0, a) l ->
  ((if access_eqb a a' then 1 else 0) + length (filter (is_own a') (remove_guard (Other 0) a l)))%nat = length (filter (is_own a') l).
Proof.
  unfold remove_guard. induction l as [|[o1 a1] l IH]; intros Hin; [destruct Hin|]. cbn [remove_one fst snd].
  destruct (owner_eqb_spec (Other 0) o1) as [<-|H]; cbn [andb].
  - destruct (access_eqb_spec a a1) as [<-|H]; cbn [filter].
    + unfold is_own at 2. cbn [fst snd owner_eqb Nat.eqb andb]. destruct (access_eqb a a'); reflexivity.
    + destruct Hin as [E|Hin]; [inversion E; congruence|]. specialize (IH Hin). destruct (is_own a' (Other 0, a1)); cbn [length]; lia.
  - destruct Hin as [E|Hin]; [inversion E; congruence|]. specialize (IH Hin). cbn [filter]. destruct (is_own a' (o1, a1)); cbn [length]; lia.
Qed.
Lemma own_acquire s l o a l' a' : own_guards (acquire s l o a) l' a' =
  ((if N.eqb l' l && owner_eqb o (Other 0) && access_eqb a a' then 1 else 0) + own_guards s l' a')%nat.
Proof.
  unfold own_guards, acquire, set_lock. cbn [locks]. destruct (N.eqb_spec l' l) as [->|H]; [|reflexivity]. cbn [held filter andb].
  unfold is_own at 1. cbn [fst snd]. destruct (owner_eqb o (Other 0) && access_eqb a a'); reflexivity.
Qed.
Lemma own_in s l a : (0 < own_guards s l a)%nat -> In (Other 0, a) (held (locks s l)).
Proof.
  unfold own_guards. intros H. destruct (filter _ _) as [|[o b] r] eqn:E; [cbn in H; lia|].
  assert (Hin : In (o, b) (filter (is_own a) (held (locks s l)))) by (rewrite E; now left).
  apply filter_In in Hin as [Hin X]. unfold is_own in X. cbn [fst snd] in X. destruct (owner_eqb_spec o (Other 0)) as [->|]; [|discriminate].
  destruct (access_eqb_spec b a) as [->|]; [exact Hin | discriminate].
Qed.
Lemma own_outside s s' l a : outside 1 s s' -> own_guards s' l a = own_guards s l a.
Proof.
  intros H. destruct H as [s l' t a' Ht Ha|s l' t a' p Ht Hin|s l'|s x t Ht Hx|s x t Ht Hin]; try reflexivity.
  - rewrite own_acquire. cbn [owner_eqb]. destruct t; [lia|]. cbn [Nat.eqb]. now rewrite andb_false_r.
  - unfold own_guards, release, set_lock. cbn [locks]. destruct (N.eqb_spec l l') as [->|]; [|reflexivity]. cbn [held].
    apply own_remove_other. intros E. inversion E. lia.
  - unfold own_guards, set_lock. cbn [locks]. destruct (N.eqb_spec l l') as [->|]; reflexivity.
Qed.
Lemma outside_ostep n s s' : outside n s s' -> ostep s s'.
Proof. destruct 1; [now apply o_acquire | now apply o_release | apply o_clear_poison | now apply o_clone | now apply o_drop]. Qed.

Definition counted (d : dstate) : Prop := forall l a, own_guards (c_shared (d_conf d)) l a = open_own (d_todo d) l a.

Lemma access_refl a : access_eqb a a = true. Proof. now destruct a. Qed.
Lemma counted_in c l a todo : counted (mkD c (Release l a :: todo)) -> In (Other 0, a) (held (locks (c_shared c) l)).
Proof.
  intros H. apply own_in. specialize (H l a). cbn [d_conf d_todo] in H. rewrite H. unfold open_own. cbn [filter is_release].
  rewrite N.eqb_refl, access_refl. cbn. lia.
Qed.
Lemma counted_step m std dtor d d' : dstep m std dtor d d' -> counted d -> counted d'.
Proof.
  intros HS H. destruct HS as [c c' HV _|c c' x HV _|c todo|c l a body rest todo Ha|c l a todo|c x t rest todo s' Hin -> _|c x t rest todo s' Hin -> _|c x t rest todo _];
    intros l' a'; pose proof (H l' a') as E; cbn [d_conf d_todo with_shared c_shared] in *.
  - rewrite (own_vstep l' a' HV). exact E.
  - rewrite (own_vstep l' a' HV). exact E.
  - exact E.
  - rewrite own_acquire, E. unfold open_own. cbn [filter is_release owner_eqb Nat.eqb]. rewrite andb_true_r, (N.eqb_sym l l').
    destruct (N.eqb l' l && access_eqb a a'); cbn [length]; lia.
  - pose proof (counted_in H) as Hin. unfold open_own in E. cbn [filter is_release] in E. unfold own_guards, release, set_lock in *. cbn [locks].
    rewrite (N.eqb_sym l l') in E. destruct (N.eqb_spec l' l) as [->|Hl]; cbn [andb held] in *.
    + pose proof (own_remove_own a' Hin). destruct (access_eqb a a'); cbn [length] in E; unfold open_own; lia.
    + exact E.
  - exact E.
  - exact E.
  - exact E.
Qed.

(** ** To the visit a destructor is other code *)
Lemma dstep_runs m std dtor d d' : dstep m std dtor d d' -> counted d -> exists n, runs m std n (d_conf d) (d_conf d').
Proof.
  intros HS H. destruct HS as [c c' HV _|c c' x HV _|c todo|c l a body rest todo Ha|c l a todo|c x t rest todo s' Hin -> _|c x t rest todo s' Hin -> _|c x t rest todo _];
    cbn [d_conf d_todo] in *.
  1, 2: exists 1%nat; eapply runs_visit; [exact HV | apply runs_refl].
  1, 6: exists 0%nat; apply runs_refl.
  all: exists 0%nat; destruct c as [s b k st]; unfold with_shared; cbn [c_shared c_builder c_control c_stack] in *; eapply runs_other; [|apply runs_refl].
  - now apply o_acquire.
  - apply o_release. exact (counted_in H).
  - now apply o_drop.
  - now apply o_drop.
Qed.
Lemma runs_app m std n n' c c' c'' : runs m std n c c' -> runs m std n' c' c'' -> runs m std (n + n') c c''.
Proof.
  induction 1 as [c|n c c' c1 H _ IH|n s s' b k st c1 H _ IH]; intros X; [exact X | eapply runs_visit; eauto | eapply runs_other; eauto].
Qed.
Lemma druns_counted m std dtor d d' : druns m std dtor d d' -> counted d -> counted d'.
Proof.
  induction 1 as [d|d d' d'' H _ IH|c todo s' d'' H _ IH]; intros C; [exact C | apply IH; eapply counted_step; eauto |].
  apply IH. intros l a. cbn [d_conf d_todo with_shared c_shared]. rewrite (own_outside l a H). apply C.
Qed.
Lemma druns_runs m std dtor d d' : druns m std dtor d d' -> counted d -> exists n, runs m std n (d_conf d) (d_conf d').
Proof.
  induction 1 as [d|d d' d'' H _ IH|c todo s' d'' H _ IH]; intros C; [exists 0%nat; apply runs_refl | |].
  - destruct (dstep_runs H C) as (n & R). destruct (IH (counted_step H C)) as (n' & R'). eexists. eapply runs_app; eauto.
  - destruct IH as (n & R). { intros l a. cbn [d_conf d_todo with_shared c_shared]. rewrite (own_outside l a H). apply C. }
    exists n. destruct c as [s b k st]. cbn [d_conf with_shared c_shared c_builder c_control c_stack] in *. eapply runs_other; [eapply outside_ostep; exact H | exact R].
Qed.
Lemma start_counted s b p : (forall l a, ~ In (Other 0, a) (held (locks s l))) -> counted (mkD (start s b p) []).
Proof.
  intros H l a. cbn. unfold own_guards. destruct (filter _ _) as [|[o b'] r] eqn:E; [reflexivity|].
  assert (Hin : In (o, b') (filter (is_own a) (held (locks s l)))) by (rewrite E; now left). exfalso.
  assert (X : In (Other 0, a) (held (locks s l))) by (apply own_in; unfold own_guards; rewrite E; cbn; lia). exact (H l a X).
Qed.

(** ** Progress *)
Lemma vstep_dies m std c c' : vstep m std c c' -> (exists x, dies (c_shared c) (c_shared c') x) \/ (forall x, ~ dies (c_shared c) (c_shared c') x).
Proof.
  assert (X : forall s x, (exists y, dies s (set_strong s x (remove_one owner_eqb Visit (strong s x))) y) \/
    (forall y, ~ dies s (set_strong s x (remove_one owner_eqb Visit (strong s x))) y)).
  { intros s x. assert (D : {dies s (set_strong s x (remove_one owner_eqb Visit (strong s x))) x} + {~ dies s (set_strong s x (remove_one owner_eqb Visit (strong s x))) x}).
    { unfold dies, set_strong. cbn [strong]. rewrite N.eqb_refl. destruct (strong s x) as [|o r]; [right; tauto|].
      destruct (remove_one owner_eqb Visit (o :: r)); [left; split; [discriminate | reflexivity] | right; intros [_ E]; discriminate]. }
    destruct D as [D|D]; [left; eauto|]. right. intros y [H1 H2]. unfold set_strong in H2. cbn [strong] in H2.
    destruct (N.eqb_spec y x) as [->|]; [|contradiction]. apply D. split; [exact H1|]. unfold set_strong. cbn [strong]. rewrite N.eqb_refl. exact H2. }
  intros H. destruct H; cbn [c_shared]; try (right; intros y [H1 H2]; contradiction); try apply X.
  right. intros y [H1 H2]. unfold set_strong in H2. cbn [strong] in H2. destruct (N.eqb y x); [discriminate | contradiction].
Qed.
Lemma ref_dec t (l : list owner) : In (Other t) l \/ ~ In (Other t) l.
Proof.
  induction l as [|o l [IH|IH]]; [right; intros [] | left; now right |]. destruct (owner_eqb_spec o (Other t)) as [->|H]; [left; now left|].
  right. intros [E|E]; auto.
Qed.
Lemma C56_waits_lemma : forall m std dtor d,
  d_over d \/ (exists d', dstep m std dtor d d') \/
  (exists l a body rest, d_todo d = [] /\ c_control (d_conf d) = Exec (LWait l a body rest) /\ ~ available (locks (c_shared (d_conf d)) l) a) \/
  (exists l a, wants d l a /\ ~ available (locks (c_shared (d_conf d)) l) a).
Proof.
  intros m std dtor [c [|[[|l a body rest|x t rest]|l a] todo]].
  - destruct (@C49_waits_only_for_shards_lemma m std c) as [H|[(c' & H)|(l & a & body & rest & H)]].
    + left. split; auto.
    + right; left. destruct (vstep_dies H) as [[x Hx]|Hx]; eexists; [eapply d_visit_last | eapply d_visit]; eauto.
    + right; right; left. exists l, a, body, rest. auto.
  - right; left. eexists. apply d_ret.
  - destruct (avail_dec (locks (c_shared c) l) a) as [H|H].
    + right; left. eexists. now apply d_lock.
    + right; right; right. exists l, a. split; [eexists _, _, _; reflexivity | exact H].
  - right; left. destruct (ref_dec t (strong (c_shared c) x)) as [H|H]; [|eexists; now apply d_drop_gone].
    destruct (strong (set_strong (c_shared c) x (remove_one owner_eqb (Other t) (strong (c_shared c) x))) x) eqn:E;
      eexists; [eapply d_drop_last; eauto | eapply d_drop; eauto; rewrite E; discriminate].
  - right; left. eexists. apply d_release.
Qed.

(** ** A destructor and the guards of the visit *)
Definition code_ok (p : lprog) (q : lprog) : Prop := forall l, weak_inside l q -> weak_inside l p.
Definition frame_code (f : LockModel.frame) : lprog := match f with FScope r | FGuard _ _ r | FArc _ r => r end.
(** [w]: there is a [Weak] above. *)
Fixpoint stack_ok (p : lprog) (w : Prop) (st : list LockModel.frame) : Prop :=
  match st with
  | [] => True
  | f :: st' => code_ok p (frame_code f) /\
      match f with
      | FScope r => stack_ok p (w \/ has_weak r) st'
      | FGuard l _ r => (w -> weak_inside l p) /\ stack_ok p (w \/ has_weak r) st'
      | FArc _ r => stack_ok p True st'
      end
  end.
Lemma stack_ok_mono p st : forall (w w' : Prop), (w' -> w) -> stack_ok p w st -> stack_ok p w' st.
Proof.
  induction st as [|f st IH]; intros w w' Hw H; [exact I|]. cbn in *. destruct H as [H1 H2]. split; [exact H1|].
  destruct f as [r|l a r|x r]; [eapply IH; [|exact H2]; tauto | destruct H2 as [H2 H3]; split; [tauto | eapply IH; [|exact H3]; tauto] | exact H2].
Qed.
Definition conf_ok (p : lprog) (c : config) : Prop :=
  match c_control c with
  | Exec q => code_ok p q /\ stack_ok p (has_weak q) (c_stack c)
  | Unwind => stack_ok p False (c_stack c)
  | Gone => True
  end.
Lemma conf_ok_step m std whole c c' : vstep m std c c' -> conf_ok whole c -> conf_ok whole c'.
Proof.
  intros H C. destruct H; unfold conf_ok in *; cbn [c_control c_stack stack_ok frame_code] in *; unfold code_ok in *; cbn [has_weak weak_inside] in *;
    repeat match goal with H : _ /\ _ |- _ => destruct H end; repeat split; auto;
    try (intros; match goal with H : forall l, _ -> weak_inside l whole |- _ => apply H; tauto end);
    try tauto; try (eapply stack_ok_mono; [|eassumption]; tauto).
Qed.
Lemma guards_below p st l a r : stack_ok p True st -> In (FGuard l a r) st -> weak_inside l p.
Proof.
  induction st as [|f st IH]; intros H Hin; [destruct Hin|]. cbn in H. destruct H as [_ H]. destruct Hin as [->|Hin].
  - now apply H.
  - apply IH; [|exact Hin]. destruct f as [r'|l' a' r'|x r']; [|destruct H as [_ H]|]; eapply stack_ok_mono; try exact H; tauto.
Qed.

Definition todo_ok (dtor : ptr -> dprog) (todo : list ditem) : Prop :=
  Forall (fun i => match i with Code q => forall l, d_takes l q -> exists x, d_takes l (dtor x) | Release _ _ => True end) todo.
Definition drop_ok (p : lprog) (dtor : ptr -> dprog) (d : dstate) : Prop :=
  conf_ok p (d_conf d) /\ todo_ok dtor (d_todo d) /\
  (d_todo d <> [] -> c_control (d_conf d) <> Gone /\ forall l a r, In (FGuard l a r) (c_stack (d_conf d)) -> weak_inside l p).
Lemma vstep_last m std p c c' x : vstep m std c c' -> dies (c_shared c) (c_shared c') x -> conf_ok p c ->
  c_control c' <> Gone /\ forall l a r, In (FGuard l a r) (c_stack c') -> weak_inside l p.
Proof.
  intros H [D1 D2] C. destruct H; cbn [c_shared c_control c_stack] in *; try contradiction; unfold conf_ok in C; cbn [c_control c_stack stack_ok] in C.
  - split; [discriminate|]. intros l' a' r' Hin. eapply guards_below; [|exact Hin]. apply C.
  - split; [discriminate|]. intros l' a' r' Hin. eapply guards_below; [|exact Hin]. apply C.
  - exfalso. unfold set_strong in D2. cbn [strong] in D2. destruct (N.eqb x x0); [discriminate | contradiction].
Qed.
Lemma drop_ok_step m std p dtor d d' : dstep m std dtor d d' -> drop_ok p dtor d -> drop_ok p dtor d'.
Proof.
  intros HS (C & T & G). destruct HS as [c c' HV _|c c' x HV HD|c todo|c l a body rest todo Ha|c l a todo|c x t rest todo s' Hin -> _|c x t rest todo s' Hin -> _|c x t rest todo _];
    unfold drop_ok in *; cbn [d_conf d_todo with_shared] in *.
  - split; [eapply conf_ok_step; eauto|]. split; [constructor | congruence].
  - split; [eapply conf_ok_step; eauto|]. split; [repeat constructor; eauto|]. intros _. eapply vstep_last; eauto.
  - split; [exact C|]. inversion T; subst. split; [assumption|]. intros _. apply G. discriminate.
  - split; [exact C|]. inversion T as [|? ? T1 T2]; subst. cbn [d_takes] in T1. split; [repeat constructor; auto|]. intros _. apply G. discriminate.
  - split; [exact C|]. inversion T; subst. split; [assumption|]. intros _. apply G. discriminate.
  - split; [exact C|]. inversion T as [|? ? T1 T2]; subst. split; [repeat constructor; auto|]. intros _. apply G. discriminate.
  - split; [exact C|]. inversion T as [|? ? T1 T2]; subst. split; [repeat constructor; eauto|]. intros _. apply G. discriminate.
  - split; [exact C|]. inversion T as [|? ? T1 T2]; subst. split; [repeat constructor; auto|]. intros _. apply G. discriminate.
Qed.
Lemma drop_ok_runs m std p dtor d d' : druns m std dtor d d' -> drop_ok p dtor d -> drop_ok p dtor d'.
Proof.
  induction 1 as [d|d d' d'' H _ IH|c todo s' d'' H _ IH]; intros C; [exact C | apply IH; eapply drop_ok_step; eauto | apply IH; exact C].
Qed.
Lemma start_drop_ok s b p dtor : drop_ok p dtor (mkD (start s b p) []).
Proof. unfold drop_ok, todo_ok. cbn [d_conf d_todo]. split; [split; [intros l H; exact H | exact I]|]. split; [constructor | congruence]. Qed.

Lemma C56_no_self_deadlock_lemma : forall m std dtor s b p d l a,
  (forall l, lock_ok (locks s l)) -> holds_nothing s -> (forall l a, ~ In (Other 0, a) (held (locks s l))) ->
  (forall l x, weak_inside l p -> ~ d_takes l (dtor x)) ->
  druns m std dtor (mkD (start s b p) []) d -> wants d l a ->
  forall a', ~ In (Visit, a') (held (locks (c_shared (d_conf d)) l)).
Proof.
  intros m std dtor s b p d l a Hk Hn H0 Hsep HR (body & rest & todo & Ew) a' Hin.
  destruct (drop_ok_runs HR (start_drop_ok s b p dtor)) as (_ & T & G). rewrite Ew in T, G. destruct G as [G1 G2]; [discriminate|].
  destruct (druns_runs HR (@start_counted s b p H0)) as (n & R). cbn [d_conf] in R.
  pose proof (sound_runs R (@start_sound s b p Hk Hn) G1) as S. apply in_guards in Hin. rewrite (co_guards S) in Hin.
  unfold open_guards in Hin. destruct (filter (frame_guard l a') (c_stack (d_conf d))) as [|f r] eqn:E; [cbn in Hin; lia|].
  assert (Hf : In f (filter (frame_guard l a') (c_stack (d_conf d)))) by (rewrite E; now left). apply filter_In in Hf as [Hf Y].
  destruct f as [r'|l' b' r'|x r']; try discriminate. cbn [frame_guard] in Y. apply andb_true_iff in Y as [Y _]. apply N.eqb_eq in Y. subst l'.
  inversion T as [|? ? T1 _]; subst. destruct (T1 l) as (x & Hx); [now left|]. exact (Hsep l x (G2 _ _ _ Hf) Hx).
Qed.

(** A destructor that waits for a guard of its own visit waits for ever. *)
Lemma visit_keeps s s' l a : outside 1 s s' -> In (Visit, a) (held (locks s l)) -> In (Visit, a) (held (locks s' l)).
Proof.
  intros H Hin. destruct H as [s l' t a' _ _|s l' t a' p _ _|s l'|s x t _ _|s x t _ _]; try exact Hin;
    unfold acquire, release, set_lock; cbn [locks]; destruct (N.eqb_spec l l') as [->|]; try exact Hin; cbn [held].
  - now right.
  - unfold remove_guard. induction (held (locks s l')) as [|[o1 a1] r IH]; [destruct Hin|]. cbn [remove_one fst snd].
    destruct (owner_eqb_spec (Other t) o1) as [<-|Ho]; cbn [andb].
    + destruct Hin as [E|Hin]; [discriminate|]. destruct (access_eqb a' a1); [exact Hin | right; auto].
    + destruct Hin as [E|Hin]; [left; exact E | right; auto].
Qed.
Lemma not_available s l a a' : In (Visit, a') (held (locks s l)) -> a = Exclusive \/ a' = Exclusive -> ~ available (locks s l) a.
Proof.
  intros Hin Ha H. destruct a; cbn [available] in H; [rewrite H in Hin; destruct Hin|].
  destruct Ha as [Ha| ->]; [discriminate|]. exact (H _ Hin).
Qed.
Lemma C56_for_ever_lemma : forall m std dtor d d' l a a', wants d l a -> In (Visit, a') (held (locks (c_shared (d_conf d)) l)) ->
  a = Exclusive \/ a' = Exclusive -> druns m std dtor d d' -> wants d' l a /\ ~ d_over d'.
Proof.
  intros m std dtor d d' l a a' Hw Hin Ha HR. induction HR as [d|d d' d'' H _ _|c todo s' d'' H _ IH].
  - split; [exact Hw|]. intros [E _]. destruct Hw as (body & rest & todo & E'). congruence.
  - exfalso. destruct Hw as (body & rest & todo & E). destruct d as [c todo']. cbn [d_todo d_conf] in *. subst todo'.
    inversion H; subst; try discriminate. eapply not_available; eauto.
  - apply IH; [exact Hw|]. cbn [d_conf with_shared c_shared] in *. exact (visit_keeps H Hin).
Qed.

(** ** What is released *)
Lemma C56_released_lemma : forall m std dtor s b p d,
  (forall l, lock_ok (locks s l)) -> holds_nothing s -> (forall l a, ~ In (Other 0, a) (held (locks s l))) ->
  druns m std dtor (mkD (start s b p) []) d -> d_over d -> c_control (d_conf d) <> Gone ->
  holds_nothing (c_shared (d_conf d)) /\ forall l a, ~ In (Other 0, a) (held (locks (c_shared (d_conf d)) l)).
Proof.
  intros m std dtor s b p d Hk Hn H0 HR [E HO] HG. pose proof (@start_counted s b p H0) as C. destruct (druns_runs HR C) as (n & R). cbn [d_conf] in R.
  split; [exact (C49_released_lemma Hk Hn R HO HG)|]. intros l a Hin. pose proof (druns_counted HR C l a) as X. rewrite E in X. cbn in X.
  assert (Y : In (Other 0, a) (filter (is_own a) (held (locks (c_shared (d_conf d)) l)))).
  { apply filter_In. split; [exact Hin|]. unfold is_own. cbn. apply access_refl. }
  unfold own_guards in X. destruct (filter _ _); [destruct Y | discriminate].
Qed.

Lemma C56_runs_lemma : forall m std dtor d d' x, dstep m std dtor d d' -> dies (c_shared (d_conf d)) (c_shared (d_conf d')) x ->
  exists todo, d_todo d' = Code (dtor x) :: todo.
Proof.
  intros m std dtor d d' x H [D1 D2]. destruct H as [c c' HV HD|c c' y HV HD|c todo|c l a body rest todo Ha|c l a todo|c y t rest todo s' Hin -> HL|c y t rest todo s' Hin -> HL|c y t rest todo _];
    cbn [d_conf d_todo with_shared c_shared] in *; try contradiction.
  - exfalso. apply (HD x). now split.
  - assert (x = y) as ->; [|eauto]. destruct HD as [E1 E2]. destruct HV; cbn [c_shared] in *; try contradiction;
      unfold set_strong in D2, E2; cbn [strong] in D2, E2; destruct (N.eqb_spec x x0); destruct (N.eqb_spec y x0); subst; try contradiction; reflexivity.
  - exfalso. unfold set_strong in D2, HL. cbn [strong] in D2, HL. destruct (N.eqb_spec x y) as [->|]; [|contradiction]. apply HL. now rewrite N.eqb_refl.
  - unfold set_strong in D2. cbn [strong] in D2. destruct (N.eqb_spec x y) as [->|]; [eauto | contradiction].
Qed.
