(** * Proofs for C62: poisoning, waiting, and destructors that do not panic. *)
From Coq Require Import Lia.
From Verif Require Import Base BaseFacts KeyModel HMap FlameModel BuilderModel VisitorModel Spec ImplModel LockModel LockSpec LockFacts PoolModel DropModel DropSpec DropFacts UnwindModel UnwindSpec UnwindFacts UnwindProfile.

(** ** Poisoning *)
Lemma poison_acquire s l o a l' : poisoned (locks (acquire s l o a) l') = poisoned (locks s l').
Proof. unfold acquire, set_lock. cbn [locks]. destruct (N.eqb_spec l' l) as [->|]; reflexivity. Qed.
Lemma poison_release s l o a p l' : poisoned (locks (release s l o a p) l') = poisoned (locks s l') || (N.eqb l' l && p).
Proof. unfold release, set_lock. cbn [locks]. destruct (N.eqb_spec l' l) as [->|]; cbn [poisoned andb]; [reflexivity | now rewrite orb_false_r]. Qed.

Lemma vstep_poisons m std c c' l : vstep m std c c' -> poisoned (locks (c_shared c) l) = false -> poisoned (locks (c_shared c') l) = true ->
  c_control c = Unwind /\ std l = true /\ inside_lock c l Exclusive.
Proof.
  intros H P P'. destruct H; cbn [c_shared c_control c_stack set_strong locks] in *; try congruence;
    rewrite ?poison_acquire, ?poison_release, ?andb_false_r, ?orb_false_r in P'; try congruence.
  rewrite P in P'. cbn in P'. apply andb_true_iff in P' as [E P']. apply andb_true_iff in P' as [E1 E2]. apply N.eqb_eq in E. subst l0.
  destruct a; [|discriminate]. split; [reflexivity|]. split; [exact E1|]. exists rest. now left.
Qed.
Lemma C62_poisons_only_lemma : forall m std dtor d d' y, ustep m std dtor d d' ->
  poisoned (locks (c_shared (u_conf d)) y) = false -> poisoned (locks (c_shared (u_conf d')) y) = true ->
  panicking d /\ std y = true /\ (inside_lock (u_conf d) y Exclusive \/ u_holds d y Exclusive).
Proof.
  intros m std dtor d d' y H P P'. ucases H; cbn [u_conf u_todo u_raised with_shared with_control gone c_shared set_strong locks] in *; try congruence;
    rewrite ?poison_acquire, ?poison_release, ?andb_false_r, ?orb_false_r in P'; try congruence.
  - destruct (vstep_poisons HV P P') as (E & H1 & H2). split; [right; left; exact E | auto].
  - destruct (vstep_poisons HV P P') as (E & H1 & H2). split; [right; left; exact E | auto].
  - rewrite P in P'. cbn in P'. apply andb_true_iff in P' as [E P']. apply andb_true_iff in P' as [E1 E2]. apply N.eqb_eq in E. subst y.
    destruct a; [|discriminate]. split; [left; reflexivity|]. split; [exact E1|]. right. now left.
Qed.

Fixpoint below_resume (todo : list uitem) : list uitem := match todo with [] => [] | Resume :: t => t | _ :: t => below_resume t end.
Definition will_poison (d : ustate) (l : lock) : Prop :=
  inside_lock (u_conf d) l Exclusive \/ In (Unlock l Exclusive) (if u_raised d then u_todo d else below_resume (u_todo d)).
Lemma vstep_unwind_poison m std c c' l : vstep m std c c' -> c_control c = Unwind -> c_control c' <> Gone ->
  (poisoned (locks (c_shared c') l) = true \/ std l = true /\ inside_lock c' l Exclusive <->
   poisoned (locks (c_shared c) l) = true \/ std l = true /\ inside_lock c l Exclusive).
Proof.
  intros H E HG. destruct H; cbn [c_control c_shared] in *; try discriminate; try congruence; unfold inside_lock; cbn [c_stack c_shared].
  - split; intros [X|(X & r & Hin)]; auto; right; (split; [exact X|]); [exists r; now right | destruct Hin as [Hin|Hin]; [discriminate | eauto]].
  - rewrite poison_release. destruct (N.eqb_spec l l0) as [->|Hl]; cbn [andb].
    + rewrite orb_true_iff, andb_true_iff. split.
      * intros [[X|[X Y]]|(X & r & Hin)]; auto.
        -- destruct a; [|discriminate]. right. split; [exact X|]. exists rest. now left.
        -- right. split; [exact X|]. exists r. now right.
      * intros [X|(X & r & Hin)]; auto. destruct Hin as [Hin|Hin]; [inversion Hin; subst; auto | right; eauto].
    + rewrite orb_false_r. split; intros [X|(X & r & Hin)]; auto; right; (split; [exact X|]); [exists r; now right|].
      destruct Hin as [Hin|Hin]; [inversion Hin; congruence | eauto].
  - split; intros [X|(X & r & Hin)]; auto; right; (split; [exact X|]); [exists r; now right|].
    destruct Hin as [Hin|Hin]; [discriminate | eauto].
Qed.
Lemma in_unlock_other i l todo : (forall l' a, i <> Unlock l' a) -> In (Unlock l Exclusive) (i :: todo) <-> In (Unlock l Exclusive) todo.
Proof. intros H. split; [intros [E|X]; [destruct (H _ _ E) | exact X] | now right]. Qed.
Lemma poison_step m std dtor d d' y : ustep m std dtor d d' -> orderly d -> panicking d -> c_control (u_conf d') <> Gone ->
  (poisoned (locks (c_shared (u_conf d')) y) = true \/ std y = true /\ will_poison d' y <->
   poisoned (locks (c_shared (u_conf d)) y) = true \/ std y = true /\ will_poison d y).
Proof.
  intros H O P HG. unfold will_poison. ucases H; cbn [u_conf u_todo u_raised with_shared with_control gone c_shared below_resume] in *;
    rewrite ?poison_acquire, ?poison_release, ?andb_false_r, ?orb_false_r.
  - destruct P as [P|[P|[]]]; [discriminate|]. pose proof (vstep_unwind_poison y HV P HG). cbn [In] in *. tauto.
  - destruct P as [P|[P|[]]]; [discriminate|]. pose proof (vstep_unwind_poison y HV P HG). cbn [In] in *. tauto.
  - reflexivity.
  - reflexivity.
  - reflexivity.
  - reflexivity.
  - reflexivity.
  - reflexivity.
  - reflexivity.
  - reflexivity.
  - reflexivity.
  - reflexivity.
  - contradiction.
  - cbn in HG. congruence.
  - rewrite in_unlock_other by discriminate. reflexivity.
  - cbn [In]. destruct (N.eqb_spec y l) as [->|Hl]; cbn [andb].
    + rewrite orb_true_iff, andb_true_iff. unfold inside_lock. cbn [c_stack]. destruct a; cbn [access_eqb].
      * assert (Unlock l Exclusive = Unlock l Exclusive) by reflexivity. tauto.
      * assert (Unlock l ReadOnly <> Unlock l Exclusive) by discriminate. intuition discriminate.
    + rewrite orb_false_r. assert (Unlock l a <> Unlock y Exclusive) by congruence. unfold inside_lock. cbn [c_stack]. tauto.
  - rewrite in_unlock_other by discriminate. reflexivity.
  - reflexivity.
  - reflexivity.
Qed.
Lemma C62_poisons_lemma : forall m std dtor s b p d d', uruns m std dtor (u_start s b p) d -> u_raised d = true ->
  u_alone m std dtor d d' -> u_over d' -> c_control (u_conf d') <> Gone ->
  forall l, poisoned (locks (c_shared (u_conf d')) l) = true <->
    poisoned (locks (c_shared (u_conf d)) l) = true \/ std l = true /\ (inside_lock (u_conf d) l Exclusive \/ u_holds d l Exclusive).
Proof.
  intros m std dtor s b p d d' HR E HA HO HG l. pose proof (orderly_runs HR (@start_orderly s b p)) as O.
  assert (X : poisoned (locks (c_shared (u_conf d')) l) = true <-> poisoned (locks (c_shared (u_conf d)) l) = true \/ std l = true /\ will_poison d l).
  { assert (P : panicking d) by (left; exact E). clear HR E. induction HA as [d|d d' d'' H HA IH].
    - destruct HO as (E1 & E2 & E3). unfold will_poison. rewrite E1, E2. cbn [below_resume In].
      assert (Es : c_stack (u_conf d) = []).
      { unfold over in E3. destruct (c_control (u_conf d)) as [q| |]; [|destruct (c_stack (u_conf d)); [reflexivity | contradiction]|congruence].
        destruct q, (c_stack (u_conf d)); try contradiction; reflexivity. }
      unfold inside_lock. rewrite Es. cbn [In]. split; [auto|]. intros [Y|(_ & [[r []]|[]])]. exact Y.
    - assert (O' := orderly_step H O). destruct (panicking_step H P) as [P'|E'].
      + rewrite (IH HO HG O' P'). apply (poison_step l H O P).
        intros E'. destruct (gone_idle O' E') as [X1 X2]. apply HG. clear - HA E' X1 X2.
        induction HA as [d|d d1 d2 H _ IH]; [exact E'|]. exfalso. ucases H; cbn [u_conf u_todo u_raised] in *; try discriminate; destruct HV; discriminate.
      + exfalso. destruct (gone_idle O' E') as [X1 X2]. apply HG. clear - HA E' X1 X2.
        induction HA as [d|d d1 d2 H _ IH]; [exact E'|]. exfalso. ucases H; cbn [u_conf u_todo u_raised] in *; try discriminate; destruct HV; discriminate. }
  rewrite X. unfold will_poison, u_holds. now rewrite E.
Qed.

(** ** Progress *)
Lemma panicking_dec d : panicking d \/ ~ panicking d.
Proof.
  unfold panicking. rewrite resumes_in. destruct (u_raised d); [auto|]. destruct (c_control (u_conf d)); [|auto|]; (destruct (resumes (u_todo d)); [right; intros [X|[X|X]]; try discriminate; lia | left; right; right; lia]).
Qed.
Lemma try_dec s a : (available s a /\ poisoned s = false) \/ (held s <> [] \/ poisoned s = true).
Proof.
  destruct (poisoned s) eqn:E; [auto|]. destruct (held s) eqn:X; [|right; left; discriminate]. left. split; [|reflexivity].
  destruct a; cbn; [exact X|]. intros o. rewrite X. intros [].
Qed.
Lemma C62_waits_lemma : forall m std dtor s b p d, uruns m std dtor (u_start s b p) d ->
  u_over d \/ (exists d', ustep m std dtor d d') \/
  (exists l a body rest, u_todo d = [] /\ u_raised d = false /\ c_control (u_conf d) = Exec (LWait l a body rest) /\ ~ available (locks (c_shared (u_conf d)) l) a) \/
  (exists l a, u_wants d l a /\ ~ available (locks (c_shared (u_conf d)) l) a).
Proof.
  intros m std dtor s b p d HR. pose proof (orderly_runs HR (@start_orderly s b p)) as O. clear HR. destruct d as [c todo r]. destruct r.
  - destruct todo as [|[q|l a|q|] todo]; try (right; left; eexists; constructor; fail).
    pose proof (or_raised O eq_refl) as X. discriminate X.
  - destruct todo as [|[q|l a|q|] todo]; try (right; left; eexists; constructor; fail).
    + destruct (@C49_waits_only_for_shards_lemma m std c) as [H|[(c' & H)|(l & a & body & rest & H)]].
      * left. repeat split; auto.
      * right; left. destruct (vstep_dies H) as [[x Hx]|Hx]; eexists; [eapply u_visit_last | eapply u_visit]; eauto.
      * right; right; left. exists l, a, body, rest. cbn. tauto.
    + destruct q as [| |l a ok bad rest|l a body rest|x t rest|body cleanup rest]; try (right; left; eexists; constructor; fail).
      * right; left. destruct (panicking_dec (mkU c (Do UPanic :: todo) false)) as [P|P]; eexists; [now apply u_panic_again | now apply u_panic].
      * destruct (avail_dec (locks (c_shared c) l) a) as [H|H]; [right; left; eexists; now apply u_lock|].
        right; right; right. exists l, a. split; [split; [reflexivity | eexists _, _, _, _; reflexivity] | exact H].
      * right; left. destruct (try_dec (locks (c_shared c) l) a) as [[H1 H2]|H]; eexists; [now apply u_try | now apply u_try_fails].
      * right; left. destruct (ref_dec t (strong (c_shared c) x)) as [H|H]; [|eexists; now apply u_drop_gone].
        destruct (strong (set_strong (c_shared c) x (remove_one owner_eqb (Other t) (strong (c_shared c) x))) x) eqn:E;
          eexists; [eapply u_drop_last; eauto | eapply u_drop; eauto; rewrite E; discriminate].
Qed.

(** ** A destructor and the guards of the visit *)
Definition u_todo_ok (dtor : ptr -> uprog) (todo : list uitem) : Prop :=
  Forall (fun i => match i with Do q | Finally q => forall l, u_takes l q -> exists x, u_takes l (dtor x) | _ => True end) todo.
Definition u_drop_ok (p : lprog) (dtor : ptr -> uprog) (d : ustate) : Prop :=
  conf_ok p (u_conf d) /\ u_todo_ok dtor (u_todo d) /\
  (u_todo d <> [] -> forall l a r, In (FGuard l a r) (c_stack (u_conf d)) -> weak_inside l p).
Lemma u_drop_ok_step m std p dtor d d' : ustep m std dtor d d' -> orderly d -> u_drop_ok p dtor d -> u_drop_ok p dtor d'.
Proof.
  intros HS O (C & T & G). ucases HS; unfold u_drop_ok in *; cbn [u_conf u_todo u_raised with_shared with_control gone c_stack] in *;
    try (split; [exact C|]; inversion T as [|? ? T1 T2]; subst; cbn [u_takes] in *; (split; [|intros _; apply G; discriminate])).
  - split; [eapply conf_ok_step; eauto|]. split; [constructor | congruence].
  - split; [eapply conf_ok_step; eauto|]. split; [repeat constructor; eauto|]. intros _. eapply vstep_last; eauto.
  - assumption.
  - repeat constructor; auto. intros l' Hl. apply T1. destruct (poisoned (locks (c_shared c) l)); auto.
  - repeat constructor; auto.
  - repeat constructor; auto.
  - assumption.
  - repeat constructor; auto.
  - repeat constructor; eauto.
  - repeat constructor; auto.
  - repeat constructor; auto.
  - repeat constructor; auto.
  - assumption.
  - split; [exact I|]. split; [constructor | congruence].
  - assumption.
  - assumption.
  - repeat constructor; auto.
  - assumption.
  - split; [|split; [constructor | congruence]]. destruct (or_exec O (or_introl eq_refl)) as [q E]. unfold conf_ok in *. cbn [u_conf c_control c_stack] in *.
    rewrite E in C. destruct C as [_ C]. eapply stack_ok_mono; [|exact C]. tauto.
Qed.
Lemma u_drop_ok_runs m std p dtor d d' : uruns m std dtor d d' -> orderly d -> u_drop_ok p dtor d -> u_drop_ok p dtor d'.
Proof.
  induction 1 as [d|d d' d'' H _ IH|c todo r s' d'' H _ IH]; intros O C; [exact C | apply IH; [eapply orderly_step; eauto | eapply u_drop_ok_step; eauto] | apply IH; [destruct O; now constructor | exact C]].
Qed.
Lemma start_u_drop_ok s b p dtor : u_drop_ok p dtor (u_start s b p).
Proof. unfold u_drop_ok, u_todo_ok, u_start. cbn [u_conf u_todo]. split; [split; [intros l H; exact H | exact I]|]. split; [constructor | congruence]. Qed.

Lemma C62_no_self_deadlock_lemma : forall m std dtor s b p d l a,
  (forall l, lock_ok (locks s l)) -> holds_nothing s -> (forall l a, ~ In (Other 0, a) (held (locks s l))) ->
  (forall l x, weak_inside l p -> ~ u_takes l (dtor x)) ->
  uruns m std dtor (u_start s b p) d -> u_wants d l a ->
  forall a', ~ In (Visit, a') (held (locks (c_shared (u_conf d)) l)).
Proof.
  intros m std dtor s b p d l a Hk Hn H0 Hsep HR (_ & ok & bad & rest & todo & Ew) a' Hin.
  destruct (steady_runs HR (@start_steady s b p Hk Hn H0)) as [O _ S].
  destruct (u_drop_ok_runs HR (@start_orderly s b p) (start_u_drop_ok s b p dtor)) as (_ & T & G). rewrite Ew in T, G. specialize (G ltac:(discriminate)).
  assert (G1 : c_control (u_conf d) <> Gone) by (apply (or_gone O); rewrite Ew; discriminate).
  specialize (S G1). apply in_guards in Hin. rewrite (co_guards S) in Hin.
  unfold open_guards in Hin. destruct (filter (frame_guard l a') (c_stack (u_conf d))) as [|f r] eqn:E; [cbn in Hin; lia|].
  assert (Hf : In f (filter (frame_guard l a') (c_stack (u_conf d)))) by (rewrite E; now left). apply filter_In in Hf as [Hf Y].
  destruct f as [r'|l' b' r'|x r']; try discriminate. cbn [frame_guard] in Y. apply andb_true_iff in Y as [Y _]. apply N.eqb_eq in Y. subst l'.
  inversion T as [|? ? T1 _]; subst. destruct (T1 l) as (x & Hx); [now left|]. exact (Hsep l x (G _ _ _ Hf) Hx).
Qed.
Lemma C62_for_ever_lemma : forall m std dtor d d' l a a', u_wants d l a -> In (Visit, a') (held (locks (c_shared (u_conf d)) l)) ->
  a = Exclusive \/ a' = Exclusive -> uruns m std dtor d d' -> u_wants d' l a /\ ~ u_over d'.
Proof.
  intros m std dtor d d' l a a' Hw Hin Ha HR. induction HR as [d|d d' d'' H _ _|c todo r s' d'' H _ IH].
  - split; [exact Hw|]. intros [E _]. destruct Hw as (_ & ok & bad & rest & todo & E'). congruence.
  - exfalso. destruct Hw as (Er & ok & bad & rest & todo & E). destruct d as [c todo' r]. cbn [u_todo u_conf u_raised] in *. subst todo' r.
    inversion H; subst; try discriminate. eapply not_available; eauto.
  - apply IH; [exact Hw|]. cbn [u_conf with_shared c_shared] in *. exact (visit_keeps H Hin).
Qed.

(** ** A destructor runs at once *)
Lemma C62_runs_lemma : forall m std dtor d d' x, ustep m std dtor d d' -> dies (c_shared (u_conf d)) (c_shared (u_conf d')) x ->
  u_raised d' = false /\ exists todo, u_todo d' = Do (dtor x) :: todo.
Proof.
  intros m std dtor d d' x H [D1 D2].
  destruct H as [c c' HV HD|c c' y HV HD|c todo|c l a ok bad rest todo Ha|c l a body rest todo Ha Hp|c l a body rest todo Hf|c l a todo|c y t rest todo s' Hin -> HL|c y t rest todo s' Hin -> HL|c y t rest todo HN
  |c body cleanup rest todo|c cleanup todo|c todo HP|c todo HP|c p todo|c l a todo|c cleanup todo|c todo|c];
    cbn [u_conf u_todo u_raised with_shared with_control gone c_shared] in *; try contradiction; (split; [reflexivity|]).
  - exfalso. apply (HD x). now split.
  - assert (x = y) as ->; [|eauto]. destruct HD as [E1 E2]. destruct HV; cbn [c_shared] in *; try contradiction;
      unfold set_strong in D2, E2; cbn [strong] in D2, E2; destruct (N.eqb_spec x x0); destruct (N.eqb_spec y x0); subst; try contradiction; reflexivity.
  - exfalso. unfold set_strong in D2, HL. cbn [strong] in D2, HL. destruct (N.eqb_spec x y) as [->|]; [|contradiction]. apply HL. now rewrite N.eqb_refl.
  - unfold set_strong in D2. cbn [strong] in D2. destruct (N.eqb_spec x y) as [->|]; [eauto | contradiction].
Qed.

(** ** Destructors that do not panic *)
Definition todo_calm (todo : list uitem) : Prop := Forall (fun i => match i with Do q | Finally q => never_panics q | Unlock _ _ => True | Resume => False end) todo.
Lemma calm_step m std dtor d d' : (forall x, never_panics (dtor x)) -> ustep m std dtor d d' -> u_raised d = false -> todo_calm (u_todo d) -> u_raised d' = false /\ todo_calm (u_todo d').
Proof.
  intros HQ H R T. ucases H; cbn [u_raised u_todo] in *; try discriminate; (split; [reflexivity || (inversion T as [|? ? T1 T2]; subst; now cbn in T1)|]);
    try (inversion T as [|? ? T1 T2]; subst; cbn [never_panics] in T1); try assumption; try (now destruct T1); repeat constructor; auto; try tauto.
  - destruct (poisoned (locks (c_shared c) l)); tauto.
Qed.
Lemma calm_runs m std dtor d d' : ustep m std dtor d d' -> orderly d -> u_counted d -> u_raised d = false -> todo_calm (u_todo d) ->
  exists n, runs m std n (u_conf d) (u_conf d').
Proof.
  intros H O C R T. assert (G : u_todo d <> [] -> c_control (u_conf d) <> Gone) by apply (or_gone O).
  ucases H; cbn [u_conf u_todo u_raised] in *; try discriminate; try (exists 0%nat; apply runs_refl); try (exists 1%nat; eapply runs_visit; [exact HV | apply runs_refl]).
  - exists 0%nat. apply runs_one. now apply o_acquire.
  - exists 0%nat. apply runs_one. now apply o_acquire.
  - exists 0%nat. apply runs_one. apply o_release. apply (@counted_owns (mkU c (Unlock l a :: todo) false) l a C); [apply G; discriminate | now left].
  - exists 0%nat. apply runs_one. now apply o_drop.
  - exists 0%nat. apply runs_one. now apply o_drop.
  - inversion T as [|? ? T1 _]; subst. destruct T1.
Qed.
Lemma C62_calm_lemma : forall m std dtor s b p d, (forall x, never_panics (dtor x)) -> (forall l a, ~ In (Other 0, a) (held (locks s l))) ->
  uruns m std dtor (u_start s b p) d -> u_raised d = false /\ exists n, runs m std n (start s b p) (u_conf d).
Proof.
  intros m std dtor s b p d HN H0 HR. pose proof (@start_orderly s b p) as O. pose proof (@start_u_counted s b p H0) as C.
  assert (R : u_raised (u_start s b p) = false) by reflexivity. assert (T : todo_calm (u_todo (u_start s b p))) by constructor.
  change (start s b p) with (u_conf (u_start s b p)). induction HR as [d|d d' d'' H _ IH|c todo r s' d'' H _ IH].
  - split; [exact R|]. exists 0%nat. apply runs_refl.
  - destruct (calm_step HN H R T) as [R' T']. destruct (IH (orderly_step H O) (u_counted_step H O C) R' T') as (X & n' & X'). split; [exact X|].
    destruct (calm_runs H O C R T) as (n & Y). eexists. eapply runs_app; eauto.
  - destruct IH as (X & n & Y); [destruct O; now constructor | | exact R | exact T|].
    + intros G l a. cbn [u_conf u_todo with_shared c_shared]. rewrite (own_outside l a H). apply C. exact G.
    + split; [exact X|]. exists n. destruct c as [s0 b0 k st]. eapply runs_other; [eapply outside_ostep; exact H | exact Y].
Qed.

(** ** Those of DropModel *)
Lemma quiet_step_to m std dtor d d' : dstep m std dtor d d' -> ustep m std (fun x => quietly (dtor x)) (quietly_state d) (quietly_state d').
Proof.
  intros H. destruct H as [c c' HV HD|c c' x HV HD|c todo|c l a body rest todo Ha|c l a todo|c x t rest todo s' Hin -> HL|c x t rest todo s' Hin -> HL|c x t rest todo HN];
    unfold quietly_state; cbn [d_conf d_todo map quietly_item quietly].
  - now apply u_visit.
  - now apply (@u_visit_last m std (fun x => quietly (dtor x)) c c' x).
  - apply u_ret.
  - pose proof (@u_lock m std (fun x => quietly (dtor x)) c l a (quietly body) (quietly body) (quietly rest) (map quietly_item todo) Ha) as X.
    destruct (poisoned (locks (c_shared c) l)); exact X.
  - apply u_unlock.
  - eapply u_drop; eauto.
  - eapply (@u_drop_last m std (fun x => quietly (dtor x))); eauto.
  - now apply u_drop_gone.
Qed.
Lemma quiet_step_from m std dtor d e : ustep m std (fun x => quietly (dtor x)) (quietly_state d) e -> exists d', e = quietly_state d' /\ dstep m std dtor d d'.
Proof.
  destruct d as [c todo]. unfold quietly_state. cbn [d_conf d_todo]. intros H.
  destruct todo as [|[[|l a body rest|x t rest]|l a] todo]; cbn [map quietly_item quietly] in H; inversion H; subst.
  - eexists (mkD _ []). split; [reflexivity | now apply d_visit].
  - eexists (mkD _ [Code (dtor x)]). split; [reflexivity | now apply d_visit_last].
  - eexists (mkD _ todo). split; [reflexivity | apply d_ret].
  - eexists (mkD _ (Code body :: Release l a :: Code rest :: todo)). split; [|now apply d_lock].
    unfold quietly_state. cbn [d_conf d_todo map quietly_item]. now destruct (poisoned (locks (c_shared c) l)).
  - eexists (mkD _ (Code rest :: todo)). split; [reflexivity | eapply d_drop; eauto].
  - eexists (mkD _ (Code (dtor x) :: Code rest :: todo)). split; [reflexivity | eapply d_drop_last; eauto].
  - eexists (mkD _ (Code rest :: todo)). split; [reflexivity | now apply d_drop_gone].
  - eexists (mkD _ todo). split; [reflexivity | apply d_release].
Qed.
Lemma C62_conservative_lemma : forall m std dtor s b p e,
  uruns m std (fun x => quietly (dtor x)) (u_start s b p) e <-> exists d, e = quietly_state d /\ druns m std dtor (mkD (start s b p) []) d.
Proof.
  intros m std dtor s b p e. change (u_start s b p) with (quietly_state (mkD (start s b p) [])). split.
  - intros H. remember (quietly_state (mkD (start s b p) [])) as e0 eqn:E. revert E. generalize (mkD (start s b p) []) as d.
    induction H as [e|e e' e'' H _ IH|c todo r s' e'' H _ IH]; intros d E; [subst e | subst e |].
    + exists d. split; [reflexivity | apply dr_refl].
    + destruct (quiet_step_from H) as (d' & -> & S). destruct (IH d' eq_refl) as (d2 & -> & R). exists d2. split; [reflexivity | eapply dr_step; eauto].
    + destruct d as [c0 t0]. inversion E; subst. destruct (IH (mkD (with_shared c0 s') t0) eq_refl) as (d2 & -> & R). exists d2. split; [reflexivity | eapply dr_other; eauto].
  - intros (d & -> & H). induction H as [d|d d' d'' H _ IH|c todo s' d'' H _ IH]; [apply ur_refl | eapply ur_step; [apply quiet_step_to; eassumption | exact IH] | eapply ur_other; [exact H | exact IH]].
Qed.
