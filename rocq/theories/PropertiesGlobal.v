(** * Properties of the global registry: C24, C25. *)
From Verif Require Import Base KeyModel HMap FlameModel BuilderModel VisitorModel FlameFacts GlobalModel GlobalSpec GlobalFacts.

(** ** C24: linearizability, for every number of threads and every schedule.

    The linearization also explains the current content of the registry. *)
Theorem C24_linearizable : forall progs H s, gexec progs H s ->
  exists S, linearization H S /\ sequential [] S (g_roots s).
Proof. intros progs H s Hx. destruct (gexec_inv Hx) as [S I]. exists S. split; apply I. Qed.
Print Assumptions C24_linearizable.

(** At any time, the registry is an interleaving of initial parts of the
    threads' registrations (nothing invented, nothing duplicated, order kept) *)
Theorem C24_interleaving : forall progs H s, gexec progs H s ->
  exists reg : list (tid * groot), g_roots s = map snd reg /\
    forall t, exists rest, registrations (progs t) = map snd (filter (fun x : tid * groot => Nat.eqb (fst x) t) reg) ++ rest.
Proof.
  intros progs H s Hx. destruct (gexec_inv Hx) as [S I]. exists (tagged S). split.
  - rewrite tagged_roots. apply (@sequential_regs _ _ _ (gi_seq I)).
  - intros t. rewrite tagged_thread. pose proof (gi_prog I t) as E. rewrite E, registrations_app. eexists. reflexivity.
Qed.
Print Assumptions C24_interleaving.

(** and when all operations have returned nothing is missing. *)
Theorem C24_nothing_lost : forall progs H s, gexec progs H s -> quiescent s ->
  exists reg : list (tid * groot), g_roots s = map snd reg /\
    forall t, map snd (filter (fun x : tid * groot => Nat.eqb (fst x) t) reg) = registrations (progs t).
Proof.
  intros progs H s Hx Hq. destruct (gexec_inv Hx) as [S I]. exists (tagged S). split.
  - rewrite tagged_roots. apply (@sequential_regs _ _ _ (gi_seq I)).
  - intros t. rewrite tagged_thread, (gi_prog I t). destruct (Hq t) as [-> ->]. cbn. now rewrite app_nil_r.
Qed.
Print Assumptions C24_nothing_lost.

(** Every snapshot is a prefix of the registry at every later time *)
Theorem C24_snapshot_prefix : forall progs H s t n res, gexec progs H s -> In (Ret t n Snapshot res) H ->
  exists l rest, res = RList l /\ g_roots s = l ++ rest.
Proof.
  intros progs H s t n res Hx Hin. destruct (gexec_inv Hx) as [S I].
  apply (@lin_complete _ _ (gi_lin I) (mkInst t n Snapshot res)) in Hin.
  destruct (@snapshot_res _ _ _ _ _ (gi_seq I) Hin) as (S1 & S2 & _ & -> & ->). eauto.
Qed.
Print Assumptions C24_snapshot_prefix.

(** and contains every registration that returned before the snapshot began. *)
Theorem C24_snapshot_complete : forall progs H s t n l t' n' r, gexec progs H s ->
  In (Ret t n Snapshot (RList l)) H ->
  before H (Ret t' n' (Register r) RUnit) (Inv t n Snapshot) -> In r l.
Proof.
  intros progs H s t n l t' n' r Hx Hin Hb. destruct (gexec_inv Hx) as [S I].
  apply (@lin_complete _ _ (gi_lin I) (mkInst t n Snapshot (RList l))) in Hin.
  pose proof (@lin_realtime _ _ (gi_lin I) (mkInst t' n' (Register r) RUnit) (mkInst t n Snapshot (RList l)) Hin Hb) as (P1 & P2 & P3 & EP).
  rewrite EP in *. pose proof (gi_seq I) as Hs.
  change (P1 ++ mkInst t' n' (Register r) RUnit :: P2 ++ mkInst t n Snapshot (RList l) :: P3)
    with (P1 ++ (mkInst t' n' (Register r) RUnit :: P2) ++ mkInst t n Snapshot (RList l) :: P3) in Hs.
  rewrite app_assoc in Hs. pose proof (@sequential_split _ _ _ _ _ Hs) as E. cbn in E. inversion E as [E1].
  unfold regs_of. rewrite map_app, registrations_app. apply in_or_app. right. cbn. now left.
Qed.
Print Assumptions C24_snapshot_complete.

(** Two snapshots never disagree: one is a prefix of the other. *)
Theorem C24_snapshots_comparable : forall progs H s t n l t' n' l', gexec progs H s ->
  In (Ret t n Snapshot (RList l)) H -> In (Ret t' n' Snapshot (RList l')) H ->
  (exists d, l' = l ++ d) \/ (exists d, l = l' ++ d).
Proof.
  intros progs H s t n l t' n' l' Hx H1 H2.
  destruct (@C24_snapshot_prefix _ _ _ _ _ _ Hx H1) as (a & ra & Ea & Ra). destruct (@C24_snapshot_prefix _ _ _ _ _ _ Hx H2) as (b & rb & Eb & Rb).
  inversion Ea; inversion Eb; subst a b. rewrite Ra in Rb. clear -Rb. revert l' Rb.
  induction l as [|x l IH]; intros l' E; [left; now exists l'|].
  destruct l' as [|y l']; [right; now exists (x :: l)|]. cbn in E. inversion E; subst.
  destruct (IH _ H1) as [[d ->]|[d ->]]; [left | right]; exists d; reflexivity.
Qed.
Print Assumptions C24_snapshots_comparable.

(** No deadlock: while any thread has something left to do, some thread can move. *)
Theorem C24_progress : forall progs H s, gexec progs H s ->
  (exists t, th_pc (g_threads s t) <> Idle \/ th_todo (g_threads s t) <> []) ->
  exists e s', gstep s e s'.
Proof.
  intros progs H s Hx [t Ht]. destruct (gexec_inv Hx) as [S I].
  assert (Hcan : forall t, in_critical (th_pc (g_threads s t)) = true -> exists e s', gstep s e s').
  { intros t' Hc. destruct (th_pc (g_threads s t')) as [|o|o|r v|acc|o res|o res] eqn:E; try discriminate.
    - destruct o as [r|]; do 2 eexists; [eapply g_push_read | eapply g_clone_start]; eauto.
    - do 2 eexists. eapply g_push_write; eauto.
    - destruct (nth_error (g_roots s) (length acc)) as [x|] eqn:En; do 2 eexists; [eapply g_clone_copy | eapply g_clone_end]; eauto.
    - do 2 eexists. eapply g_unlock; eauto. }
  destruct (th_pc (g_threads s t)) as [|o|o|r v|acc|o res|o res] eqn:E;
    try (apply (Hcan t); rewrite E; reflexivity).
  - destruct (th_todo (g_threads s t)) as [|o os] eqn:Eo; [destruct Ht; congruence|]. do 2 eexists. eapply g_call; eauto.
  - destruct (g_lock s) as [t'|] eqn:El.
    + apply (Hcan t'). now apply (gi_lock I).
    + do 2 eexists. eapply g_lock_acquired; eauto.
  - do 2 eexists. eapply g_return; eauto.
Qed.
Print Assumptions C24_progress.

(** Two threads; thread 1 takes a snapshot between the two registrations of
    thread 0 while thread 0 is waiting for the lock. *)
Definition ex_progs (t : tid) : list gop :=
  match t with 0%nat => [Register 10; Register 11] | 1%nat => [Snapshot; Register 20] | _ => [] end.

Ltac go E rule tt := eapply gexec_step in E; [|eapply rule with (t := tt); reflexivity]; cbn in E.
Example C24_satisfiable : exists s, gexec ex_progs
  ([Inv 0%nat 0%nat (Register 10); Ret 0%nat 0%nat (Register 10) RUnit; Inv 1%nat 0%nat Snapshot; Inv 0%nat 1%nat (Register 11); Ret 1%nat 0%nat Snapshot (RList [10])]) s
  /\ g_lock s = Some 0%nat.
Proof.
  eexists. split.
  - assert (E0 := gexec_start ex_progs).
    go E0 g_call 0%nat.
    go E0 g_lock_acquired 0%nat.
    go E0 g_push_read 0%nat.
    go E0 g_push_write 0%nat.
    go E0 g_unlock 0%nat.
    go E0 g_return 0%nat.
    go E0 g_call 1%nat.
    go E0 g_lock_acquired 1%nat.
    go E0 g_call 0%nat.
    go E0 g_clone_start 1%nat.
    go E0 g_clone_copy 1%nat.
    go E0 g_clone_end 1%nat.
    go E0 g_unlock 1%nat.
    go E0 g_lock_acquired 0%nat.
    go E0 g_return 1%nat. exact E0.
  - reflexivity.
Qed.

(** ** C25: [visit_global_roots].

    Called while this thread does not hold the mutex, it never deadlocks
    (whatever the visited values register, and whatever other threads register
    meanwhile), it visits exactly the roots registered at the time of the call, in
    registration order, and roots registered during the visit are only added to
    the registry; the mutex is free afterwards. *)
Theorem C25_visits_snapshot : forall m code rts b,
  exists more, visit_global_roots m code (mkW rts false) b =
    Some (mkW (rts ++ more) false, visit_in_order m (programs code 0 rts) b).
Proof.
  intros m code rts b. unfold visit_global_roots, roots, w_lock, w_unlock. cbn [w_held w_roots obind].
  apply (@g_visit_list_erase m code rts 0 (mkW rts false) b eq_refl).
Qed.
Print Assumptions C25_visits_snapshot.

(** Everything that is new in the registry after the call was registered by
    one of the visits (or, per [GRegister], at that point by another thread). *)
Theorem C25_registered_during : forall m code rts b more r',
  visit_global_roots m code (mkW rts false) b = Some (mkW (rts ++ more) false, r') ->
  forall x, In x more -> exists i r, nth_error rts i = Some r /\ In x (registers (code i r)).
Proof.
  assert (Hrun : forall m p w b w' r', w_held w = false -> grun m p w b = Some (w', r') ->
    exists more, w' = mkW (w_roots w ++ more) false /\ forall x, In x more -> In x (registers p)).
  { intros m. induction p as [| |r rest IH|k s body IHb rest IHr|k s body IHb rest IHr|k s x body IHb r1 IH1 r2 IH2];
      intros w b w' r' Hw E; cbn [grun registers] in *.
    1,2: inversion E; subst; exists []; rewrite app_nil_r; split; [destruct w'; cbn in *; now subst | contradiction].
    - rewrite register_free in E by exact Hw. cbn [obind] in E. destruct (IH (mkW _ false) _ _ _ eq_refl E) as (more & -> & Hm).
      exists (r :: more). cbn [w_roots]. rewrite <- app_assoc. split; [reflexivity|]. intros y [->|Hy]; [now left | right; auto].
    - destruct (enter_inline m b k s) as [b1 [|]].
      + destruct (grun m body w b1) as [[w1 r1]|] eqn:E1; [|discriminate]. cbn [g_leave obind g_then] in E.
        destruct (IHb _ _ _ _ Hw E1) as (m1 & -> & H1). destruct (leave_scope r1) as [b2 [| |]].
        * destruct (IHr (mkW _ false) _ _ _ eq_refl E) as (m2 & -> & H2). exists (m1 ++ m2). cbn [w_roots]. rewrite app_assoc.
          split; [reflexivity|]. intros y Hy. apply in_app_iff in Hy. apply in_or_app. intuition.
        * inversion E; subst. exists m1. split; [reflexivity|]. intros y Hy. apply in_or_app. auto.
        * inversion E; subst. exists m1. split; [reflexivity|]. intros y Hy. apply in_or_app. auto.
      + inversion E; subst; exists []; rewrite app_nil_r; split; [destruct w'; cbn in *; now subst | contradiction].
    - destruct (enter_unique m b k s) as [b1 [|]].
      + destruct (grun m body w b1) as [[w1 r1]|] eqn:E1; [|discriminate]. cbn [g_leave obind g_then] in E.
        destruct (IHb _ _ _ _ Hw E1) as (m1 & -> & H1). destruct (leave_scope r1) as [b2 [| |]].
        * destruct (IHr (mkW _ false) _ _ _ eq_refl E) as (m2 & -> & H2). exists (m1 ++ m2). cbn [w_roots]. rewrite app_assoc.
          split; [reflexivity|]. intros y Hy. apply in_app_iff in Hy. apply in_or_app. intuition.
        * inversion E; subst. exists m1. split; [reflexivity|]. intros y Hy. apply in_or_app. auto.
        * inversion E; subst. exists m1. split; [reflexivity|]. intros y Hy. apply in_or_app. auto.
      + inversion E; subst; exists []; rewrite app_nil_r; split; [destruct w'; cbn in *; now subst | contradiction].
    - destruct (enter_shared m b k s x) as [[b1 [|]] [|]].
      + destruct (grun m body w b1) as [[w1 q1]|] eqn:E1; [|discriminate]. cbn [g_leave obind g_then] in E.
        destruct (IHb _ _ _ _ Hw E1) as (m1 & -> & H1). destruct (leave_scope q1) as [b2 [| |]].
        * destruct (IH1 (mkW _ false) _ _ _ eq_refl E) as (m2 & -> & H2). exists (m1 ++ m2). cbn [w_roots]. rewrite app_assoc.
          split; [reflexivity|]. intros y Hy. apply in_app_iff in Hy. rewrite !in_app_iff. intuition.
        * inversion E; subst. exists m1. split; [reflexivity|]. intros y Hy. apply in_or_app. auto.
        * inversion E; subst. exists m1. split; [reflexivity|]. intros y Hy. apply in_or_app. auto.
      + destruct (IH2 _ _ _ _ Hw E) as (m2 & -> & H2). exists m2. split; [reflexivity|]. intros y Hy. rewrite !in_app_iff. auto.
      + inversion E; subst; exists []; rewrite app_nil_r; split; [destruct w'; cbn in *; now subst | contradiction].
      + inversion E; subst; exists []; rewrite app_nil_r; split; [destruct w'; cbn in *; now subst | contradiction]. }
  intros m code rts b more r' E. unfold visit_global_roots, roots, w_lock, w_unlock in E. cbn [w_held w_roots obind] in E.
  assert (Hlist : forall l i w b w' r', w_held w = false -> g_visit_list m code i l w b = Some (w', r') ->
    exists more, w' = mkW (w_roots w ++ more) false /\
      forall x, In x more -> exists j r, nth_error l j = Some r /\ In x (registers (code (i + j)%nat r))).
  { clear -Hrun. induction l as [|r l IH]; intros i w b w' r' Hw E; cbn [g_visit_list] in E.
    - inversion E; subst. exists []. rewrite app_nil_r. split; [destruct w'; cbn in *; now subst | contradiction].
    - unfold g_visit_root in E. destruct (root_visitor b) as [b1 [|]].
      + destruct (grun m (code i r) w b1) as [[w1 r1]|] eqn:E1; [|discriminate]. cbn [g_leave obind g_then] in E.
        destruct (Hrun _ _ _ _ _ _ Hw E1) as (m1 & -> & H1).
        assert (Hone : forall x, In x m1 -> exists j r0, nth_error (r :: l) j = Some r0 /\ In x (registers (code (i + j)%nat r0))).
        { intros x Hx. exists 0%nat, r. rewrite Nat.add_0_r. auto. }
        destruct (leave_scope r1) as [b2 [| |]].
        * destruct (IH _ (mkW _ false) _ _ _ eq_refl E) as (m2 & -> & H2). exists (m1 ++ m2). cbn [w_roots]. rewrite app_assoc.
          split; [reflexivity|]. intros y Hy. apply in_app_iff in Hy as [Hy|Hy]; [auto|].
          destruct (H2 y Hy) as (j & q & G1 & G2). exists (S j), q. rewrite Nat.add_succ_r. auto.
        * inversion E; subst. exists m1. auto.
        * inversion E; subst. exists m1. auto.
      + cbn in E. inversion E; subst; exists []; rewrite app_nil_r; split; [destruct w'; cbn in *; now subst | contradiction]. }
  destruct (Hlist _ _ (mkW _ false) _ _ _ eq_refl E) as (m1 & Em & H1). cbn [w_roots] in Em. inversion Em as [E2].
  apply app_inv_head in E2. subst m1. exact H1.
Qed.
Print Assumptions C25_registered_during.

(** Visiting root 1 registers root 5 while it is being visited. *)
Definition ex_code (i : nat) (r : groot) : gprog :=
  GInline (key_new "R") 8 (GRegister (r + 4) GRet) GRet.
Example C25_satisfiable : exists o, visit_global_roots Debug ex_code (mkW [1; 2] false) b_default = Some (mkW [1; 2; 5; 6] false, o).
Proof. eexists. vm_compute. reflexivity. Qed.
