(** * Builds with and without overflow checks: the same, or a panic that leaves
    the builder unusable. *)
From Verif Require Import Base BaseFacts KeyModel KeyFacts HMap FlameModel BuilderModel VisitorModel Spec FlameFacts
  EventFacts WrapPanic.

Lemma down_depth b k b' st : down b k = (b', st) -> b_entered b = true -> shape b ->
  shape b' /\ depth b' = S (depth b) /\ b_entered b' = true.
Proof.
  intros E He Hs.
  assert (H : ts_stack (b_current b') = ts_tree (b_current b) :: ts_stack (b_current b) /\ b_shared b' = b_shared b /\ b_entered b' = b_entered b).
  { revert E. unfold down. destruct (tree_get _ _) as [td|]; [|intros E; inversion E; subst; cbn; auto].
    destruct (hm_find _ _); [intros E; inversion E; subst; cbn; auto|].
    cbn [new_tree]. destruct (Nat.eqb _ _); intros E; inversion E; subst; cbn; auto. }
  destruct H as (H1 & H2 & H3). split; [|split].
  - constructor; [congruence | rewrite H2; apply Hs].
  - unfold depth. rewrite H1, H2, H3. cbn. destruct (b_entered b); lia.
  - congruence.
Qed.

Lemma add_size_depth m b s b' st : add_size m b s = (b', st) ->
  b_current b' = b_current b /\ b_shared b' = b_shared b /\ b_entered b' = b_entered b.
Proof.
  unfold add_size. destruct (tree_get _ _) as [td|]; [|intros E; inversion E; subst; auto].
  destruct (uadd _ _ _); intros E; inversion E; subst; cbn; auto.
Qed.

Lemma mark_unique_depth b b' st : mark_unique b = (b', st) ->
  b_current b' = b_current b /\ b_shared b' = b_shared b /\ b_entered b' = b_entered b.
Proof.
  unfold mark_unique. destruct (tree_get _ _) as [td|]; intros E; inversion E; subst; cbn; auto.
Qed.

Lemma same_depth b b' : b_current b' = b_current b /\ b_shared b' = b_shared b /\ b_entered b' = b_entered b ->
  shape b -> shape b' /\ depth b' = depth b.
Proof.
  intros (E1 & E2 & E3) [H1 H2]. split.
  - constructor; rewrite ?E1, ?E2, ?E3; auto.
  - unfold depth. now rewrite E1, E2, E3.
Qed.

(** After an attempt to enter a scope, failed or not, one more is open. *)
Lemma enter_inline_depth m b k s b' st : enter_inline m b k s = (b', st) -> b_entered b = true -> shape b -> off_by_one b b'.
Proof.
  unfold enter_inline. destruct (down b k) as [b1 s1] eqn:E1. intros E He Hs.
  destruct (down_depth E1 He Hs) as (H1 & H2 & H3). destruct s1; cbn [bind_status] in E.
  - destruct (same_depth (add_size_depth E) H1) as [H4 H5]. split; [auto | lia].
  - inversion E; subst. split; auto.
Qed.

Lemma enter_unique_depth m b k s b' st : enter_unique m b k s = (b', st) -> b_entered b = true -> shape b -> off_by_one b b'.
Proof.
  unfold enter_unique. destruct (down b k) as [b1 s1] eqn:E1. intros E He Hs.
  destruct (down_depth E1 He Hs) as (H1 & H2 & H3). destruct s1; cbn [bind_status] in E.
  - destruct (add_size m b1 s) as [b2 s2] eqn:E2. destruct (same_depth (add_size_depth E2) H1) as [H4 H5].
    destruct s2; cbn [bind_status] in E.
    + destruct (same_depth (mark_unique_depth E) H4) as [H6 H7]. split; [auto | lia].
    + inversion E; subst. split; [auto | lia].
  - inversion E; subst. split; auto.
Qed.

Lemma off_entered b b' : off_by_one b b' -> b_entered b' = true.
Proof. intros [H1 H2]. apply entered_deep; [auto | lia]. Qed.

Lemma enter_shared_depth m b k s x b' st ret : enter_shared m b k s x = (b', st, ret) -> b_entered b = true -> shape b ->
  match st, ret with
  | Fine, false => shape b' /\ depth b' = depth b /\ b_entered b' = true
  | _, _ => off_by_one b b'
  end.
Proof.
  intros E He Hs. unfold enter_shared in E. fold (enter_inline m b k s) in E.
  destruct (enter_inline m b k s) as [b1 s1] eqn:E1. pose proof (enter_inline_depth E1 He Hs) as Hoff.
  destruct s1.
  2:{ inversion E; subst. exact Hoff. }
  pose proof (off_entered Hoff) as He1. destruct Hoff as [Hs1 Hd1].
  destruct (ptr_mem x (b_visited b1)).
  - destruct (WrapPanic.exit_fine He1 Hs1) as [b2 E2]. rewrite E2 in E. inversion E; subst.
    destruct (exit_shape E2 Hs1) as (H1 & H2 & _). split; [auto|]. split; [lia|].
    apply entered_deep; [auto|]. assert (depth b' = depth b) by lia. rewrite H. unfold depth. rewrite He. lia.
  - inversion E; subst; clear E. split.
    + constructor; cbn; [congruence|]. constructor; [|apply Hs1].
      destruct (ts_stack (b_current b1)) eqn:Est; [|discriminate]. exfalso.
      unfold enter_inline in E1. destruct (down b k) as [b2 s2] eqn:E2. destruct s2; cbn [bind_status] in E1; [|discriminate].
      apply add_size_depth in E1 as (C1 & _). rewrite C1 in Est.
      apply down_shape in E2 as (c & E2 & _). rewrite E2 in Est. discriminate.
    + unfold depth in *. cbn. rewrite He1 in *. cbn in *. lia.
Qed.

(** ** What a visit leaves open *)
Definition after (b b' : builder) (o : outcome) : Prop :=
  o <> Aborted /\ shape b' /\ (depth b' = depth b \/ (o = Unwinding /\ depth b' = S (depth b))).

Lemma pos_depth b : b_entered b = true -> (0 < depth b)%nat.
Proof. intros H. unfold depth. rewrite H. lia. Qed.

Lemma leave_after b b1 b2 o : b_entered b = true -> off_by_one b b1 -> after b1 b2 o ->
  exists b3, leave_scope (b2, o) = (b3, o) /\ after b b3 o.
Proof.
  intros He [Hs1 Hd1] (Ho & Hs2 & Hd2). pose proof (pos_depth He).
  destruct (WrapPanic.exit_fine (b := b2)) as [b3 E]; [apply entered_deep; [auto | lia] | auto|].
  destruct (exit_shape E Hs2) as (H3 & H4 & _).
  exists b3. split; [cbn [leave_scope]; rewrite E; destruct o; [auto | auto | contradiction]|].
  split; [auto|]. split; [auto|]. destruct Hd2 as [Hd2|[Ho2 Hd2]]; [left; lia | right; split; [auto | lia]].
Qed.

Lemma after_trans b b1 b2 o : depth b1 = depth b -> after b1 b2 o -> after b b2 o.
Proof. intros H (H1 & H2 & H3). split; [auto|]. split; [auto|]. rewrite <- H. auto. Qed.

Lemma scope_after m b b1 body rest :
  b_entered b = true -> shape b -> off_by_one b b1 ->
  (forall b, b_entered b = true -> shape b -> exists b' o, run m body b = (b', o) /\ after b b' o) ->
  (forall b, b_entered b = true -> shape b -> exists b' o, run m rest b = (b', o) /\ after b b' o) ->
  exists b' o, and_then (leave_scope (run m body b1)) (run m rest) = (b', o) /\ after b b' o.
Proof.
  intros He Hs Hoff IHb IHr. destruct (IHb b1 (off_entered Hoff) (proj1 Hoff)) as (b2 & o & E2 & H2). rewrite E2.
  destruct (leave_after He Hoff H2) as (b3 & E3 & H3). rewrite E3. destruct o; cbn [and_then]; [|eauto|eauto].
  destruct H3 as (_ & Hs3 & [Hd3|[Hd3 _]]); [|discriminate].
  assert (He3 : b_entered b3 = true) by (apply entered_deep; [auto | rewrite Hd3; now apply pos_depth]).
  destruct (IHr b3 He3 Hs3) as (b4 & o4 & E4 & H4). exists b4, o4. split; [exact E4 | eapply after_trans; eauto].
Qed.

Lemma run_after m p : forall b, b_entered b = true -> shape b -> exists b' o, run m p b = (b', o) /\ after b b' o.
Proof.
  induction p as [| |k s body IHb rest IHr|k s body IHb rest IHr|k s x body IHb r1 IH1 r2 IH2]; intros b He Hs; cbn [run].
  - exists b, Done. split; [auto|]. split; [discriminate | auto].
  - exists b, Unwinding. split; [auto|]. split; [discriminate | auto].
  - destruct (enter_inline m b k s) as [b1 st] eqn:E1. pose proof (enter_inline_depth E1 He Hs) as Hoff.
    destruct st; [apply scope_after; auto|]. exists b1, Unwinding. split; [auto|]. destruct Hoff. split; [discriminate | auto].
  - destruct (enter_unique m b k s) as [b1 st] eqn:E1. pose proof (enter_unique_depth E1 He Hs) as Hoff.
    destruct st; [apply scope_after; auto|]. exists b1, Unwinding. split; [auto|]. destruct Hoff. split; [discriminate | auto].
  - destruct (enter_shared m b k s x) as [[b1 st] ret] eqn:E1. pose proof (enter_shared_depth E1 He Hs) as Hoff.
    destruct st; [destruct ret|].
    + apply scope_after; auto.
    + destruct Hoff as (Hs1 & Hd1 & He1). destruct (IH2 b1 He1 Hs1) as (b2 & o & E2 & H2).
      exists b2, o. split; [auto | eapply after_trans; eauto].
    + exists b1, Unwinding. split; [auto|]. destruct Hoff. split; [discriminate | auto].
Qed.

(** ** The two modes *)
Lemma add_size_modes b s : add_size Debug b s = add_size Release b s \/ add_size Debug b s = (b, Panicked).
Proof.
  unfold add_size. destruct (tree_get _ _) as [td|]; [|auto].
  destruct (uadd Debug (td_size td) s) as [n|] eqn:E; [|auto]. rewrite (uadd_debug_release E). auto.
Qed.

Lemma enter_inline_modes b k s : enter_inline Debug b k s = enter_inline Release b k s \/
  exists b1, enter_inline Debug b k s = (b1, Panicked).
Proof.
  unfold enter_inline. destruct (down b k) as [b1 [|]]; cbn [bind_status]; [|auto].
  destruct (add_size_modes b1 s) as [->| ->]; eauto.
Qed.

Lemma enter_unique_modes b k s : enter_unique Debug b k s = enter_unique Release b k s \/
  exists b1, enter_unique Debug b k s = (b1, Panicked).
Proof.
  unfold enter_unique. destruct (down b k) as [b1 [|]]; cbn [bind_status]; [|auto].
  destruct (add_size_modes b1 s) as [->| ->]; cbn [bind_status]; eauto.
Qed.

Lemma enter_shared_modes b k s x : enter_shared Debug b k s x = enter_shared Release b k s x \/
  exists b1, enter_shared Debug b k s x = (b1, Panicked, false).
Proof.
  unfold enter_shared. fold (enter_inline Debug b k s). fold (enter_inline Release b k s).
  destruct (enter_inline_modes b k s) as [->|[b1 ->]]; eauto.
Qed.

Definition differs (p : vprog) (b : builder) : Prop := exists b', run Debug p b = (b', Unwinding) /\ off_by_one b b'.

Lemma scope_modes b b1 body rest :
  b_entered b = true -> shape b -> off_by_one b b1 ->
  (forall b, b_entered b = true -> shape b -> run Debug body b = run Release body b \/ differs body b) ->
  (forall b, b_entered b = true -> shape b -> run Debug rest b = run Release rest b \/ differs rest b) ->
  and_then (leave_scope (run Debug body b1)) (run Debug rest) = and_then (leave_scope (run Release body b1)) (run Release rest) \/
  exists b', and_then (leave_scope (run Debug body b1)) (run Debug rest) = (b', Unwinding) /\ off_by_one b b'.
Proof.
  intros He Hs Hoff IHb IHr. destruct (IHb b1 (off_entered Hoff) (proj1 Hoff)) as [E|(b2 & E2 & H2)].
  - rewrite E. destruct (run_after Release body (off_entered Hoff) (proj1 Hoff)) as (b2 & o & E2 & H2). rewrite E2.
    destruct (leave_after He Hoff H2) as (b3 & E3 & H3). rewrite E3. destruct o; cbn [and_then]; auto.
    destruct H3 as (_ & Hs3 & [Hd3|[Hd3 _]]); [|discriminate].
    assert (He3 : b_entered b3 = true) by (apply entered_deep; [auto | rewrite Hd3; now apply pos_depth]).
    destruct (IHr b3 He3 Hs3) as [->|(b4 & E4 & H4 & H5)]; [auto|]. right. exists b4. split; [auto|]. split; [auto | lia].
  - right. rewrite E2. destruct (leave_off (pos_depth He) (proj2 Hoff) H2) as (b3 & E3 & H3). rewrite E3. cbn [and_then]. eauto.
Qed.

Lemma run_modes p : forall b, b_entered b = true -> shape b -> run Debug p b = run Release p b \/ differs p b.
Proof.
  unfold differs.
  induction p as [| |k s body IHb rest IHr|k s body IHb rest IHr|k s x body IHb r1 IH1 r2 IH2]; intros b He Hs; cbn [run]; auto.
  - destruct (enter_inline_modes b k s) as [->|[b1 E1]].
    + destruct (enter_inline Release b k s) as [b1 st] eqn:E1. pose proof (enter_inline_depth E1 He Hs) as Hoff.
      destruct st; [|auto]. apply scope_modes; auto.
    + rewrite E1. right. exists b1. split; [auto|]. eapply enter_inline_depth; eauto.
  - destruct (enter_unique_modes b k s) as [->|[b1 E1]].
    + destruct (enter_unique Release b k s) as [b1 st] eqn:E1. pose proof (enter_unique_depth E1 He Hs) as Hoff.
      destruct st; [|auto]. apply scope_modes; auto.
    + rewrite E1. right. exists b1. split; [auto|]. eapply enter_unique_depth; eauto.
  - destruct (enter_shared_modes b k s x) as [->|[b1 E1]].
    + destruct (enter_shared Release b k s x) as [[b1 st] ret] eqn:E1. pose proof (enter_shared_depth E1 He Hs) as Hoff.
      destruct st; [destruct ret|auto]; [apply scope_modes; auto|].
      destruct Hoff as (Hs1 & Hd1 & He1). destruct (IH2 b1 He1 Hs1) as [->|(b2 & E2 & H2 & H3)]; [auto|].
      right. exists b2. split; [auto|]. split; [auto | lia].
    + rewrite E1. right. exists b1. split; [auto|]. exact (enter_shared_depth E1 He Hs).
Qed.

(** ** Root visits *)
Definition stuck (b : builder) : Prop := b_entered b = true.

Lemma stuck_finish m b : stuck b -> finish m b = None.
Proof.
  unfold stuck. intros H. unfold finish, finish_impl. rewrite H. destruct (b_shared b); [|reflexivity]. now destruct (ts_stack (b_current b)).
Qed.

Lemma stuck_root b : stuck b -> root_visitor b = (b, Panicked).
Proof. unfold stuck, root_visitor. now intros ->. Qed.

Lemma stuck_roots m l b : stuck b -> visit_roots m l b = (b, Done).
Proof.
  intros H. induction l as [|p l IH]; cbn [visit_roots]; [auto|]. unfold visit_root. now rewrite (stuck_root H).
Qed.

Lemma shape_root b : shape b -> b_entered b = false -> shape (set_entered b true) /\ depth (set_entered b true) = 1%nat.
Proof.
  intros [H1 H2] He. destruct (H1 He) as [H3 H4]. split.
  - constructor; cbn; [discriminate | auto].
  - unfold depth. cbn. now rewrite H3, H4.
Qed.

Lemma visit_root_modes p b : shape b ->
  (visit_root Debug p b = visit_root Release p b /\ exists b' o, visit_root Release p b = (b', o) /\ o <> Aborted /\ shape b') \/
  exists b', visit_root Debug p b = (b', Unwinding) /\ stuck b'.
Proof.
  intros Hs. unfold visit_root. destruct (b_entered b) eqn:He.
  { left. rewrite (stuck_root He). split; [auto|]. exists b, Unwinding. split; [auto|]. split; [discriminate | auto]. }
  unfold root_visitor. rewrite He. destruct (shape_root Hs He) as [Hs1 Hd1].
  destruct (run_modes p (b := set_entered b true) eq_refl Hs1) as [->|(b1 & E1 & Hs2 & Hd2)].
  - left. split; [auto|]. destruct (run_after Release p (b := set_entered b true) eq_refl Hs1) as (b2 & o & -> & Ho & Hs2 & Hd2).
    destruct (WrapPanic.exit_fine (b := b2)) as [b3 E]; [apply entered_deep; [auto | lia] | auto|].
    destruct (exit_shape E Hs2) as (H3 & _). exists b3, o.
    split; [cbn [leave_scope]; rewrite E; destruct o; [auto | auto | contradiction]|]. auto.
  - right. rewrite E1. destruct (WrapPanic.exit_fine (b := b1)) as [b2 E2]; [apply entered_deep; [auto | lia] | auto|].
    destruct (exit_shape E2 Hs2) as (Hs3 & Hd3 & _). exists b2. cbn [leave_scope]. rewrite E2. split; [reflexivity|].
    apply entered_deep; [auto | lia].
Qed.

Lemma visit_roots_modes l : forall b, shape b ->
  visit_roots Debug l b = visit_roots Release l b \/ exists b', visit_roots Debug l b = (b', Done) /\ stuck b'.
Proof.
  induction l as [|p l IH]; intros b Hs; cbn [visit_roots]; [auto|].
  destruct (visit_root_modes p Hs) as [[E (b1 & o & E1 & Ho & Hs1)]|(b1 & E1 & H1)].
  - rewrite E, E1. destruct o; [apply IH; auto | apply IH; auto | contradiction].
  - rewrite E1. right. exists b1. split; [now apply stuck_roots | auto].
Qed.

Lemma shape_default : shape b_default.
Proof. constructor; cbn; auto. Qed.

Lemma profile_modes l o : profile Debug l = Some o -> profile Release l = Some o.
Proof.
  unfold profile. destruct (visit_roots_modes l shape_default) as [->|(b & -> & H)].
  - destruct (visit_roots Release l b_default) as [b [| |]]; auto using finish_release.
  - rewrite (stuck_finish Debug H). discriminate.
Qed.
