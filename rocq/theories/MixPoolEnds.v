(** * Lemmas for property C66: together they end. *)
From Coq Require Import Lia.
From Verif Require Import Base BaseFacts KeyModel KeyFacts HMap FlameModel BuilderModel BuilderFacts VisitorModel Spec LayoutModel ImplModel SizeOfModel
  LockModel LockSpec LockFacts SnapshotModel DashModel DashSpec MixModel MixSpec MixGuard MixEnds PoolModel PoolSpec PoolFacts
  SizeMixModel SizeMixSpec SizeMixGuard MixPoolModel MixPoolSpec MixPoolFacts MixPoolShown MixApartSpec.

#[local] Arguments key_new : simpl never.

(** ** Lists whose members take steps *)
Section Lists.
  Variables (A : Type) (R : A -> A -> Prop).
  Definition one_steps (l' l : list A) : Prop := exists i d d', nth_error l i = Some d /\ R d' d /\ l' = upd l i d'.
  Lemma one_steps_acc l : (forall d, In d l -> Acc R d) -> Acc one_steps l.
  Proof.
    induction l as [|a l IH]; intros H.
    - constructor. intros l' (i & d & d' & Hn & _). destruct i; discriminate.
    - assert (Ha : Acc R a) by (apply H; now left). assert (Hl : Acc one_steps l) by (apply IH; intros d Hd; apply H; now right). clear IH H.
      revert l Hl. induction Ha as [a _ IHa]. intros l Hl. induction Hl as [l Hl IHl].
      constructor. intros l' (i & d & d' & Hn & HR & ->). destruct i as [|i]; cbn in Hn |- *.
      + injection Hn as <-. apply IHa; [exact HR|]. constructor. exact Hl.
      + apply IHl. exists i, d, d'. auto.
  Qed.
End Lists.

Lemma xstep_contents m std c c' : xstep m std c c' -> untouched (xk_mem c) (xk_mem c').
Proof. intros H. destruct H; cbn; repeat split. Qed.
Lemma zstep_contents m std c c' : zstep m std c c' -> untouched (z_mem c) (z_mem c').
Proof. intros H. destruct H; cbn; repeat split. Qed.

Section Ends.
  Variables (m : mode) (std : lock -> bool) (g0 : xmemory).
  Hypothesis finite : xfinite g0.

  (** The steps of one participant, whatever its guards: [d'] follows [d]. *)
  Inductive goes : doing -> doing -> Prop :=
  | go_begin b b1 v vs calm : goes (DVisit b1 (XRun (XVisit v XRet)) [] vs calm) (DRoots b (v :: vs) calm)
  | go_refused b b1 v vs calm : goes (DRoots b1 vs false) (DRoots b (v :: vs) calm)
  | go_visit g g1 b k st b' k' st' vs calm : untouched g0 g -> xstep m std (mkXC g b k st) (mkXC g1 b' k' st') ->
      goes (DVisit b' k' st' vs calm) (DVisit b k st vs calm)
  | go_leave b k st b2 vs calm calm' : goes (DRoots b2 vs calm') (DVisit b k st vs calm)
  | go_abort b k st b2 vs calm : goes (DGone b2) (DVisit b k st vs calm)
  | go_size g g1 s nk k st s' nk' k' st' : untouched g0 g -> zstep m std (mkZ g s nk k st) (mkZ g1 s' nk' k' st') ->
      goes (DSize s' nk' k' st') (DSize s nk k st).

  Lemma finite_nested : znested g0.
  Proof. exact (proj2 finite). Qed.
  Lemma gone_acc b : Acc goes (DGone b).
  Proof. constructor. intros d H. inversion H. Qed.
  Lemma visit_acc vs : (forall b calm, Acc goes (DRoots b vs calm)) ->
    forall c, Acc (fun c' c => xunchanged_step m std c c') c -> untouched g0 (xk_mem c) -> forall calm, Acc goes (DVisit (xk_builder c) (xk_control c) (xk_stack c) vs calm).
  Proof.
    intros HR c Hc. induction Hc as [[g b k st] _ IH]. cbn [xk_mem xk_builder xk_control xk_stack] in *. intros Hu calm.
    constructor. intros d' H. inversion H as [| |g1 g2 ? ? ? b' k' st' ? ? Hu1 Hx|? ? ? b2 ? ? calm'|? ? ? b2 ? ?|]; subst; [|apply HR | apply gone_acc].
    refine (IH (mkXC g2 b' k' st') _ _ calm).
    - exists (x_shared g1). cbn [xk_mem xk_builder xk_control xk_stack]. destruct Hu as (E1 & E2 & E3), Hu1 as (F1 & F2 & F3). unfold xset.
      replace (mkX (x_shared g1) (x_content g) (x_object g) (x_table g)) with g1; [exact Hx|]. destruct g1 as [s1 c1 o1 t1]. cbn in *. congruence.
    - destruct (xstep_contents Hx) as (E1 & E2 & E3). destruct Hu1 as (F1 & F2 & F3). cbn [xk_mem] in *. unfold untouched. repeat split; congruence.
  Qed.
  Lemma roots_acc vs : forall b calm, Acc goes (DRoots b vs calm).
  Proof.
    induction vs as [|v vs IH]; intros b calm; constructor; intros d' H; inversion H; subst; [|apply IH].
    exact (visit_acc IH (c := mkXC g0 b1 (XRun (XVisit v XRet)) []) (@xunchanged_ends m std (mkXC g0 _ _ []) finite) (untouched_refl g0) calm).
  Qed.
  Lemma size_acc c : Acc (fun c' c => zunchanged_step m std c c') c -> untouched g0 (z_mem c) -> Acc goes (DSize (z_size c) (z_kind c) (z_control c) (z_stack c)).
  Proof.
    intros Hc. induction Hc as [[g s nk k st] _ IH]. cbn [z_mem z_size z_kind z_control z_stack] in *. intros Hu.
    constructor. intros d' H. inversion H as [| | | | |g1 g2 ? ? ? ? s' nk' k' st' Hu1 Hx]; subst.
    refine (IH (mkZ g2 s' nk' k' st') _ _).
    - exists (x_shared g1), (x_object g1). cbn [z_mem z_size z_kind z_control z_stack]. destruct Hu as (E1 & E2 & E3), Hu1 as (F1 & F2 & F3).
      replace (mkX (x_shared g1) (x_content g) (x_object g1) (x_table g)) with g1; [exact Hx|]. destruct g1 as [s1 c1 o1 t1]. cbn in *. congruence.
    - destruct (zstep_contents Hx) as (E1 & E2 & E3). destruct Hu1 as (F1 & F2 & F3). cbn [z_mem] in *. unfold untouched. repeat split; congruence.
  Qed.
  Lemma goes_acc d : Acc goes d.
  Proof.
    destruct d as [b vs calm|b k st vs calm|b|s nk k st].
    - apply roots_acc.
    - exact (visit_acc (roots_acc vs) (c := mkXC g0 b k st) (@xunchanged_ends m std (mkXC g0 b k st) finite) (untouched_refl g0) calm).
    - apply gone_acc.
    - exact (@size_acc (mkZ g0 s nk k st) (@zunchanged_ends m std (mkZ g0 s nk k st) finite_nested) (untouched_refl g0)).
  Qed.

  Lemma turn_goes i P P' : xturn m std i P P' -> untouched g0 (q_mem P) -> untouched g0 (q_mem P') /\ one_steps goes (q_all P') (q_all P).
  Proof.
    intros H Hu. destruct H as [g all b v vs calm b1 Hn Hr|g all b v vs calm b1 Hn Hr|g all b k st vs calm g1 b1 k' st' g' Hn Hx Hs|g all b k st vs calm b2 o2 Hn He Hl Ho|g all b k st vs calm b2 Hn He Hl|g all s nk k st g1 s' nk' k' st' g' Hn Hx Hs];
      cbn [q_mem q_all] in *; (split; [try exact Hu | exists i; do 2 eexists; split; [exact Hn|]; split; [|reflexivity]; try (econstructor; fail)]).
    - destruct (xstep_contents Hx) as (E1 & E2 & E3). destruct Hs as (_ & F1 & F2 & F3). destruct Hu as (U1 & U2 & U3). cbn in *. unfold untouched. repeat split; congruence.
    - eapply go_visit; [|exact Hx]. exact Hu.
    - destruct (zstep_contents Hx) as (E1 & E2 & E3). destruct Hs as (_ & F1 & F2 & F3). destruct Hu as (U1 & U2 & U3). cbn in *. unfold untouched. repeat split; congruence.
    - eapply go_size; [|exact Hx]. exact Hu.
  Qed.
  Lemma pool_acc : forall all, Acc (one_steps goes) all -> forall g, untouched g0 g -> Acc (fun P' P => unchanged_turn m std P P') (mkXP g all).
  Proof.
    induction 1 as [all _ IH]. intros g Hu. constructor. intros [g' all'] (s & i & H). cbn [q_mem q_all] in H.
    destruct (turn_goes H) as [Hu' Hg]; [exact Hu|]. cbn [q_mem q_all] in *. now apply IH.
  Qed.
End Ends.

Lemma pool_ends m std P : xfinite (q_mem P) -> Acc (fun P' P => unchanged_turn m std P P') P.
Proof.
  destruct P as [g all]. cbn [q_mem]. intros Hf. apply (@pool_acc m std g); [|apply untouched_refl]. apply one_steps_acc. intros d _. now apply goes_acc.
Qed.

(** ** A turn takes nothing for others *)
Lemma turn_others m std i P P' l t : xturn m std i P P' -> steady P -> t <> i -> In (Other t, Exclusive) (held (locks (x_shared (q_mem P')) l)) ->
  In (Other t, Exclusive) (held (locks (x_shared (q_mem P)) l)).
Proof.
  intros H S Ht Hin.
  assert (K : forall g g1 g', effect Visit (x_shared (xview i g)) (x_shared g1) -> xsame (xview i g') g1 ->
    In (Other t, Exclusive) (held (locks (x_shared g') l)) -> In (Other t, Exclusive) (held (locks (x_shared g) l))).
  { intros g g1 g' He ((HL & _) & _) X.
    assert (X1 : In (Other t, Exclusive) (held (locks (view i (x_shared g')) l))) by (apply view_in_held; rewrite seat_other by exact Ht; exact X).
    cbn [xview xset x_shared] in HL. rewrite HL in X1. assert (Ho : Other t <> Visit) by discriminate. pose proof (effect_only He Ho X1) as Y. cbn [xview xset x_shared] in Y.
    apply view_in_held in Y. now rewrite seat_other in Y. }
  destruct H as [g all b v vs calm b1 Hn Hr|g all b v vs calm b1 Hn Hr|g all b k st vs calm g1 b1 k' st' g' Hn Hx Hs|g all b k st vs calm b2 o2 Hn He Hl Ho|g all b k st vs calm b2 Hn He Hl|g all s nk k st g1 s' nk' k' st' g' Hn Hx Hs];
    cbn [q_mem] in *; auto.
  - destruct (xstep_effect Hx (S _ _ Hn)) as [E _]. exact (K _ _ _ E Hs Hin).
  - destruct (zstep_effect Hx (S _ _ Hn)) as [E _]. exact (K _ _ _ E Hs Hin).
Qed.
Lemma turn_index m std i P P' : xturn m std i P P' -> (i < length (q_all P))%nat.
Proof. intros H. apply nth_error_Some. destruct H; cbn [q_all]; congruence. Qed.
Lemma turn_contents m std i P P' : xturn m std i P P' -> untouched (q_mem P) (q_mem P').
Proof.
  intros H. destruct H as [g all b v vs calm b1 Hn Hr|g all b v vs calm b1 Hn Hr|g all b k st vs calm g1 b1 k' st' g' Hn Hx Hs|g all b k st vs calm b2 o2 Hn He Hl Ho|g all b k st vs calm b2 Hn He Hl|g all s nk k st g1 s' nk' k' st' g' Hn Hx Hs];
    cbn [q_mem]; try apply untouched_refl.
  - destruct (xstep_contents Hx) as (E1 & E2 & E3). destruct Hs as (_ & F1 & F2 & F3). cbn in *. unfold untouched. repeat split; congruence.
  - destruct (zstep_contents Hx) as (E1 & E2 & E3). destruct Hs as (_ & F1 & F2 & F3). cbn in *. unfold untouched. repeat split; congruence.
Qed.
Lemma joint_more (M M' : xmemory -> Prop) m std P P' : (forall g, M g -> M' g) -> xjoint M m std P P' -> xjoint M' m std P P'.
Proof. intros HM. induction 1; [apply xj_end; auto | eapply xj_turn; eauto | eapply xj_other; eauto]. Qed.
Lemma joint_turn (M : xmemory -> Prop) m std P P' i P'' : xjoint M m std P P' -> xturn m std i P' P'' -> M (q_mem P'') -> xjoint M m std P P''.
Proof.
  induction 1 as [P HM|j P Q Q' HM HT _ IH|g g' all Q' HM HO _ IH]; intros H H'; [eapply xj_turn; [exact HM | exact H | now apply xj_end] | eapply xj_turn; eauto | eapply xj_other; eauto].
Qed.
Lemma joint_there (M : xmemory -> Prop) m std P P' : xjoint M m std P P' -> M (q_mem P').
Proof. induction 1; auto. Qed.
