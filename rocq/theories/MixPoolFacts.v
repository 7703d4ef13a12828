(** * Lemmas for property C66: every participant is one of C64 or C65. *)
From Coq Require Import Lia.
From Verif Require Import Base BaseFacts KeyModel KeyFacts HMap FlameModel BuilderModel BuilderFacts VisitorModel Spec LayoutModel ImplModel SizeOfModel
  LockModel LockSpec LockFacts SnapshotModel DashModel DashSpec MixModel MixSpec MixGuard PoolModel PoolSpec PoolFacts SizeMixModel SizeMixSpec SizeMixGuard MixPoolModel MixPoolSpec.

#[local] Arguments key_new : simpl never.

(** ** What a step does to locks and pointers *)
Inductive effect (o : owner) : shared -> shared -> Prop :=
| ef_none s : effect o s s
| ef_acquire s l a : available (locks s l) a -> effect o s (acquire s l o a)
| ef_release s l a p : In (o, a) (held (locks s l)) -> effect o s (release s l o a p)
| ef_next s l l2 : available (locks s l2) ReadOnly -> In (o, ReadOnly) (held (locks s l)) ->
    effect o s (release (acquire s l2 o ReadOnly) l o ReadOnly false)
| ef_clone s x : strong s x <> [] -> effect o s (set_strong s x (o :: strong s x))
| ef_drop s x : In o (strong s x) -> effect o s (set_strong s x (remove_one owner_eqb o (strong s x))).

Lemma effect_same o s s' t : effect o s s' -> same s t -> exists t', effect o t t' /\ same s' t'.
Proof.
  intros H Hs. pose proof Hs as [HL HR]. destruct H as [s|s l a Ha|s l a p Hin|s l l2 Ha Hin|s x Hx|s x Hin].
  - exists t. split; [constructor | exact Hs].
  - eexists. split; [apply ef_acquire; rewrite <- HL; exact Ha | now apply same_acquire].
  - eexists. split; [apply ef_release; rewrite <- HL; exact Hin | now apply same_release].
  - eexists. split; [apply ef_next; rewrite <- HL; eassumption | now apply same_release, same_acquire].
  - eexists. split; [apply ef_clone; rewrite <- HR; exact Hx|]. rewrite (HR x). now apply same_set_strong.
  - eexists. split; [apply ef_drop; rewrite <- HR; exact Hin|]. rewrite (HR x). now apply same_set_strong.
Qed.
Lemma view_in i s l o a : In (o, a) (held (locks s l)) -> In (seat i o, a) (held (locks (view i s) l)).
Proof. intros H. apply view_in_held. now rewrite seat_seat. Qed.
Lemma effect_view i o s s' : effect o s s' -> exists t, effect (seat i o) (view i s) t /\ same t (view i s').
Proof.
  intros H. destruct H as [s|s l a Ha|s l a p Hin|s l l2 Ha Hin|s x Hx|s x Hin].
  - exists (view i s). split; [constructor | apply same_refl].
  - eexists. split; [apply ef_acquire; apply view_available; exact Ha | apply same_sym, view_acquire].
  - eexists. split; [apply ef_release; apply view_in; exact Hin | apply same_sym, view_release].
  - eexists. split; [apply ef_next; [apply view_available; exact Ha | apply view_in; exact Hin] |].
    apply same_sym. eapply same_trans; [apply view_release | apply same_release, view_acquire].
  - eexists. split; [apply (@ef_clone (seat i o) (view i s) x); cbn; intros C; apply map_eq_nil in C; contradiction | apply same_sym, view_clone].
  - eexists. split; [apply ef_drop; apply view_in_strong; rewrite seat_seat; exact Hin | apply same_sym, view_drop].
Qed.

Lemma xsteady_in c l a : xsteady c -> xk_control c <> XLost -> In (FGuard l a LRet) (xplain_stack (xk_stack c)) -> In (Visit, a) (held (locks (x_shared (xk_mem c)) l)).
Proof. intros S HL Hin. apply (xsteady_held S HL Hin). Qed.
Lemma xsteady_ref c x rest st : xsteady c -> xk_control c <> XLost -> xk_stack c = YArc x rest :: st -> In Visit (strong (x_shared (xk_mem c)) x).
Proof. intros S HL E. destruct (S HL) as [_ _ R]. rewrite E in R. cbn [xplain_stack] in R. apply refs_in. rewrite R, open_refs_cons, N.eqb_refl. lia. Qed.

Definition untouched (g g' : xmemory) : Prop := x_content g = x_content g' /\ x_object g = x_object g' /\ x_table g = x_table g'.
Lemma untouched_refl g : untouched g g. Proof. repeat split. Qed.
Lemma xstep_effect m std c c' : xstep m std c c' -> xsteady c ->
  effect Visit (x_shared (xk_mem c)) (x_shared (xk_mem c')) /\ untouched (xk_mem c) (xk_mem c').
Proof.
  intros H S. assert (HL : xk_control c <> XLost) by (destruct H; discriminate).
  split; [|destruct H; cbn; repeat split].
  destruct H; cbn [xk_mem x_shared xset xk_stack] in *; try apply ef_none; try (apply ef_acquire; assumption).
  - apply ef_release. apply (xsteady_in (l := l) (a := a) S HL). cbn. now left.
  - apply ef_drop. eapply (xsteady_ref S HL). reflexivity.
  - apply ef_next; [assumption|]. apply (xsteady_in (l := l) (a := ReadOnly) S HL). cbn. now left.
  - apply ef_release. apply (xsteady_in (l := l) (a := ReadOnly) S HL). cbn. now left.
  - apply ef_release. apply (xsteady_in (l := l) (a := a) S HL). cbn. now left.
  - apply ef_drop. eapply (xsteady_ref S HL). reflexivity.
  - apply ef_release. apply (xsteady_in (l := l) (a := ReadOnly) S HL). cbn. now left.
  - apply ef_clone. assumption.
Qed.
Lemma zstep_effect m std c c' : zstep m std c c' -> xsteady (yconf c) ->
  effect Visit (x_shared (z_mem c)) (x_shared (z_mem c')) /\ untouched (z_mem c) (z_mem c').
Proof.
  intros H S. pose proof (@yconf_lost c) as HL.
  split; [|destruct H; cbn; repeat split].
  destruct H; cbn [z_mem x_shared xset z_stack] in *; try apply ef_none; try (apply ef_acquire; assumption).
  - apply ef_release. apply (xsteady_in (l := l) (a := a) S HL). cbn. now left.
  - apply ef_drop. eapply (xsteady_ref S HL). reflexivity.
  - apply ef_next; [assumption|]. apply (xsteady_in (l := l) (a := ReadOnly) S HL). cbn. now left.
  - apply ef_release. apply (xsteady_in (l := l) (a := ReadOnly) S HL). cbn. now left.
  - apply ef_release. apply (xsteady_in (l := l) (a := a) S HL). cbn. now left.
  - apply ef_drop. eapply (xsteady_ref S HL). reflexivity.
  - apply ef_release. apply (xsteady_in (l := l) (a := ReadOnly) S HL). cbn. now left.
  - apply ef_clone. assumption.
Qed.

(** ** Equal memories *)
Lemma xsame_refl g : xsame g g. Proof. split; [apply same_refl | auto]. Qed.
Lemma xsame_sym g h : xsame g h -> xsame h g. Proof. intros (H1 & H2 & H3 & H4). split; [now apply same_sym | auto]. Qed.
Lemma xsame_trans g h k : xsame g h -> xsame h k -> xsame g k.
Proof. intros (H1 & H2 & H3 & H4) (K1 & K2 & K3 & K4). split; [eapply same_trans; eauto|]. repeat split; congruence. Qed.
Lemma xsame_set g h s t : xsame g h -> same s t -> xsame (xset g s) (xset h t).
Proof. intros (H1 & H2 & H3 & H4) Hs. split; [exact Hs | auto]. Qed.

Ltac same_mem Hs := destruct Hs as ((HL & HR) & HC & HO & HT).
Lemma same_xchange g g1 h : xchange g g1 -> xsame g h -> exists h1, xchange h h1 /\ xsame g1 h1.
Proof.
  intros H Hs. pose proof Hs as (HS & HC & HO & HT). pose proof HS as [HL HR]. destruct H as [g s Ho|g l t v Hl|g x o|g l t tb Hl|g l l2 t Ha Hl].
  - destruct (same_ostep Ho HS) as (t1 & H1 & H2). exists (xset h t1). split; [now apply xc_shared | now apply xsame_set].
  - eexists. split; [apply (@xc_write h l t v); rewrite <- HL; exact Hl|]. split; [exact HS|]. cbn. rewrite HC. auto.
  - eexists. split; [apply (@xc_object h x o)|]. split; [exact HS|]. cbn. rewrite HO. auto.
  - eexists. split; [apply (@xc_table h l t tb); rewrite <- HL; exact Hl|]. split; [exact HS|]. cbn. rewrite HT. auto.
  - eexists. split; [apply (@xc_next h l l2 t); rewrite <- HL; assumption|]. apply xsame_set; [exact Hs|]. now apply same_release, same_acquire.
Qed.
Lemma same_xstep m std g b k st g1 b1 k1 st1 h : xstep m std (mkXC g b k st) (mkXC g1 b1 k1 st1) -> xsame g h ->
  exists h1, xstep m std (mkXC h b k st) (mkXC h1 b1 k1 st1) /\ xsame g1 h1.
Proof.
  intros H Hs. pose proof Hs as (HS & HC & HO & HT). pose proof HS as [HL HR].
  inversion H; subst; rewrite ?HC, ?HO, ?HT;
    try (eexists; split; [econstructor; eassumption | exact Hs]);
    try (eexists; split; [econstructor; rewrite <- ?HL, <- ?HR, <- ?HT; eassumption | exact Hs]).
  - eexists. split; [apply x_unlock | apply xsame_set; [exact Hs | now apply same_release]].
  - eexists. split; [apply x_drop_arc | apply xsame_set; [exact Hs|]]. rewrite (HR x). now apply same_set_strong.
  - eexists. split; [apply x_next_shard; rewrite <- HL; assumption | apply xsame_set; [exact Hs | now apply same_release, same_acquire]].
  - eexists. split; [apply x_last_shard | apply xsame_set; [exact Hs | now apply same_release]].
  - eexists. split; [apply x_unwind_unlock | apply xsame_set; [exact Hs | now apply same_release]].
  - eexists. split; [apply x_unwind_arc | apply xsame_set; [exact Hs|]]. rewrite (HR x). now apply same_set_strong.
  - eexists. split; [apply x_unwind_shard | apply xsame_set; [exact Hs | now apply same_release]].
  - eexists. split; [apply x_try; rewrite <- HL; assumption | apply xsame_set; [exact Hs | now apply same_acquire]].
  - eexists. split; [apply x_upgrade; rewrite <- HR; assumption | apply xsame_set; [exact Hs|]]. rewrite (HR x). now apply same_set_strong.
  - eexists. split; [apply x_first_shard; rewrite <- HL; assumption | apply xsame_set; [exact Hs | now apply same_acquire]].
Qed.
Lemma same_zstep m std g s nk k st g1 s1 nk1 k1 st1 h : zstep m std (mkZ g s nk k st) (mkZ g1 s1 nk1 k1 st1) -> xsame g h ->
  exists h1, zstep m std (mkZ h s nk k st) (mkZ h1 s1 nk1 k1 st1) /\ xsame g1 h1.
Proof.
  intros H Hs. pose proof Hs as (HS & HC & HO & HT). pose proof HS as [HL HR].
  inversion H; subst; rewrite ?HC, ?HO, ?HT;
    try (eexists; split; [econstructor; eassumption | exact Hs]);
    try (eexists; split; [econstructor; rewrite <- ?HL, <- ?HR, <- ?HT; eassumption | exact Hs]).
  - eexists. split; [apply z_unlock | apply xsame_set; [exact Hs | now apply same_release]].
  - eexists. split; [apply z_drop_arc | apply xsame_set; [exact Hs|]]. rewrite (HR x). now apply same_set_strong.
  - eexists. split; [apply z_next_shard; rewrite <- HL; assumption | apply xsame_set; [exact Hs | now apply same_release, same_acquire]].
  - eexists. split; [apply z_last_shard | apply xsame_set; [exact Hs | now apply same_release]].
  - eexists. split; [apply z_unwind_unlock | apply xsame_set; [exact Hs | now apply same_release]].
  - eexists. split; [apply z_unwind_arc | apply xsame_set; [exact Hs|]]. rewrite (HR x). now apply same_set_strong.
  - eexists. split; [apply z_unwind_shard | apply xsame_set; [exact Hs | now apply same_release]].
  - eexists. split; [apply z_try; rewrite <- HL; assumption | apply xsame_set; [exact Hs | now apply same_acquire]].
  - eexists. split; [apply z_upgrade; rewrite <- HR; assumption | apply xsame_set; [exact Hs|]]. rewrite (HR x). now apply same_set_strong.
  - eexists. split; [apply z_first_shard; rewrite <- HL; assumption | apply xsame_set; [exact Hs | now apply same_acquire]].
Qed.

(** ** A step of one participant, seen by another one *)
Definition quiet_or_change (g g' : xmemory) : Prop := xsame g g' \/ exists t, xchange g t /\ xsame t g'.

Lemma effect_change i g s' : effect (Other i) (x_shared g) s' -> quiet_or_change g (xset g s').
Proof.
  intros H. inversion H; subst.
  - left. apply xsame_set; [apply xsame_refl | apply same_refl].
  - right. eexists. split; [apply xc_shared, o_acquire; eassumption | apply xsame_refl].
  - right. eexists. split; [apply xc_shared, o_release; eassumption | apply xsame_refl].
  - right. eexists. split; [apply xc_next; eassumption | apply xsame_refl].
  - right. eexists. split; [apply xc_shared, o_clone; eassumption | apply xsame_refl].
  - right. eexists. split; [apply xc_shared, o_drop; eassumption | apply xsame_refl].
Qed.
Lemma seen_step i j g g1 g' : i <> j -> effect Visit (x_shared (xview i g)) (x_shared g1) -> untouched (xview i g) g1 -> xsame (xview i g') g1 ->
  quiet_or_change (xview j g) (xview j g').
Proof.
  intros Hij He (U1 & U2 & U3) (HS & C1 & C2 & C3). cbn [xview xset x_content x_object x_table x_shared] in *.
  destruct (effect_view i He) as (t & H1 & H2). cbn [seat] in H1. destruct (effect_same H1 (view_view i (x_shared g))) as (t1 & H3 & H4).
  assert (E : same t1 (x_shared g')).
  { eapply same_trans; [apply same_sym, H4|]. eapply same_trans; [exact H2|]. eapply same_trans; [apply same_view, same_sym, HS | apply view_view]. }
  destruct (effect_view j H3) as (t2 & H5 & H6). rewrite (seat_other Hij) in H5.
  assert (X : xsame (xset (xview j g) t2) (xview j g')).
  { split; [cbn; eapply same_trans; [exact H6 | now apply same_view]|]. cbn. repeat split; congruence. }
  destruct (@effect_change i (xview j g) t2 H5) as [Q|(t3 & Q1 & Q2)]; [left | right; exists t3; split; [exact Q1|]]; eapply xsame_trans; eauto.
Qed.
Lemma xoutside_seen n i g g' : (i < n)%nat -> xoutside n g g' -> quiet_or_change (xview i g) (xview i g').
Proof.
  intros Hi H. assert (Q : forall t, (n <= t)%nat -> seat i (Other t) = Other t) by (intros t Ht; apply seat_other; lia).
  destruct H as [g s Ho|g l t v Ht Hl|g x o|g l t tb Ht Hl|g l l2 t Ht Ha Hl].
  - destruct (outside_seen Hi Ho) as [E|(t & H1 & H2)]; [left | right; exists (xset (xview i g) t)].
    + split; [exact E | cbn; auto].
    + split; [now apply xc_shared|]. split; [exact H2 | cbn; auto].
  - right. eexists. split; [apply (@xc_write (xview i g) l t v); rewrite <- (Q t Ht); now apply view_in | apply xsame_refl].
  - right. eexists. split; [apply (@xc_object (xview i g) x o) | apply xsame_refl].
  - right. eexists. split; [apply (@xc_table (xview i g) l t tb); rewrite <- (Q t Ht); now apply view_in | apply xsame_refl].
  - destruct (effect_view i (@ef_next (Other t) _ _ _ Ha Hl)) as (u & H1 & H2). rewrite (Q t Ht) in H1.
    assert (X : xsame (xset (xview i g) u) (xview i (xset g (release (acquire (x_shared g) l2 (Other t) ReadOnly) l (Other t) ReadOnly false)))) by (split; [exact H2 | cbn; auto]).
    destruct (@effect_change t (xview i g) u H1) as [E|(v & Q1 & Q2)]; [left; eapply xsame_trans; eauto | right; exists v; split; [exact Q1 | eapply xsame_trans; eauto]].
Qed.

(** ** The guards of the participants *)
Lemma consistent_same s t st : same s t -> consistent s st -> consistent t st.
Proof.
  intros [HL HR] [H1 H2 H3]. constructor.
  - intros l. rewrite <- HL. apply H1.
  - intros l a. specialize (H2 l a). unfold guards_held in *. now rewrite <- HL.
  - intros x. specialize (H3 x). unfold refs_held in *. now rewrite <- HR.
Qed.
(** Each participant as a configuration of MixModel. *)
Definition as_conf (g : xmemory) (d : doing) : option xconf :=
  match d with
  | DRoots b _ _ => Some (mkXC g b XUnwinds [])
  | DVisit b k st _ _ => Some (mkXC g b k st)
  | DGone _ => None
  | DSize s nk k st => Some (yconf (mkZ g s nk k st))
  end.
Definition steady_one (g : xmemory) (d : doing) : Prop := match as_conf g d with Some c => xsteady c | None => True end.
Definition steady (P : xpool) : Prop := forall i d, nth_error (q_all P) i = Some d -> steady_one (xview i (q_mem P)) d.

Lemma steady_same g h d : xsame g h -> steady_one g d -> steady_one h d.
Proof.
  intros (HS & _) H. unfold steady_one in *. destruct d; cbn [as_conf] in *; [| |exact I|]; intros HL; specialize (H HL); cbn [yconf xk_mem xk_stack] in *; eapply consistent_same; eauto.
Qed.
Lemma steady_change g g' d : xchange g g' -> steady_one g d -> steady_one g' d.
Proof.
  intros H S. unfold steady_one in *. destruct d; cbn [as_conf] in *; [| |exact I|]; try (eapply xsteady_change; [exact H | exact S]).
Qed.
Lemma steady_quiet g g' d : quiet_or_change g g' -> steady_one g d -> steady_one g' d.
Proof. intros [E|(t & H & E)] S; [eapply steady_same; eauto | eapply steady_same; [exact E|]; eapply steady_change; eauto]. Qed.

(** The other participants only see changes. *)
Lemma turn_seen m std i j P P' d : xturn m std i P P' -> steady P -> i <> j -> nth_error (q_all P) j = Some d ->
  nth_error (q_all P') j = Some d /\ quiet_or_change (xview j (q_mem P)) (xview j (q_mem P')).
Proof.
  intros H S Hij Hd. destruct H; cbn [q_all q_mem] in *; (split; [now rewrite nth_upd_ne|]); try (left; apply xsame_refl).
  - match goal with Hn : nth_error _ i = Some _, Hx : xstep _ _ _ _ |- _ => destruct (xstep_effect Hx (S _ _ Hn)) as [E1 E2]; cbn [xk_mem] in E1, E2; eapply seen_step; eauto end.
  - match goal with Hn : nth_error _ i = Some _, Hx : zstep _ _ _ _ |- _ => destruct (zstep_effect Hx (S _ _ Hn)) as [E1 E2]; cbn [z_mem] in E1, E2; eapply seen_step; eauto end.
Qed.
Lemma ended_empty c : xended c -> xk_control c <> XLost -> xk_stack c = [].
Proof. unfold xended. destruct (xk_control c) as [[]| |]; try contradiction; try congruence; destruct (xk_stack c); auto; contradiction. Qed.
Lemma turn_steady m std i P P' : xturn m std i P P' -> steady P -> steady P'.
Proof.
  intros H S j d Hd. destruct (Nat.eq_dec i j) as [->|Hij].
  - destruct H as [g all b v vs calm b1 Hn Hr|g all b v vs calm b1 Hn Hr|g all b k st vs calm g1 b' k' st' g' Hn Hx Hs|g all b k st vs calm b2 o2 Hn He Hl Ho|g all b k st vs calm b2 Hn He Hl|g all s nk k st g1 s' nk' k' st' g' Hn Hx Hs];
      cbn [q_all q_mem] in *; rewrite (nth_upd_eq _ Hn) in Hd; injection Hd as <-; pose proof (S _ _ Hn) as S1; cbn [q_mem] in S1.
    + intros _. cbn. exact (S1 ltac:(discriminate)).
    + intros _. cbn. exact (S1 ltac:(discriminate)).
    + eapply steady_same; [apply xsame_sym, Hs|]. exact (xsteady_step Hx S1).
    + intros _. cbn. assert (HL : k <> XLost). { intros ->. cbn in Hl. injection Hl as <- <-. congruence. }
      pose proof (ended_empty He HL) as E. cbn in E. subst st. exact (S1 HL).
    + exact I.
    + eapply steady_same; [apply xsame_sym, Hs|]. exact (zsteady_step Hx S1).
  - assert (X : exists d0, nth_error (q_all P) j = Some d0).
    { assert (L : length (q_all P') = length (q_all P)) by (destruct H; cbn; apply upd_len). assert (j < length (q_all P))%nat by (rewrite <- L; apply nth_error_Some; congruence).
      destruct (nth_error (q_all P) j) eqn:E; [eauto | apply nth_error_None in E; lia]. }
    destruct X as (d0 & Hd0). destruct (turn_seen H S Hij Hd0) as [E Q]. rewrite Hd in E. injection E as ->. eapply steady_quiet; eauto.
Qed.
Lemma outside_steady g g' all : xoutside (length all) g g' -> steady (mkXP g all) -> steady (mkXP g' all).
Proof.
  intros H S i d Hd. cbn [q_all q_mem] in *. eapply steady_quiet; [eapply xoutside_seen; [|exact H]; apply nth_error_Some; congruence | exact (S i d Hd)].
Qed.
Lemma joint_steady M m std P P' : xjoint M m std P P' -> steady P -> steady P'.
Proof.
  induction 1 as [P _|i P P' P'' _ H _ IH|g g' all P'' _ H _ IH]; intros S; [exact S | apply IH; eapply turn_steady; eauto | apply IH; eapply outside_steady; eauto].
Qed.
Lemma joint_all M m std P P' : xjoint M m std P P' -> length (q_all P') = length (q_all P).
Proof.
  induction 1 as [P _|i P P' P'' _ H _ IH|g g' all P'' _ H _ IH]; [reflexivity | rewrite IH; destruct H; cbn; apply upd_len | exact IH].
Qed.
Lemma start_steady g js : (forall l, lock_ok (locks (x_shared g) l)) -> all_idle (length js) (x_shared g) -> steady (xpool_start g js).
Proof.
  intros Hk Hi i d Hd. cbn [xpool_start q_all q_mem] in *. assert (L : (i < length js)%nat) by (rewrite <- (map_length job_start); apply nth_error_Some; congruence).
  assert (C : consistent (view i (x_shared g)) []).
  { apply (@start_sound (view i (x_shared g)) b_default LRet); [intros l; apply view_lock_ok, Hk | eapply view_idle; eauto | discriminate]. }
  rewrite nth_error_map in Hd. destruct (nth_error js i) as [[b roots|v]|]; [| |discriminate]; injection Hd as <-; intros _; exact C.
Qed.

(** ** Each participant on its own *)
Section Each.
  Variables (M : xmemory -> Prop) (m : mode) (std : lock -> bool) (i : nat).
  Notation M' := (seen_from i M).

  (** From a participant's state (in memory [h], as it sees it) to the end of a session. *)
  Definition leads (h : xmemory) (d : doing) (b' : builder) (o : outcome) (calm' : bool) : Prop :=
    match d with
    | DRoots b roots calm => exists calm1, xprofiles M' m std h b roots b' o calm1 /\ calm' = calm && calm1
    | DVisit b k st roots calm => exists c b2 o2, xpasses M' m std (mkXC h b k st) c /\ xended c /\ leave_scope (xresult c) = (b2, o2) /\
        ((o2 <> Aborted /\ exists calm1, xprofiles M' m std (xk_mem c) b2 roots b' o calm1 /\ calm' = calm && match o2 with Done => calm1 | _ => false end) \/
         (o2 = Aborted /\ b' = b2 /\ o = Aborted /\ calm' = false))
    | DGone b => b' = b /\ o = Aborted /\ calm' = false
    | DSize _ _ _ _ => False
    end.
  Definition counts (h : xmemory) (d : doing) (r : option N) : Prop :=
    match d with
    | DSize s nk k st => exists c, zpasses M' m std (mkZ h s nk k st) c /\ zended c /\ zresult c = r
    | _ => False
    end.

  (** Other code, in between. *)
  Lemma leads_change h h' d b' o calm : M' h -> xchange h h' -> leads h' d b' o calm -> leads h d b' o calm.
  Proof.
    intros HM H. destruct d as [b roots calm0|b k st roots calm0|b|s nk k st]; cbn [leads]; auto.
    - intros (calm1 & X & E). exists calm1. split; [eapply xr_change; eauto | exact E].
    - intros (c & b2 & o2 & X & R). exists c, b2, o2. split; [eapply xp_other; eauto | exact R].
  Qed.
  Lemma counts_change h h' d r : M' h -> xchange h h' -> counts h' d r -> counts h d r.
  Proof.
    intros HM H. destruct d as [b roots calm0|b k st roots calm0|b|s nk k st]; cbn [counts]; auto.
    intros (c & X & R). exists c. split; [eapply zp_other; eauto | exact R].
  Qed.

  Lemma mine_session P P' d h b' o calm' : xturn m std i P P' -> M (q_mem P) -> nth_error (q_all P) i = Some d -> xsame h (xview i (q_mem P)) ->
    (forall d' h', nth_error (q_all P') i = Some d' -> xsame h' (xview i (q_mem P')) -> leads h' d' b' o calm') -> leads h d b' o calm'.
  Proof.
    intros H HM Hd Hh IH. assert (HM' : M' h) by (exists (q_mem P); auto).
    destruct H as [g all b v vs calm b1 Hn Hr|g all b v vs calm b1 Hn Hr|g all b k st vs calm g1 b1 k' st' g' Hn Hx Hs|g all b k st vs calm b2 o2 Hn He Hl Ho|g all b k st vs calm b2 Hn He Hl|g all s nk k st g1 s' nk' k' st' g' Hn Hx Hs];
      cbn [q_all q_mem] in *; rewrite Hd in Hn; injection Hn as ->; pose proof (fun h' => IH _ h' (nth_upd_eq _ Hd)) as L; clear IH.
    - destruct (L h Hh) as (c & b2 & o2 & X & E & Le & R). destruct R as [(Ho & calm1 & X2 & ->)|(-> & -> & -> & ->)].
      + exists (match o2 with Done => calm1 | _ => false end). split; [|reflexivity]. eapply xr_visit; eauto.
      + exists false. split; [|now rewrite andb_false_r]. eapply xr_abort; eauto.
    - destruct (L h Hh) as (calm1 & X & ->). exists false. split; [|now rewrite andb_false_r]. eapply xr_refused; eauto.
    - destruct (same_xstep Hx (xsame_sym Hh)) as (h1 & H1 & H2). destruct (L h1) as (c & b2 & o2 & X & R).
      { eapply xsame_trans; [apply xsame_sym, H2 | apply xsame_sym, Hs]. }
      exists c, b2, o2. split; [|exact R]. eapply xp_visit; [exact HM' | exact H1 | exact X].
    - destruct (L h Hh) as (calm1 & X & ->). exists (mkXC h b k st), b2, o2. split; [apply xp_end; exact HM'|]. split; [exact He|]. split; [exact Hl|].
      left. split; [exact Ho|]. exists calm1. split; [exact X|]. destruct o2, calm; reflexivity.
    - destruct (L h Hh) as (-> & -> & ->). exists (mkXC h b k st), b2, Aborted. split; [apply xp_end; exact HM'|]. split; [exact He|]. split; [exact Hl|]. right. auto.
    - elim (L (xview i g') (xsame_refl _)).
  Qed.
  Lemma mine_size P P' d h r : xturn m std i P P' -> M (q_mem P) -> nth_error (q_all P) i = Some d -> xsame h (xview i (q_mem P)) ->
    (forall d' h', nth_error (q_all P') i = Some d' -> xsame h' (xview i (q_mem P')) -> counts h' d' r) -> counts h d r.
  Proof.
    intros H HM Hd Hh IH. assert (HM' : M' h) by (exists (q_mem P); auto).
    destruct H as [g all b v vs calm b1 Hn Hr|g all b v vs calm b1 Hn Hr|g all b k st vs calm g1 b1 k' st' g' Hn Hx Hs|g all b k st vs calm b2 o2 Hn He Hl Ho|g all b k st vs calm b2 Hn He Hl|g all s nk k st g1 s' nk' k' st' g' Hn Hx Hs];
      cbn [q_all q_mem] in *; rewrite Hd in Hn; injection Hn as ->; pose proof (fun h' => IH _ h' (nth_upd_eq _ Hd)) as L; clear IH; try (exact (L _ (xsame_refl _))).
    destruct (same_zstep Hx (xsame_sym Hh)) as (h1 & H1 & H2). destruct (L h1) as (c & X & R).
    { eapply xsame_trans; [apply xsame_sym, H2 | apply xsame_sym, Hs]. }
    exists c. split; [|exact R]. eapply zp_visit; [exact HM' | exact H1 | exact X].
  Qed.

  Lemma each_session P P' b' o calm' : xjoint M m std P P' -> steady P -> session_over P' i b' o calm' ->
    forall d h, nth_error (q_all P) i = Some d -> xsame h (xview i (q_mem P)) -> leads h d b' o calm'.
  Proof.
    intros H. induction H as [P HM|j P P' P'' HM H HJ IH|g g' all P'' HM H HJ IH]; intros S Ho d h Hd Hh.
    - unfold session_over in Ho. rewrite Hd in Ho. destruct d as [b [|v vs] calm|b k st vs calm|b|s nk k st]; try contradiction; destruct Ho as (-> & -> & ->); cbn [leads]; auto.
      exists true. split; [constructor | now rewrite andb_true_r].
    - specialize (IH (turn_steady H S) Ho). destruct (Nat.eq_dec j i) as [->|Hij]; [eapply mine_session; eauto|].
      destruct (turn_seen H S Hij Hd) as [Hd' [E|(t & Hc & E)]].
      + apply IH; [exact Hd' | eapply xsame_trans; eauto].
      + destruct (same_xchange Hc (xsame_sym Hh)) as (h1 & Hc' & E'). eapply leads_change; [exists (q_mem P); eauto | exact Hc' |].
        apply IH; [exact Hd' | eapply xsame_trans; [apply xsame_sym, E' | exact E]].
    - specialize (IH (outside_steady H S) Ho). cbn [q_all q_mem] in *. assert (Hi : (i < length all)%nat) by (apply nth_error_Some; congruence).
      destruct (xoutside_seen Hi H) as [E|(t & Hc & E)].
      + apply IH; [exact Hd | eapply xsame_trans; eauto].
      + destruct (same_xchange Hc (xsame_sym Hh)) as (h1 & Hc' & E'). eapply leads_change; [exists g; eauto | exact Hc' |].
        apply IH; [exact Hd | eapply xsame_trans; [apply xsame_sym, E' | exact E]].
  Qed.
  Lemma each_size P P' r : xjoint M m std P P' -> steady P -> size_over P' i r ->
    forall d h, nth_error (q_all P) i = Some d -> xsame h (xview i (q_mem P)) -> counts h d r.
  Proof.
    intros H. induction H as [P HM|j P P' P'' HM H HJ IH|g g' all P'' HM H HJ IH]; intros S Ho d h Hd Hh.
    - unfold size_over in Ho. rewrite Hd in Ho. destruct d as [b [|v vs] calm|b k st vs calm|b|s nk k st]; try contradiction. destruct Ho as (He & ->). cbn [counts].
      exists (mkZ h s nk k st). split; [apply zp_end; exists (q_mem P); auto|]. split; [exact He | reflexivity].
    - specialize (IH (turn_steady H S) Ho). destruct (Nat.eq_dec j i) as [->|Hij]; [eapply mine_size; eauto|].
      destruct (turn_seen H S Hij Hd) as [Hd' [E|(t & Hc & E)]].
      + apply IH; [exact Hd' | eapply xsame_trans; eauto].
      + destruct (same_xchange Hc (xsame_sym Hh)) as (h1 & Hc' & E'). eapply counts_change; [exists (q_mem P); eauto | exact Hc' |].
        apply IH; [exact Hd' | eapply xsame_trans; [apply xsame_sym, E' | exact E]].
    - specialize (IH (outside_steady H S) Ho). cbn [q_all q_mem] in *. assert (Hi : (i < length all)%nat) by (apply nth_error_Some; congruence).
      destruct (xoutside_seen Hi H) as [E|(t & Hc & E)].
      + apply IH; [exact Hd | eapply xsame_trans; eauto].
      + destruct (same_xchange Hc (xsame_sym Hh)) as (h1 & Hc' & E'). eapply counts_change; [exists g; eauto | exact Hc' |].
        apply IH; [exact Hd | eapply xsame_trans; [apply xsame_sym, E' | exact E]].
  Qed.
End Each.
