(** * Lemmas for property C65: guards, progress, termination. *)
From Verif Require Import Base BaseFacts KeyModel KeyFacts HMap FlameModel BuilderModel BuilderFacts VisitorModel Spec LayoutModel ImplModel SizeOfModel
  LockModel LockSpec LockFacts SnapshotModel SnapshotRun DashModel DashSpec MixModel MixSpec MixRun MixGuard MixLooks MixEnds SizeMixModel SizeMixSpec.

#[local] Arguments key_new : simpl never.

(** The same thread with a builder (any): what it holds and what is left to do are the same. *)
Definition yframe (f : zframe) : xframe :=
  match f with
  | ZScope _ r => YScope r
  | ZGuard l a r => YGuard l a r
  | ZArc x r => YArc x r
  | ZThen r => YThen r
  | ZShard kd l ls r => YShard kd l ls r
  end.
Definition ycontrol (k : zcontrol) : xcontrol := match k with ZRun p => XRun p | ZUnwinds => XUnwinds end.
Definition yconf (c : zconf) : xconf := mkXC (z_mem c) b_default (ycontrol (z_control c)) (map yframe (z_stack c)).
Lemma yconf_lost c : xk_control (yconf c) <> XLost.
Proof. destruct c as [g s nk [p|] st]; discriminate. Qed.

Lemma zsteady_step m std c c' : zstep m std c c' -> xsteady (yconf c) -> xsteady (yconf c').
Proof.
  intros H S. unfold xsteady in *. intros _. specialize (S (@yconf_lost c)).
  destruct H; cbn [yconf ycontrol xk_control xk_mem xk_stack z_mem z_stack z_control map yframe xplain_stack x_shared xset] in *;
    try (apply consistent_scope in S); try (apply consistent_scope); auto using consistent_acquire, consistent_upgrade.
  all: try solve [eapply consistent_release; eassumption | eapply consistent_drop; eassumption].
  eapply (@consistent_release _ l ReadOnly LRet). apply consistent_swap. now apply consistent_acquire.
Qed.
Lemma zsteady_passes M m std c c' : zpasses M m std c c' -> xsteady (yconf c) -> xsteady (yconf c').
Proof.
  induction 1 as [c _|c c' c'' _ H _ IH|g g' s nk k st c'' _ H _ IH]; intros S; [exact S | apply IH; eapply zsteady_step; eauto | apply IH; eapply xsteady_change; eauto; exact S].
Qed.
Lemma zbegin_steady g v : (forall l, lock_ok (locks (x_shared g) l)) -> holds_nothing (x_shared g) -> xsteady (yconf (zbegin g v)).
Proof. intros H1 H2. exact (@xbegin_steady g b_default v H1 H2). Qed.
Lemma zinside_y c l a : zinside c l a <-> xinside (yconf c) l a.
Proof.
  split; intros (r & H); exists r; cbn [yconf xk_stack] in *.
  - apply (in_map yframe _ _ H).
  - apply in_map_iff in H as (f & E & H). destruct f; try discriminate. cbn in E. injection E as -> -> ->. exact H.
Qed.
Lemma ziterating_y c l : ziterating c l -> iterating (yconf c) l.
Proof. intros (kd & ls & r & H). exists kd, ls, r. cbn [yconf xk_stack]. apply (in_map yframe _ _ H). Qed.

(** ** What is looked at *)
Section Visit.
Variable root : xvalue.
Definition nowhen : xmemory -> Prop := fun _ => False.
Lemma zdecent_step m std c c' : zstep m std c c' -> xconf_decent nowhen root (yconf c) -> xconf_decent nowhen root (yconf c').
Proof.
  intros S [HC HS]. unfold xconf_decent. destruct S; cbn [yconf ycontrol z_mem z_control z_stack map yframe xk_control xk_mem xk_stack xstack_decent xcont] in *.
  all: try (destruct HS as [HR HS]; now split).
  all: try (now split).
  all: try (destruct HS as [HR HS]; split; [apply (xdecent_mem (kept_set g _ _)); exact HR | apply (xstack_mem (kept_set g _ _)); exact HS]; fail).
  all: try (destruct HS as [HR HS]; split; [exact I | apply (xstack_mem (kept_set g _ _)); exact HS]; fail).
  all: try (cbn in HC; split; [apply xdecent_cons, HC | split; [apply HC | exact HS]]; fail).
  all: try (cbn in HC; split; [apply HC | exact HS]; fail).
  - destruct HS as [HR HS]. split; [|split; [apply (xdecent_mem (kept_set g _ _)); exact HR | apply (xstack_mem (kept_set g _ _)); exact HS]].
    apply xentries_decent. intros e w He Hw. right; right; left. exists kd, l2, ls, rest, e, w. split; [now left|]. split; [exact He|]. split; [exact Hw | apply xpart_self].
  - cbn in HC. split; [|split; [apply (xdecent_mem (kept_set g _ _)); exact HC | apply (xstack_mem (kept_set g _ _)); exact HS]].
    assert (A : xvals nowhen root (xset g (acquire (x_shared g) l Visit a)) (YGuard l a rest :: map yframe st) (x_content g l)).
    { right; left. exists l, a, rest. split; [now left | apply xpart_self]. }
    unfold xopened. destruct field; cbn; auto.
  - cbn in HC. destruct HC as [HB HR]. split; [|split; [apply (xdecent_mem (kept_set g _ _)); exact HR | apply (xstack_mem (kept_set g _ _)); exact HS]].
    apply (xdecent_mem (kept_set g _ _)). eapply xdecent_mono; [| |exact HB]; [intros u; apply xvals_cons|].
    cbn. intros y [Hy| ->]; [now apply xptrs_cons | right; exists rest; now left].
  - cbn in HC. destruct HC as [HV HR]. split; [|now split]. apply ximplementation_decent; [now apply xvals_cons | intros u cs Hv c Hc; exact (xvals_child Hv Hc)|].
    intros x Hx. left. exists v. split; [now apply xvals_cons | exact Hx].
  - cbn in HC. split; [|split; [apply (xdecent_mem (kept_set g _ _)); exact HC | apply (xstack_mem (kept_set g _ _)); exact HS]].
    apply xentries_decent. intros e w He Hw. right; right; left. exists kd, l, ls, rest, e, w. split; [now left|]. split; [exact He|]. split; [exact Hw | apply xpart_self].
Qed.
Lemma zdecent_passes M m std c c' : zpasses M m std c c' -> xsteady (yconf c) -> xconf_decent nowhen root (yconf c) -> xconf_decent nowhen root (yconf c').
Proof.
  induction 1 as [c _|c c' c'' HM H _ IH|g g' s nk k st c'' _ H _ IH]; intros S D; [exact D | |].
  - apply IH; [eapply zsteady_step; eauto | eapply zdecent_step; eauto].
  - apply IH; [eapply xsteady_change; eauto; exact S|]. eapply (@xdecent_change nowhen root g g'); eauto. destruct k; discriminate.
Qed.
End Visit.
Theorem zlooks M m std g v c u : (forall l, lock_ok (locks (x_shared g) l)) -> holds_nothing (x_shared g) ->
  zpasses M m std (zbegin g v) c -> zlooks_at c u -> zmay_look v (z_mem c) u.
Proof.
  intros H1 H2 HP (rest & E). pose proof (@zbegin_steady g v H1 H2) as S0. pose proof (zsteady_passes HP S0) as S.
  pose proof (@zdecent_passes v M m std _ _ HP S0) as [D _].
  { split; [|exact I]. cbn. split; [left; apply xpart_self | exact I]. }
  cbn [yconf xk_control xk_mem xk_stack] in D. rewrite E in D. cbn in D. destruct D as [D _].
  destruct (@xvals_may nowhen v (yconf c) u S (@yconf_lost c) D) as [X|[X|[X|(g' & x & i & w & [] & _)]]]; [now left | now right; left | now right; right].
Qed.

(** ** It can go on, or waits for a shard *)
Lemma zprogress m std c : zended c \/ (exists c', zstep m std c c') \/
  (exists l o, zneeds c l /\ In (o, Exclusive) (held (locks (x_shared (z_mem c)) l))).
Proof.
  assert (W : forall c l, zneeds c l -> (available (locks (x_shared (z_mem c)) l) ReadOnly -> exists c', zstep m std c c') ->
    (exists c', zstep m std c c') \/ (exists l o, zneeds c l /\ In (o, Exclusive) (held (locks (x_shared (z_mem c)) l)))).
  { intros c0 l Hn Hs. destruct (avail_dec (locks (x_shared (z_mem c0)) l) ReadOnly) as [Ha|Ha]; [left; auto|].
    right. destruct (unreadable Ha) as (o & Ho). eauto. }
  destruct c as [g s nk k st]. destruct k as [p|]; [|destruct st as [|[nk' rest|l a rest|x rest|rest|kd l ls rest] st]].
  - destruct p as [| |k n body rest|k n body rest|k n x rest|l a field rest|x body rest|v rest|w ls acc k|kd ls rest].
    + destruct st as [|[nk' rest|l a rest|x rest|rest|kd l ls rest] st]; [left; exact I | | | | |]; right.
      * left. eexists; apply z_exit.
      * left. eexists; apply z_unlock.
      * left. eexists; apply z_drop_arc.
      * left. eexists; apply z_return.
      * destruct ls as [|l2 ls]; [left; eexists; apply z_last_shard|]. apply (W _ l2); [reflexivity|]. intros Ha. eexists; now apply z_next_shard.
    + right. left. eexists; apply z_crash.
    + right. left. destruct (so_enter_inline m s k n nk) as [s'|] eqn:E; eexists; [eapply z_inline; eassumption | eapply z_inline_panic; eassumption].
    + right. left. eexists; apply z_unique.
    + right. left. eexists; eapply z_shared; reflexivity.
    + right. left. destruct (poisoned (locks (x_shared g) l)) eqn:Ep; [eexists; apply z_try_fails; auto|].
      destruct (avail_dec (locks (x_shared g) l) a) as [Ha|Ha]; eexists; [apply z_try; assumption | apply z_try_fails; left; eapply unavailable_held, Ha].
    + right. left. destruct (strong (x_shared g) x) eqn:Es; eexists; [eapply z_upgrade_dead; eassumption | apply z_upgrade; congruence].
    + right. left. eexists; apply z_visit.
    + right. destruct ls as [|l ls]; [left; eexists; apply z_sum_done|]. apply (W _ l); [reflexivity|]. intros Ha. cbn in Ha.
      destruct (uadd m acc (count w (x_table g l))) as [n|] eqn:E; eexists; [eapply z_sum; eassumption | eapply z_sum_overflow; eassumption].
    + right. destruct ls as [|l ls]; [left; eexists; apply z_no_shard|]. apply (W _ l); [reflexivity|]. intros Ha. eexists; now apply z_first_shard.
  - left; exact I.
  - right. left. eexists; apply z_unwind_exit.
  - right. left. eexists; apply z_unwind_unlock.
  - right. left. eexists; apply z_unwind_arc.
  - right. left. eexists; apply z_unwind_then.
  - right. left. eexists; apply z_unwind_shard.
Qed.

(** ** It ends *)
Section Ends.
  Variable m : mode.
  Variable content : lock -> xvalue.
  Variable table : lock -> xtable.
  Variable rank : lock -> nat.
  Hypothesis Hrank : forall l l', In l' (xlocks (content l)) -> (rank l' < rank l)%nat.
  Hypothesis Htable : forall l l' e w, In e (tb_entries (table l)) -> of_entry w e -> In l' (xlocks w) -> (rank l' < rank l)%nat.
  Definition zfixed (g : xmemory) : Prop := x_content g = content /\ x_table g = table.

  Lemma zstep_weight std c c' n : zfixed (z_mem c) -> zstep m std c c' -> weighs m content table (yconf c) n ->
    zfixed (z_mem c') /\ exists n', weighs m content table (yconf c') n' /\ (n' < n)%nat.
  Proof.
    intros F H W. destruct H; unfold weighs in *; cbn [yconf ycontrol z_mem z_control z_stack map yframe xk_mem xk_builder xk_control xk_stack] in *; (split; [exact F|]);
      destruct F as (F1 & F3); try rewrite F3 in *;
      try (destruct W as (i & j & W1 & W2 & ->); inversion W1; subst); try (match type of W2 with costs _ _ _ (_ :: _) _ => inversion W2; subst; cbn [left_of] in * end);
      try (match type of W with costs _ _ _ (_ :: _) _ => inversion W; subst; cbn [left_of] in * end);
      try congruence;
      try (eexists; split; [eassumption | lia]);
      try (eexists; split; [do 2 eexists; split; [eassumption|]; split; [first [eassumption | econstructor; eassumption] | reflexivity] | cbn; lia]).
    all: try (match goal with X : cost _ _ _ (XIter _ _ _) _ |- _ => inversion X; subst end;
      eexists; split; [do 2 eexists; split; [eassumption|]; split; [first [eassumption | econstructor; eassumption] | reflexivity] | cbn; lia]).
    all: try (match goal with X : uadd m ?acc _ = Some _, Y : uadd m ?acc _ = Some _ |- _ => rewrite X in Y; injection Y as -> end;
      eexists; split; [do 2 eexists; split; [eassumption|]; split; [first [eassumption | econstructor; eassumption] | reflexivity] | cbn; lia]).
  Qed.
  Lemma zunchanged_fixed std : forall n c, zfixed (z_mem c) -> weighs m content table (yconf c) n -> Acc (fun c' c => zunchanged_step m std c c') c.
  Proof.
    induction n as [n IHn] using (well_founded_induction lt_wf).
    intros c F W. constructor. intros c' (s & o & H). apply (@zstep_weight _ _ _ n) in H; [|exact F | exact W]. destruct H as [F' (n' & W' & L)].
    eapply IHn; eauto.
  Qed.
End Ends.
Theorem zunchanged_ends m std c : znested (z_mem c) -> Acc (fun c' c => zunchanged_step m std c c') c.
Proof.
  intros (rank & Hr & Ht).
  destruct (@weighs_some m (x_content (z_mem c)) (fun _ => None) (x_table (z_mem c)) rank [] Hr Ht ltac:(congruence) (yconf c)) as (n & W).
  eapply zunchanged_fixed; eauto. split; reflexivity.
Qed.

(** ** Allocations are not looked at *)
Definition zwith (f : ptr -> option (inner * xvalue)) (c : zconf) : zconf := mkZ (with_objects f (z_mem c)) (z_size c) (z_kind c) (z_control c) (z_stack c).
Lemma zstep_objects m std f c c' : zstep m std c c' -> zstep m std (zwith f c) (zwith f c').
Proof.
  intros H. destruct H; unfold zwith, with_objects; cbn [z_mem z_size z_kind z_control z_stack x_shared x_content x_table xset].
  all: try (econstructor; eauto; fail).
  all: first [apply (@z_unlock m std (with_objects f g)); assumption | apply (@z_drop_arc m std (with_objects f g)); assumption | apply (@z_next_shard m std (with_objects f g)); assumption | apply (@z_last_shard m std (with_objects f g)); assumption | apply (@z_unwind_unlock m std (with_objects f g)); assumption | apply (@z_unwind_arc m std (with_objects f g)); assumption | apply (@z_unwind_shard m std (with_objects f g)); assumption | apply (@z_try m std (with_objects f g)); assumption | apply (@z_upgrade m std (with_objects f g)); assumption | apply (@z_first_shard m std (with_objects f g)); assumption].
Qed.
Lemma zpasses_objects (M : xmemory -> Prop) m std f c c' : zpasses M m std c c' ->
  zpasses (fun g => exists g0, M g0 /\ g = with_objects f g0) m std (zwith f c) (zwith f c').
Proof.
  induction 1 as [c H|c c' c'' HM H _ IH|g g' s nk k st c'' HM H _ IH].
  - apply zp_end. exists (z_mem c). auto.
  - eapply zp_visit; [exists (z_mem c); auto | apply zstep_objects, H | exact IH].
  - unfold zwith in *. cbn [z_mem z_size z_kind z_control z_stack] in *. destruct H as [g s' Hs|g l t v Hl|g x o|g l t tb Hl|g l l2 t Ha Hl].
    + eapply zp_other; [exists g; auto | | exact IH]. exact (@xc_shared (with_objects f g) s' Hs).
    + eapply zp_other; [exists g; auto | | exact IH]. exact (@xc_write (with_objects f g) l t v Hl).
    + exact IH.
    + eapply zp_other; [exists g; auto | | exact IH]. exact (@xc_table (with_objects f g) l t tb Hl).
    + eapply zp_other; [exists g; auto | | exact IH]. exact (@xc_next (with_objects f g) l l2 t Ha Hl).
Qed.
