(** * Property C65: [size_of_unique_allocated_data] and [size_of_unique] while everything
    changes. *)
From Coq Require Import Lia.
From Verif Require EventFacts.
From Verif Require Import SolidFacts ChangeCases.
From Verif Require Import Base BaseFacts KeyModel KeyFacts HMap FlameModel BuilderModel BuilderFacts VisitorModel Spec LayoutModel ImplModel ImplSpec SizeOfModel PropertiesImpl
  LockModel LockSpec LockFacts SnapshotModel DashModel DashSpec MixModel MixSpec MixTypedSpec MixTyped MixGuard MixCases PropertiesMix SizeMixModel SizeMixSpec SizeMixFacts SizeMixGuard SizeMixCases.

#[local] Arguments key_new : simpl never.

(** ** C65: whatever other threads do during the call, its result (or panic) is that of
    the same call for a value put together from pieces each of which was there at some
    moment; unless it panics nothing is left out without a reason. *)
Theorem C65_snapshot : forall (M : xmemory -> Prop) m std g v c, zpasses M m std (zbegin g v) c -> zended c ->
  exists q, shown M m (zresult c = None) v q /\ size_of_unique_allocated_data m q = zresult c.
Proof. intros M m std g v c H E. eapply zpasses_shown; eauto. Qed.
Print Assumptions C65_snapshot.

(** ** C65: for well-typed memory in which [DashMap]s are only updated in place, the
    result is the bytes owned by such a value (as in C33); [size_of_unique] adds the
    size of the argument. *)
Theorem C65_owned : forall content_type slot_type capacity_of entries_of (M : xmemory -> Prop) m std g v c n,
  (forall g, M g -> xmem_typed content_type slot_type capacity_of entries_of g) ->
  (forall g, M g -> xmem_all manual_free g) -> (forall g, M g -> xmem_all counted g) ->
  xtyped content_type slot_type capacity_of v -> manual_free (xoutline v) -> counted (xoutline v) ->
  zpasses M m std (zbegin g v) c -> zended c -> zresult c = Some n ->
  exists w, seen_as M m [v] [w] /\ typed w /\ (owned_bytes w < two64 -> n = owned_bytes w) /\
    (bytes_of v + owned_bytes w < two64 -> (do d <- zresult c; uadd m (bytes_of v) d) = Some (bytes_of v + owned_bytes w)).
Proof.
  intros ct st cf ef M m std g v c n HM HA HC HT HR HK HP He Hn.
  destruct (@zpasses_shown M m False std g v c HP He) as (q & S & Q); [congruence|].
  destruct (@shown_seen ct st cf ef M m HM v q S HT) as (w & -> & Hw). exists w.
  pose proof (lk_typed Hw) as T. pose proof (lk_counted Hw HA HR HC HK) as C.
  assert (Z : size_of_val w = bytes_of v) by (rewrite (lk_size Hw); apply C64_sizes).
  split; [constructor; [now split | constructor]|]. split; [exact T|]. split.
  - intros Hb. rewrite (@C33_owned_bytes m unseen w T C Hb) in Q. congruence.
  - intros Hb. rewrite <- Q, <- Z. apply (@C33_with_self m unseen w T C). now rewrite Z.
Qed.
Print Assumptions C65_owned.

(** ** C65: what is being looked at does not change: inside a lock the call has its
    guard, while it visits the entries of a shard it has the read guard of the shard,
    and no step of other code replaces the content or changes the table. *)
Theorem C65_guarded : forall (M : xmemory -> Prop) m std g v c,
  (forall l, lock_ok (locks (x_shared g) l)) -> holds_nothing (x_shared g) -> zpasses M m std (zbegin g v) c ->
  (forall l a, zinside c l a -> In (Visit, a) (held (locks (x_shared (z_mem c)) l)) /\
     forall g', xchange (z_mem c) g' -> x_content g' l = x_content (z_mem c) l) /\
  (forall l, ziterating c l -> In (Visit, ReadOnly) (held (locks (x_shared (z_mem c)) l)) /\
     forall g', xchange (z_mem c) g' -> x_table g' l = x_table (z_mem c) l).
Proof.
  intros M m std g v c H1 H2 HP. pose proof (zsteady_passes HP (@zbegin_steady g v H1 H2)) as S. pose proof (@yconf_lost c) as HL. split.
  - intros l a Hin. apply zinside_y, inside_plain in Hin. split; [apply (xsteady_held S HL Hin) | intros g' Hg; apply (held_stable S HL Hin Hg)].
  - intros l Hin. apply ziterating_y, iterating_plain in Hin. split; [apply (xsteady_held S HL Hin) | intros g' Hg; apply (held_stable S HL Hin Hg)].
Qed.
Print Assumptions C65_guarded.

(** ** C65: and nothing else is looked at; in particular nothing behind a shared pointer. *)
Theorem C65_looks : forall (M : xmemory -> Prop) m std g v c u,
  (forall l, lock_ok (locks (x_shared g) l)) -> holds_nothing (x_shared g) -> zpasses M m std (zbegin g v) c ->
  zlooks_at c u -> zmay_look v (z_mem c) u.
Proof. intros M m std g v c u. apply zlooks. Qed.
Print Assumptions C65_looks.

(** What allocations there are, and what happens to them, makes no difference. *)
Theorem C65_shared_irrelevant : forall (M : xmemory -> Prop) m std g v c (objects : ptr -> option (inner * xvalue)),
  zpasses M m std (zbegin g v) c ->
  exists c', zpasses (fun g => exists g0, M g0 /\ g = with_objects objects g0) m std (zbegin (with_objects objects g) v) c' /\
    zresult c' = zresult c /\ (zended c -> zended c').
Proof.
  intros M m std g v c f H. exists (zwith f c). split; [exact (zpasses_objects f H)|]. split; [reflexivity|]. intros E; exact E.
Qed.
Print Assumptions C65_shared_irrelevant.

(** ** C65: the only thing it ever waits for is the read lock of a shard that someone
    has exclusively: another thread, or the call itself (which then visits the content of
    that very lock). *)
Theorem C65_waits_for_shards : forall (M : xmemory -> Prop) m std g v c,
  (forall l, lock_ok (locks (x_shared g) l)) -> holds_nothing (x_shared g) -> zpasses M m std (zbegin g v) c ->
  zended c \/ (exists c', zstep m std c c') \/
  (exists l, zneeds c l /\ ((exists t, held (locks (x_shared (z_mem c)) l) = [(Other t, Exclusive)]) \/ zinside c l Exclusive)).
Proof.
  intros M m std g v c H1 H2 HP. pose proof (zsteady_passes HP (@zbegin_steady g v H1 H2)) as S.
  destruct (zprogress m std c) as [E|[E|(l & o & Hn & Ho)]]; [now left | now right; left |]. right; right. exists l. split; [exact Hn|].
  destruct (S (@yconf_lost c)) as [O G _]. cbn [yconf xk_mem xk_stack] in *. destruct o as [|t].
  - right. apply zinside_y. apply in_guards in Ho. rewrite G in Ho. clear - Ho. unfold xinside. cbn [yconf xk_stack]. induction (map yframe (z_stack c)) as [|f st IH]; [cbn in Ho; lia|].
    assert (R : (0 < open_guards (xplain_stack st) l Exclusive)%nat -> exists rest, In (YGuard l Exclusive rest) (f :: st)).
    { intros X. destruct (IH X) as (rest & Hr). exists rest. now right. }
    destruct f as [r|l0 a r|x r|r|kd l0 ls r]; cbn [xplain_stack] in Ho; try (apply R; exact Ho).
    + rewrite open_guards_cons in Ho. destruct (N.eqb_spec l0 l) as [->|]; cbn [andb] in Ho; [|now apply R].
      destruct a; cbn in Ho; [exists r; now left | now apply R].
    + rewrite open_guards_cons in Ho. cbn [access_eqb] in Ho. rewrite andb_false_r in Ho. now apply R.
  - left. exists t. now apply O.
Qed.
Print Assumptions C65_waits_for_shards.

(** ** C65: everything is given back. *)
Theorem C65_released : forall (M : xmemory -> Prop) m std g v c,
  (forall l, lock_ok (locks (x_shared g) l)) -> holds_nothing (x_shared g) ->
  zpasses M m std (zbegin g v) c -> zended c -> holds_nothing (x_shared (z_mem c)).
Proof.
  intros M m std g v c H1 H2 HP He. pose proof (zsteady_passes HP (@zbegin_steady g v H1 H2) (@yconf_lost c)) as [O G R].
  assert (E : z_stack c = []).
  { unfold zended in He. destruct (z_control c) as [[]|]; try contradiction; destruct (z_stack c); auto; contradiction. }
  cbn [yconf xk_mem xk_stack] in *. rewrite E in *. split.
  - intros l a Hin. apply in_guards in Hin. rewrite G in Hin. cbn in Hin. lia.
  - intros x Hin. apply refs_in in Hin. rewrite R in Hin. cbn in Hin. lia.
Qed.
Print Assumptions C65_released.

(** ** C65: it ends if the others let it: if locks and [DashMap]s are nested finitely deep
    and their contents are no longer changed, no run goes on forever; reference cycles do
    not matter. *)
Theorem C65_ends : forall m std c, znested (z_mem c) -> Acc (fun c' c => zunchanged_step m std c c') c.
Proof. intros m std c. apply zunchanged_ends. Qed.
Print Assumptions C65_ends.

(** A list whose nodes are boxed: [struct Node(Mutex<Option<Box<Node>>>)]. *)
Definition zt_node : tinfo := mkT "std::sync::poison::mutex::Mutex<core::option::Option<alloc::boxed::Box<Node>>>" 16 true.
Definition zt_next : tinfo := mkT "core::option::Option<alloc::boxed::Box<Node>>" 8 true.
Definition zt_box : tinfo := mkT "alloc::boxed::Box<Node>" 8 true.
Definition znode (x : lock) : xvalue := XLock zt_node x Exclusive.
Definition zlast : xvalue := XPlain (SStruct zt_next []) [].
Definition zbox (x : lock) : xvalue := XPlain (SBox zt_box 8) [znode x].
Definition znext (x : lock) : xvalue := XPlain (SStruct zt_next ["Some"%string]) [zbox x].
Definition znone : xtable := mkTable 0 [].
(** One node. *)
Definition zone : xmemory := mkX (mkShared (fun _ => mkLock [] false) (fun _ => [])) (fun _ => zlast) (fun _ => None) (fun _ => znone).
Lemma zcode_node m x : ximplementation m (znode x) = XInline (key_for_type_name (t_name zt_node)) 16 (XTry x Exclusive true XRet) XRet.
Proof. reflexivity. Qed.
Lemma zopened_next x : xopened true (znext x) = XInline DATA_NAME 8 (XVisit (znext x) XRet) XRet.
Proof. reflexivity. Qed.
Lemma zcode_next m x : ximplementation m (znext x) = XInline (key_for_type_name (t_name zt_next)) 8 (XInline (key_new "Some") 8 (XVisit (zbox x) XRet) XRet) XRet.
Proof. reflexivity. Qed.
Lemma zcode_box m x : ximplementation m (zbox x) =
  XInline (key_for_type_name (t_name zt_box)) 8 (XUnique PTR_NAME 8 (XVisit (znode x) XRet) XRet) XRet.
Proof. reflexivity. Qed.

(** The nodes up to [x] may have a next one, the others have not. *)
Definition zlist (x : lock) (g : xmemory) : Prop :=
  (forall y, x_content g y = zlast \/ (y < x /\ x_content g y = znext (N.succ y))) /\ (forall l, x_table g l = znone).
Lemma zlist_nested x g : zlist x g -> znested g.
Proof.
  intros [H1 H2]. exists (fun l => N.to_nat (x + 1 - l)). split.
  - intros l l' Hin. destruct (H1 l) as [E|[L E]]; rewrite E in Hin; cbn in Hin; [contradiction|]. destruct Hin as [<-|[]]. lia.
  - intros l l' e w Hin. rewrite H2 in Hin. destruct Hin.
Qed.
Definition zleads (std : lock -> bool) (n : nat) (c : zconf) : Prop :=
  exists c', zpasses znested Release std c c' /\ (n <= length (z_stack c'))%nat.
Lemma zleads_step std n c c' : znested (z_mem c) -> zstep Release std c c' -> zleads std n c' -> zleads std n c.
Proof. intros H1 H2 (c2 & H3 & H4). exists c2. split; [eapply zp_visit; eauto | exact H4]. Qed.
Lemma zleads_other std n g g' s nk k st : znested g -> xchange g g' -> zleads std n (mkZ g' s nk k st) -> zleads std n (mkZ g s nk k st).
Proof. intros H1 H2 (c2 & H3 & H4). exists c2. split; [eapply zp_other; eauto | exact H4]. Qed.
Lemma zleads_inline std n g s nk k z body rest st : znested g ->
  (forall s', zleads std n (mkZ g s' NKInline (ZRun body) (ZScope nk rest :: st))) ->
  zleads std n (mkZ g s nk (ZRun (XInline k z body rest)) st).
Proof.
  intros H1 H2. assert (E : exists s', so_enter_inline Release s k z nk = Some s') by (destruct nk; unfold so_enter_inline, uadd; try destruct (s + z <? two64); eauto).
  destruct E as (s' & E). eapply zleads_step; [exact H1 | apply z_inline; exact E | apply H2].
Qed.
Lemma zlist_lead std n : forall x g s nk st, zlist x g ->
  (forall y, x <= y -> locks (x_shared g) y = mkLock [] false) ->
  zleads std (n + length st) (mkZ g s nk (ZRun (XVisit (znode x) XRet)) st).
Proof.
  induction n as [|n IH]; intros x g s nk st W L.
  - eexists. split; [apply zp_end; eapply zlist_nested; exact W | cbn; lia].
  - assert (WS : forall s', zlist x (xset g s')) by (intros s'; exact W).
    eapply zleads_other; [eapply zlist_nested, W | apply xc_shared, (@o_acquire _ x 1%nat Exclusive); cbn; now rewrite L by lia|].
    eapply zleads_other; [eapply zlist_nested, WS | apply (@xc_write _ x 1%nat (znext (N.succ x))); cbn; rewrite N.eqb_refl; cbn; now left|].
    match goal with |- zleads _ _ (mkZ ?g' _ _ _ _) => set (g1 := g') end.
    assert (W1 : forall s', zlist (N.succ x) (xset g1 s')).
    { intros s'. destruct W as [Wa Wb]. split; [|exact Wb]. intros y. cbn [x_content xset g1]. destruct (N.eqb_spec y x) as [->|Ny].
      - right. split; [lia | reflexivity].
      - destruct (Wa y) as [E|[E1 E2]]; [now left | right; split; [lia | exact E2]]. }
    assert (N1 : forall s', znested (xset g1 s')) by (intros s'; eapply zlist_nested, W1).
    assert (N0 : znested g1) by apply (N1 (x_shared g1)).
    eapply zleads_other; [exact N0 | apply xc_shared, (@o_release _ x 1%nat Exclusive false); subst g1; cbn; rewrite N.eqb_refl; cbn; now left|].
    eapply zleads_step; [apply N1 | apply z_visit |]. rewrite zcode_node.
    apply zleads_inline; [apply N1|]. intros s1.
    eapply zleads_step; [apply N1 | apply z_try; subst g1; cbn; rewrite ?N.eqb_refl; cbn; rewrite ?N.eqb_refl, ?L by lia; reflexivity |].
    replace (x_content (xset g1 (release (x_shared g1) x (Other 1) Exclusive false)) x) with (znext (N.succ x)) by (subst g1; cbn; now rewrite N.eqb_refl).
    rewrite zopened_next.
    apply zleads_inline; [apply N1|]. intros s2. eapply zleads_step; [apply N1 | apply z_visit |]. rewrite zcode_next.
    apply zleads_inline; [apply N1|]. intros s3. apply zleads_inline; [apply N1|]. intros s4.
    eapply zleads_step; [apply N1 | apply z_visit |]. rewrite zcode_box.
    apply zleads_inline; [apply N1|]. intros s5. eapply zleads_step; [apply N1 | apply z_unique |].
    match goal with |- zleads _ _ (mkZ ?g' ?s' ?k' _ ?st') => destruct (@IH (N.succ x) g' s' k' st') as (c & P & Q) end.
    + apply W1.
    + intros y Hy. subst g1. cbn. destruct (N.eqb_spec y x) as [->|]; [lia|]. apply L. lia.
    + exists c. split; [exact P|]. cbn [length] in Q. lia.
Qed.

(** Otherwise there is no bound: another thread that keeps appending to a list keeps the call
    going, ever deeper in the recursion, although the list starts with one node and at every
    moment locks are nested finitely deep. *)
Theorem C65_unbounded_refuted :
  ~ (forall m std g v, znested g -> exists n, forall c, zpasses znested m std (zbegin g v) c -> (length (z_stack c) <= n)%nat).
Proof.
  intros H. assert (W : zlist 0 zone) by (split; intros; [now left | reflexivity]).
  destruct (H Release (fun _ => true) zone (znode 0)) as (n & Hn); [eapply zlist_nested, W|].
  destruct (@zlist_lead (fun _ => true) (S n) 0 zone 0 NKRoot [] W) as (c & P & L); [reflexivity|]. specialize (Hn c P). cbn in L. lia.
Qed.
Print Assumptions C65_unbounded_refuted.

(** ** C64: the same holds of [visit_root] (and so of C67's loop): a list of boxed nodes that
    others keep appending to is followed ever deeper. *)
Lemma xlist_finite x g : zlist x g -> (forall y, x_object g y = None) -> xfinite g.
Proof. intros H1 H2. split; [exists []; intros y Hy; now elim Hy | exact (zlist_nested H1)]. Qed.
Definition xleads (std : lock -> bool) (n : nat) (c : xconf) : Prop :=
  exists c', xpasses xfinite Release std c c' /\ (n <= length (xk_stack c'))%nat.
Lemma xleads_step std n c c' : xfinite (xk_mem c) -> xstep Release std c c' -> xleads std n c' -> xleads std n c.
Proof. intros H1 H2 (c2 & H3 & H4). exists c2. split; [eapply xp_visit; eauto | exact H4]. Qed.
Lemma xleads_other std n g g' b k st : xfinite g -> xchange g g' -> xleads std n (mkXC g' b k st) -> xleads std n (mkXC g b k st).
Proof. intros H1 H2 (c2 & H3 & H4). exists c2. split; [eapply xp_other; eauto | exact H4]. Qed.
Lemma xleads_inline std n g b k z body rest st : xfinite g -> solid b -> EventFacts.shape b -> b_entered b = true ->
  (forall b', solid b' -> EventFacts.shape b' -> b_entered b' = true -> xleads std n (mkXC g b' (XRun body) (YScope rest :: st))) ->
  xleads std n (mkXC g b (XRun (XInline k z body rest)) st).
Proof.
  intros H0 H1 H2 H3 HR. destruct (inline_ready k z H1 H2 H3) as (b' & E & I1 & I2 & I3 & _).
  eapply xleads_step; [exact H0 | eapply x_inline; exact E | auto].
Qed.
Lemma unique_ready b k s : solid b -> EventFacts.shape b -> b_entered b = true ->
  exists b', enter_unique Release b k s = (b', Fine) /\ solid b' /\ EventFacts.shape b' /\ b_entered b' = true.
Proof.
  intros H1 H2 H3. destruct (unique_solid Release k s H1) as [I1 I2]. specialize (I2 eq_refl). destruct (enter_unique Release b k s) as [b' st] eqn:E. cbn [fst snd] in *. subst st.
  exists b'. split; [reflexivity|]. split; [exact I1|]. destruct (EventFacts.enter_unique_shape E) as (c & F1 & F2 & F3 & _).
  split; [|congruence]. constructor; [congruence | rewrite F2; apply H2].
Qed.
Lemma xleads_unique std n g b k z body rest st : xfinite g -> solid b -> EventFacts.shape b -> b_entered b = true ->
  (forall b', solid b' -> EventFacts.shape b' -> b_entered b' = true -> xleads std n (mkXC g b' (XRun body) (YScope rest :: st))) ->
  xleads std n (mkXC g b (XRun (XUnique k z body rest)) st).
Proof.
  intros H0 H1 H2 H3 HR. destruct (unique_ready k z H1 H2 H3) as (b' & E & I1 & I2 & I3).
  eapply xleads_step; [exact H0 | eapply x_unique; exact E | auto].
Qed.
Lemma xlist_lead std n : forall x g b st, zlist x g -> (forall y, x_object g y = None) ->
  (forall y, x <= y -> locks (x_shared g) y = mkLock [] false) -> solid b -> EventFacts.shape b -> b_entered b = true ->
  xleads std (n + length st) (mkXC g b (XRun (XVisit (znode x) XRet)) st).
Proof.
  induction n as [|n IH]; intros x g b st W O L B1 B2 B3.
  - eexists. split; [apply xp_end; exact (xlist_finite W O) | cbn; lia].
  - assert (WS : forall s', zlist x (xset g s')) by (intros s'; exact W).
    eapply xleads_other; [exact (xlist_finite W O) | apply xc_shared, (@o_acquire _ x 1%nat Exclusive); cbn; now rewrite L by lia|].
    eapply xleads_other; [eapply xlist_finite; [apply WS | exact O] | apply (@xc_write _ x 1%nat (znext (N.succ x))); cbn; rewrite N.eqb_refl; cbn; now left|].
    match goal with |- xleads _ _ (mkXC ?g' _ _ _) => set (g1 := g') end.
    assert (W1 : forall s', zlist (N.succ x) (xset g1 s')).
    { intros s'. destruct W as [Wa Wb]. split; [|exact Wb]. intros y. cbn [x_content xset g1]. destruct (N.eqb_spec y x) as [->|Ny].
      - right. split; [lia | reflexivity].
      - destruct (Wa y) as [E|[E1 E2]]; [now left | right; split; [lia | exact E2]]. }
    assert (N1 : forall s', xfinite (xset g1 s')) by (intros s'; eapply xlist_finite; [apply W1 | exact O]).
    assert (N0 : xfinite g1) by apply (N1 (x_shared g1)).
    eapply xleads_other; [exact N0 | apply xc_shared, (@o_release _ x 1%nat Exclusive false); subst g1; cbn; rewrite N.eqb_refl; cbn; now left|].
    eapply xleads_step; [apply N1 | apply x_visit |]. rewrite zcode_node.
    apply xleads_inline; [apply N1 | auto | auto | auto |]. intros b1 ? ? ?.
    eapply xleads_step; [apply N1 | apply x_try; subst g1; cbn; rewrite ?N.eqb_refl; cbn; rewrite ?N.eqb_refl, ?L by lia; reflexivity |].
    replace (x_content (xset g1 (release (x_shared g1) x (Other 1) Exclusive false)) x) with (znext (N.succ x)) by (subst g1; cbn; now rewrite N.eqb_refl).
    rewrite zopened_next.
    apply xleads_inline; [apply N1 | auto | auto | auto |]. intros b2 ? ? ?. eapply xleads_step; [apply N1 | apply x_visit |]. rewrite zcode_next.
    apply xleads_inline; [apply N1 | auto | auto | auto |]. intros b3 ? ? ?. apply xleads_inline; [apply N1 | auto | auto | auto |]. intros b4 ? ? ?.
    eapply xleads_step; [apply N1 | apply x_visit |]. rewrite zcode_box.
    apply xleads_inline; [apply N1 | auto | auto | auto |]. intros b5 ? ? ?. apply xleads_unique; [apply N1 | auto | auto | auto |]. intros b6 ? ? ?.
    match goal with |- xleads _ _ (mkXC ?g' ?b' _ ?st') => destruct (@IH (N.succ x) g' b' st') as (c & P & Q) end; auto.
    + apply W1.
    + intros y Hy. subst g1. cbn. destruct (N.eqb_spec y x) as [->|]; [lia|]. apply L. lia.
    + exists c. split; [exact P|]. cbn [length] in Q. lia.
Qed.
Theorem C64_unbounded_refuted :
  ~ (forall m std g b v, xfinite g -> root_visitor b_default = (b, Fine) ->
     exists n, forall c, xpasses xfinite m std (xbegin g b v) c -> (length (xk_stack c) <= n)%nat).
Proof.
  intros H. assert (W : zlist 0 zone) by (split; intros; [now left | reflexivity]).
  destruct (H Release (fun _ => true) zone (set_entered b_default true) (znode 0)) as (n & Hn); [apply (xlist_finite W); reflexivity | reflexivity|].
  destruct (@xlist_lead (fun _ => true) (S n) 0 zone (set_entered b_default true) [] W) as (c & P & L); try reflexivity.
  { destruct solid_default; constructor; auto. }
  { constructor; [discriminate | constructor]. }
  specialize (Hn c P). cbn in L. lia.
Qed.
Print Assumptions C64_unbounded_refuted.

(** The result need not be right at any one moment: a map with two slots of 32 bytes and
    one vector of 3 bytes, both when the call begins and when it ends, has 67 bytes; the
    result is 70, the vector being counted before and after it was moved. *)
Theorem C65_moved_refuted : exists c,
  zpasses move_memory Debug (fun _ => true) (zbegin zstart zmap) c /\ zended c /\ zresult c = Some 70 /\
  x_table zstart 1 = ztable 3 /\ x_table zstart 2 = no_entry /\ x_table (z_mem c) 1 = no_entry /\ x_table (z_mem c) 2 = ztable 3 /\
  (forall m std g c', (x_table g 1 = ztable 3 /\ x_table g 2 = no_entry \/ x_table g 1 = no_entry /\ x_table g 2 = ztable 3) ->
     zpasses (fun g' => x_table g' = x_table g) m std (zbegin g zmap) c' -> zended c' -> zresult c' = None \/ zresult c' = Some 67).
Proof.
  destruct zmoved_run as (c & P & E & T1 & T2 & R). exists c. split; [exact P|]. split; [exact E|]. split; [exact R|]. split; [reflexivity|]. split; [reflexivity|]. split; [exact T1|]. split; [exact T2|].
  intros m std g c' HT HP HE. destruct (C65_snapshot HP HE) as (q & S & Q). destruct (zresult c') as [n|] eqn:EZ; [right | now left].
  inversion S as [| | | | | | |kd t e ls caps ens caps' lens F1 F2 F3 F4]; subst.
  assert (A : forall w l k, answered (fun g' : xmemory => x_table g' = x_table g) (Some n = None) w l k ->
     k = match w with Capacity => tb_cap (x_table g l) | Length => N.of_nat (length (tb_entries (x_table g l))) end).
  { intros w l k [X|(g0 & Hg & _ & ->)]; [discriminate | now rewrite Hg]. }
  assert (B : forall l es, yielded (fun g' : xmemory => x_table g' = x_table g) m (Some n = None) IsMap l es ->
     these (fun g' : xmemory => x_table g' = x_table g) m (Some n = None) IsMap (tb_entries (x_table g l)) es).
  { intros l es Y. inversion Y as [? ? X|? ? g0 ? Hg _ X]; subst; [discriminate |]. replace (x_table g l) with (x_table g0 l) by now rewrite Hg. exact X. }
  assert (Z : forall s q, shown (fun g' : xmemory => x_table g' = x_table g) m (Some n = None) (XPlain s []) q -> q = visit_shape m unseen s []).
  { intros s q X. inversion X as [? ? qs L _| | | | | | |]; subst. destruct qs; [reflexivity | discriminate]. }
  inversion F1 as [|? c1 ? ? G1 F1']; subst. inversion F1' as [|? c2 ? ? G2 F1'']; subst. inversion F1''; subst. clear F1 F1' F1''.
  inversion F2 as [|? e1 ? ? Y1 F2']; subst. inversion F2' as [|? e2 ? ? Y2 F2'']; subst. inversion F2''; subst. clear F2 F2' F2''.
  inversion F3 as [|? c3 ? ? G3 F3']; subst. inversion F3' as [|? c4 ? ? G4 F3'']; subst. inversion F3''; subst. clear F3 F3' F3''.
  inversion F4 as [|? c5 ? ? G5 F4']; subst. inversion F4' as [|? c6 ? ? G6 F4'']; subst. inversion F4''; subst. clear F4 F4' F4''.
  apply A in G1, G2, G3, G4, G5, G6. apply B in Y1, Y2. subst. clear S A B.
  assert (N0 : forall es, these (fun g' : xmemory => x_table g' = x_table g) m (Some n = None) IsMap (tb_entries no_entry) es -> es = []) by (intros es X; cbn [tb_entries no_entry] in X; inversion X; reflexivity).
  assert (N1 : forall es, these (fun g' : xmemory => x_table g' = x_table g) m (Some n = None) IsMap (tb_entries (ztable 3)) es ->
    exists id, es = [mkEntry id (1, visit_shape m unseen (SLeaf xt_u8) []) (24, visit_shape m unseen (SVec zt_vec xt_u8 3) [])]).
  { intros es X. cbn [tb_entries ztable] in X. inversion X as [|? ? ? ? id qk qv es' Hk Hv X']; subst. inversion X'; subst. exists id. rewrite (Z _ _ Hk), (Z _ _ (Hv eq_refl)). reflexivity. }
  destruct HT as [[E1 E2]|[E1 E2]]; rewrite E1, E2 in Q; rewrite E1 in Y1; rewrite E2 in Y2;
    [apply N1 in Y1; apply N0 in Y2; destruct Y1 as (id & ->); subst e2 | apply N0 in Y1; apply N1 in Y2; destruct Y2 as (id & ->); subst e1];
    destruct m; vm_compute in Q; congruence.
Qed.
Print Assumptions C65_moved_refuted.

(** ** The hypotheses can be met: a vector is replaced before it is visited. *)
Definition zcontent_type (l : lock) : N * bool := (1, false).
Definition zslot_type (l : lock) : dash * tinfo := (IsMap, zt_entry).
Definition zcap (l : lock) : N := 1.
Definition zlen (l : lock) : N := if N.eqb l 1 then 1 else 0.
Theorem C65_satisfiable :
  (forall l, lock_ok (locks (x_shared zstart) l)) /\ holds_nothing (x_shared zstart) /\ znested zstart /\
  (forall g, replace_memory g -> xmem_typed zcontent_type zslot_type zcap zlen g) /\
  (forall g, replace_memory g -> xmem_all manual_free g /\ xmem_all counted g) /\
  xtyped zcontent_type zslot_type zcap zmap /\ manual_free (xoutline zmap) /\ counted (xoutline zmap) /\
  (exists c, zpasses replace_memory Debug (fun _ => true) (zbegin zstart zmap) c /\ zended c /\ zresult c = Some 69) /\
  (exists c, zpasses replace_memory Debug (fun _ => true) (zbegin zstart zmap) c /\ ziterating c 1 /\ zlooks_at c (zvec 3) /\ ~ xpart_of (zvec 3) zmap) /\
  (exists c, zpasses replace_memory Debug (fun _ => true) (zbegin zstart zmap) c /\ zneeds c 1 /\ held (locks (x_shared (z_mem c)) 1) = [(Other 3, Exclusive)]).
Proof.
  assert (TK : xtyped zcontent_type zslot_type zcap xkey). { constructor; [exact I | | constructor]; cbn; unfold ptr_size; repeat split; auto; lia. }
  assert (TV : forall n, n = 3 \/ n = 5 -> xtyped zcontent_type zslot_type zcap (zvec n)). { intros n Hn. apply xt_plain; [exact I | | constructor]. cbn. destruct Hn as [->| ->]; (split; [split; [vm_compute; discriminate | reflexivity]|]); (split; [constructor|]); (split; [vm_compute; discriminate|]); split; vm_compute; reflexivity. }
  split; [intros l o []|]. split; [split; [intros l a [] | intros x []]|].
  split. { exists (fun _ => 0%nat). split; [intros l l' []|]. intros l l' e w He Hw Hl. cbn in He. destruct (N.eqb l 1); cbn in He; [|contradiction]. destruct He as [<-|[]]. destruct Hw as [->| ->]; destruct Hl. }
  split; [|split; [|split; [|split; [|split; [|split; [|split]]]]]].
  - intros g (H1 & H2 & H3 & H4). split; [|split; [|split]].
    + intros l. rewrite H1. split; [exact TK|]. split; [reflexivity | intros X; exact X].
    + intros x i v. rewrite H4. discriminate.
    + intros l k v. destruct (N.eq_dec l 1) as [->|Hl]; [|rewrite H2 by exact Hl; intros []].
      destruct H3 as [-> | ->]; intros [[= <- <-]|[]]; (split; [exact TK|]); (split; [apply TV; auto|]); vm_compute; discriminate.
    + intros l. destruct (N.eq_dec l 1) as [->|Hl]; [destruct H3 as [-> | ->]; (split; [reflexivity|]); (split; [reflexivity|]); vm_compute; discriminate|].
      rewrite H2 by exact Hl. unfold zlen, zcap. destruct (N.eqb_spec l 1); [congruence|]. (split; [reflexivity|]); (split; [reflexivity|]); lia.
  - assert (X : forall P : value -> Prop, P (xoutline xkey) -> P (xoutline (zvec 3)) -> P (xoutline (zvec 5)) -> forall g, replace_memory g -> xmem_all P g).
    { intros P P1 P2 P3 g (H1 & H2 & H3 & H4). split; [intros l; now rewrite H1|]. split.
      - intros x i v. rewrite H4. discriminate.
      - intros l k v. destruct (N.eq_dec l 1) as [->|Hl]; [|rewrite H2 by exact Hl; intros []]. destruct H3 as [-> | ->]; intros [[= <- <-]|[]]; auto. }
    intros g Hg. split; apply X; auto; cbn; auto; (split; [split; intros; constructor | exact I]).
  - constructor; try reflexivity; vm_compute; discriminate.
  - repeat constructor.
  - repeat constructor.
  - exact zreplaced_run.
  - exact zmiddle_run.
  - exact zwaiting_run.
Qed.
Print Assumptions C65_satisfiable.
