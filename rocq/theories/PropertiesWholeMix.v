(** * Property C67: the profile of a running process with [DashMap]s, all of which changes. *)
From Coq Require Import Permutation Sorted Lia.
From Verif Require PropertiesWhole WholeFacts.
From Verif Require Import Base BaseFacts KeyModel KeyFacts HMap FlameModel BuilderModel BuilderFacts VisitorModel Spec EventFacts LayoutModel ImplModel ImplSpec StoreFacts ReportSpec
  LockModel LockSpec LockFacts SnapshotModel DashModel DashSpec MixModel MixSpec MixTypedSpec MixRun MixFacts MixSession MixGuard MixCases PropertiesMix PropertiesMixTyped MixApartSpec MixApart PropertiesMixApart MixPoolEnds
  DeriveModel DeriveSpec GlobalModel GlobalSpec GlobalFacts PropertiesGlobal PropertiesDerive WholeMixModel WholeMixSpec WholeMixFacts.

#[local] Arguments key_new : simpl never.

(** ** C67: which statics are in the profile: as in C55, whatever [DashMap]s do. *)
Theorem C67_roots : forall M m std statics me pre progs g H s n l,
  progs me = map Register pre ++ [Snapshot] ->
  xgoes M m std statics me (xlaunch progs g) H s -> In (Ret me n Snapshot (RList l)) H ->
  (exists reg : list (tid * groot), l = map snd reg /\
     map snd (filter (fun x : tid * groot => Nat.eqb (fst x) me) reg) = pre /\
     forall t, exists rest, registrations (progs t) = map snd (filter (fun x : tid * groot => Nat.eqb (fst x) t) reg) ++ rest) /\
  (forall t k r, before H (Ret t k (Register r) RUnit) (Inv me n Snapshot) -> In r l) /\
  (exists more, g_roots (o_reg s) = l ++ more).
Proof.
  intros M m std statics me pre progs g H s n l HP HG Hin.
  pose proof (@goes_registry M m std statics me progs [] _ _ _ HG (gexec_start progs)) as HX. cbn [app] in HX.
  split; [|split].
  - destruct (gexec_inv HX) as [S I]. pose proof (@lin_complete _ _ (gi_lin I) (mkInst me n Snapshot (RList l)) Hin) as Hs.
    exact (proj1 (WholeFacts.asked_point HP I Hs)).
  - intros t k r Hb. eapply PropertiesGlobal.C24_snapshot_complete; eauto.
  - destruct (PropertiesGlobal.C24_snapshot_prefix HX Hin) as (l' & rest & E & ->). injection E as <-. eauto.
Qed.
Print Assumptions C67_roots.

(** Every static with [#[root]] is in the profile. *)
Theorem C67_annotated : forall M m std statics me progs g H s n l (annotated : list (string * string)) outs (addr : string -> groot) order later,
  Forall2 (fun s o => global_root_impl (fst s) (snd s) = Some o) annotated outs ->
  Permutation order (ctor_targets (concat outs)) ->
  progs me = map Register (map addr order ++ later) ++ [Snapshot] ->
  xgoes M m std statics me (xlaunch progs g) H s -> In (Ret me n Snapshot (RList l)) H ->
  forall x, In x annotated -> In (addr (fst x)) l.
Proof.
  intros M m std statics me progs g H s n l annotated outs addr order later HF HO HP HG Hin x Hx.
  destruct (C67_roots HP HG Hin) as ((reg & -> & E & _) & _).
  destruct (@C42_startup annotated outs addr order HF HO) as (w & Ew & _ & Pw).
  assert (Ho : In (addr (fst x)) (w_roots w)).
  { apply (Permutation_in (l := map (fun s => addr (fst s)) annotated)); [now symmetry|]. apply in_map_iff. eauto. }
  assert (G : forall ord v, fold_left (fun w x => do w' <- w; register_root w' (addr x)) ord (Some (mkW v false)) = Some (mkW (v ++ map addr ord) false)).
  { clear. induction ord as [|y ord IH]; intros v; cbn [fold_left map]; [now rewrite app_nil_r|].
    rewrite (@register_free (mkW v false) (addr y) eq_refl : (do w' <- Some (mkW v false); register_root w' (addr y)) = _).
    rewrite IH. cbn [w_roots]. now rewrite <- app_assoc. }
  rewrite G in Ew. injection Ew as <-. cbn [w_roots app] in Ho.
  assert (Hp : In (addr (fst x)) (map addr order ++ later)) by (apply in_or_app; now left).
  rewrite <- E in Hp. apply in_map_iff in Hp as (y & <- & Hy). apply filter_In in Hy as [Hy _]. apply in_map. exact Hy.
Qed.
Print Assumptions C67_annotated.

(** ** C67: before each static and when [visit_global_roots] has returned ([left] is [[]]),
    the builder is as after visiting, with nothing else running, the registered statics up
    to here, put together from pieces each of which was there at some moment (C64):
    shards of [DashMap]s, contents of locks, allocations. *)
Theorem C67_snapshot : forall (M : xmemory -> Prop) m std statics me progs g H s left b,
  xgoes M m std statics me (xlaunch progs g) H s -> o_phase s = XNext left b ->
  exists n visited qs h n0, In (Ret me n Snapshot (RList (visited ++ left))) H /\
    Forall2 (shown M m False) (map statics visited) qs /\ shown_objects M m False h /\
    forall k, (n0 <= k)%nat -> visit_roots m (map (linked k h) qs) b_default = (b, Done).
Proof.
  intros M m std statics me progs g H s left b HG Hb. destruct (goes_profiles HG Hb) as (n & vis & g1 & Hin & HP).
  destruct (xsession_state (E := False) HP) as (qs & h & n0 & H1 & H2 & H3); [discriminate|]. exists n, vis, qs, h, n0.
  split; [exact Hin|]. split; [exact H1|]. split; [exact H2|]. intros k Hk. apply (H3 k Hk).
Qed.
Print Assumptions C67_snapshot.

(** ** C67: no static is refused: before each one the builder is ready for a root. *)
Theorem C67_ready : forall (M : xmemory -> Prop) m std statics me progs g H s left b,
  xgoes M m std statics me (xlaunch progs g) H s -> o_phase s = XNext left b -> snd (root_visitor b) = Fine.
Proof.
  intros M m std statics me progs g H s left b HG Hb. destruct (goes_profiles HG Hb) as (n & vis & g1 & _ & HP).
  destruct (xsession_state (E := False) HP) as (qs & h & n0 & _ & _ & H3); [discriminate|]. destruct (H3 n0 (le_n _)) as [R A].
  unfold root_visitor. rewrite (@all_done_idle m (map (linked n0 h) qs) b_default b Done); [reflexivity | | reflexivity | now apply A | exact R].
  constructor; cbn; auto.
Qed.
Print Assumptions C67_ready.

(** ** C67: if [DashMap]s are updated in place only, the flame graph is the report of what
    was seen. *)
Theorem C67_report : forall content_type slot_type capacity_of entries_of (M : xmemory -> Prop) m std statics me progs g H s b,
  (forall g, M g -> xmem_typed content_type slot_type capacity_of entries_of g) -> (forall g, M g -> xmem_all manual_free g) ->
  (forall r, xtyped content_type slot_type capacity_of (statics r)) -> (forall r, manual_free (xoutline (statics r))) ->
  xgoes M m std statics me (xlaunch progs g) H s -> o_phase s = XNext [] b ->
  exists n l ws h, In (Ret me n Snapshot (RList l)) H /\ seen_as M m (map statics l) ws /\ seen_store M m h /\ no_dangling h ws /\
    forall (alloc : ptr -> N) xs, (forall x i w, find_obj h x = Some (i, w) -> recorded_size i w (alloc x)) ->
    NoDup xs -> (forall x, In x xs <-> store_reachable h ws x) ->
    total_declared (full_report h ws alloc xs) < two63 ->
    exists out, finish m b = Some out /\
      (forall p, size_at (out_flamegraph out) p = shown_s (full_report h ws alloc xs) p) /\
      (exists L, listing (shown_s (full_report h ws alloc xs)) L /\ fg_write (out_flamegraph out) = concat_str (map folded_line L)) /\
      (exists W, StronglySorted path_lt W /\ (forall p, In p W <-> misdeclared_s (full_report h ws alloc xs) p) /\
        out_warnings out = concat_str (map (warning_for (full_report h ws alloc xs)) W)).
Proof.
  intros ct st cf ef M m std statics me progs g H s b HM HA HT HF HG Hb. destruct (goes_profiles HG Hb) as (n & l & g1 & Hin & HP). rewrite app_nil_r in Hin.
  destruct (@C64_report ct st cf ef M m std g1 (map statics l) b Done HM HA) as (ws & h & W & A & D & R).
  { apply Forall_forall. intros v Hv. apply in_map_iff in Hv as (r & <- & _). auto. }
  { apply Forall_forall. intros v Hv. rewrite map_map in Hv. apply in_map_iff in Hv as (r & <- & _). auto. }
  { exact HP. }
  exists n, l, ws, h. split; [exact Hin|]. split; [exact W|]. split; [exact A|]. split; [exact D|].
  intros alloc xs Ha X1 X2 X3. destruct (R alloc xs Ha X1 X2 X3) as [_ R']. exact R'.
Qed.
Print Assumptions C67_report.

(** ** C67: and if the program goes on with [visit_root] of further values ([roots]): the
    flame graph is the report of the statics and these. *)
Theorem C67_more_roots : forall content_type slot_type capacity_of entries_of (M : xmemory -> Prop) m std statics me progs g H s b roots b' o,
  (forall g, M g -> xmem_typed content_type slot_type capacity_of entries_of g) -> (forall g, M g -> xmem_all manual_free g) ->
  (forall r, xtyped content_type slot_type capacity_of (statics r)) -> (forall r, manual_free (xoutline (statics r))) ->
  Forall (xtyped content_type slot_type capacity_of) roots -> Forall manual_free (map xoutline roots) ->
  xgoes M m std statics me (xlaunch progs g) H s -> o_phase s = XNext [] b -> xprofiles M m std (o_mem s) b roots b' o true ->
  exists n l ws h, In (Ret me n Snapshot (RList l)) H /\ seen_as M m (map statics l ++ roots) ws /\ seen_store M m h /\ no_dangling h ws /\
    forall (alloc : ptr -> N) xs, (forall x i w, find_obj h x = Some (i, w) -> recorded_size i w (alloc x)) ->
    NoDup xs -> (forall x, In x xs <-> store_reachable h ws x) ->
    total_declared (full_report h ws alloc xs) < two63 ->
    o = Done /\ exists out, finish m b' = Some out /\
      (forall p, size_at (out_flamegraph out) p = shown_s (full_report h ws alloc xs) p) /\
      (exists L, listing (shown_s (full_report h ws alloc xs)) L /\ fg_write (out_flamegraph out) = concat_str (map folded_line L)) /\
      (exists W, StronglySorted path_lt W /\ (forall p, In p W <-> misdeclared_s (full_report h ws alloc xs) p) /\
        out_warnings out = concat_str (map (warning_for (full_report h ws alloc xs)) W)).
Proof.
  intros ct st cf ef M m std statics me progs g H s b roots b' o HM HA HT HF HT' HF' HG Hb HR.
  destruct (goes_profiles_more HG Hb HR) as (n & l & g1 & Hin & HP). rewrite app_nil_r in Hin.
  destruct (@C64_report ct st cf ef M m std g1 (map statics l ++ roots) b' o HM HA) as (ws & h & W & A & D & R).
  { apply Forall_app. split; [|exact HT']. apply Forall_forall. intros v Hv. apply in_map_iff in Hv as (r & <- & _). auto. }
  { rewrite map_app. apply Forall_app. split; [|exact HF']. apply Forall_forall. intros v Hv. rewrite map_map in Hv. apply in_map_iff in Hv as (r & <- & _). auto. }
  { exact HP. }
  exists n, l, ws, h. auto.
Qed.
Print Assumptions C67_more_roots.

(** ** C67: a panic in the visit of a static leaves the loop: what was visited up to and
    including it is in the builder, and nothing after it. *)
Theorem C67_stopped : forall (M : xmemory -> Prop) m std statics me progs g H s b,
  xgoes M m std statics me (xlaunch progs g) H s -> o_phase s = XStopped b Unwinding ->
  exists n l1 r l2 qs h n0, In (Ret me n Snapshot (RList (l1 ++ r :: l2))) H /\
    Forall2 (shown M m True) (map statics (l1 ++ [r])) qs /\ shown_objects M m True h /\
    forall k, (n0 <= k)%nat -> visit_roots m (map (linked k h) qs) b_default = (b, Done).
Proof.
  intros M m std statics me progs g H s b HG Hb. destruct (goes_stops HG Hb) as (n & l1 & x & l2 & g1 & Hin & HP).
  destruct (xsession_state (E := True) HP) as (qs & h & n0 & H1 & H2 & H3); [auto|]. exists n, l1, x, l2, qs, h, n0.
  split; [exact Hin|]. split; [exact H1|]. split; [exact H2|]. intros k Hk. apply (H3 k Hk).
Qed.
Print Assumptions C67_stopped.

(** ** C67: while statics are being visited the registry is free: no [register_root]
    waits for the profile, not even when the profile waits for a shard. *)
Theorem C67_registry_free : forall M m std statics me pre progs g H s,
  progs me = map Register pre ++ [Snapshot] -> xgoes M m std statics me (xlaunch progs g) H s ->
  (forall b, o_phase s <> XAsks b) -> g_lock (o_reg s) <> Some me.
Proof.
  intros M m std statics me pre progs g H s HP HG Hph E.
  pose proof (@goes_registry M m std statics me progs [] _ _ _ HG (gexec_start progs)) as HX. cbn [app] in HX.
  assert (A : asked_done me s) by (refine (goes_asked HP _ _ HG); [apply gexec_start | exact I]).
  destruct (gexec_inv HX) as [S I]. apply (gi_lock I) in E. unfold asked_done in A.
  destruct (o_phase s) as [b|rs b|rs b k st|b o]; [now elim (Hph b)| | |]; destruct A as [A _]; rewrite A in E; discriminate.
Qed.
Print Assumptions C67_registry_free.

Lemma upd_at f t x : upd f t x t = x.
Proof. unfold upd. now rewrite Nat.eqb_refl. Qed.
#[local] Ltac at_t := unfold set_pc; cbn [g_threads g_roots g_lock]; rewrite ?upd_at; cbn [th_todo th_pc th_done].
(** and whatever the loop is at, also while it waits for a shard, a [register_root] of another
    thread can go through, without a step of the profiling thread and without a change to
    what the loop is at: all it takes is that no other thread is inside the registry. *)
Theorem C67_registers_meanwhile : forall M m std statics me pre progs g H s t r os,
  progs me = map Register pre ++ [Snapshot] -> xgoes M m std statics me (xlaunch progs g) H s ->
  (forall b, o_phase s <> XAsks b) ->
  th_pc (g_threads (o_reg s) t) = Idle -> th_todo (g_threads (o_reg s) t) = Register r :: os ->
  (forall t', t' <> me -> g_lock (o_reg s) <> Some t') ->
  exists n s', xgoes (eq (o_mem s)) m std statics me s [Inv t n (Register r); Ret t n (Register r) RUnit] s' /\
    o_phase s' = o_phase s /\ o_mem s' = o_mem s /\ g_roots (o_reg s') = g_roots (o_reg s) ++ [r].
Proof.
  intros M m std statics me pre progs g H s t r os HP HG Hph Hi Ht Hl.
  assert (E : g_lock (o_reg s) = None).
  { pose proof (@C67_registry_free M m std statics me pre progs g H s HP HG Hph) as F.
    destruct (g_lock (o_reg s)) as [t'|] eqn:E; [|reflexivity]. destruct (Nat.eq_dec t' me) as [->|N]; [now elim F | now elim (Hl t' N)]. }
  clear HG Hph Hl. destruct s as [[rs lk th] mem ph]. cbn [o_reg o_mem o_phase g_lock g_roots g_threads] in *. subst lk.
  exists (th_done (th t)), (mkPX (mkG (rs ++ [r]) None (upd (upd (upd (upd (upd (upd th t (mkT os (Waiting (Register r)) (th_done (th t)))) t (mkT os (Locked (Register r)) (th_done (th t)))) t (mkT os (PushRead r rs) (th_done (th t)))) t (mkT os (Unlocking (Register r) RUnit) (th_done (th t)))) t (mkT os (Returning (Register r) RUnit) (th_done (th t)))) t (mkT os Idle (S (th_done (th t)))))) mem ph). split.
  - change [Inv t (th_done (th t)) (Register r); Ret t (th_done (th t)) (Register r) RUnit]
      with ([Inv t (th_done (th t)) (Register r)] ++ [] ++ [] ++ [] ++ [] ++ [Ret t (th_done (th t)) (Register r) RUnit] ++ []).
    eapply xgo_step; [reflexivity | apply xw_registry; [eapply g_call; [exact Hi | exact Ht] | intros ? ? [=]]|]. at_t.
    eapply xgo_step; [reflexivity | apply xw_registry; [eapply (@g_lock_acquired _ t); [cbn; unfold upd; rewrite Nat.eqb_refl; reflexivity | reflexivity] | intros ? ? [=]]|]. at_t.
    eapply xgo_step; [reflexivity | apply xw_registry; [eapply (@g_push_read _ t); cbn; unfold upd; rewrite Nat.eqb_refl; reflexivity | intros ? ? [=]]|]. at_t.
    eapply xgo_step; [reflexivity | apply xw_registry; [eapply (@g_push_write _ t); cbn; unfold upd; rewrite Nat.eqb_refl; reflexivity | intros ? ? [=]]|]. at_t.
    eapply xgo_step; [reflexivity | apply xw_registry; [eapply (@g_unlock _ t); cbn; unfold upd; rewrite Nat.eqb_refl; reflexivity | intros ? ? [=]]|]. at_t.
    eapply xgo_step; [reflexivity | | apply xgo_end; reflexivity].
    evar (r0 : gstate). assert (G : gstep (mkG (rs ++ [r]) None (upd (upd (upd (upd (upd th t (mkT os (Waiting (Register r)) (th_done (th t)))) t (mkT os (Locked (Register r)) (th_done (th t)))) t (mkT os (PushRead r rs) (th_done (th t)))) t (mkT os (Unlocking (Register r) RUnit) (th_done (th t)))) t (mkT os (Returning (Register r) RUnit) (th_done (th t))))) [Ret t (th_done (th t)) (Register r) RUnit] r0).
    { subst r0. pose proof (@g_return (mkG (rs ++ [r]) None (upd (upd (upd (upd (upd th t (mkT os (Waiting (Register r)) (th_done (th t)))) t (mkT os (Locked (Register r)) (th_done (th t)))) t (mkT os (PushRead r rs) (th_done (th t)))) t (mkT os (Unlocking (Register r) RUnit) (th_done (th t)))) t (mkT os (Returning (Register r) RUnit) (th_done (th t))))) t (Register r) RUnit) as Q.
      cbn [g_threads g_roots g_lock] in Q. rewrite upd_at in Q. cbn [th_done th_pc th_todo] in Q. exact (Q eq_refl). }
    subst r0. apply xw_registry; [exact G | intros ? ? [=]].
  - cbn. auto.
Qed.
Print Assumptions C67_registers_meanwhile.

Lemma launch_resting (M : xmemory -> Prop) m std statics me progs g H s :
  (forall l, lock_ok (locks (x_shared g) l)) -> holds_nothing (x_shared g) ->
  xgoes M m std statics me (xlaunch progs g) H s -> resting M m std statics s.
Proof. intros H1 H2 HG. apply (goes_resting HG). split; assumption. Qed.

(** ** C67: before, between and after the visits of the statics the profiling thread holds
    no guard of a lock or shard and no reference, also after a panic. *)
Theorem C67_released : forall (M : xmemory -> Prop) m std statics me progs g H s,
  (forall l, lock_ok (locks (x_shared g) l)) -> holds_nothing (x_shared g) ->
  xgoes M m std statics me (xlaunch progs g) H s ->
  (forall rs b, o_phase s = XNext rs b -> holds_nothing (x_shared (o_mem s))) /\
  (forall b, o_phase s = XStopped b Unwinding -> holds_nothing (x_shared (o_mem s))).
Proof.
  intros M m std statics me progs g H s H1 H2 HG. pose proof (launch_resting H1 H2 HG) as R. unfold resting in R. split.
  - intros rs b E. rewrite E in R. apply R.
  - intros b E. rewrite E in R. apply R. discriminate.
Qed.
Print Assumptions C67_released.

(** ** C67: the loop waits for nothing but the read lock of a shard that another thread,
    alone, has exclusively. *)
Theorem C67_waits_for_others : forall (shard : lock -> Prop) (M : xmemory -> Prop) m std statics me progs g H s,
  (forall g, M g -> mem_apart shard g) -> (forall r, apart shard (statics r)) ->
  (forall l, lock_ok (locks (x_shared g) l)) -> holds_nothing (x_shared g) ->
  xgoes M m std statics me (xlaunch progs g) H s -> (forall b, o_phase s <> XAsks b) ->
  loop_over s \/ (exists s', xown m std statics s s') \/
  (exists l t, asks_shard s l /\ shard l /\ held (locks (x_shared (o_mem s)) l) = [(Other t, Exclusive)]).
Proof.
  intros shard M m std statics me progs g H s HM HS H1 H2 HG Hph. pose proof (launch_resting H1 H2 HG) as R. clear HG.
  destruct s as [r h [b|[|x rs] b|rs b k st|b o]]; unfold loop_over, asks_shard, resting in *; cbn [o_phase o_mem] in *; auto.
  - now elim (Hph b).
  - right; left. destruct (root_visitor b) as [b1 [|]] eqn:E; eexists; [eapply xw_root | eapply xw_refused]; eauto.
  - right. destruct R as (g0 & b0 & x & [K1 K2] & HP).
    destruct (@C64_waits_for_others shard M m std g0 b0 (statics x) _ HM (HS x) K1 K2 HP) as [He|[([g' b' k' st'] & Hc)|(l & t & X)]].
    + left. destruct (leave_scope (xresult (mkXC h b k st))) as [b' [| |]] eqn:E; eexists; [eapply xw_leave | eapply xw_stop | eapply xw_stop]; eauto; discriminate.
    + left. eexists. eapply xw_visit. exact Hc.
    + right. exists l, t. exact X.
Qed.
Print Assumptions C67_waits_for_others.

(** ** C67: and for that it does wait: as long as somebody keeps the shard exclusively, the
    loop stays where it is, whatever else happens.  So [visit_global_roots] never returns
    if the calling thread itself has a shard exclusively that the loop comes to. *)
Theorem C67_stays_put : forall m std statics me t l s H s',
  asks_shard s l ->
  xgoes (fun g => In (Other t, Exclusive) (held (locks (x_shared g) l))) m std statics me s H s' -> o_phase s' = o_phase s.
Proof.
  intros m std statics me t l s H s' HA HG. revert HA. induction HG as [s HM|s e s' H s'' HM HS HG IH]; intros HA; [reflexivity|].
  assert (E : o_phase s' = o_phase s).
  { destruct HS as [r e r' g ph HR Hne|r n l0 r' g b HR|r g g' ph HC|s s' HO]; [reflexivity | contradiction | reflexivity|]. exfalso. clear IH HG.
    destruct HO as [r g x rs b b1 HR|r g x rs b b1 HR|r g rs b k st g' b1 k' st' HC|r g rs b k st b1 He Hl|r g rs b k st b1 o1 He Hl Ho];
      unfold asks_shard, needs in HA; cbn [o_phase o_mem xk_control xk_stack] in *; try contradiction.
    - inversion HC; subst; try contradiction; cbn in HA; try contradiction; subst; (match goal with H : available _ ReadOnly |- _ => exact (H _ HM) end).
    - unfold xended in He. cbn [xk_control xk_stack] in He. destruct k as [p| |]; try contradiction. destruct p; try contradiction. destruct st; contradiction.
    - unfold xended in He. cbn [xk_control xk_stack] in He. destruct k as [p| |]; try contradiction. destruct p; try contradiction. destruct st; contradiction. }
  rewrite IH, E; [reflexivity|]. unfold asks_shard in *. rewrite E. destruct (o_phase s); exact HA.
Qed.
Print Assumptions C67_stays_put.

(** ** C67: the loop comes to an end if the others let it: if the memory is finite and its
    contents are no longer changed (locks and reference counts may be, and anything may be
    registered), it does not go on for ever; *)
Theorem C67_ends : forall m std statics w, xfinite (o_mem w) -> Acc (fun w' w => unchanged_own m std statics w w') w.
Proof. intros m std statics w. apply loop_ends. Qed.
Print Assumptions C67_ends.

(** and from any moment on at which no other thread has a lock exclusively, the profiling
    thread alone completes the loop. *)
Theorem C67_returns : forall (shard : lock -> Prop) (M : xmemory -> Prop) m std statics me progs g H s,
  (forall g, M g -> mem_apart shard g) -> (forall r, apart shard (statics r)) ->
  (forall l, lock_ok (locks (x_shared g) l)) -> holds_nothing (x_shared g) ->
  xgoes M m std statics me (xlaunch progs g) H s -> (forall b, o_phase s <> XAsks b) ->
  (forall l t, ~ In (Other t, Exclusive) (held (locks (x_shared (o_mem s)) l))) -> xfinite (o_mem s) ->
  exists s', only_own m std statics s s' /\ loop_over s'.
Proof.
  intros shard M m std statics me progs g H s HM HS H1 H2 HG Hph HO Hf. apply (goes_more (M' := mem_apart shard) HM) in HG. clear HM.
  pose proof (@loop_ends m std statics s Hf) as A. clear Hf. revert H HG Hph HO. induction A as [s _ IH]. intros H HG Hph HO.
  destruct (@C67_waits_for_others shard (mem_apart shard) m std statics me progs g H s (fun _ X => X) HS H1 H2 HG Hph) as [X|[(s' & X)|(l & t & _ & _ & X)]].
  - exists s. split; [constructor | exact X].
  - assert (HG' : xgoes (mem_apart shard) m std statics me (xlaunch progs g) (H ++ ([] ++ [])) s').
    { eapply goes_app; [exact HG|]. pose proof (goes_there HG) as T. eapply xgo_step; [exact T | apply xw_own; exact X | apply xgo_end].
      destruct (own_contents X) as (E1 & E2 & E3). destruct T as (A1 & A2 & A3). unfold mem_apart. rewrite <- E1, <- E2, <- E3. auto. }
    destruct (IH s') with (H := H ++ ([] ++ [])) as (s'' & X1 & X2); auto.
    + exists (o_reg s), (x_shared (o_mem s)). destruct s as [r h ph]. cbn [o_reg o_mem o_phase]. destruct h. exact X.
    + intros b E. destruct X; cbn in E; discriminate.
    + intros l t Hin. apply (HO l t). exact (own_others (launch_resting H1 H2 HG) X Hin).
    + exists s''. split; [eapply oo_step; eauto | exact X2].
  - elim (HO l t). rewrite X. now left.
Qed.
Print Assumptions C67_returns.

(** ** The hypotheses can be met *)

(** The static [xmap] (a [DashMap], C64) has [#[root]]; another thread registers a second
    static while the first is being visited and a third thread replaces a value in the
    map.  Only the first is in the profile. *)
Ltac xnorm_reg := lazymatch goal with |- xgoes ?M ?m ?std ?st ?me (mkPX ?r ?g ?ph) ?H ?s =>
  let r' := eval cbv in r in change (xgoes M m std st me (mkPX r' g ph) H s) end.
Ltac xreg := eapply xgo_step; [xmem | apply xw_registry; [first
  [ eapply (@g_call _ 0%nat); reflexivity | eapply (@g_lock_acquired _ 0%nat); reflexivity | eapply (@g_push_read _ 0%nat); reflexivity
  | eapply (@g_push_write _ 0%nat); reflexivity | eapply (@g_clone_start _ 0%nat); reflexivity | eapply (@g_clone_copy _ 0%nat); reflexivity
  | eapply (@g_clone_end _ 0%nat); reflexivity | eapply (@g_unlock _ 0%nat); reflexivity | eapply (@g_return _ 0%nat); reflexivity ]
  | intros ? ?; vm_compute; discriminate] | xnorm_reg].
Ltac xreg1 := eapply xgo_step; [xmem | apply xw_registry; [first
  [ eapply (@g_call _ 1%nat); reflexivity | eapply (@g_lock_acquired _ 1%nat); reflexivity | eapply (@g_push_read _ 1%nat); reflexivity
  | eapply (@g_push_write _ 1%nat); reflexivity | eapply (@g_unlock _ 1%nat); reflexivity | eapply (@g_return _ 1%nat); reflexivity ]
  | intros ? ?; vm_compute; discriminate] | xnorm_reg].

Theorem C67_satisfiable : exists H s b out,
  xgoes update_memory Debug (fun _ => true) (fun _ => xmap) 0%nat (xlaunch PropertiesWhole.ex_progs update_start) H s /\
  o_phase s = XNext [] b /\ In (Ret 0%nat 1 Snapshot (RList [1])) H /\ g_roots (o_reg s) = [1; 2] /\
  PropertiesWhole.ex_progs 0%nat = map Register [1] ++ [Snapshot] /\
  x_table update_start 1 = one_entry /\ x_table (o_mem s) 1 = other_entry /\
  (forall g, update_memory g -> xmem_typed update_content update_slot update_cap update_len g) /\
  (forall g, update_memory g -> xmem_all manual_free g) /\
  xtyped update_content update_slot update_cap xmap /\ manual_free (xoutline xmap) /\
  finish Debug b = Some out /\ out_warnings out = EmptyString.
Proof.
  destruct updated_run as (c & P & E & T & b & out & L & F & W). destruct C64_report_satisfiable as (S1 & S2 & S3 & S4 & _).
  eexists _, _, b, out. split; [|split; [|split; [|split; [|split; [|split; [|split; [|split; [|split; [|split; [|split]]]]]]]]]].
  - unfold xlaunch, g_init. do 12 xreg.
    eapply xgo_step; [xmem | apply xw_snapshot; eapply (@g_return _ 0%nat); reflexivity | xnorm_reg].
    eapply xgo_step; [xmem | apply xw_own, xw_root; reflexivity |]. do 6 xreg1.
    eapply goes_app; [exact (passes_goes _ _ _ _ P)|].
    eapply xgo_step; [|apply xw_own, xw_leave; [destruct c; exact E | destruct c; exact L] | apply xgo_end].
    all: clear -P; cbn [o_mem]; induction P; auto.
  - reflexivity.
  - vm_compute. tauto.
  - reflexivity.
  - reflexivity.
  - reflexivity.
  - exact T.
  - exact S1.
  - intros g Hg. now apply S2.
  - inversion S3; auto.
  - inversion S4; auto.
  - auto.
Qed.
Print Assumptions C67_satisfiable.

(** That run, then [visit_root] of the map again. *)
Lemma twice_run : exists c b, xpasses update_memory Debug (fun _ => true) (xbegin update_start (set_entered b_default true) xmap) c /\ xended c /\
  leave_scope (xresult c) = (b, Done) /\
  exists b1 c2 b2, root_visitor b = (b1, Fine) /\ xpasses update_memory Debug (fun _ => true) (xbegin (xk_mem c) b1 xmap) c2 /\ xended c2 /\
    leave_scope (xresult c2) = (b2, Done) /\ exists out, finish Debug b2 = Some out /\ out_warnings out = EmptyString.
Proof.
  do 2 eexists. split; [unfold xbegin, xmap|].
  - do 4 xvstep.
    xother; [apply xc_shared, (@o_acquire _ 1 1%nat Exclusive); vm_compute; reflexivity|].
    xother; [apply (@xc_table _ 1 1%nat other_entry); vm_compute; now left|].
    xother; [apply xc_shared, (@o_release _ 1 1%nat Exclusive false); vm_compute; now left|].
    repeat xvstep. apply xp_end. xmem.
  - split; [exact I|]. split; [vm_compute; reflexivity|].
    do 3 eexists. split; [vm_compute; reflexivity|]. split; [unfold xbegin, xmap; cbn [xk_mem]|].
    + repeat xvstep. apply xp_end. xmem.
    + split; [exact I|]. split; [vm_compute; reflexivity|]. eexists. split; vm_compute; reflexivity.
Qed.
Theorem C67_more_satisfiable : exists H s b b',
  xgoes update_memory Debug (fun _ => true) (fun _ => xmap) 0%nat (xlaunch PropertiesWhole.ex_progs update_start) H s /\
  o_phase s = XNext [] b /\ xprofiles update_memory Debug (fun _ => true) (o_mem s) b [xmap] b' Done true /\
  In (Ret 0%nat 1 Snapshot (RList [1])) H /\ exists out, finish Debug b' = Some out /\ out_warnings out = EmptyString.
Proof.
  destruct twice_run as (c & b & P & E & L & b1 & c2 & b2 & R & P2 & E2 & L2 & out & F & W).
  eexists _, _, b, b2. split; [|split; [|split; [|split]]].
  - unfold xlaunch, g_init. do 12 xreg.
    eapply xgo_step; [xmem | apply xw_snapshot; eapply (@g_return _ 0%nat); reflexivity | xnorm_reg].
    eapply xgo_step; [xmem | apply xw_own, xw_root; reflexivity |]. do 6 xreg1.
    eapply goes_app; [exact (passes_goes _ _ _ _ P)|].
    eapply xgo_step; [|apply xw_own, xw_leave; [destruct c; exact E | destruct c; exact L] | apply xgo_end].
    all: clear -P; cbn [o_mem]; induction P; auto.
  - reflexivity.
  - cbn [o_mem]. change true with (match Done with Done => true | _ => false end) at 2.
    eapply xr_visit; [exact R | exact P2 | exact E2 | exact L2 | discriminate | apply xr_end].
  - vm_compute. tauto.
  - eauto.
Qed.
Print Assumptions C67_more_satisfiable.

(** Locks 1 and 2 are those of the shards: the loop waits for the first one, which another
    thread has, while a third one registers a static; at another moment nobody has a lock
    exclusively. *)
Lemma update_apart g : update_memory g -> mem_apart shard12 g.
Proof.
  assert (A : forall x, apart shard12 (XPlain (SShared xt_arc 8 x) [])) by (intros x; constructor; intros c []).
  intros (H1 & H2 & H3 & H4). split; [|split].
  - intros l. rewrite H1. apply A.
  - intros x i v. rewrite H4. destruct (N.eqb x 5 || N.eqb x 6); [|discriminate]. intros [= <- <-]. constructor. intros c [].
  - intros l e w He Hw. destruct (N.eq_dec l 1) as [->|Hl]; [|rewrite H2 in He by exact Hl; destruct He].
    destruct H3 as [E|E]; rewrite E in He; destruct He as [<-|[]]; destruct Hw as [->| ->]; first [apply apart_key | apply A].
Qed.
Lemma update_finite : xfinite update_start.
Proof.
  split; [exists [5; 6]; intros x; cbn; destruct (N.eqb_spec x 5) as [->|]; [now left|]; destruct (N.eqb_spec x 6) as [->|]; [right; now left | cbn; congruence]|].
  exists (fun _ => 0%nat). split; [intros l l' []|].
  intros l l' e w He Hw Hl. cbn in He. destruct (N.eqb l 1); cbn in He; [|contradiction]. destruct He as [<-|[]]. destruct Hw as [->| ->]; destruct Hl.
Qed.
Theorem C67_waits_satisfiable :
  (forall g, update_memory g -> mem_apart shard12 g) /\ apart shard12 xmap /\
  (forall l, lock_ok (locks (x_shared update_start) l)) /\ holds_nothing (x_shared update_start) /\
  (exists H s, xgoes update_memory Debug (fun _ => true) (fun _ => xmap) 0%nat (xlaunch PropertiesWhole.ex_progs update_start) H s /\
     asks_shard s 1 /\ held (locks (x_shared (o_mem s)) 1) = [(Other 3, Exclusive)] /\ g_roots (o_reg s) = [1; 2]) /\
  (exists H s, xgoes update_memory Debug (fun _ => true) (fun _ => xmap) 0%nat (xlaunch PropertiesWhole.ex_progs update_start) H s /\
     (forall b, o_phase s <> XAsks b) /\ ~ loop_over s /\ xfinite (o_mem s) /\
     (forall l t, ~ In (Other t, Exclusive) (held (locks (x_shared (o_mem s)) l)))).
Proof.
  split; [exact update_apart|]. split; [constructor; intros l [<-|[<-|[]]]; [now left | now right]|].
  split; [intros l o []|]. split; [split; [intros l a [] | intros x [[=]|[]]]|]. split.
  - assert (P : exists c, xpasses update_memory Debug (fun _ => true) (xbegin update_start (set_entered b_default true) xmap) c /\ needs c 1 /\
      held (locks (x_shared (xk_mem c)) 1) = [(Other 3, Exclusive)]).
    { eexists. split; [|split].
      - unfold xbegin, xmap. do 3 xvstep.
        xother; [apply xc_shared, (@o_acquire _ 1 3%nat Exclusive); vm_compute; reflexivity|]. apply xp_end. xmem.
      - reflexivity.
      - reflexivity. }
    destruct P as (c & P & Q & R). eexists _, _. split; [|split; [|split]].
    + unfold xlaunch, g_init. do 12 xreg.
      eapply xgo_step; [xmem | apply xw_snapshot; eapply (@g_return _ 0%nat); reflexivity | xnorm_reg].
      eapply xgo_step; [xmem | apply xw_own, xw_root; reflexivity |]. do 6 xreg1.
      exact (passes_goes _ _ _ _ P).
    + destruct c. exact Q.
    + exact R.
    + reflexivity.
  - eexists _, _. split; [|split; [|split; [|split]]].
    + unfold xlaunch, g_init. do 12 xreg.
      eapply xgo_step; [xmem | apply xw_snapshot; eapply (@g_return _ 0%nat); reflexivity | xnorm_reg]. apply xgo_end. xmem.
    + intros b. discriminate.
    + intros [].
    + exact update_finite.
    + intros l t [].
Qed.
Print Assumptions C67_waits_satisfiable.

(** A panic in the visit of the first of two statics.  (In the model a dangling pointer
    panics; it stands for a panic in user code.) *)
Ltac xat_any := eapply xgo_step; [exact I | first [apply xw_registry; [first
  [ eapply (@g_call _ 0%nat); reflexivity | eapply (@g_lock_acquired _ 0%nat); reflexivity | eapply (@g_push_read _ 0%nat); reflexivity
  | eapply (@g_push_write _ 0%nat); reflexivity | eapply (@g_clone_start _ 0%nat); reflexivity | eapply (@g_clone_copy _ 0%nat); reflexivity
  | eapply (@g_clone_end _ 0%nat); reflexivity | eapply (@g_unlock _ 0%nat); reflexivity | eapply (@g_return _ 0%nat); reflexivity ]
  | intros ? ?; vm_compute; discriminate]
  | apply xw_snapshot; eapply (@g_return _ 0%nat); reflexivity] | xnorm_reg].
Ltac xown_norm := lazymatch goal with |- xgoes ?M ?m ?std ?s0 ?me (mkPX ?r ?g (XWithin ?rs ?b (XRun ?k) ?st)) ?H ?s =>
  let k' := eval hnf in k in change (xgoes M m std s0 me (mkPX r g (XWithin rs b (XRun k') st)) H s) | _ => idtac end.
Ltac xown_visit := eapply xgo_step; [exact I | apply xw_own, xw_visit; first [
   eapply x_visit | eapply x_inline; vm_compute; reflexivity | eapply x_shared_new; vm_compute; reflexivity | eapply x_crash
 | eapply x_unwind_exit; vm_compute; reflexivity | eapply x_unwind_then] | xown_norm].
Theorem C67_stopped_satisfiable : exists H s b,
  xgoes (fun _ => True) Debug (fun _ => true) (fun _ => XPlain (SShared xt_arc 8 9) []) 0%nat (xlaunch PropertiesWhole.two_progs update_start) H s /\
  o_phase s = XStopped b Unwinding /\ In (Ret 0%nat 2 Snapshot (RList [1; 2])) H.
Proof.
  eexists _, _, _. split; [|split].
  - unfold xlaunch, g_init. do 20 xat_any. eapply xgo_step; [exact I | apply xw_own, xw_root; reflexivity |].
    do 4 xown_visit. repeat xown_visit.
    eapply xgo_step; [exact I | apply xw_own, xw_stop; [exact I | vm_compute; reflexivity | discriminate] | apply xgo_end; exact I].
  - reflexivity.
  - vm_compute. tauto.
Qed.
Print Assumptions C67_stopped_satisfiable.

(** The loop waits for the first shard, which a thread keeps; meanwhile another thread
    registers a static. *)
Example C67_stays_put_satisfiable : exists H s H' s',
  xgoes update_memory Debug (fun _ => true) (fun _ => xmap) 0%nat (xlaunch PropertiesWhole.ex_progs update_start) H s /\ asks_shard s 1 /\
  xgoes (fun g => In (Other 3, Exclusive) (held (locks (x_shared g) 1))) Debug (fun _ => true) (fun _ => xmap) 0%nat s H' s' /\
  g_roots (o_reg s) = [1] /\ g_roots (o_reg s') = [1; 2].
Proof.
  assert (P : exists c, xpasses update_memory Debug (fun _ => true) (xbegin update_start (set_entered b_default true) xmap) c /\ needs c 1 /\
    held (locks (x_shared (xk_mem c)) 1) = [(Other 3, Exclusive)]).
  { eexists. split; [|split].
    - unfold xbegin, xmap. do 3 xvstep.
      xother; [apply xc_shared, (@o_acquire _ 1 3%nat Exclusive); vm_compute; reflexivity|]. apply xp_end. xmem.
    - reflexivity.
    - reflexivity. }
  destruct P as (c & P & Q & R). eexists _, _, _, _. split; [|split; [|split; [|split]]].
  - unfold xlaunch, g_init. do 12 xreg.
    eapply xgo_step; [xmem | apply xw_snapshot; eapply (@g_return _ 0%nat); reflexivity | xnorm_reg].
    eapply xgo_step; [xmem | apply xw_own, xw_root; reflexivity |].
    exact (passes_goes _ _ _ _ P).
  - destruct c. exact Q.
  - do 6 (eapply xgo_step; [cbn [o_mem]; rewrite R; now left | apply xw_registry; [first
      [ eapply (@g_call _ 1%nat); reflexivity | eapply (@g_lock_acquired _ 1%nat); reflexivity | eapply (@g_push_read _ 1%nat); reflexivity
      | eapply (@g_push_write _ 1%nat); reflexivity | eapply (@g_unlock _ 1%nat); reflexivity | eapply (@g_return _ 1%nat); reflexivity ]
      | intros ? ?; vm_compute; discriminate] | xnorm_reg]).
    apply xgo_end. cbn [o_mem]. rewrite R. now left.
  - reflexivity.
  - reflexivity.
Qed.
Print Assumptions C67_stays_put_satisfiable.

(** A state C67_registers_meanwhile speaks of: the loop waits for a shard that another thread
    has, and thread 1 has a static left to register. *)
Theorem C67_registers_satisfiable :
  PropertiesWhole.ex_progs 0%nat = map Register [1] ++ [Snapshot] /\
  exists H s, xgoes update_memory Debug (fun _ => true) (fun _ => xmap) 0%nat (xlaunch PropertiesWhole.ex_progs update_start) H s /\
    asks_shard s 1 /\ held (locks (x_shared (o_mem s)) 1) = [(Other 3, Exclusive)] /\
    th_pc (g_threads (o_reg s) 1%nat) = Idle /\ th_todo (g_threads (o_reg s) 1%nat) = [Register 2] /\ g_lock (o_reg s) = None.
Proof.
  split; [reflexivity|].
  assert (P : exists c, xpasses update_memory Debug (fun _ => true) (xbegin update_start (set_entered b_default true) xmap) c /\ needs c 1 /\
      held (locks (x_shared (xk_mem c)) 1) = [(Other 3, Exclusive)]).
  { eexists. split; [|split].
    - unfold xbegin, xmap. do 3 xvstep.
      xother; [apply xc_shared, (@o_acquire _ 1 3%nat Exclusive); vm_compute; reflexivity|]. apply xp_end. xmem.
    - reflexivity.
    - reflexivity. }
  destruct P as (c & P & Q & R). eexists _, _. split; [|split; [|split; [|split; [|split]]]].
  - unfold xlaunch, g_init. do 12 xreg.
    eapply xgo_step; [xmem | apply xw_snapshot; eapply (@g_return _ 0%nat); reflexivity | xnorm_reg].
    eapply xgo_step; [xmem | apply xw_own, xw_root; reflexivity |].
    exact (passes_goes _ _ _ _ P).
  - destruct c. exact Q.
  - exact R.
  - reflexivity.
  - reflexivity.
  - reflexivity.
Qed.
Print Assumptions C67_registers_satisfiable.
