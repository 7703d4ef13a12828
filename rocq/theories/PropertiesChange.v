(** * Property C52: profiling while the contents change. *)
From Coq Require Import Permutation Sorted.
From Verif Require Import Base BaseFacts KeyModel KeyFacts HMap FlameModel BuilderModel VisitorModel Spec ParseFacts EventFacts SolidFacts ImplModel ImplSpec StoreFacts ReportSpec
  PropertiesReport PropertiesImpl LockModel LockSpec LockFacts SnapshotModel SnapshotRun ChangeModel ChangeSpec ChangeRun ChangeFacts ChangeSession ChangeTyped ChangeComplete ChangeGuard GuardFacts ChangeEnds ChangeCases ChangeReuse.

#[local] Arguments key_new : simpl never.

(** ** C52: whatever other threads do during the root visits of a session, including
    replacing the contents of locks, freeing and reusing memory: the builder ends up as
    after visiting, with nothing else running, values and allocations put together from
    pieces each of which was there at some moment; the content of every lock in it is
    that of a moment at which the lock could be taken. *)
Theorem C52_snapshot : forall (M : memory -> Prop) m std g b roots b' o calm,
  profiles M m std g b roots b' o calm ->
  exists ws h n0, Forall2 (appears M True) roots ws /\ appeared M True h /\
    forall n, (n0 <= n)%nat -> visit_roots m (map (visit_in m n h) ws) b = (b', o).
Proof.
  intros M m std g b roots b' o calm H.
  destruct (@session_state M m True (fun _ => True)) with (std := std) (roots := roots) (g := g) (b := b) (b' := b') (o := o) (calm := calm) as (ws & h & n0 & H1 & H2 & H3); auto.
  - intros s cs _. apply Forall_forall. auto.
  - intros s cs i c _ _ _. exists (outline c). now apply appears_outline.
  - intros _ v. exists (outline v). now apply appears_outline.
  - apply Forall_forall. auto.
  - exists ws, h, n0. split; [exact H1|]. split; [exact H2|]. intros n Hn. apply (H3 n Hn).
Qed.
Print Assumptions C52_snapshot.

Lemma typed_state tyl (M : memory -> Prop) m std g b roots b' o calm :
  (forall g, M g -> mem_typed tyl g) -> (forall g, M g -> mem_all manual_free g) ->
  Forall (mtyped tyl) roots -> Forall manual_free (map outline roots) ->
  profiles M m std g b roots b' o calm ->
  exists ws h n0, Forall2 (appears M (calm = false)) roots ws /\ appeared M (calm = false) h /\
    forall n, (n0 <= n)%nat -> visit_roots m (map (visit_in m n h) ws) b = (b', o) /\ (calm = true -> all_done m (map (visit_in m n h) ws) b).
Proof.
  intros HM1 HM2 Hr1 Hr2 H.
  apply (@session_state M m (calm = false) (neat tyl)) with (std := std) (roots := roots) (g := g) (b := b) (b' := b') (o := o) (calm := calm); auto.
  - apply neat_child.
  - intros g' l Hg. destruct (HM1 _ Hg) as [T _]. destruct (HM2 _ Hg) as [P _]. split; [apply T | apply P].
  - intros g' x i v Hg Ho. destruct (HM1 _ Hg) as [_ T]. destruct (HM2 _ Hg) as [_ P]. split; [eapply T; eauto | eapply P; eauto].
  - intros s cs i c. apply neat_skip.
  - intros E v. exists (outline v). now apply appears_outline.
  - clear - Hr1 Hr2. induction Hr1; cbn in Hr2; inversion Hr2; subst; constructor; auto. now split.
Qed.

(** ** C52: nothing is skipped without a reason: for well-typed values and a session
    without panics, a lock whose content is not shown was held or poisoned at some
    moment, and a [Weak] whose target is not shown was dead. *)
Theorem C52_reasons : forall tyl (M : memory -> Prop) m std g b roots b' o calm,
  (forall g, M g -> mem_typed tyl g) -> (forall g, M g -> mem_all manual_free g) ->
  Forall (mtyped tyl) roots -> Forall manual_free (map outline roots) ->
  profiles M m std g b roots b' o calm ->
  exists ws h n0, Forall2 (appears M (calm = false)) roots ws /\ appeared M (calm = false) h /\
    forall n, (n0 <= n)%nat -> visit_roots m (map (visit_in m n h) ws) b = (b', o).
Proof.
  intros tyl M m std g b roots b' o calm HM1 HM2 Hr1 Hr2 H. destruct (typed_state HM1 HM2 Hr1 Hr2 H) as (ws & h & n0 & H1 & H2 & H3).
  exists ws, h, n0. split; [exact H1|]. split; [exact H2|]. intros n Hn. apply (H3 n Hn).
Qed.
Print Assumptions C52_reasons.

Lemma roots_appear_typed tyl (M : memory -> Prop) E roots ws : (forall g, M g -> mem_typed tyl g) -> Forall2 (appears M E) roots ws -> Forall (mtyped tyl) roots -> Forall typed ws.
Proof. intros HM H. induction H; intros Hr; inversion Hr; subst; constructor; auto. eapply appears_typed; eauto. Qed.
Lemma roots_appear_manual (M : memory -> Prop) E roots ws : (forall g, M g -> mem_all manual_free g) -> Forall2 (appears M E) roots ws ->
  Forall manual_free (map outline roots) -> Forall manual_free ws.
Proof.
  intros HM H. induction H as [|v w vs ws A _ IH]; cbn; intros Hr; [constructor|].
  inversion Hr as [|? ? Hv Hvs]; subst. constructor; [exact (appears_manual HM A Hv) | auto].
Qed.
Lemma roots_appear_map_free (M : memory -> Prop) E roots ws : (forall g, M g -> mem_all map_free g) -> Forall2 (appears M E) roots ws ->
  Forall map_free (map outline roots) -> Forall map_free ws.
Proof.
  intros HM H. induction H as [|v w vs ws A _ IH]; cbn; intros Hr; [constructor|].
  inversion Hr as [|? ? Hv Hvs]; subst. constructor; [exact (appears_map_free HM A Hv) | auto].
Qed.

Lemma visit_roots_outcome m l : forall b b1 o1, visit_roots m l b = (b1, o1) -> o1 = Done \/ o1 = Aborted.
Proof.
  induction l as [|p l IH]; cbn [visit_roots]; intros b0 b1 o1 E; [injection E as <- <-; auto|].
  destruct (visit_root m p b0) as [b2 [| |]]; eauto. injection E as <- <-. auto.
Qed.

(** ** C52: the finished profile of a session without panics is the report (C46) of
    what was seen, in which every shared pointer leads to an allocation. *)
Theorem C52_report : forall tyl (M : memory -> Prop) m std g roots b o,
  (forall g, M g -> mem_typed tyl g) -> (forall g, M g -> mem_all manual_free g) ->
  Forall (mtyped tyl) roots -> Forall manual_free (map outline roots) ->
  profiles M m std g b_default roots b o true ->
  exists ws h, Forall2 (appears M False) roots ws /\ appeared M False h /\ no_dangling h ws /\
    forall (alloc : ptr -> N) xs, (forall x i w, find_obj h x = Some (i, w) -> recorded_size i w (alloc x)) ->
    NoDup xs -> (forall x, In x xs <-> store_reachable h ws x) ->
    total_declared (full_report h ws alloc xs) < two63 ->
    o = Done /\ exists out, finish m b = Some out /\
      (forall p, size_at (out_flamegraph out) p = shown_s (full_report h ws alloc xs) p) /\
      (exists L, listing (shown_s (full_report h ws alloc xs)) L /\ fg_write (out_flamegraph out) = concat_str (map folded_line L)) /\
      (exists W, StronglySorted path_lt W /\ (forall p, In p W <-> misdeclared_s (full_report h ws alloc xs) p) /\
        out_warnings out = concat_str (map (warning_for (full_report h ws alloc xs)) W)).
Proof.
  intros tyl M m std g roots b o HM1 HM2 Hr1 Hr2 H. destruct (typed_state HM1 HM2 Hr1 Hr2 H) as (ws & h & n0 & W & A & R).
  assert (FF : true = false -> False) by discriminate.
  assert (T1 : typed_store h) by (eapply appeared_typed; eauto). assert (T2 : plain_store h) by (eapply appeared_plain; eauto).
  assert (T3 : Forall typed ws) by (eapply roots_appear_typed; eauto). assert (T4 : Forall manual_free ws) by (eapply roots_appear_manual; eauto).
  assert (T5 : no_dangling h ws). { destruct (R n0 (le_n _)) as [_ RD]. eapply nothing_dangles; eauto. }
  exists ws, h. split. { clear - W FF. induction W; constructor; auto. eapply appears_mono; [| |eassumption]; auto. }
  split; [eapply appeared_mono; [|exact FF|exact A]; auto|]. split; [exact T5|]. intros alloc xs Ha X1 X2 X3.
  set (n := Nat.max n0 (length h)). destruct (R n ltac:(lia)) as [R1 _].
  destruct (@C46_profile n h ws alloc T1 T2 T3 T4 T5 ltac:(lia) Ha xs X1 X2 X3) as (out & P1 & P2 & (L & P3 & P4 & _) & P5).
  specialize (P1 m). unfold profile in P1. rewrite R1 in P1.
  assert (Ho : o = Done) by (destruct (visit_roots_outcome R1) as [E | ->]; [exact E | discriminate]).
  subst o. split; [reflexivity|]. exists out. split; [exact P1|]. split; [exact P2|]. split; [eauto | exact P5].
Qed.
Print Assumptions C52_report.

(** ** C52: no warnings: values that change while they are visited never make a profile
    look inconsistent. *)
Theorem C52_no_warnings : forall tyl (M : memory -> Prop) m std g roots b o calm,
  (forall g, M g -> mem_typed tyl g) -> (forall g, M g -> mem_all map_free g) ->
  Forall (mtyped tyl) roots -> Forall map_free (map outline roots) ->
  profiles M m std g b_default roots b o calm ->
  exists ws h n, Forall2 (appears M True) roots ws /\ appeared M True h /\
    (total_declared (root_events (map (visit_in Debug n h) ws)) < two63 ->
     exists out, finish m b = Some out /\ out_warnings out = EmptyString).
Proof.
  intros tyl M m std g roots b o calm HM1 HM2 Hr1 Hr2 H. destruct (C52_snapshot H) as (ws & h & n & W & A & R).
  exists ws, h, n. split; [exact W|]. split; [exact A|]. intros Ht. specialize (R n (le_n _)).
  destruct (@C35_no_warnings n h ws) as (out & P).
  - eapply appeared_typed; eauto.
  - eapply roots_appear_typed; eauto.
  - eapply appeared_map_free; eauto.
  - eapply roots_appear_map_free; eauto.
  - exact Ht.
  - destruct (P m) as [P1 P2]. unfold profile in P1. rewrite R in P1. exists out. destruct o; try discriminate; auto.
Qed.
Print Assumptions C52_no_warnings.

(** ** C52: what is being visited does not change: inside a lock the visit has its
    guard, and no step of other code replaces the content. *)
Theorem C52_guarded : forall (M : memory -> Prop) m std g b v c l a,
  (forall l, lock_ok (locks (m_shared g) l)) -> holds_nothing (m_shared g) ->
  passes M m std (begin g b v) c -> k_control c <> Lost -> inside c l a ->
  In (Visit, a) (held (locks (m_shared (k_mem c)) l)) /\
  forall g', change (k_mem c) g' -> m_content g' l = m_content (k_mem c) l.
Proof.
  intros M m std g b v c l a H1 H2 HP HL Hin. pose proof (steady_passes HP (@begin_steady g b v H1 H2)) as S. split.
  - now apply steady_guard.
  - intros g' Hg. eapply guard_stable; eauto.
Qed.
Print Assumptions C52_guarded.

(** ** C52: and nothing else is looked at: whatever the visit is about to visit is part
    of the root, or of what a lock now contains whose guard it has, or of an allocation;
    and a pointer is followed only if something like that owns it or the visit itself
    has a strong reference. *)
Theorem C52_looks : forall (M : memory -> Prop) m std g b v c,
  (forall l, lock_ok (locks (m_shared g) l)) -> holds_nothing (m_shared g) -> passes M m std (begin g b v) c ->
  (forall u, looks_at c u -> may_look M v (k_mem c) u) /\ (forall x, follows c x -> may_follow M v (k_mem c) x).
Proof. intros M m std g b v c H1 H2 HP. split; [intros u; eapply may_look_lemma; eauto | intros x; eapply may_follow_lemma; eauto]. Qed.
Print Assumptions C52_looks.

(** ** C52: it never waits: the visit is over or can take its next step. *)
Theorem C52_never_waits : forall m std c, ended c \/ exists c', cstep m std c c'.
Proof. exact progress. Qed.
Print Assumptions C52_never_waits.

(** ** C52: everything is given back: a visit that returned or was unwound by a panic
    holds no guard and no strong reference. *)
Theorem C52_released : forall (M : memory -> Prop) m std g b v c,
  (forall l, lock_ok (locks (m_shared g) l)) -> holds_nothing (m_shared g) ->
  passes M m std (begin g b v) c -> ended c -> k_control c <> Lost -> holds_nothing (m_shared (k_mem c)).
Proof.
  intros M m std g b v c H1 H2 HP He HL. pose proof (steady_passes HP (@begin_steady g b v H1 H2) HL) as [O G R].
  assert (E : k_stack c = []).
  { unfold ended in He. destruct (k_control c) as [[]| |]; try contradiction; destruct (k_stack c); auto; contradiction. }
  rewrite E in *. split.
  - intros l a Hin. apply in_guards in Hin. rewrite G in Hin. cbn in Hin. lia.
  - intros x Hin. apply refs_in in Hin. rewrite R in Hin. cbn in Hin. lia.
Qed.
Print Assumptions C52_released.

(** ** C52: it ends if the others let it: from any point of a visit on, if the memory is
    finite and its contents are no longer changed (locks and reference counts may be),
    no run goes on forever. *)
Theorem C52_ends : forall m std c, finite_memory (k_mem c) -> Acc (fun c' c => unchanged_step m std c c') c.
Proof. intros m std c. apply unchanged_ends. Qed.
Print Assumptions C52_ends.

(** Otherwise there is no bound: another thread that keeps appending to a list keeps the
    visit going, although the list starts with one node and the memory is always finite. *)
Theorem C52_unbounded_refuted :
  ~ (forall m std g b v, finite_memory g -> root_visitor b_default = (b, Fine) ->
     exists n, forall c, passes finite_memory m std (begin g b v) c -> (length (b_visited (k_builder c)) <= n)%nat).
Proof.
  intros H. destruct (H Release (fun _ => true) one_node (set_entered b_default true) (arc_node 0)) as (n & Hn); [|reflexivity|].
  - apply (@bounded_finite 1); [|reflexivity]. intros x. cbn. destruct (N.eqb_spec x 0); [lia | congruence].
  - destruct (@list_leads (fun _ => true) (S n) (set_entered b_default true) eq_refl) as (c & P & L & _). specialize (Hn _ P). lia.
Qed.
Print Assumptions C52_unbounded_refuted.

(** What is not shown: an allocation at the address of one that was visited and freed
    before.  The lock and the [Arc] of 1000 bytes are there from before the visit gets
    to them until the end, and are not in the text; the same memory profiled alone has
    them. *)
Theorem C52_reuse_refuted : exists c b out,
  passes slots_memory Debug (fun _ => true) (begin slots_start (set_entered b_default true) slots) c /\ ended c /\
  m_content (k_mem c) 8 = full_slot t_buf 5 /\ m_object (k_mem c) 5 = Some (InArc 1, buffer) /\ (forall l, locks (m_shared (k_mem c)) l = mkLock [] false) /\
  leave_scope (result c) = (b, Done) /\ finish Debug b = Some out /\
  fg_write (out_flamegraph out) =
"ArcInner 20
ArcInner;u32 4
Slots;a;std::sync::poison::mutex::Mutex<core::option::Option<alloc::sync::Arc<u32>>> 8
Slots;a;std::sync::poison::mutex::Mutex<core::option::Option<alloc::sync::Arc<u32>>>;data;core::option::Option<alloc::sync::Arc<u32>>;Some;alloc::sync::Arc<u32>;ptr 8
Slots;b;std::sync::poison::mutex::Mutex<core::option::Option<alloc::sync::Arc<[u8; 1000]>>> 8
Slots;b;std::sync::poison::mutex::Mutex<core::option::Option<alloc::sync::Arc<[u8; 1000]>>>;data;core::option::Option<alloc::sync::Arc<[u8; 1000]>>;Some;alloc::sync::Arc<[u8; 1000]>;ptr 8
"%string /\
  exists alone, profile Debug [visit_in Debug 1 [(5, (InArc 1, outline buffer))] slots_after] = Some alone /\
  fg_write (out_flamegraph alone) =
"ArcInner 16
ArcInner;[u8; 1000] 1000
Slots;a;std::sync::poison::mutex::Mutex<core::option::Option<alloc::sync::Arc<u32>>> 8
Slots;a;std::sync::poison::mutex::Mutex<core::option::Option<alloc::sync::Arc<u32>>>;data;core::option::Option<alloc::sync::Arc<u32>> 8
Slots;b;std::sync::poison::mutex::Mutex<core::option::Option<alloc::sync::Arc<[u8; 1000]>>> 8
Slots;b;std::sync::poison::mutex::Mutex<core::option::Option<alloc::sync::Arc<[u8; 1000]>>>;data;core::option::Option<alloc::sync::Arc<[u8; 1000]>>;Some;alloc::sync::Arc<[u8; 1000]>;ptr 8
"%string.
Proof.
  destruct reuse_run as (c & P & E & C1 & C2 & C3 & b & out & L & F & T & _). exists c, b, out.
  split; [exact P|]. split; [exact E|]. split; [exact C1|]. split; [exact C2|]. split; [exact C3|]. split; [exact L|]. split; [exact F|]. split; [exact T|]. exact after_alone.
Qed.
Print Assumptions C52_reuse_refuted.

(** ** The hypotheses can be met: that run. *)
Theorem C52_satisfiable :
  (forall g, slots_memory g -> mem_typed slots_types g) /\ (forall g, slots_memory g -> mem_all manual_free g) /\ (forall g, slots_memory g -> mem_all map_free g) /\
  Forall (mtyped slots_types) [slots] /\ Forall manual_free (map outline [slots]) /\ Forall map_free (map outline [slots]) /\
  (forall l, lock_ok (locks (m_shared slots_start) l)) /\ holds_nothing (m_shared slots_start) /\ finite_memory slots_start /\
  (exists b, profiles slots_memory Debug (fun _ => true) slots_start b_default [slots] b Done true) /\
  (exists c, passes slots_memory Debug (fun _ => true) (begin slots_start (set_entered b_default true) slots) c /\ ended c /\ k_control c <> Lost) /\
  (exists c, passes slots_memory Debug (fun _ => true) (begin slots_start (set_entered b_default true) slots) c /\ k_control c <> Lost /\ inside c 7 Exclusive).
Proof.
  split; [exact slots_typed|]. split; [exact slots_manual|]. split; [exact slots_map|].
  split; [constructor; [apply slots_root | constructor]|]. split; [repeat constructor; cbn; tauto|]. split; [repeat constructor; cbn; tauto|].
  split; [intros l o []|]. split; [split; [intros l a [] | intros x [[=]|[]]]|].
  split. { apply (@bounded_finite 6). - intros x. cbn. destruct (N.eqb_spec x 5); [lia | congruence]. - intros l. cbn. destruct (N.eqb l 7); reflexivity. }
  destruct reuse_run as (c & P & E & _ & _ & _ & b & out & L & _). assert (HL : k_control c <> Lost).
  { intros X. unfold result in L. rewrite X in L. cbn in L. discriminate. }
  split; [|split].
  - exists b. change true with (match Done with Done => true | _ => false end) at 2. eapply pr_visit; [reflexivity | exact P | exact E | exact L | discriminate | apply pr_end].
  - exists c. auto.
  - eexists. split; [|split].
    + unfold begin, slots. do 6 vstep. apply ps_end. mem.
    + discriminate.
    + eexists. cbn. eauto.
Qed.
Print Assumptions C52_satisfiable.

(** The content of lock 7 is about to be visited; it is not part of the root. *)
Example C52_looks_satisfiable : exists c, passes slots_memory Debug (fun _ => true) (begin slots_start (set_entered b_default true) slots) c /\
  looks_at c (m_content (k_mem c) 7) /\ ~ part_of (m_content (k_mem c) 7) slots /\ held (locks (m_shared (k_mem c)) 7) = [(Visit, Exclusive)].
Proof.
  eexists. split; [|split; [|split]].
  - unfold begin, slots. do 7 vstep. apply ps_end. mem.
  - eexists. reflexivity.
  - cbn. intros H. inversion H as [|s cs v Hin Hp]; subst. destruct Hin as [<-|[<-|[]]]; inversion Hp.
  - reflexivity.
Qed.
