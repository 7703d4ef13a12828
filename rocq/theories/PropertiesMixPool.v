(** * Property C66: several profiles and calls of [size_of_unique] at the same time,
    while everything changes. *)
From Coq Require Import Lia.
From Verif Require Import Base BaseFacts KeyModel KeyFacts HMap FlameModel BuilderModel BuilderFacts VisitorModel Spec LayoutModel ImplModel ImplSpec ImplFacts SizeOfModel ReportSpec PropertiesReport
  LockModel LockSpec LockFacts SnapshotModel DashModel DashSpec MixModel MixSpec MixTypedSpec MixTyped MixGuard MixCases PropertiesMix PropertiesMixTyped PoolModel PoolSpec PoolFacts
  SizeMixModel SizeMixSpec SizeMixFacts SizeMixGuard SizeMixCases PropertiesSizeMix MixPoolModel MixPoolSpec MixPoolFacts MixPoolShown.

#[local] Arguments key_new : simpl never.

(** ** C66: to each session the other sessions and calls are other code as in C64, to
    each call as in C65: a session that is over is one of C64, in the memory as it sees
    it; a call that is over is one of C65. *)
Theorem C66_each : forall (M : xmemory -> Prop) m std g js P i,
  (forall l, lock_ok (locks (x_shared g) l)) -> all_idle (length js) (x_shared g) -> xjoint M m std (xpool_start g js) P ->
  (forall b roots b' o calm, nth_error js i = Some (Session b roots) -> session_over P i b' o calm ->
     xprofiles (seen_from i M) m std (xview i g) b roots b' o calm) /\
  (forall v r, nth_error js i = Some (SizeOf v) -> size_over P i r ->
     exists c, zpasses (seen_from i M) m std (zbegin (xview i g) v) c /\ zended c /\ zresult c = r).
Proof.
  intros M m std g js P i Hk Hi HJ. pose proof (@start_steady g js Hk Hi) as S. split.
  - intros b roots b' o calm Hj Ho. destruct (@each_session M m std i _ _ b' o calm HJ S Ho (DRoots b roots true) (xview i g)) as (calm1 & X & E).
    + cbn [xpool_start q_all]. rewrite nth_error_map, Hj. reflexivity.
    + apply xsame_refl.
    + cbn in E. now subst calm.
  - intros v r Hj Ho. apply (@each_size M m std i _ _ r HJ S Ho (DSize 0 NKRoot (ZRun (XVisit v XRet)) []) (xview i g)).
    + cbn [xpool_start q_all]. rewrite nth_error_map, Hj. reflexivity.
    + apply xsame_refl.
Qed.
Print Assumptions C66_each.

(** And at every moment each root visit that is going on is one of C64, each call one
    of C65. *)
Theorem C66_now : forall (M : xmemory -> Prop) m std g js P i,
  (forall l, lock_ok (locks (x_shared g) l)) -> all_idle (length js) (x_shared g) -> xjoint M m std (xpool_start g js) P ->
  (forall b0 roots b k st vs calm, nth_error js i = Some (Session b0 roots) -> nth_error (q_all P) i = Some (DVisit b k st vs calm) ->
     exists before v h0 b1 h, roots = before ++ v :: vs /\ (forall l, lock_ok (locks (x_shared h0) l)) /\ holds_nothing (x_shared h0) /\
       xpasses (seen_from i M) m std (xbegin h0 b1 v) (mkXC h b k st) /\ xsame h (xview i (q_mem P))) /\
  (forall v s nk k st, nth_error js i = Some (SizeOf v) -> nth_error (q_all P) i = Some (DSize s nk k st) ->
     exists h0 h, (forall l, lock_ok (locks (x_shared h0) l)) /\ holds_nothing (x_shared h0) /\
       zpasses (seen_from i M) m std (zbegin h0 v) (mkZ h s nk k st) /\ xsame h (xview i (q_mem P))).
Proof.
  intros M m std g js P i Hk Hi HJ. pose proof (@start_steady g js Hk Hi) as S.
  pose proof (joint_now HJ S (@start_now M m std g js Hk Hi (joint_here HJ))) as N. split.
  - intros b0 roots b k st vs calm Hj Hd. destruct (N i _ _ Hd Hj) as (pre & v & h0 & b1 & h & E & [A1 A2] & X). exists pre, v, h0, b1, h. tauto.
  - intros v s nk k st Hj Hd. destruct (N i _ _ Hd Hj) as (h0 & h & [A1 A2] & X). exists h0, h. tauto.
Qed.
Print Assumptions C66_now.

(** ** C66: so the profiles do not mix: whatever the others and other threads do, the
    builder of each session ends up as after visiting, with nothing else running,
    values and allocations put together from pieces each of which was there at some
    moment; unless a visit of that session panics nothing is left out without a reason. *)
Theorem C66_snapshot : forall (M : xmemory -> Prop) m std g js P i b roots b' o calm,
  (forall l, lock_ok (locks (x_shared g) l)) -> all_idle (length js) (x_shared g) -> xjoint M m std (xpool_start g js) P ->
  nth_error js i = Some (Session b roots) -> session_over P i b' o calm ->
  exists qs h n0, Forall2 (shown M m (calm = false)) roots qs /\ shown_objects M m (calm = false) h /\
    forall n, (n0 <= n)%nat -> visit_roots m (map (linked n h) qs) b = (b', o).
Proof.
  intros M m std g js P i b roots b' o calm Hk Hi HJ Hj Ho. destruct (@C66_each M m std g js P i Hk Hi HJ) as [X _]. specialize (X _ _ _ _ _ Hj Ho).
  destruct (C64_snapshot X) as (qs & h & n0 & H1 & H2 & H3). exists qs, h, n0. split; [|split; [eapply objects_there; eauto | exact H3]].
  clear - H1. induction H1; constructor; [eapply shown_there; eauto | assumption].
Qed.
Print Assumptions C66_snapshot.

(** ** C66: and the result (or panic) of each call is that of the same call, with
    nothing else running, for such a value. *)
Theorem C66_sizes : forall (M : xmemory -> Prop) m std g js P i v r,
  (forall l, lock_ok (locks (x_shared g) l)) -> all_idle (length js) (x_shared g) -> xjoint M m std (xpool_start g js) P ->
  nth_error js i = Some (SizeOf v) -> size_over P i r ->
  exists q, shown M m (r = None) v q /\ size_of_unique_allocated_data m q = r.
Proof.
  intros M m std g js P i v r Hk Hi HJ Hj Ho. destruct (@C66_each M m std g js P i Hk Hi HJ) as [_ X]. destruct (X _ _ Hj Ho) as (c & H1 & H2 & H3).
  destruct (C65_snapshot H1 H2) as (q & Q1 & Q2). rewrite H3 in *. exists q. split; [eapply shown_there; eauto | exact Q2].
Qed.
Print Assumptions C66_sizes.

(** ** C66: in well-typed memory in which [DashMap]s are only updated in place, each
    session none of whose visits panicked has the report (C46) of such values as its
    profile. *)
Theorem C66_report : forall content_type slot_type capacity_of entries_of (M : xmemory -> Prop) m std g js P i roots b o,
  (forall g, M g -> xmem_typed content_type slot_type capacity_of entries_of g) -> (forall g, M g -> xmem_all manual_free g) ->
  Forall (xtyped content_type slot_type capacity_of) roots -> Forall manual_free (map xoutline roots) ->
  (forall l, lock_ok (locks (x_shared g) l)) -> all_idle (length js) (x_shared g) -> xjoint M m std (xpool_start g js) P ->
  nth_error js i = Some (Session b_default roots) -> session_over P i b o true ->
  exists ws h, seen_as M m roots ws /\ seen_store M m h /\ no_dangling h ws /\
    forall (alloc : ptr -> N) xs, (forall x i w, find_obj h x = Some (i, w) -> recorded_size i w (alloc x)) ->
    NoDup xs -> (forall x, In x xs <-> store_reachable h ws x) ->
    total_declared (full_report h ws alloc xs) < two63 ->
    o = Done /\ exists out, finish m b = Some out /\
      (forall p, size_at (out_flamegraph out) p = shown_s (full_report h ws alloc xs) p) /\
      (exists L, listing (shown_s (full_report h ws alloc xs)) L /\ fg_write (out_flamegraph out) = concat_str (map folded_line L)).
Proof.
  intros ct sl cf ef M m std g js P i roots b o HM HA HT HR Hk Hi HJ Hj Ho. destruct (@C66_each M m std g js P i Hk Hi HJ) as [X _]. specialize (X _ _ _ _ _ Hj Ho).
  destruct (@C64_report ct sl cf ef (seen_from i M) m std (xview i g) roots b o (typed_there HM) (all_there HA) HT HR X) as (ws & h & A & B & C & D).
  exists ws, h. split; [eapply seen_as_there; eauto|]. split; [eapply seen_store_there; eauto|]. split; [exact C|].
  intros alloc xs H1 H2 H3 H4. destruct (D alloc xs H1 H2 H3 H4) as (E1 & out & E2 & E3 & E4 & _). split; [exact E1|]. exists out. auto.
Qed.
Print Assumptions C66_report.

(** ** C66: and each call that returns returns the bytes owned by such a value. *)
Theorem C66_owned : forall content_type slot_type capacity_of entries_of (M : xmemory -> Prop) m std g js P i v n,
  (forall g, M g -> xmem_typed content_type slot_type capacity_of entries_of g) ->
  (forall g, M g -> xmem_all manual_free g) -> (forall g, M g -> xmem_all counted g) ->
  xtyped content_type slot_type capacity_of v -> manual_free (xoutline v) -> counted (xoutline v) ->
  (forall l, lock_ok (locks (x_shared g) l)) -> all_idle (length js) (x_shared g) -> xjoint M m std (xpool_start g js) P ->
  nth_error js i = Some (SizeOf v) -> size_over P i (Some n) ->
  exists w, seen_as M m [v] [w] /\ typed w /\ (owned_bytes w < two64 -> n = owned_bytes w).
Proof.
  intros ct sl cf ef M m std g js P i v n HM HA HC HT HR HK Hk Hi HJ Hj Ho. destruct (@C66_each M m std g js P i Hk Hi HJ) as [_ X]. destruct (X _ _ Hj Ho) as (c & H1 & H2 & H3).
  destruct (@C65_owned ct sl cf ef (seen_from i M) m std (xview i g) v c n (typed_there HM) (all_there HA) (all_there HC) HT HR HK H1 H2 H3) as (w & A & B & C & _).
  exists w. split; [eapply seen_as_there; eauto | auto].
Qed.
Print Assumptions C66_owned.

(** ** C66: who is inside a lock, or at the entries of a shard, has its guard; if it has
    it exclusively it is the only one; meanwhile nobody replaces the content or changes
    the table: neither other code nor the participants, who never do. *)
Theorem C66_guarded : forall (M : xmemory -> Prop) m std g js P i l a,
  (forall l, lock_ok (locks (x_shared g) l)) -> all_idle (length js) (x_shared g) -> xjoint M m std (xpool_start g js) P ->
  is_inside P i l a -> ~ is_gone P i ->
  In (Other i, a) (held (locks (x_shared (q_mem P)) l)) /\
  (a = Exclusive -> held (locks (x_shared (q_mem P)) l) = [(Other i, Exclusive)] /\ forall j a', is_inside P j l a' -> ~ is_gone P j -> j = i) /\
  (forall g', xoutside (length js) (q_mem P) g' -> x_content g' l = x_content (q_mem P) l /\ x_table g' l = x_table (q_mem P) l) /\
  (forall j P', xturn m std j P P' -> forall l', x_content (q_mem P') l' = x_content (q_mem P) l' /\ x_table (q_mem P') l' = x_table (q_mem P) l').
Proof.
  intros M m std g js P i l a Hk Hi HJ Hin Hg. pose proof (@start_steady g js Hk Hi) as S0. pose proof (joint_steady HJ S0) as S.
  pose proof (joint_all HJ) as L. cbn [xpool_start q_all] in L. rewrite map_length in L.
  pose proof (inside_held S Hin Hg) as Hh. destruct (proj1 (inside_guard P i l a) Hin) as (d & Hd & _).
  assert (Hl : (i < length js)%nat) by (rewrite <- L; apply nth_error_Some; congruence). pose proof (@steady_lock_ok P i d l S Hd Hg) as Ok.
  split; [exact Hh|]. split; [|split].
  - intros ->. split; [now apply Ok|]. intros j a' Hj Gj. pose proof (inside_held S Hj Gj) as Hh'. destruct (alone Ok Hh Hh') as [[= E] _]. exact E.
  - intros g' Ho. eapply outside_kept; eauto.
  - intros j P' HT l'. destruct (turn_untouched HT S) as (U1 & _ & U2). now rewrite U1, U2.
Qed.
Print Assumptions C66_guarded.

(** ** C66: and nothing else is looked at: a session looks at parts of its roots, of what
    its guards protect and of allocations; a call not even at these. *)
Theorem C66_looks : forall (M : xmemory -> Prop) m std g js P i u,
  (forall l, lock_ok (locks (x_shared g) l)) -> all_idle (length js) (x_shared g) -> xjoint M m std (xpool_start g js) P ->
  is_about_to_visit P i u ->
  (exists b roots v, nth_error js i = Some (Session b roots) /\ In v roots /\ (in_its_hands i v (q_mem P) u \/ was_allocated M u)) \/
  (exists v, nth_error js i = Some (SizeOf v) /\ in_its_hands i v (q_mem P) u).
Proof.
  intros M m std g js P i u Hk Hi HJ Hu. pose proof (@start_steady g js Hk Hi) as S0.
  pose proof (joint_now HJ S0 (@start_now M m std g js Hk Hi (joint_here HJ))) as N.
  pose proof (joint_all HJ) as L. cbn [xpool_start q_all] in L. rewrite map_length in L. unfold is_about_to_visit in Hu.
  assert (T : forall v h, xsame h (xview i (q_mem P)) -> zmay_look v h u -> in_its_hands i v (q_mem P) u).
  { intros v h ((HL & _) & C1 & _ & C3) [H|[(l & a & H1 & H2)|(l & e & w & H1 & H2 & H3)]]; [now left | right; left; exists l, a | right; right; exists l, e, w].
    - rewrite HL in H1. cbn [xview xset x_shared x_content] in *. apply view_in_held in H1. cbn in H1. rewrite C1 in H2. auto.
    - rewrite HL in H1. cbn [xview xset x_shared x_table] in *. apply view_in_held in H1. cbn in H1. rewrite C3 in H2. auto. }
  destruct (nth_error (q_all P) i) as [d|] eqn:Hd; [|contradiction]. assert (Hl : (i < length js)%nat) by (rewrite <- L; apply nth_error_Some; congruence).
  destruct (nth_error js i) as [j|] eqn:Hj; [|apply nth_error_None in Hj; lia]. pose proof (N i d j Hd Hj) as X.
  destruct d as [b vs calm|b k st vs calm|b|s nk k st], j as [b0 roots|v0]; try contradiction; cbn [now_one] in X.
  - destruct X as (pre & v & h0 & b1 & h & E & [A1 A2] & HP & Hs). left. exists b0, roots, v. split; [reflexivity|]. split; [rewrite E; apply in_or_app; right; now left|].
    destruct k as [[| | | | | | |u' rest| |]| |]; try contradiction. subst u'.
    destruct (C64_looks A1 A2 HP) as [X _]. specialize (X u ltac:(exists rest; reflexivity)). unfold xmay_look in X. cbn [xk_mem] in X.
    destruct X as [X|[X|[X|(g' & x & i0 & w & Hg' & Hx & Hp)]]]; [left; apply (T v h Hs); now left | left; apply (T v h Hs); right; now left | left; apply (T v h Hs); right; now right |].
    right. destruct (seen_moment Hg') as (g0 & Hg0 & _ & _ & _ & _ & _ & _ & O & _). exists g0, x, i0, w. split; [exact Hg0|]. split; [now rewrite O | exact Hp].
  - destruct X as (h0 & h & [A1 A2] & HP & Hs). right. exists v0. split; [reflexivity|]. destruct k as [[| | | | | | |u' rest| |]|]; try contradiction. subst u'.
    apply (T v0 h Hs). apply (@C65_looks _ _ _ _ _ _ u A1 A2 HP). exists rest. reflexivity.
Qed.
Print Assumptions C66_looks.

(** ** C66: they only ever wait for the read lock of a shard that someone has
    exclusively: other code, or a participant (perhaps itself) that is visiting the
    content of that very lock.  Never for who only reads. *)
Theorem C66_waits : forall (M : xmemory -> Prop) m std g js P i,
  (forall l, lock_ok (locks (x_shared g) l)) -> all_idle (length js) (x_shared g) -> xjoint M m std (xpool_start g js) P ->
  (i < length js)%nat -> (forall j, ~ is_gone P j) ->
  is_over P i \/ (exists P', xturn m std i P P') \/
  (exists l t, asks_for P i l /\ In (Other t, Exclusive) (held (locks (x_shared (q_mem P)) l)) /\ ((length js <= t)%nat \/ is_inside P t l Exclusive)).
Proof.
  intros M m std g js P i Hk Hi HJ Hl HG. pose proof (@start_steady g js Hk Hi) as S0. pose proof (joint_steady HJ S0) as S.
  pose proof (joint_all HJ) as L. cbn [xpool_start q_all] in L. rewrite map_length in L.
  assert (NV : no_visit (x_shared (q_mem P))) by (apply (joint_no_visit HJ S0); intros l a; apply Hi).
  rewrite <- L in *. destruct (@pool_waits m std P i S Hl HG) as [H|[H|[H|(l & _ & H)]]]; [now left | right; left; exact H | right; right; exact H | elim (NV _ _ H)].
Qed.
Print Assumptions C66_waits.

(** ** C66: each that is over holds nothing, though others go on. *)
Theorem C66_released : forall (M : xmemory -> Prop) m std g js P i,
  (forall l, lock_ok (locks (x_shared g) l)) -> all_idle (length js) (x_shared g) -> xjoint M m std (xpool_start g js) P ->
  is_over P i -> ~ is_gone P i ->
  (forall l a, ~ In (Other i, a) (held (locks (x_shared (q_mem P)) l))) /\ (forall x, ~ In (Other i) (strong (x_shared (q_mem P)) x)).
Proof. intros M m std g js P i Hk Hi HJ. apply over_nothing. apply (joint_steady HJ). now apply start_steady. Qed.
Print Assumptions C66_released.

(** ** Concrete executions *)
Lemma took i g l a : xsame (xview i (xset g (acquire (x_shared g) l (Other i) a))) (xset (xview i g) (acquire (x_shared (xview i g)) l Visit a)).
Proof. split; [|cbn; auto]. pose proof (view_acquire i (x_shared g) l (Other i) a) as H. rewrite seat_mine in H. exact H. Qed.
Lemma gave i g l a p : xsame (xview i (xset g (release (x_shared g) l (Other i) a p))) (xset (xview i g) (release (x_shared (xview i g)) l Visit a p)).
Proof. split; [|cbn; auto]. pose proof (view_release i (x_shared g) l (Other i) a p) as H. rewrite seat_mine in H. exact H. Qed.
Lemma went i g l l2 : xsame (xview i (xset g (release (acquire (x_shared g) l2 (Other i) ReadOnly) l (Other i) ReadOnly false)))
  (xset (xview i g) (release (acquire (x_shared (xview i g)) l2 Visit ReadOnly) l Visit ReadOnly false)).
Proof.
  split; [|cbn; auto]. pose proof (view_release i (acquire (x_shared g) l2 (Other i) ReadOnly) l (Other i) ReadOnly false) as H. rewrite seat_mine in H.
  eapply same_trans; [exact H|]. apply same_release. pose proof (view_acquire i (x_shared g) l2 (Other i) ReadOnly) as H'. rewrite seat_mine in H'. exact H'.
Qed.
Lemma same_moment g0 g : replace_memory g0 -> x_content g = x_content g0 -> x_table g = x_table g0 -> x_object g = x_object g0 -> replace_memory g.
Proof. unfold replace_memory. intros H -> -> ->. exact H. Qed.
Definition zwritten : xmemory := mkX (x_shared zstart) (x_content zstart) (x_object zstart) (fun l => if N.eqb l 1 then ztable 5 else x_table zstart l).
Lemma start_moment : replace_memory zstart. Proof. zmem. Qed.
Lemma written_moment : replace_memory zwritten. Proof. zmem. Qed.
Ltac pmem := lazymatch goal with |- context [ztable 5] => refine (@same_moment zwritten _ written_moment eq_refl eq_refl eq_refl) | _ => refine (@same_moment zstart _ start_moment eq_refl eq_refl eq_refl) end.
Ltac pnorm := cbn [upd]; lazymatch goal with
  | |- context [XRun ?k] => let k' := eval hnf in k in change (XRun k) with (XRun k') | _ => idtac end;
  lazymatch goal with |- context [ZRun ?k] => let k' := eval hnf in k in change (ZRun k) with (ZRun k') | _ => idtac end.
Ltac pturn i := eapply (@xj_turn _ _ _ i); [pmem | first
  [ eapply xt_size; [reflexivity | first [ eapply z_exit | eapply z_return | eapply z_next_shard; [xavail] | eapply z_last_shard | eapply z_inline; [vm_compute; reflexivity]
     | eapply z_unique | eapply z_visit | eapply z_sum; [xavail | vm_compute; reflexivity] | eapply z_sum_done | eapply z_first_shard; [xavail] | eapply z_no_shard | eapply z_unlock | eapply z_try; [xavail | vm_compute; reflexivity] | eapply z_try_fails; left; vm_compute; discriminate ]
     | first [apply xsame_refl | apply went | apply took | apply gave]]
  | eapply xt_visit; [reflexivity | first [ eapply x_exit; [vm_compute; reflexivity] | eapply x_return | eapply x_next_shard; [xavail] | eapply x_last_shard | eapply x_inline; [vm_compute; reflexivity]
     | eapply x_unique; [vm_compute; reflexivity] | eapply x_visit | eapply x_sum; [xavail | vm_compute; reflexivity] | eapply x_sum_done | eapply x_first_shard; [xavail] | eapply x_no_shard | eapply x_unlock | eapply x_try; [xavail | vm_compute; reflexivity] | eapply x_try_fails; left; vm_compute; discriminate ]
     | first [apply xsame_refl | apply went | apply took | apply gave]]
  | eapply xt_begin; [reflexivity | reflexivity]
  | eapply xt_leave; [reflexivity | exact I | vm_compute; reflexivity | discriminate] ] | pnorm ].
Ltac pother := eapply xj_other; [pmem | |].
Definition two_jobs : list job := [Session b_default [zmap]; SizeOf zmap].

(** The call is at the second shard when another thread takes the first one, for which the
    session now waits, and replaces the vector of capacity 3 by one of capacity 5. *)
Ltac pto_second := lazymatch goal with |- context [ZShard _ 2 _ _] => idtac | _ => pturn 1%nat; pto_second end.
Ltac pto_sum := lazymatch goal with |- context [DVisit _ (XRun (XSum _ _ _ _)) _ _ _] => idtac | _ => pturn 0%nat; pto_sum end.
Lemma apart_run : exists P1 P2 b, let m := Debug in let std := fun _ : lock => true in
  xjoint replace_memory m std (xpool_start zstart two_jobs) P1 /\
  asks_for P1 0 1 /\ is_inside P1 1 2 ReadOnly /\ held (locks (x_shared (q_mem P1)) 1) = [(Other 2, Exclusive)] /\
  xjoint replace_memory m std P1 P2 /\ x_table (q_mem P2) 1 = ztable 5 /\
  session_over P2 0 b Done true /\ size_over P2 1 (Some 67) /\
  finish_and_write m b = Some
"DashMap<u8, Vec<u8>> 32
DashMap<u8, Vec<u8>>;ptr 8
DashMap<u8, Vec<u8>>;ptr;capacity 7
DashMap<u8, Vec<u8>>;ptr;capacity;key;u8 1
DashMap<u8, Vec<u8>>;ptr;capacity;unused_capacity 32
DashMap<u8, Vec<u8>>;ptr;capacity;value;Vec<u8> 16
DashMap<u8, Vec<u8>>;ptr;capacity;value;Vec<u8>;ptr 8
DashMap<u8, Vec<u8>>;ptr;capacity;value;Vec<u8>;ptr;unused_capacity 5
"%string.
Proof.
  eexists _, _, _. cbv zeta. split; [|split; [|split; [|split; [|split; [|split; [|split; [|split]]]]]]].
  - unfold xpool_start, two_jobs. cbn [map job_start]. pto_second. pto_sum.
    pother; [apply xo_shared, (@out_acquire _ _ 1 2%nat Exclusive); [cbn; lia | vm_compute; reflexivity]|]. apply xj_end. pmem.
  - reflexivity.
  - right. split; [reflexivity|]. do 3 eexists. cbn. left. reflexivity.
  - reflexivity.
  - pother; [apply (@xo_table _ _ 1 2%nat (ztable 5)); [cbn; lia | vm_compute; now left]|].
    pother; [apply xo_shared, (@out_release _ _ 1 2%nat Exclusive false); [cbn; lia | vm_compute; now left]|].
    repeat pturn 0%nat. repeat pturn 1%nat. apply xj_end. pmem.
  - reflexivity.
  - cbn. auto.
  - split; [exact I | vm_compute; reflexivity].
  - vm_compute. reflexivity.
Qed.

(** Both are at the entries of the first shard at the same time. *)
Ltac pto_first i f := lazymatch goal with |- context [f] => idtac | _ => pturn i; pto_first i f end.
Lemma together_run : exists P, let m := Debug in let std := fun _ : lock => true in
  xjoint replace_memory m std (xpool_start zstart two_jobs) P /\
  is_inside P 0 1 ReadOnly /\ is_inside P 1 1 ReadOnly /\ is_about_to_visit P 1 (zvec 3) /\ ~ xpart_of (zvec 3) zmap.
Proof.
  eexists. cbv zeta. split; [|split; [|split; [|split]]].
  - unfold xpool_start, two_jobs. cbn [map job_start].
    pto_first 1%nat (ZShard IsMap 1). pto_first 0%nat (YShard IsMap 1).
    Ltac pto_vec := lazymatch goal with |- context [ZRun (XVisit (zvec 3) _)] => idtac | _ => pturn 1%nat; pto_vec end. pto_vec. apply xj_end. pmem.
  - right. split; [reflexivity|]. do 3 eexists. cbn. left. reflexivity.
  - right. split; [reflexivity|]. do 3 eexists. cbn. right. left. reflexivity.
  - reflexivity.
  - intros H. inversion H.
Qed.

(** The session has the mutex while the call comes to it: the call leaves its content out;
    a second session sees it, after the first. *)
Definition zt_mutex : tinfo := mkT "Mutex<u8>" 8 true.
Definition zmutex : xvalue := XLock zt_mutex 7 Exclusive.
Definition three_jobs : list job := [Session b_default [zmutex]; SizeOf zmutex; Session b_default [zmutex]].
Lemma mutex_run : exists P1 P2 b0 b2, let m := Debug in let std := fun _ : lock => true in
  xjoint replace_memory m std (xpool_start zstart three_jobs) P1 /\ is_inside P1 0 7 Exclusive /\ size_over P1 1 (Some 0) /\
  xjoint replace_memory m std P1 P2 /\ session_over P2 0 b0 Done true /\ session_over P2 2 b2 Done true /\
  finish_and_write m b0 = finish_and_write m b2 /\ finish_and_write m b2 = Some
"Mutex<u8> 7
Mutex<u8>;data;u8 1
"%string.
Proof.
  eexists _, _, _, _. cbv zeta. split; [|split; [|split; [|split; [|split; [|split; [|split]]]]]].
  - unfold xpool_start, three_jobs. cbn [map job_start]. pto_first 0%nat (YGuard 7). repeat pturn 1%nat. apply xj_end. pmem.
  - left. eexists. cbn. left. reflexivity.
  - split; [exact I | vm_compute; reflexivity].
  - repeat pturn 0%nat. repeat pturn 2%nat. apply xj_end. pmem.
  - cbn. auto.
  - cbn. auto.
  - vm_compute. reflexivity.
  - vm_compute. reflexivity.
Qed.

(** ** The hypotheses can be met: these runs. *)
Theorem C66_satisfiable : exists P1 P2 P3 P4 P5 b b0 b2, let m := Debug in let std := fun _ : lock => true in
  (forall l, lock_ok (locks (x_shared zstart) l)) /\ all_idle (length two_jobs) (x_shared zstart) /\ all_idle (length three_jobs) (x_shared zstart) /\
  xjoint replace_memory m std (xpool_start zstart two_jobs) P1 /\
  asks_for P1 0 1 /\ is_inside P1 1 2 ReadOnly /\ held (locks (x_shared (q_mem P1)) 1) = [(Other 2, Exclusive)] /\
  xjoint replace_memory m std (xpool_start zstart two_jobs) P2 /\ session_over P2 0 b Done true /\ size_over P2 1 (Some 67) /\ (forall i, ~ is_gone P2 i) /\
  xjoint replace_memory m std (xpool_start zstart two_jobs) P3 /\ is_inside P3 0 1 ReadOnly /\ is_inside P3 1 1 ReadOnly /\
  is_about_to_visit P3 1 (zvec 3) /\ ~ xpart_of (zvec 3) zmap /\
  xjoint replace_memory m std (xpool_start zstart three_jobs) P4 /\ is_inside P4 0 7 Exclusive /\ ~ is_gone P4 0 /\
  xjoint replace_memory m std P4 P5 /\ session_over P5 0 b0 Done true /\ session_over P5 2 b2 Done true.
Proof.
  destruct apart_run as (P1 & P2 & b & A1 & A2 & A3 & A4 & A5 & _ & A6 & A7 & _). destruct together_run as (P3 & B1 & B2 & B3 & B4 & B5).
  destruct mutex_run as (P4 & P5 & b0 & b2 & C1 & C2 & _ & C3 & C4 & C5 & _). exists P1, P2, P3, P4, P5, b, b0, b2. cbv zeta.
  assert (T : forall M m std P P' P'', xjoint M m std P P' -> xjoint M m std P' P'' -> xjoint M m std P P'').
  { intros M m std P P' P''. induction 1 as [P HM|i P Q Q' HM HT _ IH|g g' all Q' HM HO _ IH]; intros H; [exact H | eapply xj_turn; eauto | eapply xj_other; eauto]. }
  pose proof (T _ _ _ _ _ _ A1 A5) as A8. pose proof (T _ _ _ _ _ _ C1 C3) as C6.
  assert (I2 : forall n, all_idle n (x_shared zstart)) by (intros n; unfold all_idle; cbn; intuition).
  assert (G2 : forall i, ~ is_gone P2 i).
  { intros i. unfold is_gone. pose proof (joint_all A8) as L. cbn in L. destruct i as [|[|i]].
    - unfold session_over in A6. destruct (nth_error (q_all P2) 0) as [[ | |? |]|]; try tauto. destruct A6 as (_ & [=] & _).
    - unfold size_over in A7. destruct (nth_error (q_all P2) 1) as [[ | |? |]|]; tauto.
    - destruct (nth_error (q_all P2) (S (S i))) eqn:E; [|tauto]. assert (S (S i) < length (q_all P2))%nat by (apply nth_error_Some; congruence). lia. }
  assert (Stay : forall M m std P P' i, xjoint M m std P P' -> ~ is_gone P' i -> ~ is_gone P i).
  { intros M m std P P' i. induction 1 as [P HM|j P Q Q' HM HT _ IH|g g' all Q' HM HO _ IH]; intros H; [exact H | | exact (IH H)].
    intros G. apply (IH H). clear - HT G. unfold is_gone in *. destruct (Nat.eq_dec j i) as [->|Hji].
    - destruct HT as [g all b v vs calm b1 Hn Hr|g all b v vs calm b1 Hn Hr|g all b k st vs calm g1 b1 k' st' g' Hn Hx Hs|g all b k st vs calm b2 o2 Hn He Hl Ho|g all b k st vs calm b2 Hn He Hl|g all s nk k st g1 s' nk' k' st' g' Hn Hx Hs];
        cbn [q_all] in *; rewrite Hn in G; try contradiction; rewrite (nth_upd_eq _ Hn); try exact I.
      + destruct k; try contradiction. inversion Hx.
      + destruct k; try contradiction. cbn in Hl. injection Hl as <- <-. congruence.
    - destruct HT; cbn [q_all] in *; rewrite nth_upd_ne by exact Hji; exact G. }
  assert (G4 : ~ is_gone P4 0).
  { apply (Stay _ _ _ _ _ _ C3). unfold is_gone. unfold session_over in C4. destruct (nth_error (q_all P5) 0) as [[ | |? |]|]; try tauto. destruct C4 as (_ & [=] & _). }
  split; [intros l o []|]. repeat (split; [auto|]). exact C5.
Qed.
Print Assumptions C66_satisfiable.
