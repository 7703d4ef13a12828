(** * Property C51: a profile next to running threads is the profile of one state. *)
From Coq Require Import Permutation Sorted.
From Verif Require Import Base BaseFacts KeyModel KeyFacts HMap FlameModel BuilderModel VisitorModel Spec ParseFacts ImplModel ImplSpec StoreFacts ReportSpec
  PropertiesReport PropertiesImpl LockModel LockSpec LockFacts SnapshotModel SnapshotSpec SnapshotFacts SnapshotRun SnapshotProps SnapshotAlone.

#[local] Arguments key_new : simpl never.

(** ** C51: whatever other threads do with the locks and reference counts during
    the root visits of a session, the builder ends up as after visiting, with
    nothing else running, one state of the same values: one in which each lock is
    available or not and each [Weak] alive or not. *)
Theorem C51_snapshot : forall m std n h roots s b b' o,
  session m std s b (map (l_visit_in m n h) roots) b' o ->
  exists h' roots', store_could_be h h' /\ Forall2 could_be roots roots' /\
    visit_roots m (map (visit_in m n h') roots') b = (b', o).
Proof. intros m std n h roots s b b' o H. destruct (snapshot H) as (h' & vs & H1 & H2 & H3). eauto. Qed.
Print Assumptions C51_snapshot.

(** ** C51: the finished profile: for well-typed values it is the report (C46) of
    one such state, under every interleaving. *)
Theorem C51_report : forall m std n h roots (alloc : ptr -> N) s b o,
  typed_store (quiet_store h) -> plain_store (quiet_store h) -> Forall typed (map quiet roots) -> Forall manual_free (map quiet roots) ->
  no_dangling (quiet_store h) (map quiet roots) -> (length h <= n)%nat ->
  (forall x i w, find_obj (quiet_store h) x = Some (i, w) -> recorded_size i w (alloc x)) ->
  session m std s b_default (map (l_visit_in m n h) roots) b o ->
  exists h' roots', store_could_be h h' /\ Forall2 could_be roots roots' /\
    forall xs, NoDup xs -> (forall x, In x xs <-> store_reachable h' roots' x) ->
    total_declared (full_report h' roots' alloc xs) < two63 ->
    o = Done /\ exists out, finish m b = Some out /\
      (forall p, size_at (out_flamegraph out) p = shown_s (full_report h' roots' alloc xs) p) /\
      (exists L, listing (shown_s (full_report h' roots' alloc xs)) L /\ fg_write (out_flamegraph out) = concat_str (map folded_line L)) /\
      (exists W, StronglySorted path_lt W /\ (forall p, In p W <-> misdeclared_s (full_report h' roots' alloc xs) p) /\
        out_warnings out = concat_str (map (warning_for (full_report h' roots' alloc xs)) W)).
Proof.
  intros m std n h roots alloc s b o Hh Hp Hr Hm Hd Hn Ha HS. destruct (snapshot HS) as (h' & vs & H1 & H2 & H3).
  exists h', vs. split; [exact H1|]. split; [exact H2|]. intros xs X1 X2 X3.
  destruct (@C46_profile n h' vs alloc) with (xs := xs) as (out & P1 & P2 & (L & P3 & P4 & _) & P5).
  - eapply store_typed; eauto.
  - eapply store_plain; eauto.
  - eapply roots_typed; eauto.
  - eapply roots_manual; eauto.
  - eapply dangling_quiet; eauto.
  - now rewrite (store_length H1).
  - intros x i w Hf. destruct (store_find H1 Hf) as (v & V1 & V2). specialize (Ha _ _ _ V2).
    destruct (could_be_alike V1) as [E _]. destruct i; cbn [recorded_size alloc_size] in *; rewrite <- ?E; auto.
  - exact X1.
  - exact X2.
  - exact X3.
  - specialize (P1 m). unfold profile in P1. rewrite H3 in P1.
    assert (Ho : o = Done).
    { clear - H3 P1. assert (G : forall l b0 b1 o1, visit_roots m l b0 = (b1, o1) -> o1 = Done \/ o1 = Aborted).
      { induction l as [|p l IH]; cbn [visit_roots]; intros b0 b1 o1 E; [injection E as <- <-; auto|].
        destruct (visit_root m p b0) as [b2 [| |]]; eauto. injection E as <- <-. auto. }
      destruct (G _ _ _ _ H3) as [E | ->]; [exact E | discriminate]. }
    subst o. split; [reflexivity|]. exists out. split; [exact P1|]. split; [exact P2|]. split; [eauto | exact P5].
Qed.
Print Assumptions C51_report.

(** ** C51: no warnings: an unavailable lock or a dead [Weak] never makes a
    profile look inconsistent. *)
Theorem C51_no_warnings : forall m std n h roots s b o,
  typed_store (quiet_store h) -> Forall typed (map quiet roots) ->
  Forall (fun xo => map_free (snd (snd xo))) (quiet_store h) -> Forall map_free (map quiet roots) ->
  (forall h' roots', store_could_be h h' -> Forall2 could_be roots roots' ->
     total_declared (root_events (map (visit_in Debug n h') roots')) < two63) ->
  session m std s b_default (map (l_visit_in m n h) roots) b o ->
  exists out, finish m b = Some out /\ out_warnings out = EmptyString.
Proof.
  intros m std n h roots s b o Hh Hr Hm Hmr Ht HS. destruct (snapshot HS) as (h' & vs & H1 & H2 & H3).
  destruct (@C35_no_warnings n h' vs) as (out & P).
  - eapply store_typed; eauto.
  - eapply roots_typed; eauto.
  - eapply store_map_free; eauto.
  - eapply roots_map_free; eauto.
  - auto.
  - destruct (P m) as [P1 P2]. unfold profile in P1. rewrite H3 in P1. exists out. destruct o; try discriminate; auto.
Qed.
Print Assumptions C51_no_warnings.

(** ** C51: it is taken without waiting: the visit of any value can always take its
    next step and takes a bounded number of steps ([DashMap]s seen as plain values). *)
Theorem C51_never_waits : forall m std n h v s b k c,
  runs m std k (start s b (l_visit_in m n h v)) c ->
  (k <= steps (l_visit_in m n h v))%nat /\ (over c \/ exists c', vstep m std c c').
Proof. intros m std n h v s b k c H. eapply C49_never_waits_lemma; [apply nw_visit_in | exact H]. Qed.
Print Assumptions C51_never_waits.

(** ** C51: it always comes to an end: from every state of the locks. *)
Theorem C51_defined : forall m std n h roots s b, exists b' o, session m std s b (map (l_visit_in m n h) roots) b' o.
Proof.
  intros. apply session_ends. apply Forall_forall. intros p Hp. apply in_map_iff in Hp as (v & <- & _). apply nw_visit_in.
Qed.
Print Assumptions C51_defined.

(** ** C51: with nothing else running, it is the state as it is: contents of locks
    that nobody holds (and are not poisoned) are shown, targets of [Weak]s that are
    alive too, nothing else; and the locks and counts are left as they were.  (Each
    lock is at one place.) *)
Theorem C51_alone : forall m std n h v s b c,
  settled s -> holds_nothing s -> NoDup (locks_in v ++ locks_in_store h) ->
  alone m std (start s b (l_visit_in m n h v)) c -> over c ->
  result_of c = run m (visit_in m n (now_store s h) (now s v)) b /\
  (c_control c = Exec LRet -> (forall l, locks (c_shared c) l = locks s l) /\ (forall x, strong (c_shared c) x = strong s x)).
Proof. intros. split; [symmetry; now apply (@alone_now m std n h v s b c) | intros; now apply (@alone_restored m std n h v s b c)]. Qed.
Print Assumptions C51_alone.

(** ** "One state" is not "the state at one moment"

    Another thread holds at every moment one of two mutexes, and the profile shows
    the contents of both. *)
Definition t_u32 := mkT "u32" 4 false.
Definition t_mutex := mkT "std::sync::Mutex<u32>" 8 false.
Definition t_both := mkT "Both" 16 false.
Definition both : lvalue :=
  LPlain (SStruct t_both ["a"; "b"]%string)
    [LLock t_mutex 7 Exclusive (LPlain (SLeaf t_u32) []); LLock t_mutex 8 Exclusive (LPlain (SLeaf t_u32) [])].
Definition second_taken : shared :=
  mkShared (fun l => if N.eqb l 8 then mkLock [(Other 1, Exclusive)] false else mkLock [] false) (fun _ => []).

Ltac gor := eapply rt_visit; [vm_compute; first [left; exists 1%nat, Exclusive; vm_compute; auto; fail | right; exists 1%nat, Exclusive; vm_compute; auto; fail] |
  first
  [ eapply s_exit; vm_compute; reflexivity | eapply s_unlock
  | eapply s_inline; vm_compute; reflexivity
  | eapply s_try; vm_compute; reflexivity ]|].
Ltac here := first [left; exists 1%nat, Exclusive; vm_compute; auto; fail | right; exists 1%nat, Exclusive; vm_compute; auto; fail].

Theorem C51_one_moment_refuted : exists c,
  runs_through (fun s => taken s 7 \/ taken s 8) Debug (fun _ => true)
    (start second_taken (fst (root_visitor b_default)) (l_visit_in Debug 0 [] both)) c /\ over c /\
  finish_and_write Debug (fst (exit_impl (c_builder c))) = Some
"Both;a;std::sync::Mutex<u32> 4
Both;a;std::sync::Mutex<u32>;data;u32 4
Both;b;std::sync::Mutex<u32> 4
Both;b;std::sync::Mutex<u32>;data;u32 4
"%string.
Proof.
  assert (E : l_visit_in Debug 0 [] both = LInline (key_for_type_name "Both") 16
    (LInline (key_new "a") 8 (l_cell t_mutex 7 Exclusive (4, LInline (key_for_type_name "u32") 4 LRet LRet))
      (LInline (key_new "b") 8 (l_cell t_mutex 8 Exclusive (4, LInline (key_for_type_name "u32") 4 LRet LRet)) LRet)) LRet) by reflexivity.
  rewrite E. eexists. split; [|split].
  - unfold start, l_cell. do 11 gor.
    eapply rt_other; [here | apply (@o_acquire _ 7 1%nat Exclusive); vm_compute; reflexivity |].
    eapply rt_other; [here | apply (@o_release _ 8 1%nat Exclusive false); vm_compute; auto |].
    do 11 gor. apply rt_refl. here.
  - exact I.
  - vm_compute. reflexivity.
Qed.
Print Assumptions C51_one_moment_refuted.

(** ** Concrete sessions *)
Definition t_arc := mkT "alloc::sync::Arc<std::sync::Mutex<u32>>" 8 true.
Definition t_weak := mkT "alloc::sync::Weak<std::sync::Mutex<u32>>" 8 true.
Definition s_store : lstore := [(5, (InArc 4, LLock t_mutex 7 Exclusive (LPlain (SLeaf t_u32) [])))].
Definition s_roots : list lvalue := [LWeak t_weak t_arc 8 5; LPlain (SShared t_arc 8 5) []].
(** Another thread uses the mutex; a second one owns the [Arc]. *)
Definition in_use : shared :=
  mkShared (fun l => if N.eqb l 7 then mkLock [(Other 1, Exclusive)] false else mkLock [] false)
    (fun x => if N.eqb x 5 then [Other 2] else []).

Ltac gov := eapply runs_visit; [first
  [ eapply s_exit; vm_compute; reflexivity | eapply s_unlock | eapply s_drop_arc
  | eapply s_inline; vm_compute; reflexivity | eapply s_shared; vm_compute; reflexivity
  | eapply s_shared_again; vm_compute; reflexivity
  | eapply s_try; vm_compute; reflexivity
  | eapply s_try_fails; left; vm_compute; discriminate
  | eapply s_upgrade; vm_compute; discriminate ]|].
Ltac gow := eapply alone_step; [first
  [ eapply s_exit; vm_compute; reflexivity | eapply s_unlock | eapply s_drop_arc
  | eapply s_inline; vm_compute; reflexivity | eapply s_shared; vm_compute; reflexivity
  | eapply s_try; vm_compute; reflexivity
  | eapply s_try_fails; left; vm_compute; discriminate
  | eapply s_upgrade; vm_compute; discriminate ]|].

Lemma s_reach h' roots' x : store_could_be s_store h' -> Forall2 could_be s_roots roots' -> store_reachable h' roots' x -> x = 5.
Proof.
  intros H1 H2. inversion H1 as [|? [y [i w]] ? ? (E1 & E2 & E3) N1]; subst. inversion N1; subst. cbn [fst snd] in *. subst. inversion E3 as [|? ? ? ? w' av C| | |]; subst.
  inversion C as [? ? ws Hw| | | |]; subst. inversion Hw; subst.
  inversion H2 as [|? r1 ? rs C1 N2]; subst. inversion N2 as [|? r2 ? rs2 C2 N3]; subst. inversion N3; subst. inversion C2 as [? ? ws' Hw'| | | |]; subst. inversion Hw'; subst.
  induction 1 as [r x Hr Hx|y i w x _ IH Hf Hx].
  - inversion C1; subst; destruct Hr as [<-|[<-|[]]]; cbn in Hx; intuition.
  - subst y. cbn [find_obj N.eqb Pos.eqb] in Hf. injection Hf as <- <-. destruct av; cbn in Hx; destruct Hx.
Qed.

Theorem C51_satisfiable : let m := Debug in let std := fun _ : lock => true in
  typed_store (quiet_store s_store) /\ plain_store (quiet_store s_store) /\
  Forall typed (map quiet s_roots) /\ Forall manual_free (map quiet s_roots) /\
  Forall (fun xo => map_free (snd (snd xo))) (quiet_store s_store) /\ Forall map_free (map quiet s_roots) /\
  no_dangling (quiet_store s_store) (map quiet s_roots) /\
  (forall x i w, find_obj (quiet_store s_store) x = Some (i, w) -> recorded_size i w 24) /\
  (forall h' roots', store_could_be s_store h' -> Forall2 could_be s_roots roots' ->
     total_declared (root_events (map (visit_in Debug 1 h') roots')) < two63 /\
     total_declared (full_report h' roots' (fun _ => 24) [5]) < two63) /\
  (* another thread releases the mutex just in time *)
  (exists b, session m std in_use b_default (map (l_visit_in m 1 s_store) s_roots) b Done /\
     finish_and_write m b = Some
"ArcInner 16
ArcInner;std::sync::Mutex<u32> 4
ArcInner;std::sync::Mutex<u32>;data;u32 4
alloc::sync::Arc<std::sync::Mutex<u32>>;ptr 8
alloc::sync::Weak<std::sync::Mutex<u32>>;alloc::sync::Arc<std::sync::Mutex<u32>>;ptr 8
"%string) /\
  (* alone: the mutex is in use *)
  settled in_use /\ holds_nothing in_use /\ NoDup (locks_in (LPlain (SShared t_arc 8 5) []) ++ locks_in_store s_store) /\
  (exists c, alone m std (start in_use (fst (root_visitor b_default)) (l_visit_in m 1 s_store (LPlain (SShared t_arc 8 5) []))) c /\ over c /\
     finish_and_write m (fst (exit_impl (c_builder c))) = Some
"ArcInner 16
ArcInner;std::sync::Mutex<u32> 8
alloc::sync::Arc<std::sync::Mutex<u32>>;ptr 8
"%string).
Proof.
  cbv zeta. split; [|split; [|split; [|split; [|split; [|split; [|split; [|split; [|split; [|split; [|split; [|split; [|split]]]]]]]]]]]].
  - constructor; [|constructor]. cbn [fst snd]. split.
    + cbn. split; [split; [apply (@pow2_is 4 2); reflexivity | cbn; rewrite two63_val; lia]|]. exists 24. rewrite two63_val. split; [lia|].
      split; [exists 3; reflexivity|]. split; [exists 6; reflexivity|]. exists 16. cbn. repeat split; try lia. exists 4; reflexivity.
    + constructor; [cbn; unfold contained; cbn; split; [lia | constructor; [discriminate | constructor]] |]. constructor; [|constructor]. constructor; [reflexivity | constructor].
  - repeat constructor.
  - constructor; [|constructor; [|constructor]]; (constructor; [|constructor]); cbn; unfold ImplSpec.owner, ptr_size; cbn; repeat split; lia.
  - repeat constructor.
  - repeat constructor.
  - repeat constructor.
  - intros x Hx. rewrite (@s_reach (quiet_store s_store) (map quiet s_roots) x); [eexists; reflexivity | | | exact Hx].
    + constructor; [|constructor]. repeat split. apply could_be_quiet.
    + repeat (constructor; [apply could_be_quiet|]). constructor.
  - intros x i w. cbn [quiet_store s_store map find_obj fst snd]. destruct (N.eqb x 5); [|discriminate]. intros [= <- <-]. cbn. split.
    + split; [exists 3; reflexivity|]. split; [exists 6; reflexivity|]. exists 16. cbn. repeat split; try lia. exists 4; reflexivity.
    + intros S' (_ & _ & o & H1 & _ & H2). cbn in H2. lia.
  - intros h' roots' H1 H2.
    inversion H1 as [|? [y [i w]] ? ? (E1 & E2 & E3) N1]; subst. inversion N1; subst. cbn [fst snd] in *. subst. inversion E3 as [|? ? ? ? w' av C| | |]; subst.
    inversion C as [? ? ws Hw| | | |]; subst. inversion Hw; subst.
    inversion H2 as [|? r1 ? rs C1 N2]; subst. inversion N2 as [|? r2 ? rs2 C2 N3]; subst. inversion N3; subst. inversion C2 as [? ? ws' Hw'| | | |]; subst. inversion Hw'; subst.
    inversion C1; subst; destruct av; split; vm_compute; reflexivity.
  - eexists. split.
    + eapply ses_visit; [reflexivity | | | | |].
      * cbn [s_roots l_visit_in l_visit]. unfold start. do 3 gov.
        eapply runs_other; [apply (@o_release _ 7 1%nat Exclusive false); vm_compute; auto|].
        do 15 gov. apply runs_refl.
      * exact I.
      * vm_compute. reflexivity.
      * discriminate.
      * eapply ses_visit; [reflexivity | | | | |].
        -- cbn [s_roots l_visit_in l_visit]. unfold start. do 3 gov. apply runs_refl.
        -- exact I.
        -- vm_compute. reflexivity.
        -- discriminate.
        -- apply ses_end.
    + vm_compute. reflexivity.
  - intros l. cbn. destruct (N.eqb l 7); [right; eexists; reflexivity | now left].
  - split; [intros l a; cbn; destruct (N.eqb l 7); cbn; [intros [E|[]]; discriminate | tauto] | intros x; cbn; destruct (N.eqb x 5); cbn; [intros [E|[]]; discriminate | tauto]].
  - cbn. repeat constructor; auto.
  - eexists. split; [|split].
    + cbn [l_visit_in l_visit]. unfold start. do 9 gow. apply alone_refl.
    + exact I.
    + vm_compute. reflexivity.
Qed.
Print Assumptions C51_satisfiable.
