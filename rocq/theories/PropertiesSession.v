(** * Property C48: profiling a heap that changes between calls. *)
From Coq Require Import Permutation Sorted.
From Verif Require Import Base BaseFacts KeyModel KeyFacts HMap FlameModel BuilderModel VisitorModel Spec TraceFacts
  HeapFacts HeapProps PropertiesBuilder LayoutModel LayoutSpec ImplModel ImplSpec ImplFacts StoreFacts StoreProps PropertiesImpl ReportSpec ReportFacts
  PropertiesReport SessionSpec SessionFacts.

#[local] Arguments key_new : simpl never.

(** ** C48: each call adds the report of its root as it is at that time and, once
    for each allocation that no earlier call found, the report of that allocation
    as it is at that time. *)
Theorem C48_session : forall n calls es, Forall (moment_ok n) calls -> session [] calls es -> total_declared es < two63 ->
  exists o, (forall m, profile m (calls_of m n calls) = Some o) /\
    (forall p, size_at (out_flamegraph o) p = shown_s es p) /\
    (exists L, listing (shown_s es) L /\
      fg_write (out_flamegraph o) = concat_str (map folded_line L) /\
      forall m, fg_total_size m (out_flamegraph o) = Some (sumN (map snd L))) /\
    (exists W, StronglySorted path_lt W /\ (forall p, In p W <-> misdeclared_s es p) /\
      out_warnings o = concat_str (map (warning_for es) W)).
Proof. exact C48_session_lemma. Qed.
Print Assumptions C48_session.

(** Every sequence of calls without dangling pointers has such a report. *)
Theorem C48_defined : forall n calls, Forall (moment_ok n) calls ->
  Forall (fun c => no_dangling (m_store c) [m_root c]) calls -> exists es, session [] calls es.
Proof. exact C48_defined_lemma. Qed.
Print Assumptions C48_defined.

(** ** C48: calls that only see allocations which never change: the same as visiting
    all roots at the end. *)
Theorem C48_growing : forall n h alloc calls,
  Forall (moment_ok n) calls -> Forall (fun c => no_dangling (m_store c) [m_root c]) calls ->
  typed_store h -> plain_store h -> (length h <= n)%nat ->
  (forall x i w, find_obj h x = Some (i, w) -> recorded_size i w (alloc x)) ->
  Forall (fun c => unchanged_in (m_store c) h /\ forall x, m_alloc c x = alloc x) calls ->
  forall xs, NoDup xs -> (forall x, In x xs <-> store_reachable h (map m_root calls) x) ->
  total_declared (full_report h (map m_root calls) alloc xs) < two63 ->
  forall m, option_map (observe_output m) (profile m (calls_of m n calls)) =
            option_map (observe_output m) (profile m (map (visit_in m n h) (map m_root calls))).
Proof. exact C48_growing_lemma. Qed.
Print Assumptions C48_growing.

(** A call gives the same profile, whatever has become of the allocations found
    before it. *)
(** ** C48: later changes of an allocation that was found go unnoticed. *)
Theorem C48_later_changes_unnoticed : forall m n before c c' after,
  Forall (keys_in made_by_new) (before ++ after) -> moment_ok n c -> moment_ok n c' ->
  no_dangling (m_store c) [m_root c] -> m_root c = m_root c' ->
  (forall x, ~ visited_by before x -> find_obj (m_store c) x = find_obj (m_store c') x /\ m_alloc c x = m_alloc c' x) ->
  let calls c := before ++ [visit_in m n (m_store c) (m_root c)] ++ after in
  total_declared (root_events (calls c)) < two63 ->
  option_map (observe_output m) (profile m (calls c)) = option_map (observe_output m) (profile m (calls c')).
Proof. exact C48_later_changes_unnoticed_lemma. Qed.
Print Assumptions C48_later_changes_unnoticed.

(** The hypotheses hold of: a string is visited behind an [Arc<str>]; then it is
    freed and a longer one takes its address; then that is visited. *)
Definition str_root : value := Node (SShared t_arc_str 16 1) [].
Definition str_moment (n a : N) : moment := mkMoment [(1, (InArc 1, Node (SStr n) []))] str_root (fun _ => a).

Lemma str_alloc n a : a = 8 * ((n + 23) / 8) -> alloc_size (InArc 1) (Node (SStr n) []) a.
Proof.
  intros ->. pose proof (N.div_mod (n + 23) 8 ltac:(lia)). pose proof (N.mod_lt (n + 23) 8 ltac:(lia)). cbn [alloc_size]. split.
  - split; [eexists; apply N.mul_comm|]. split; [exists (8 * ((n + 23) / 8)); cbn [l_align]; lia|]. exists 16. cbn [size_of_val l_size l_align].
    repeat split; try lia. exists 16; reflexivity.
  - intros S' ([q ->] & _ & o & H1 & _ & H2). cbn in H2. lia.
Qed.

Lemma str_moment_ok n a : n < 1000 -> a = 8 * ((n + 23) / 8) -> moment_ok 2 (str_moment n a).
Proof.
  intros Hn E. pose proof (str_alloc E) as HA. unfold moment_ok, str_moment. cbn [m_store m_root m_alloc].
  split; [|split; [|split; [|split; [|split]]]].
  - apply Forall_cons; [|constructor]. cbn [fst snd]. split; [|constructor; [cbn; rewrite two63_val; split; [reflexivity | lia] | constructor]].
    cbn [inner_ok]. split; [split; [apply (@pow2_is 1 0); reflexivity | cbn; rewrite two63_val; lia]|].
    exists a. pose proof (N.div_mod (n + 23) 8 ltac:(lia)). rewrite two63_val. split; [lia | apply HA].
  - repeat constructor.
  - constructor; [|constructor]. cbn. unfold ptr_size. repeat split; lia.
  - repeat constructor.
  - cbn. lia.
  - intros x i w H. cbn [find_obj] in H. destruct (x =? 1); inversion H; subst. exact HA.
Qed.

Lemma str_no_dangling n a : no_dangling [(1, (InArc 1, Node (SStr n) []))] [m_root (str_moment n a)].
Proof.
  assert (H : forall x, store_reachable [(1, (InArc 1, Node (SStr n) []))] [m_root (str_moment n a)] x -> x = 1).
  { induction 1 as [r x [<-|[]] Hx|y i w x Hy IH Ho Hx].
    - cbn in Hx. destruct Hx as [<-|[]]. reflexivity.
    - subst y. cbn in Ho. inversion Ho; subst. destruct Hx. }
  intros x Hx. apply H in Hx. subst x. eexists. reflexivity.
Qed.

Example C48_satisfiable : let calls := [str_moment 5 24; str_moment 100 120] in
  Forall (moment_ok 2) calls /\ Forall (fun c => no_dangling (m_store c) [m_root c]) calls /\
  exists es, session [] calls es /\ total_declared es < two63 /\
    es = [ mkEv ["alloc::sync::Arc<str>"%string] NKInline NKRoot 16;
           mkEv ["alloc::sync::Arc<str>"; "ptr"]%string NKShared NKInline 16;
           mkEv ["ArcInner"%string] NKInline NKShared 24;
           mkEv ["ArcInner"; "str"]%string NKInline NKInline 5;
           mkEv ["alloc::sync::Arc<str>"%string] NKInline NKRoot 16;
           mkEv ["alloc::sync::Arc<str>"; "ptr"]%string NKShared NKInline 16 ].
Proof.
  split; [constructor; [|constructor; [|constructor]]; apply str_moment_ok; try reflexivity; lia|].
  split; [constructor; [|constructor; [|constructor]]; apply str_no_dangling|].
  eexists. split; [|split; [|reflexivity]]; [|vm_compute; reflexivity].
  change [mkEv ["alloc::sync::Arc<str>"%string] NKInline NKRoot 16; mkEv ["alloc::sync::Arc<str>"; "ptr"]%string NKShared NKInline 16;
          mkEv ["ArcInner"%string] NKInline NKShared 24; mkEv ["ArcInner"; "str"]%string NKInline NKInline 5;
          mkEv ["alloc::sync::Arc<str>"%string] NKInline NKRoot 16; mkEv ["alloc::sync::Arc<str>"; "ptr"]%string NKShared NKInline 16]
    with (report [] NKRoot (m_root (str_moment 5 24)) ++ flat_map (allocation_report (str_moment 5 24)) [1] ++
          (report [] NKRoot (m_root (str_moment 100 120)) ++ flat_map (allocation_report (str_moment 100 120)) [] ++ [])).
  apply session_cons.
  - repeat constructor. intros [].
  - intros x. split.
    + intros [<-|[]]. constructor; [now left | intros []].
    + induction 1 as [x [<-|[]] _|y i w x Hy IH Ho Hx _]; [now left|]. destruct IH as [<-|[]]. cbn in Ho. inversion Ho; subst. destruct Hx.
  - intros x [<-|[]]. eexists. reflexivity.
  - apply session_cons; [constructor | | intros x [] | constructor].
    intros x. split; [intros []|]. intros Hx. exfalso.
    induction Hx as [x [<-|[]] Hs|y i w x Hy IH Ho Hx _]; [apply Hs; now left | exact IH].
Qed.

(** So the claim "everything reachable at some call is in the profile" is
    refuted: the second string takes the address of the first, and its 100 bytes
    are missing; the profile is that of visiting the first one twice. *)
Theorem C48_address_reuse_refuted : exists c1 c2 o, moment_ok 2 c1 /\ moment_ok 2 c2 /\
  no_dangling (m_store c1) [m_root c1] /\ no_dangling (m_store c2) [m_root c2] /\
  (forall m, profile m (calls_of m 2 [c1; c2]) = Some o) /\
  size_at (out_flamegraph o) ["ArcInner"; "str"]%string = 5 /\
  (exists o2, (forall m, profile m (calls_of m 2 [c2]) = Some o2) /\ size_at (out_flamegraph o2) ["ArcInner"; "str"]%string = 100).
Proof.
  exists (str_moment 5 24), (str_moment 100 120). eexists.
  split; [apply str_moment_ok; [lia | reflexivity]|]. split; [apply str_moment_ok; [lia | reflexivity]|].
  split; [apply str_no_dangling|]. split; [apply str_no_dangling|].
  split; [intros []; vm_compute; reflexivity|]. split; [vm_compute; reflexivity|].
  eexists. split; [intros []; vm_compute; reflexivity | vm_compute; reflexivity].
Qed.
Print Assumptions C48_address_reuse_refuted.
