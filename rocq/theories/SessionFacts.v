(** * Lemmas for property C48: profiling a heap that changes between calls. *)
From Coq Require Import Permutation Sorted.
From Verif Require Import Base BaseFacts KeyModel KeyFacts HMap FlameModel BuilderModel VisitorModel Spec TraceFacts
  HeapFacts HeapProps PropertiesBuilder LayoutModel LayoutSpec ImplModel ImplSpec ImplFacts StoreFacts StoreProps PropertiesImpl ReportSpec ReportFacts
  PropertiesReport SessionSpec.

#[local] Arguments key_new : simpl never.

(** One call: it finds a definite set of allocations and reports them. *)
Lemma call_trace0 m n c vis : moment_ok n c ->
  (forall x, newly_found (m_store c) (m_root c) vis x -> exists o, find_obj (m_store c) x = Some o) ->
  exists es vis' found, NoDup found /\ (forall x, In x found <-> newly_found (m_store c) (m_root c) vis x) /\
    trace k_str (visit_in m n (m_store c) (m_root c)) vis [] NKRoot = (es, vis', true) /\
    (forall x, In x vis' <-> In x (found ++ vis)) /\
    Permutation es (report [] NKRoot (m_root c) ++ flat_map (allocation_report c) found).
Proof.
  intros (Hh & Hp & Hr & Hm & Hn & Ha) Hl. rewrite visit_in_link by auto.
  set (h := heap_of m (m_store c)) in *. set (l := items_in m (m_root c)) in *.
  assert (Hrefs : refs l = value_refs (m_root c)) by (apply refs_visit; auto).
  assert (Hw : forall y i w, find_obj (m_store c) y = Some (i, w) -> refs (items_inner m i w) = value_refs w).
  { intros y i w E. destruct (find_obj_ok Hh E) as [Hi Hw]. apply refs_inner; auto.
    unfold plain_store in Hp. rewrite Forall_forall in Hp. apply (Hp _ (find_obj_in E)). }
  assert (Hdec : forall x, In x vis \/ ~ In x vis) by (intros x; destruct (in_dec N.eq_dec x vis); auto).
  set (found := newly_found (m_store c) (m_root c) vis) in *.
  destruct (@link_traversal_gen (fun x => In x vis \/ found x) n h l vis [] NKRoot) as (es & vis' & added & E & [A1 A2 A3 A4 A5 A7 A6]).
  - intros x Hx. rewrite Hrefs in Hx. destruct (Hdec x) as [H|H]; [now left | right]. now constructor.
  - intros x [Hx|Hx] Hv; [apply ptr_mem_In in Hx; congruence|]. destruct (Hl x Hx) as [[i w] E].
    exists (items_inner m i w). unfold h. rewrite deref_heap_of, E. split; [reflexivity|].
    intros y Hy. rewrite (Hw _ _ _ E) in Hy. destruct (Hdec y) as [H|H]; [now left | right].
    eapply nf_step; [exact Hx | exact E | exact Hy | exact H].
  - pose proof (unvisited_le h vis). unfold h in *. rewrite heap_of_length in *. lia.
  - exists es, vis', added. split; [exact A2|]. split.
    { intros x. split.
      - intros Hx. destruct (A7 x Hx) as [H|H]; [|exact H]. apply A3 in Hx. apply ptr_mem_In in H. congruence.
      - intros Hx. assert (X : In x vis').
        { induction Hx as [x Hx Hs|y i w x Hy IH Ho Hx Hs].
          - apply ptr_mem_In, A4. now rewrite Hrefs.
          - rewrite A1 in IH. apply in_app_iff in IH as [IH|IH].
            + apply ptr_mem_In. apply (A5 y (items_inner m i w)); [exact IH | unfold h; now rewrite deref_heap_of, Ho | now rewrite (Hw _ _ _ Ho)].
            + exfalso. clear - Hy IH. inversion Hy; contradiction. }
        rewrite A1 in X. apply in_app_iff in X as [X|X]; [exact X|]. exfalso. clear - Hx X. inversion Hx; contradiction. }
    split; [exact E|]. split; [intros x; now rewrite A1|].
    rewrite A6. apply Permutation_app; [apply report_visit; auto|].
    clear - Hh Ha. induction added as [|x xs IH]; [reflexivity|]. cbn [flat_map]. apply Permutation_app; [|exact IH].
    unfold pointee_events, allocation_report, h. rewrite deref_heap_of. destruct (find_obj (m_store c) x) as [[i w]|] eqn:E; [|reflexivity].
    cbn [option_map fst snd]. destruct (find_obj_ok Hh E) as [Hi Hw]. apply report_of_inner; eauto.
Qed.

Lemma call_trace m n c vis found : moment_ok n c ->
  NoDup found -> (forall x, In x found <-> newly_found (m_store c) (m_root c) vis x) ->
  (forall x, In x found -> exists o, find_obj (m_store c) x = Some o) ->
  exists es vis', trace k_str (visit_in m n (m_store c) (m_root c)) vis [] NKRoot = (es, vis', true) /\
    (forall x, In x vis' <-> In x (found ++ vis)) /\
    Permutation es (report [] NKRoot (m_root c) ++ flat_map (allocation_report c) found).
Proof.
  intros Hc Hnd Hf Hl. destruct (@call_trace0 m n c vis Hc) as (es & vis' & added & A1 & A2 & A3 & A4 & A5).
  - intros x Hx. apply Hl, Hf, Hx.
  - assert (HP : Permutation added found) by (apply NoDup_Permutation; auto; intros x; rewrite A2, Hf; reflexivity).
    exists es, vis'. split; [exact A3|]. split; [|now rewrite <- HP].
    intros x. rewrite A4, !in_app_iff, A2, Hf. reflexivity.
Qed.

Lemma newly_found_seen h v s s' x : (forall y, In y s <-> In y s') -> newly_found h v s x -> newly_found h v s' x.
Proof.
  intros H. induction 1 as [x H1 H2|y i w x Hy IH Ho H1 H2]; [constructor; [exact H1|] | eapply nf_step; eauto];
    rewrite <- H; exact H2.
Qed.

Lemma session_trace m n calls : Forall (moment_ok n) calls -> forall seen es vis, session seen calls es ->
  (forall x, In x vis <-> In x seen) ->
  exists es' vis', trace_roots k_str (calls_of m n calls) vis = (es', vis') /\ Permutation es' es.
Proof.
  induction 1 as [|c calls Hc Hcalls IH]; intros seen es vis HS Hv; inversion HS as [|s c' calls' found es1 Hnd Hf Hl HS' E1 E2 E3]; subst.
  - exists [], vis. split; [reflexivity | reflexivity].
  - destruct (@call_trace m n c vis found Hc Hnd) as (e1 & v1 & E & V & P).
    + intros x. rewrite Hf. split; apply newly_found_seen; intros y; rewrite Hv; reflexivity.
    + exact Hl.
    + destruct (IH (found ++ seen) es1 v1 HS') as (e2 & v2 & E2 & P2).
      * intros x. rewrite V, !in_app_iff, Hv. reflexivity.
      * exists (e1 ++ e2), v2. cbn [calls_of map trace_roots]. rewrite E. fold (calls_of m n calls). rewrite E2. split; [reflexivity|].
        rewrite P, P2. now rewrite <- app_assoc.
Qed.

Lemma calls_keys m n calls : Forall (moment_ok n) calls -> Forall (keys_in made_by_new) (calls_of m n calls).
Proof.
  intros H. unfold calls_of. rewrite Forall_map. eapply Forall_impl; [|exact H]. intros c (Hh & _ & Hr & _).
  assert (K : Forall (keys_in made_by_new) (map (visit_in m n (m_store c)) [m_root c])) by (apply visit_in_keys; auto).
  now inversion K.
Qed.

Lemma calls_mode m m' n calls : Forall (moment_ok n) calls -> calls_of m n calls = calls_of m' n calls.
Proof.
  intros H. unfold calls_of. apply map_ext_in. intros c Hc. rewrite Forall_forall in H. destruct (H c Hc) as (Hh & _ & Hr & _).
  pose proof (@map_visit_in_mode m m' n (m_store c) [m_root c] Hh (Forall_cons _ Hr (Forall_nil _))) as E. now inversion E.
Qed.

(** ** C48: each call adds the report of its root as it is at that time and, once
    for each allocation that no earlier call found, the report of that allocation
    as it is at that time. *)
Lemma C48_session_lemma : forall n calls es, Forall (moment_ok n) calls -> session [] calls es -> total_declared es < two63 ->
  exists o, (forall m, profile m (calls_of m n calls) = Some o) /\
    (forall p, size_at (out_flamegraph o) p = shown_s es p) /\
    (exists L, listing (shown_s es) L /\
      fg_write (out_flamegraph o) = concat_str (map folded_line L) /\
      forall m, fg_total_size m (out_flamegraph o) = Some (sumN (map snd L))) /\
    (exists W, StronglySorted path_lt W /\ (forall p, In p W <-> misdeclared_s es p) /\
      out_warnings o = concat_str (map (warning_for es) W)).
Proof.
  intros n calls es Hc HS Ht. destruct (@session_trace Debug n calls Hc [] es [] HS) as (es' & vis & E & P); [reflexivity|].
  destruct (@profile_of_events (calls_of Debug n calls) es) as (o & H1 & H2).
  - now apply calls_keys.
  - unfold root_events. rewrite E. exact P.
  - exact Ht.
  - exists o. split; [|exact H2]. intros m. rewrite (@calls_mode m Debug) by exact Hc. apply H1.
Qed.

(** Every sequence of calls without dangling pointers has such a report. *)
Lemma newly_reachable h v seen x : newly_found h v seen x -> store_reachable h [v] x.
Proof. induction 1 as [x Hx _|y i w x _ IH Ho Hx _]; [eapply sr_root; [now left | exact Hx] | eapply sr_step; eauto]. Qed.

Lemma C48_defined_lemma : forall n calls, Forall (moment_ok n) calls ->
  Forall (fun c => no_dangling (m_store c) [m_root c]) calls -> exists es, session [] calls es.
Proof.
  intros n calls Hc Hd. generalize (@nil ptr) as seen. revert Hd. induction Hc as [|c calls Hc _ IH]; intros Hd seen; [exists []; constructor|].
  inversion Hd as [|? ? D1 D2]; subst.
  destruct (@call_trace0 Debug n c seen Hc) as (_ & _ & found & A1 & A2 & _).
  - intros x Hx. apply D1. eapply newly_reachable, Hx.
  - destruct (IH D2 (found ++ seen)) as [es HS]. eexists. apply session_cons; [exact A1 | exact A2 | | exact HS].
    intros x Hx. apply D1. apply A2 in Hx. eapply newly_reachable, Hx.
Qed.

Lemma NoDup_app_intro {A} (a b : list A) : NoDup a -> NoDup b -> (forall x, In x a -> In x b -> False) -> NoDup (a ++ b).
Proof.
  induction 1 as [|x a Hx Ha IH]; cbn; [auto|]. intros Hb H. constructor; [|apply IH; [exact Hb | intros y H1 H2; eapply H; eauto]].
  rewrite in_app_iff. intros [H1|H1]; [now apply Hx | eapply H; [now left | exact H1]].
Qed.
Lemma flat_map_ext_in {A B} (f g : A -> list B) l : (forall x, In x l -> f x = g x) -> flat_map f l = flat_map g l.
Proof. induction l as [|x l IH]; cbn; intros H; [reflexivity|]. rewrite H, IH; auto. Qed.

(** ** Calls that only see allocations which never change: the same as visiting
    all roots at the end.

    [h] contains every allocation the calls saw, unchanged. *)
Lemma session_growing h alloc : forall seen calls es, session seen calls es ->
  Forall (fun c => unchanged_in (m_store c) h /\ forall x, m_alloc c x = alloc x) calls ->
  (forall y i w x, In y seen -> find_obj h y = Some (i, w) -> In x (value_refs w) -> In x seen) ->
  exists added, NoDup added /\ (forall x, In x added -> ~ In x seen /\ exists o, find_obj h x = Some o) /\
    (forall x, store_reachable h (map m_root calls) x -> In x (added ++ seen)) /\
    (forall x, In x added -> store_reachable h (map m_root calls) x) /\
    Permutation es (full_report h (map m_root calls) alloc added).
Proof.
  induction 1 as [seen|seen c calls found es Hnd Hf Hl HS IH]; intros Hu Hcl.
  - exists []. split; [constructor|]. split; [intros x []|]. split; [|split; [intros x [] | reflexivity]].
    intros x Hx. induction Hx as [r x [] _|y i w x _ IHx Ho Hx]. eapply Hcl; eauto.
  - inversion Hu as [|? ? [Hu1 Ha1] Hu2]; subst.
    assert (Hsplit : forall x, store_reachable h [m_root c] x -> In x (found ++ seen)).
    { intros x Hx. apply in_app_iff. induction Hx as [r x [<-|[]] Hx|y i w x _ IHx Ho Hx].
      - destruct (in_dec N.eq_dec x seen); [now right|]. left. apply Hf. now constructor.
      - destruct IHx as [Hy|Hy]; [|right; eapply Hcl; eauto].
        destruct (in_dec N.eq_dec x seen) as [H|H]; [now right|]. left. destruct (Hl y Hy) as [o Eo].
        pose proof (Hu1 _ _ Eo) as Eh. rewrite Ho in Eh. inversion Eh; subst o. apply Hf in Hy. apply Hf.
        eapply nf_step; [exact Hy | exact Eo | exact Hx | exact H]. }
    assert (Hreach : forall x, In x found -> store_reachable h [m_root c] x).
    { intros x Hx. apply Hf in Hx. induction Hx as [x Hx _|y i w x _ IHx Ho Hx _]; [eapply sr_root; [now left | exact Hx]|].
      eapply sr_step; [exact IHx | apply Hu1, Ho | exact Hx]. }
    destruct (IH Hu2) as (added & A1 & A2 & A3 & A4 & A5).
    { intros y i w x Hy Ho Hx. apply in_app_iff in Hy as [Hy|Hy].
      - apply Hsplit. eapply sr_step; [apply Hreach, Hy | exact Ho | exact Hx].
      - apply in_app_iff. right. eapply Hcl; eauto. }
    exists (found ++ added). split.
    { apply NoDup_app_intro; auto. intros x H1 H2. apply (A2 x H2). apply in_app_iff. now left. }
    split.
    { intros x Hx. apply in_app_iff in Hx as [Hx|Hx].
      - split; [apply Hf in Hx; clear - Hx; inversion Hx; assumption|]. destruct (Hl x Hx) as [o Eo]. exists o. apply Hu1, Eo.
      - destruct (A2 x Hx) as [H1 H2]. split; [|exact H2]. intros H. apply H1, in_app_iff. now right. }
    split.
    { cbn [map]. intros x Hx.
      assert (X : store_reachable h [m_root c] x \/ store_reachable h (map m_root calls) x).
      { induction Hx as [r x [<-|Hr] Hx|y i w x _ IHx Ho Hx].
        - left. eapply sr_root; [now left | exact Hx].
        - right. eapply sr_root; eauto.
        - destruct IHx; [left | right]; eapply sr_step; eauto. }
      rewrite <- app_assoc, in_app_iff, in_app_iff. destruct X as [X|X]; [apply Hsplit, in_app_iff in X; tauto|].
      apply A3 in X. rewrite !in_app_iff in X. tauto. }
    split.
    { cbn [map]. intros x Hx. apply in_app_iff in Hx as [Hx|Hx]; [apply Hreach in Hx | apply A4 in Hx];
        (induction Hx as [r x Hr Hx|y i w x _ IHx Ho Hx]; [eapply sr_root; [|exact Hx] | eapply sr_step; eauto]).
      - destruct Hr as [<-|[]]. now left.
      - now right. }
    rewrite A5. unfold full_report. cbn [map flat_map]. rewrite flat_map_app, <- !app_assoc. apply Permutation_app_head.
    rewrite !app_assoc. apply Permutation_app_tail.
    replace (flat_map (allocation_report c) found) with
      (flat_map (fun x => match find_obj h x with Some (i, w) => report_inner i w (alloc x) | None => [] end) found);
      [apply Permutation_app_comm|].
    apply flat_map_ext_in. intros x Hx. unfold allocation_report. destruct (Hl x Hx) as [[i w] Eo].
    rewrite Eo, (Hu1 _ _ Eo), Ha1. reflexivity.
Qed.

Lemma C48_growing_lemma : forall n h alloc calls,
  Forall (moment_ok n) calls -> Forall (fun c => no_dangling (m_store c) [m_root c]) calls ->
  typed_store h -> plain_store h -> (length h <= n)%nat ->
  (forall x i w, find_obj h x = Some (i, w) -> recorded_size i w (alloc x)) ->
  Forall (fun c => unchanged_in (m_store c) h /\ forall x, m_alloc c x = alloc x) calls ->
  forall xs, NoDup xs -> (forall x, In x xs <-> store_reachable h (map m_root calls) x) ->
  total_declared (full_report h (map m_root calls) alloc xs) < two63 ->
  forall m, option_map (observe_output m) (profile m (calls_of m n calls)) =
            option_map (observe_output m) (profile m (map (visit_in m n h) (map m_root calls))).
Proof.
  intros n h alloc calls Hc Hd Hh Hp Hn Ha Hu xs Hnd Hxs Ht m.
  destruct (C48_defined_lemma Hc Hd) as [es HS].
  destruct (session_growing HS Hu) as (added & A1 & A2 & A3 & A4 & A5); [intros ? ? ? ? []|].
  assert (HX : Permutation added xs).
  { apply NoDup_Permutation; auto. intros x. rewrite Hxs. split; [apply A4|]. intros Hx. apply A3 in Hx. now rewrite app_nil_r in Hx. }
  destruct (@session_trace m n calls Hc [] es [] HS) as (es' & vis & E & P); [reflexivity|].
  assert (Hr : Forall typed (map m_root calls)) by (apply Forall_map; eapply Forall_impl; [|exact Hc]; now intros ? (_ & _ & ? & _)).
  assert (Hm : Forall manual_free (map m_root calls)) by (apply Forall_map; eapply Forall_impl; [|exact Hc]; now intros ? (_ & _ & _ & ? & _)).
  assert (Hnd' : no_dangling h (map m_root calls)).
  { intros x Hx. apply A3 in Hx. rewrite app_nil_r in Hx. now apply A2. }
  destruct (@report_everything m n h (map m_root calls) alloc) as (xs' & X1 & X2 & X3); auto.
  assert (HX' : Permutation xs' xs) by (apply NoDup_Permutation; auto; intros x; rewrite Hxs, X2; reflexivity).
  assert (Q1 : Permutation (root_events (calls_of m n calls)) (full_report h (map m_root calls) alloc xs)).
  { unfold root_events. rewrite E. cbn [fst]. rewrite P, A5. unfold full_report. apply Permutation_app_head, Permutation_flat_map, HX. }
  assert (Q2 : Permutation (root_events (map (visit_in m n h) (map m_root calls))) (full_report h (map m_root calls) alloc xs)).
  { rewrite X3. unfold full_report. apply Permutation_app_head, Permutation_flat_map, HX'. }
  assert (Q : Permutation (root_events (calls_of m n calls)) (root_events (map (visit_in m n h) (map m_root calls)))) by now rewrite Q1, Q2.
  destruct (perm_books Q) as [Hb _]. destruct (perm_books Q1) as [_ Et].
  destruct (perm_books Q2) as [_ Et2].
  apply profile_ext; [now apply calls_keys | now apply visit_in_keys | exact Hb | now rewrite Et | now rewrite Et2].
Qed.

(** ** Later changes of an allocation that was found go unnoticed. *)
Lemma newly_found_agree h h' v seen x : (forall x, ~ In x seen -> find_obj h x = find_obj h' x) ->
  newly_found h v seen x -> newly_found h' v seen x.
Proof.
  intros H. induction 1 as [x H1 H2|y i w x Hy IH Ho H1 H2]; [now constructor|].
  eapply nf_step; [exact IH | | exact H1 | exact H2]. rewrite <- H; [exact Ho|]. clear - Hy. inversion Hy; assumption.
Qed.

Lemma trace_roots_vis_ext l : forall vis vis', (forall y, ptr_mem y vis = ptr_mem y vis') ->
  fst (trace_roots k_str l vis) = fst (trace_roots k_str l vis').
Proof.
  induction l as [|p l IH]; intros vis vis' H; [reflexivity|]. cbn [trace_roots].
  destruct (@trace_vis_ext _ k_str p vis vis' [] NKRoot) as (es & add & ok & E1 & E2); [intros; apply H|].
  rewrite E1, E2. specialize (IH (add ++ vis) (add ++ vis')).
  destruct (trace_roots k_str l (add ++ vis)), (trace_roots k_str l (add ++ vis')). cbn [fst] in *. rewrite IH; [reflexivity|].
  intros y. rewrite !ptr_mem_app. now rewrite H.
Qed.

(** A call gives the same profile, whatever has become of the allocations found
    before it. *)
Lemma C48_later_changes_unnoticed_lemma : forall m n before c c' after,
  Forall (keys_in made_by_new) (before ++ after) -> moment_ok n c -> moment_ok n c' ->
  no_dangling (m_store c) [m_root c] -> m_root c = m_root c' ->
  (forall x, ~ visited_by before x -> find_obj (m_store c) x = find_obj (m_store c') x /\ m_alloc c x = m_alloc c' x) ->
  let calls c := before ++ [visit_in m n (m_store c) (m_root c)] ++ after in
  total_declared (root_events (calls c)) < two63 ->
  option_map (observe_output m) (profile m (calls c)) = option_map (observe_output m) (profile m (calls c')).
Proof.
  intros m n before c c' after HK Hc Hc' Hd Er Ha calls Ht.
  destruct (trace_roots k_str before []) as [e0 v0] eqn:E0.
  assert (Hv0 : forall x, visited_by before x <-> In x v0) by (intros x; unfold visited_by; rewrite E0; apply ptr_mem_In).
  assert (Ha1 : forall x, ~ In x v0 -> find_obj (m_store c) x = find_obj (m_store c') x) by (intros x Hx; apply Ha; now rewrite Hv0).
  destruct (@call_trace0 m n c v0 Hc) as (es & vis & found & F1 & F2 & F3 & F4 & F5).
  { intros x Hx. apply Hd. eapply newly_reachable, Hx. }
  destruct (@call_trace m n c' v0 found Hc' F1) as (es' & vis' & G3 & G4 & G5).
  { intros x. rewrite F2, Er. split; apply newly_found_agree; intros y Hy; [now apply Ha1 | now rewrite Ha1]. }
  { intros x Hx. apply F2 in Hx. rewrite <- Ha1 by (clear - Hx; inversion Hx; assumption). apply Hd. eapply newly_reachable, Hx. }
  assert (HP : Permutation es es').
  { rewrite F5, G5, Er. apply Permutation_app_head.
    replace (flat_map (allocation_report c') found) with (flat_map (allocation_report c) found); [reflexivity|].
    apply flat_map_ext_in. intros x Hx. unfold allocation_report. destruct (Ha x) as [A B].
    { rewrite Hv0. apply F2 in Hx. clear - Hx. inversion Hx; assumption. }
    now rewrite A, B. }
  assert (HQ : Permutation (root_events (calls c)) (root_events (calls c'))).
  { unfold calls, root_events. rewrite !trace_roots_app, E0. cbn [app trace_roots]. rewrite F3, G3.
    pose proof (@trace_roots_vis_ext after vis vis') as X.
    destruct (trace_roots k_str after vis), (trace_roots k_str after vis'). cbn [fst] in *. rewrite X; [|].
    - apply Permutation_app_head, Permutation_app_tail, HP.
    - intros y. apply eq_true_iff_eq. rewrite !ptr_mem_In, F4, G4. reflexivity. }
  apply Forall_app in HK as [K1 K2].
  assert (HC : forall c, moment_ok n c -> Forall (keys_in made_by_new) (calls c)).
  { intros c0 Hc0. unfold calls. rewrite !Forall_app. split; [exact K1|]. split; [|exact K2].
    apply (@calls_keys m n [c0]). constructor; [exact Hc0 | constructor]. }
  destruct (perm_books HQ) as [Hb Et]. apply profile_ext; auto. now rewrite <- Et.
Qed.
