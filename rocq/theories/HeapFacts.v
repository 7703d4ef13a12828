(** * Object graphs. *)
From Coq Require Import Permutation Sorted.
From Verif Require Import Base BaseFacts KeyModel KeyFacts HMap FlameModel BuilderModel VisitorModel Spec
  FlameFacts WriteFacts FlameExtra ArenaFacts RunFacts FinishFacts BuilderFacts EventFacts TraceFacts BuilderProps.

Section ItemsInd.
  Variable P : list item -> Prop.
  Hypothesis Hnil : P [].
  Hypothesis Hscope : forall u k s body l, P body -> P l -> P (Scope u k s body :: l).
  Hypothesis Href : forall k s x l, P l -> P (Ref k s x :: l).

  Fixpoint items_ind1 (i : item) : forall l, P l -> P (i :: l) :=
    match i with
    | Ref k s x => fun l H => Href k s x H
    | Scope u k s body => fun l H =>
        Hscope u k s ((fix go (b : list item) : P b := match b with [] => Hnil | j :: b' => @items_ind1 j b' (go b') end) body) H
    end.
  Fixpoint items_ind (l : list item) : P l :=
    match l with [] => Hnil | i :: l' => items_ind1 i (items_ind l') end.
End ItemsInd.

Lemma refs_scope u k s body : refs1 (Scope u k s body) = refs body.
Proof. reflexivity. Qed.

Lemma own_scope u k s body here nk : own1 (Scope u k s body) here nk =
  mkEv (here ++ [k_str k]) (if u then NKUnique else NKInline) nk s :: own body (here ++ [k_str k]) (if u then NKUnique else NKInline).
Proof. reflexivity. Qed.

Lemma link_nil n h : link n h [] = VRet.
Proof. destruct n; reflexivity. Qed.
Lemma link_scope n h u k s body l : link n h (Scope u k s body :: l) =
  (if u then VUnique else VInline) k s (link n h body) (link n h l).
Proof.
  assert (H : forall f, (fix go (l : list item) := match l with [] => VRet | j :: l' => link1 f j (go l') end) body =
                    fold_right (link1 f) VRet body) by (intros f; induction body; cbn; congruence).
  destruct n; cbn [link fold_right link1]; rewrite H; reflexivity.
Qed.
Lemma link_ref n h k s x l : link n h (Ref k s x :: l) =
  VShared k s x (match n with O => VCrash | S n' => match deref h x with Some o => link n' h o | None => VCrash end end)
    (link n h l) (link n h l).
Proof. destruct n; reflexivity. Qed.

(** Number of heap objects not yet visited. *)
Definition unvisited (h : heap) (vis : list ptr) : nat :=
  length (filter (fun xo => negb (ptr_mem (fst xo) vis)) h).

Lemma unvisited_mono h vis vis' : (forall y, ptr_mem y vis = true -> ptr_mem y vis' = true) ->
  (unvisited h vis' <= unvisited h vis)%nat.
Proof.
  intros H. unfold unvisited. induction h as [|[y o] h IH]; cbn; [lia|].
  destruct (ptr_mem y vis) eqn:E; cbn.
  - rewrite (H _ E). cbn. lia.
  - destruct (ptr_mem y vis'); cbn; lia.
Qed.

Lemma unvisited_cons h vis x o : deref h x = Some o -> ptr_mem x vis = false ->
  (unvisited h (x :: vis) < unvisited h vis)%nat.
Proof.
  unfold unvisited. induction h as [|[y o'] h IH]; cbn [deref]; [discriminate|]. intros E Hx.
  cbn [filter fst]. destruct (N.eqb_spec x y) as [<-|Hne].
  - assert (E1 : ptr_mem x (x :: vis) = true) by (apply ptr_mem_In; now left).
    rewrite Hx, E1. cbn [negb length].
    pose proof (@unvisited_mono h vis (x :: vis)) as H. unfold unvisited in H.
    assert (Hs : forall y, ptr_mem y vis = true -> ptr_mem y (x :: vis) = true).
    { intros z Hz. apply ptr_mem_In. apply ptr_mem_In in Hz. now right. }
    specialize (H Hs). lia.
  - specialize (IH E Hx).
    assert (E1 : ptr_mem y (x :: vis) = ptr_mem y vis).
    { unfold ptr_mem. cbn [existsb]. destruct (N.eqb_spec y x); [congruence | reflexivity]. }
    rewrite E1. destruct (ptr_mem y vis); cbn [negb length]; lia.
Qed.

(** The relation between a traversal and the heap. *)
Record traversal (R : ptr -> Prop) (h : heap) (l : list item) (vis vis' : list ptr) (added : list ptr)
  (here : path) (nk : node_kind) (es : list (ev string)) : Prop := {
  tv_vis : vis' = added ++ vis;
  tv_nodup : NoDup added;
  tv_new : forall y, In y added -> ptr_mem y vis = false;
  tv_refs : forall y, In y (refs l) -> ptr_mem y vis' = true;
  tv_closed : forall y o z, In y added -> deref h y = Some o -> In z (refs o) -> ptr_mem z vis' = true;
  tv_reach : forall y, In y added -> R y;
  tv_events : Permutation es (own l here nk ++ flat_map (pointee_events h) added);
}.

Lemma flat_map_app' {A B} (f : A -> list B) l l' : flat_map f (l ++ l') = flat_map f l ++ flat_map f l'.
Proof. induction l; cbn; [reflexivity|]. now rewrite IHl, app_assoc. Qed.

Lemma nodup_app_new vis added added2 : NoDup added -> NoDup added2 ->
  (forall y, In y added2 -> ptr_mem y (added ++ vis) = false) -> NoDup (added2 ++ added).
Proof.
  intros H1 H2 H. induction H2 as [|a l Ha Hl IH]; [exact H1|]. cbn. constructor.
  - rewrite in_app_iff. intros [C|C]; [contradiction|]. specialize (H a (or_introl eq_refl)).
    rewrite ptr_mem_app in H. apply orb_false_iff in H as [H _]. apply ptr_mem_In in C. congruence.
  - apply IH. intros y Hy. apply H. now right.
Qed.

(** Two traversals in sequence. *)
Lemma traversal_seq R h i l vis v1 v2 a1 a2 here nk es1 es2 :
  traversal R h [i] vis v1 a1 here nk es1 -> traversal R h l v1 v2 a2 here nk es2 ->
  traversal R h (i :: l) vis v2 (a2 ++ a1) here nk (es1 ++ es2).
Proof.
  intros [A1 A2 A3 A4 A5 A7 A6] [B1 B2 B3 B4 B5 B7 B6]. subst v1 v2. constructor.
  - now rewrite app_assoc.
  - eapply nodup_app_new; eauto.
  - intros y Hy. apply in_app_iff in Hy as [Hy|Hy]; [|auto]. specialize (B3 y Hy).
    rewrite ptr_mem_app in B3. now apply orb_false_iff in B3.
  - intros y Hy. unfold refs in *. cbn [flat_map] in Hy. apply in_app_iff in Hy as [Hy|Hy]; [|auto].
    rewrite ptr_mem_app, (A4 y); [apply orb_true_r|]. cbn. now rewrite app_nil_r.
  - intros y o z Hy E Hz. apply in_app_iff in Hy as [Hy|Hy]; [eauto|].
    rewrite ptr_mem_app, (A5 y o z) by auto. apply orb_true_r.
  - intros y Hy. apply in_app_iff in Hy as [Hy|Hy]; auto.
  - rewrite A6, B6, flat_map_app'. cbn [own flat_map]. unfold own. cbn [flat_map]. rewrite app_nil_r.
    rewrite <- !app_assoc. apply Permutation_app_head.
    rewrite !app_assoc. rewrite (Permutation_app_comm (flat_map (pointee_events h) a1)).
    rewrite <- !app_assoc. apply Permutation_app_head. apply Permutation_app_comm.
Qed.

Lemma link_traversal_gen (R : ptr -> Prop) n : forall h l vis here nk,
  (forall x, In x (refs l) -> R x) ->
  (forall x, R x -> ptr_mem x vis = false -> exists o, deref h x = Some o /\ forall y, In y (refs o) -> R y) ->
  (unvisited h vis <= n)%nat ->
  exists es vis' added, trace k_str (link n h l) vis here nk = (es, vis', true) /\
    traversal R h l vis vis' added here nk es.
Proof.
  induction n as [n IHn] using lt_wf_ind. intros h l. induction l as [|u k s body l IHb IHl|k s x l IHl] using items_ind;
    intros vis here nk Hrefs Hclosed Hn.
  - exists [], vis, []. rewrite link_nil. split; [reflexivity|]. constructor; cbn; auto; try constructor; try contradiction.
  - unfold refs in Hrefs. cbn [flat_map] in Hrefs. rewrite refs_scope in Hrefs.
    assert (Hr1 : forall x, In x (refs body) -> R x) by (intros; apply Hrefs, in_or_app; auto).
    assert (Hr2 : forall x, In x (refs l) -> R x) by (intros; apply Hrefs, in_or_app; auto).
    set (kind := if u then NKUnique else NKInline).
    destruct (IHb vis (here ++ [k_str k]) kind Hr1 Hclosed Hn) as (e1 & v1 & a1 & E1 & T1).
    assert (Hm : (unvisited h v1 <= n)%nat).
    { rewrite (tv_vis T1). eapply Nat.le_trans; [apply unvisited_mono|exact Hn].
      intros y Hy. rewrite ptr_mem_app, Hy. apply orb_true_r. }
    assert (Hclosed1 : forall x, R x -> ptr_mem x v1 = false -> exists o, deref h x = Some o /\ forall y, In y (refs o) -> R y).
    { intros x Hx Hv. apply Hclosed; [exact Hx|]. rewrite (tv_vis T1), ptr_mem_app in Hv. now apply orb_false_iff in Hv. }
    destruct (IHl v1 here nk Hr2 Hclosed1 Hm) as (e2 & v2 & a2 & E2 & T2).
    exists ((mkEv (here ++ [k_str k]) kind nk s :: e1) ++ e2), v2, (a2 ++ a1). split.
    + rewrite link_scope. destruct u; cbn [trace]; unfold kind in E1; rewrite E1, E2; reflexivity.
    + eapply traversal_seq; [|exact T2]. destruct T1 as [A1 A2 A3 A4 A5 A7 A6]. constructor; auto.
      * unfold refs. cbn [flat_map]. rewrite app_nil_r, refs_scope. exact A4.
      * unfold own. cbn [flat_map]. rewrite app_nil_r, own_scope. cbn [app]. constructor. exact A6.
  - unfold refs in Hrefs. cbn [flat_map refs1] in Hrefs.
    assert (Hr2 : forall x, In x (refs l) -> R x) by (intros; apply Hrefs, in_or_app; auto).
    rewrite link_ref. cbn [trace]. destruct (ptr_mem x vis) eqn:Ex.
    + destruct (IHl vis here nk Hr2 Hclosed Hn) as (e2 & v2 & a2 & E2 & T2). rewrite E2.
      exists ([mkEv (here ++ [k_str k]) NKShared nk s] ++ e2), v2, (a2 ++ []). split; [reflexivity|].
      eapply traversal_seq; [|exact T2]. constructor; cbn; auto; try contradiction; try constructor.
      intros y [<-|[]]. exact Ex.
    + destruct (Hclosed x) as (o & Ho & HoR); [apply Hrefs; now left | exact Ex |].
      pose proof (@unvisited_cons h vis x o Ho Ex) as Hlt. destruct n as [|n']; [lia|]. rewrite Ho.
      assert (HclosedX : forall z, R z -> ptr_mem z (x :: vis) = false -> exists o, deref h z = Some o /\ forall y, In y (refs o) -> R y).
      { intros z Hz Hv. apply Hclosed; [exact Hz|]. cbn in Hv. now apply orb_false_iff in Hv. }
      destruct (IHn n' (Nat.lt_succ_diag_r n') h o (x :: vis) [] NKShared) as (e1 & v1 & a1 & E1 & T1); [exact HoR|exact HclosedX|lia|].
      rewrite E1.
      assert (Hm : (unvisited h v1 <= S n')%nat).
      { rewrite (tv_vis T1). eapply Nat.le_trans; [apply unvisited_mono|exact Hn].
        intros y Hy. rewrite ptr_mem_app. cbn. unfold ptr_mem in Hy. rewrite Hy, !orb_true_r. reflexivity. }
      assert (Hclosed1 : forall z, R z -> ptr_mem z v1 = false -> exists o, deref h z = Some o /\ forall y, In y (refs o) -> R y).
      { intros z Hz Hv. apply HclosedX; [exact Hz|]. rewrite (tv_vis T1), ptr_mem_app in Hv. now apply orb_false_iff in Hv. }
      destruct (IHl v1 here nk Hr2 Hclosed1 Hm) as (e2 & v2 & a2 & E2 & T2). rewrite E2.
      exists ((mkEv (here ++ [k_str k]) NKShared nk s :: e1) ++ e2), v2, (a2 ++ (a1 ++ [x])). split; [reflexivity|].
      eapply traversal_seq; [|exact T2]. destruct T1 as [A1 A2 A3 A4 A5 A7 A6]. constructor.
      * rewrite <- app_assoc. exact A1.
      * apply (@nodup_app_new vis [x] a1); [repeat constructor; cbn; tauto | exact A2 | exact A3].
      * intros y Hy. apply in_app_iff in Hy as [Hy|[<-|[]]]; [|exact Ex].
        specialize (A3 y Hy). cbn in A3. now apply orb_false_iff in A3.
      * cbn. intros y [<-|[]]. rewrite A1, ptr_mem_app. cbn. rewrite N.eqb_refl. apply orb_true_r.
      * intros y o' z Hy E Hz. apply in_app_iff in Hy as [Hy|[<-|[]]]; [eauto|].
        rewrite Ho in E. inversion E; subst. apply A4, Hz.
      * intros y Hy. apply in_app_iff in Hy as [Hy|[<-|[]]]; [auto|]. apply Hrefs. now left.
      * unfold own. cbn [flat_map own1 app]. rewrite flat_map_app'. cbn [flat_map app]. rewrite app_nil_r.
        constructor. unfold pointee_events at 2. rewrite Ho, A6. apply Permutation_app_comm.
Qed.

Lemma link_traversal (R : ptr -> Prop) n : forall h l vis here nk,
  (forall x, In x (refs l) -> R x) ->
  (forall x, R x -> exists o, deref h x = Some o /\ forall y, In y (refs o) -> R y) ->
  (unvisited h vis <= n)%nat ->
  exists es vis' added, trace k_str (link n h l) vis here nk = (es, vis', true) /\
    traversal R h l vis vis' added here nk es.
Proof. intros h l vis here nk H1 H2 H3. apply link_traversal_gen; auto. Qed.

(** Unrolling deeper than the number of unvisited objects changes nothing. *)
Lemma link_stable (R : ptr -> Prop) n : forall n' h l vis here nk,
  (forall x, In x (refs l) -> R x) ->
  (forall x, R x -> exists o, deref h x = Some o /\ forall y, In y (refs o) -> R y) ->
  (unvisited h vis <= n)%nat -> (unvisited h vis <= n')%nat ->
  trace k_str (link n h l) vis here nk = trace k_str (link n' h l) vis here nk.
Proof.
  induction n as [n IHn] using lt_wf_ind. intros n' h l. induction l as [|u k s body l IHb IHl|k s x l IHl] using items_ind;
    intros vis here nk Hrefs Hclosed Hn Hn'.
  - now rewrite !link_nil.
  - unfold refs in Hrefs. cbn [flat_map] in Hrefs. rewrite refs_scope in Hrefs.
    assert (Hr1 : forall x, In x (refs body) -> R x) by (intros; apply Hrefs, in_or_app; auto).
    assert (Hr2 : forall x, In x (refs l) -> R x) by (intros; apply Hrefs, in_or_app; auto).
    rewrite !link_scope.
    specialize (IHb vis (here ++ [k_str k]) (if u then NKUnique else NKInline) Hr1 Hclosed Hn Hn').
    destruct (@link_traversal R n h body vis (here ++ [k_str k]) (if u then NKUnique else NKInline) Hr1 Hclosed Hn)
      as (e1 & v1 & a1 & E1 & T1).
    assert (Hm : forall N, (unvisited h vis <= N -> unvisited h v1 <= N)%nat).
    { intros N0 HN. rewrite (tv_vis T1). eapply Nat.le_trans; [apply unvisited_mono|exact HN].
      intros y Hy. rewrite ptr_mem_app, Hy. apply orb_true_r. }
    specialize (IHl v1 here nk Hr2 Hclosed (Hm _ Hn) (Hm _ Hn')).
    rewrite E1 in IHb. symmetry in IHb.
    destruct u; cbn [trace]; rewrite E1, IHb, IHl; reflexivity.
  - unfold refs in Hrefs. cbn [flat_map refs1] in Hrefs.
    assert (Hr2 : forall x, In x (refs l) -> R x) by (intros; apply Hrefs, in_or_app; auto).
    destruct (Hclosed x) as (o & Ho & HoR); [apply Hrefs; now left|].
    rewrite !link_ref. cbn [trace]. destruct (ptr_mem x vis) eqn:Ex.
    + now rewrite (IHl vis here nk Hr2 Hclosed Hn Hn').
    + pose proof (@unvisited_cons h vis x o Ho Ex) as Hlt. destruct n as [|n0]; [lia|]. destruct n' as [|n0']; [lia|]. rewrite Ho.
      destruct (@link_traversal R n0 h o (x :: vis) [] NKShared) as (e1 & v1 & a1 & E1 & T1); [exact HoR|exact Hclosed|lia|].
      pose proof (IHn n0 (Nat.lt_succ_diag_r n0) n0' h o (x :: vis) [] NKShared HoR Hclosed) as IH.
      rewrite <- IH, E1 by lia.
      assert (Hm : forall N, (unvisited h vis <= N -> unvisited h v1 <= N)%nat).
      { intros N0 HN. rewrite (tv_vis T1). eapply Nat.le_trans; [apply unvisited_mono|exact HN].
        intros y Hy. rewrite ptr_mem_app. cbn. unfold ptr_mem in Hy. rewrite Hy, !orb_true_r. reflexivity. }
      now rewrite (IHl v1 here nk Hr2 Hclosed (Hm _ Hn) (Hm _ Hn')).
Qed.

Lemma unvisited_le h vis : (unvisited h vis <= length h)%nat.
Proof. unfold unvisited. induction h as [|xo h IH]; cbn; [lia|]. destruct (negb _); cbn; lia. Qed.

Record roots_traversal (h : heap) (roots : list (list item)) (vis : list ptr) (es : list (ev string)) : Prop := {
  rt_nodup : NoDup vis;
  rt_closed : forall y o z, In y vis -> deref h y = Some o -> In z (refs o) -> In z vis;
  rt_refs : forall r y, In r roots -> In y (refs r) -> In y vis;
  rt_events : Permutation es (flat_map (fun r => own r [] NKRoot) roots ++ flat_map (pointee_events h) vis);
}.

Lemma link_roots_gen (R : ptr -> Prop) n h : (length h <= n)%nat ->
  (forall x, R x -> exists o, deref h x = Some o /\ forall y, In y (refs o) -> R y) ->
  forall roots done vis es, roots_traversal h done vis es -> (forall y, In y vis -> R y) ->
  (forall r y, In r roots -> In y (refs r) -> R y) ->
  exists es' vis', trace_roots k_str (map (link n h) roots) vis = (es', vis') /\
    roots_traversal h (done ++ roots) vis' (es ++ es') /\ (forall y, In y vis' -> R y).
Proof.
  intros Hn HR. induction roots as [|r roots IH]; intros done vis es HT Hvis Hroots; cbn [map trace_roots].
  - exists [], vis. rewrite !app_nil_r. auto.
  - destruct (@link_traversal R n h r vis [] NKRoot) as (e1 & v1 & a1 & E1 & [A1 A2 A3 A4 A5 A7 A6]).
    { intros x Hx. apply (Hroots r); [now left | exact Hx]. }
    { exact HR. }
    { pose proof (unvisited_le h vis). lia. }
    rewrite E1.
    assert (HT1 : roots_traversal h (done ++ [r]) v1 (es ++ e1)).
    { destruct HT as [B1 B2 B3 B4]. subst v1. constructor.
      - clear -A2 A3 B1. induction A2 as [|a l Ha Hl IH]; [exact B1|]. cbn. constructor.
        + rewrite in_app_iff. intros [C|C]; [contradiction|]. specialize (A3 a (or_introl eq_refl)).
          apply ptr_mem_In in C. congruence.
        + apply IH. intros y Hy. apply A3. now right.
      - intros y o z Hy Ho Hz. apply in_app_iff in Hy as [Hy|Hy].
        + apply ptr_mem_In. eauto.
        + apply in_or_app. right. eauto.
      - intros r' y Hr' Hy. apply in_app_iff in Hr' as [Hr'|[<-|[]]].
        + apply in_or_app. right. eauto.
        + apply ptr_mem_In, A4, Hy.
      - rewrite B4, A6, !flat_map_app'. cbn [flat_map]. rewrite app_nil_r, <- !app_assoc. apply Permutation_app_head.
        rewrite (Permutation_app_comm (flat_map (pointee_events h) vis)), <- app_assoc. reflexivity. }
    destruct (IH (done ++ [r]) v1 (es ++ e1) HT1) as (e2 & v2 & E2 & HT2 & Hv2).
    { subst v1. intros y Hy. apply in_app_iff in Hy as [Hy|Hy]; auto. }
    { intros r' y Hr'. apply Hroots. now right. }
    rewrite E2. exists (e1 ++ e2), v2. rewrite <- !app_assoc in HT2. cbn [app] in HT2. auto.
Qed.

Lemma reach_closed h roots : closed_heap h roots ->
  forall x, reachable h roots x -> exists o, deref h x = Some o /\ forall y, In y (refs o) -> reachable h roots y.
Proof.
  intros Hc x Hx. destruct (Hc x Hx) as [o Ho]. exists o. split; [exact Ho|]. intros y Hy. eapply reach_step; eauto.
Qed.

Lemma link_roots n h roots : (length h <= n)%nat -> closed_heap h roots ->
  exists es vis, trace_roots k_str (map (link n h) roots) [] = (es, vis) /\ NoDup vis /\
    (forall x, In x vis <-> reachable h roots x) /\
    Permutation es (flat_map (fun r => own r [] NKRoot) roots ++ flat_map (pointee_events h) vis).
Proof.
  intros Hn Hc.
  destruct (@link_roots_gen (reachable h roots) n h Hn (reach_closed Hc) roots [] [] []) as (es & vis & E & [H1 H2 H3 H4] & HR).
  - constructor; cbn; auto; try contradiction. constructor.
  - cbn. contradiction.
  - intros r y Hr Hy. eapply reach_root; eauto.
  - exists es, vis. cbn [app] in *. repeat split; auto.
    intros Hx. induction Hx as [r x Hr Hx|y o x Hy IH Ho Hx]; eauto.
Qed.

Lemma trace_roots_no_crash n h roots r : (length h <= n)%nat -> closed_heap h (roots ++ [r]) ->
  snd (trace k_str (link n h r) (snd (trace_roots k_str (map (link n h) roots) [])) [] NKRoot) = true.
Proof.
  intros Hn Hc. set (vis := snd (trace_roots k_str (map (link n h) roots) [])).
  destruct (@link_traversal (reachable h (roots ++ [r])) n h r vis [] NKRoot) as (e1 & v1 & a1 & E1 & _).
  - intros x Hx. eapply reach_root; [|exact Hx]. apply in_or_app. right. now left.
  - now apply reach_closed.
  - pose proof (unvisited_le h vis). lia.
  - rewrite E1. reflexivity.
Qed.

(** ** Reordering *)
Lemma same_fields_refl l : same_fields l l.
Proof. induction l using items_ind; constructor; auto. Qed.

Lemma same_fields_own l l' : same_fields l l' -> forall here nk, Permutation (own l here nk) (own l' here nk).
Proof.
  induction 1 as [|u k s b b' r r' Hb IHb Hr IHr|k s x r r' Hr IHr|i j r|a b c H1 IH1 H2 IH2]; intros here nk.
  - reflexivity.
  - unfold own in *. cbn [flat_map]. rewrite !own_scope. apply Permutation_app; [|apply IHr]. constructor. apply IHb.
  - unfold own in *. cbn [flat_map]. apply Permutation_app_head, IHr.
  - unfold own. cbn [flat_map]. rewrite !app_assoc. apply Permutation_app_tail, Permutation_app_comm.
  - etransitivity; [apply IH1 | apply IH2].
Qed.

Lemma same_fields_refs l l' : same_fields l l' -> Permutation (refs l) (refs l').
Proof.
  induction 1 as [|u k s b b' r r' Hb IHb Hr IHr|k s x r r' Hr IHr|i j r|a b c H1 IH1 H2 IH2].
  - reflexivity.
  - unfold refs in *. cbn [flat_map]. rewrite !refs_scope. apply Permutation_app; auto.
  - unfold refs in *. cbn [flat_map]. apply Permutation_app_head, IHr.
  - unfold refs. cbn [flat_map]. rewrite !app_assoc. apply Permutation_app_tail, Permutation_app_comm.
  - etransitivity; eauto.
Qed.

Lemma same_fields_sym l l' : same_fields l l' -> same_fields l' l.
Proof. induction 1; try solve [constructor; auto]. eapply sf_trans; eauto. Qed.

Lemma same_heap_sym h h' : same_heap h h' -> same_heap h' h.
Proof.
  intros H x. specialize (H x). destruct (deref h x), (deref h' x); auto. now apply same_fields_sym.
Qed.

Lemma Forall2_in_r {A B} (P : A -> B -> Prop) l l' b : Forall2 P l l' -> In b l' -> exists a, In a l /\ P a b.
Proof. induction 1; cbn; [tauto|]. intros [<-|H1]; eauto. destruct (IHForall2 H1) as (a & Ha & Hp). eauto. Qed.
Lemma Forall2_in_l {A B} (P : A -> B -> Prop) l l' a : Forall2 P l l' -> In a l -> exists b, In b l' /\ P a b.
Proof. induction 1; cbn; [tauto|]. intros [<-|H1]; eauto. destruct (IHForall2 H1) as (b & Hb & Hp). eauto. Qed.

Lemma reachable_same h h' roots roots' : same_heap h h' -> same_roots roots roots' ->
  forall x, reachable h roots x -> reachable h' roots' x.
Proof.
  intros Hh (mid & Hp & Hf) x Hx. induction Hx as [r x Hr Hx|y o x Hy IH Ho Hx].
  - apply (Permutation_in _ Hp) in Hr. destruct (Forall2_in_l Hf Hr) as (r' & Hr' & Hs).
    eapply reach_root; [exact Hr'|]. eapply Permutation_in; [apply same_fields_refs, Hs | exact Hx].
  - specialize (Hh y). rewrite Ho in Hh. destruct (deref h' y) as [o'|] eqn:Ho'; [|contradiction].
    eapply reach_step; [exact IH | exact Ho' |]. eapply Permutation_in; [apply same_fields_refs, Hh | exact Hx].
Qed.

Lemma same_roots_sym roots roots' : same_roots roots roots' -> same_roots roots' roots.
Proof.
  intros (mid & Hp & Hf). revert roots' Hf. induction Hp as [|a l l' Hp IH|a b l|l l' l'' H1 IH1 H2 IH2]; intros roots' Hf.
  - inversion Hf; subst. exists []. split; constructor.
  - inversion Hf as [|? b ? r Hab Hr]; subst. destruct (IH _ Hr) as (mid & Hm & Hf'). exists (b :: mid).
    split; [now constructor|]. constructor; [now apply same_fields_sym | exact Hf'].
  - inversion Hf as [|? x ? r Hab Hr]; subst. inversion Hr as [|? y ? r' Hab' Hr']; subst.
    exists (y :: x :: r'). split; [constructor|]. constructor; [now apply same_fields_sym|].
    constructor; [now apply same_fields_sym|]. clear -Hr'. induction Hr'; constructor; auto. now apply same_fields_sym.
  - destruct (IH2 _ Hf) as (m2 & Hm2 & Hf2). 
    assert (Hc : exists m1, Permutation roots' m1 /\ Forall2 same_fields m1 l').
    { exists m2. auto. }
    destruct Hc as (m1 & Hp1 & Hf1).
    assert (Hf1' : Forall2 same_fields l' m1).
    { clear -Hf1. induction Hf1; constructor; auto. now apply same_fields_sym. }
    destruct (IH1 _ Hf1') as (m0 & Hm0 & Hf0). exists m0. split; [|exact Hf0]. now rewrite Hp1.
Qed.

Lemma flat_map_perm {A B} (f : A -> list B) l l' : Permutation l l' -> Permutation (flat_map f l) (flat_map f l').
Proof.
  induction 1; cbn; auto.
  - now apply Permutation_app_head.
  - rewrite !app_assoc. apply Permutation_app_tail, Permutation_app_comm.
  - etransitivity; eauto.
Qed.

Lemma flat_map_perm_ext {A B} (f g : A -> list B) l : (forall x, In x l -> Permutation (f x) (g x)) ->
  Permutation (flat_map f l) (flat_map g l).
Proof.
  induction l as [|a l IH]; intros H; cbn; [reflexivity|]. apply Permutation_app; [apply H; now left|].
  apply IH. intros x Hx. apply H. now right.
Qed.

Lemma events_same n n' h h' roots roots' : (length h <= n)%nat -> (length h' <= n')%nat ->
  closed_heap h roots -> same_heap h h' -> same_roots roots roots' ->
  Permutation (root_events (map (link n h) roots)) (root_events (map (link n' h') roots')).
Proof.
  intros Hn Hn' Hc Hh Hr.
  assert (Hc' : closed_heap h' roots').
  { intros x Hx. assert (Hx0 : reachable h roots x).
    { eapply reachable_same; [apply same_heap_sym, Hh | apply same_roots_sym, Hr | exact Hx]. }
    destruct (Hc x Hx0) as [o Ho]. specialize (Hh x). rewrite Ho in Hh. destruct (deref h' x); [eauto|contradiction]. }
  destruct (link_roots Hn Hc) as (es & vis & E & N1 & R1 & P1).
  destruct (link_roots Hn' Hc') as (es' & vis' & E' & N2 & R2 & P2).
  unfold root_events. rewrite E, E'. cbn [fst]. rewrite P1, P2. apply Permutation_app.
  - destruct Hr as (mid & Hp & Hf). rewrite (flat_map_perm _ Hp). clear -Hf. induction Hf; cbn; [reflexivity|].
    apply Permutation_app; [now apply same_fields_own | exact IHHf].
  - assert (Hv : Permutation vis vis').
    { apply NoDup_Permutation; auto. intros x. rewrite R1, R2. split; intros Hx.
      - eapply reachable_same; eauto.
      - eapply reachable_same; [apply same_heap_sym, Hh | apply same_roots_sym, Hr | exact Hx]. }
    rewrite (flat_map_perm _ Hv). apply flat_map_perm_ext. intros x _. unfold pointee_events.
    specialize (Hh x). destruct (deref h x), (deref h' x); try contradiction; [now apply same_fields_own | reflexivity].
Qed.
