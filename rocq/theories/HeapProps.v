(** * Lemmas behind PropertiesHeap.v. *)
From Coq Require Import Permutation Sorted.
From Verif Require Import Base BaseFacts KeyModel KeyFacts HMap FlameModel BuilderModel VisitorModel SizeOfModel Spec
  FlameFacts WriteFacts FlameExtra ArenaFacts RunFacts FinishFacts BuilderFacts EventFacts TraceFacts BuilderProps
  ConserveFacts HeapFacts MergeFacts.

(** The builder's visited set after root visits. *)
Lemma visit_roots_visited l : total_declared (root_events l) < two63 ->
  exists b, (forall m, visit_roots m l b_default = (b, Done)) /\ b_visited b = snd (trace_roots k_str l []).
Proof.
  intros Htot. rewrite <- total_root_events in Htot.
  destruct (trace_roots (fun k : key => k) l []) as [es vis] eqn:E. cbn [fst] in Htot.
  destruct (@b_default_ok key key_dec (fun k => k) any_key) as (Hb & Hi & Hv).
  destruct (@visit_roots_trace key key_dec (fun k => k) any_key (fun k k' _ _ H => H) l b_default [] [[]] es vis)
    as (b & ps & Hr & _ & Hvis & _); auto.
  { apply Forall_forall. intros q _. apply keys_any. }
  { cbn [app]. pose proof two63_lt_two64. lia. }
  exists b. split; [exact Hr|]. rewrite Hvis.
  change k_str with (fun k : key => k_str ((fun k : key => k) k)). now rewrite (trace_roots_map (fun k : key => k) k_str), E.
Qed.

Lemma deref_keys K h x o : heap_keys_in K h -> deref h x = Some o -> Forall (item_keys_in K) o.
Proof.
  unfold heap_keys_in. induction h as [|[y o'] h IH]; cbn [deref]; [discriminate|]. intros HK E.
  inversion HK; subst. destruct (N.eqb x y); [inversion E; subst; auto | auto].
Qed.

Lemma item_keys_scope K u k s body : item_keys_in K (Scope u k s body) <-> K k /\ Forall (item_keys_in K) body.
Proof.
  cbn [item_keys_in]. enough (H : (fix go (l : list item) := match l with [] => True | j :: l' => item_keys_in K j /\ go l' end) body
    <-> Forall (item_keys_in K) body) by tauto.
  induction body as [|j body IH]; [split; auto|]. rewrite IH. split.
  - intros [H1 H2]. now constructor.
  - intros H. inversion H; auto.
Qed.

Lemma link_keys K n : forall h l, heap_keys_in K h -> Forall (item_keys_in K) l -> keys_in K (link n h l).
Proof.
  induction n as [n IHn] using lt_wf_ind. intros h l HK. induction l as [|u k s body l IHb IHl|k s x l IHl] using items_ind; intros Hl.
  - rewrite link_nil. exact I.
  - inversion Hl as [|? ? H1 H2]; subst. apply item_keys_scope in H1 as [Hk H1]. rewrite link_scope.
    destruct u; cbn [keys_in]; auto.
  - inversion Hl as [|? ? H1 H2]; subst. cbn [item_keys_in] in H1. rewrite link_ref. cbn [keys_in]. repeat split; auto.
    destruct n as [|n']; [exact I|]. destruct (deref h x) as [o|] eqn:E; [|exact I].
    apply IHn; [lia | exact HK | eapply deref_keys; eauto].
Qed.

Lemma link_keys_all K n h roots : heap_keys_in K h -> Forall (Forall (item_keys_in K)) roots ->
  Forall (keys_in K) (map (link n h) roots).
Proof. intros HK HR. induction HR; cbn; constructor; auto. now apply link_keys. Qed.

Lemma C15_terminates_lemma n h roots r : closed_heap h (roots ++ [r]) -> (length h <= n)%nat ->
  total_declared (root_events (map (link n h) (roots ++ [r]))) < two63 ->
  exists b b', forall m, visit_roots m (map (link n h) roots) b_default = (b, Done) /\
    visit_root m (link n h r) b = (b', Done).
Proof.
  intros Hc Hn Ht. rewrite map_app in Ht. cbn [map] in Ht.
  destruct (last_root Ht) as (b & b' & o & H1 & H2 & _).
  exists b, b'. intros m. split; [apply H1|]. rewrite H2, trace_roots_no_crash; auto.
Qed.

Lemma C15_once_lemma n h roots : closed_heap h roots -> (length h <= n)%nat ->
  total_declared (root_events (map (link n h) roots)) < two63 ->
  exists b, (forall m, visit_roots m (map (link n h) roots) b_default = (b, Done)) /\
    NoDup (b_visited b) /\ (forall x, In x (b_visited b) <-> reachable h roots x) /\
    Permutation (root_events (map (link n h) roots))
      (flat_map (fun r => own r [] NKRoot) roots ++ flat_map (pointee_events h) (b_visited b)).
Proof.
  intros Hc Hn Ht. destruct (visit_roots_visited Ht) as (b & Hb & Hv). exists b. split; [exact Hb|].
  destruct (link_roots Hn Hc) as (es & vis & E & H1 & H2 & H3). rewrite Hv. unfold root_events. rewrite E. auto.
Qed.

(** Unrolling depth does not matter: the same events in the same order. *)
Lemma link_stable_roots n n' h (R : ptr -> Prop) roots : forall vis, (length h <= n)%nat -> (length h <= n')%nat ->
  (forall x, R x -> exists o, deref h x = Some o /\ forall y, In y (refs o) -> R y) ->
  (forall r y, In r roots -> In y (refs r) -> R y) ->
  trace_roots k_str (map (link n h) roots) vis = trace_roots k_str (map (link n' h) roots) vis.
Proof.
  intros vis Hn Hn' HR. revert vis. induction roots as [|r roots IH]; intros vis Hr; cbn [map trace_roots]; [reflexivity|].
  pose proof (unvisited_le h vis).
  rewrite (@link_stable R n n' h r vis [] NKRoot); try lia; auto.
  - destruct (trace k_str (link n' h r) vis [] NKRoot) as [[e1 v1] o1]. rewrite IH; auto. intros; eapply Hr; eauto. now right.
  - intros x Hx. eapply Hr; eauto. now left.
Qed.

Lemma root_events_stable n n' h roots : closed_heap h roots -> (length h <= n)%nat -> (length h <= n')%nat ->
  root_events (map (link n h) roots) = root_events (map (link n' h) roots).
Proof.
  intros Hc Hn Hn'. unfold root_events. rewrite (@link_stable_roots n n' h (reachable h roots)); auto.
  - now apply reach_closed.
  - intros r y Hr Hy. eapply reach_root; eauto.
Qed.

Lemma C16_order_lemma m n n' h h' roots roots' :
  heap_keys_in made_by_new h -> heap_keys_in made_by_new h' ->
  Forall (Forall (item_keys_in made_by_new)) roots -> Forall (Forall (item_keys_in made_by_new)) roots' ->
  (length h <= n)%nat -> (length h' <= n')%nat -> closed_heap h roots ->
  same_heap h h' -> same_roots roots roots' ->
  total_declared (root_events (map (link n h) roots)) < two63 ->
  option_map (observe_output m) (profile m (map (link n h) roots)) =
  option_map (observe_output m) (profile m (map (link n' h') roots')).
Proof.
  intros K1 K2 K3 K4 Hn Hn' Hc Hh Hr Ht.
  pose proof (events_same Hn Hn' Hc Hh Hr) as Hp. destruct (perm_books Hp) as [Hb Et].
  apply profile_ext; auto; try (now apply link_keys_all). now rewrite <- Et.
Qed.

(** ** Repeated roots *)
Lemma shown_split a b p : (~ touches b p -> shown_s (a ++ b) p = shown_s a p).
Proof.
  intros Ht. destruct p as [|x p]; [reflexivity|].
  assert (Hn : forall e, In e b -> ev_path e <> (x :: p) /\ removelast (ev_path e) <> (x :: p)).
  { intros e He. split; intros C; apply Ht; exists e; auto. }
  assert (Hd : declared_s b (x :: p) = 0).
  { unfold declared_s, declared. apply sumN_map_zero. intros e He. destruct (path_dec _ _ _) as [C|]; [|reflexivity].
    now destruct (Hn e He). }
  assert (Hb : declared_below string_dec b (x :: p) = 0).
  { unfold declared_below. apply sumN_map_zero. intros e He. unfold child_of. destruct (ev_path e) eqn:E; [reflexivity|].
    rewrite <- E. destruct (path_dec _ _ _) as [C|]; [|reflexivity]. now destruct (Hn e He). }
  assert (Hu : unique_at string_dec b (x :: p) = false).
  { destruct (unique_at string_dec b (x :: p)) eqn:U; [|reflexivity]. apply unique_at_In in U as (e & He & Pe & _). now destruct (Hn e He). }
  unfold shown_s, shown. fold (declared_s (a ++ b) (x :: p)) (declared_s a (x :: p)). rewrite declared_s_app, Hd, N.add_0_r.
  unfold inline_below, unique_at. rewrite existsb_app. fold (unique_at string_dec a (x :: p)) (unique_at string_dec b (x :: p)).
  rewrite Hu, orb_false_r. destruct (unique_at string_dec a (x :: p)); [reflexivity|].
  unfold declared_below in *. rewrite map_app, sumN_app, Hb, N.add_0_r. reflexivity.
Qed.

Lemma shown_copies es n p : shown_s (flat_map (fun _ => es) (repeat tt n)) p = N.of_nat n * shown_s es p.
Proof.
  destruct p as [|x p]; [cbn [shown_s shown]; unfold shown_s, shown; lia|].
  set (q := x :: p). unfold shown_s, shown. unfold q at 1 4. cbv iota.
  assert (Hd : forall m, declared string_dec (flat_map (fun _ => es) (repeat tt m)) q = N.of_nat m * declared string_dec es q).
  { induction m as [|m IH]; [reflexivity|]. cbn [repeat flat_map]. unfold declared in *. rewrite map_app, sumN_app, IH, Nat2N.inj_succ, N.mul_succ_l. apply N.add_comm. }
  assert (Hb : forall m, declared_below string_dec (flat_map (fun _ => es) (repeat tt m)) q = N.of_nat m * declared_below string_dec es q).
  { induction m as [|m IH]; [reflexivity|]. cbn [repeat flat_map]. unfold declared_below in *. rewrite map_app, sumN_app, IH, Nat2N.inj_succ, N.mul_succ_l. apply N.add_comm. }
  assert (Hu : forall m, unique_at string_dec (flat_map (fun _ => es) (repeat tt (S m))) q = unique_at string_dec es q).
  { induction m as [|m IH]; cbn [repeat flat_map] in *; unfold unique_at in *.
    - now rewrite app_nil_r.
    - rewrite existsb_app. rewrite IH. apply orb_diag. }
  destruct n as [|n]; [reflexivity|]. unfold inline_below. rewrite Hd, Hb, Hu. destruct (unique_at string_dec es q); rewrite N.mul_sub_distr_l; [now rewrite N.mul_0_r | reflexivity].
Qed.

Lemma flat_map_repeat {A B} (f : A -> list B) a n : flat_map f (repeat a n) = flat_map (fun _ => f a) (repeat tt n).
Proof. induction n; cbn; congruence. Qed.

Lemma reachable_repeat h r n x : reachable h (repeat r (S n)) x <-> reachable h [r] x.
Proof.
  split; induction 1 as [r' x Hr Hx|y o x Hy IH Ho Hx]; try (eapply reach_step; eauto; fail).
  - apply repeat_spec in Hr. subst r'. eapply reach_root; [now left | exact Hx].
  - destruct Hr as [<-|[]]. eapply reach_root; [now left | exact Hx].
Qed.

Lemma shown_perm a b p : Permutation a b -> shown_s a p = shown_s b p.
Proof.
  intros H. destruct (perm_books H) as [[H1 H2] _]. unfold shown_s, shown. destruct p; [reflexivity|].
  unfold declared_s, inline_below_s in *. now rewrite H1, H2.
Qed.

Lemma repeat_map {A B} (f : A -> B) a n : map f (repeat a n) = repeat (f a) n.
Proof. induction n; cbn; congruence. Qed.

Lemma C38_repeat_lemma d h r n : closed_heap h [r] -> (length h <= d)%nat ->
  heap_keys_in made_by_new h -> Forall (item_keys_in made_by_new) r ->
  total_declared (root_events (repeat (link d h r) (S n))) < two63 ->
  exists o1 o, (forall m, profile m [link d h r] = Some o1) /\ (forall m, profile m (repeat (link d h r) (S n)) = Some o) /\
    (forall p, (forall x, reachable h [r] x -> ~ touches (pointee_events h x) p) ->
       size_at (out_flamegraph o) p = N.of_nat (S n) * size_at (out_flamegraph o1) p) /\
    (forall p, ~ touches (own r [] NKRoot) p -> size_at (out_flamegraph o) p = size_at (out_flamegraph o1) p).
Proof.
  intros Hc Hd HK HKr Ht.
  assert (Hk1 : keys_in made_by_new (link d h r)) by now apply link_keys.
  assert (HkN : Forall (keys_in made_by_new) (repeat (link d h r) (S n))).
  { apply Forall_forall. intros q Hq. apply repeat_spec in Hq. now subst. }
  assert (HcN : closed_heap h (repeat r (S n))).
  { intros x Hx. apply Hc. now apply reachable_repeat in Hx. }
  assert (Ht1 : total_declared (root_events [link d h r]) < two63).
  { cbn [repeat] in Ht. unfold root_events in *. cbn [trace_roots] in *.
    destruct (trace k_str (link d h r) [] [] NKRoot) as [[e1 v1] o1]. cbn [fst] in *. rewrite app_nil_r.
    destruct (trace_roots k_str (repeat (link d h r) n) v1) as [e2 v2]. cbn [fst] in Ht. rewrite total_app in Ht. lia. }
  destruct (@C12_exact_lemma [link d h r]) as (o1 & E1 & S1 & _); [repeat constructor; auto | exact Ht1 |].
  destruct (@C12_exact_lemma (repeat (link d h r) (S n))) as (o & E & S & _); [exact HkN | exact Ht |].
  exists o1, o. split; [exact E1|]. split; [exact E|].
  destruct (@link_roots d h [r] Hd Hc) as (es1 & vis1 & T1 & ND1 & R1 & P1). cbn [map] in T1.
  destruct (@link_roots d h (repeat r (Datatypes.S n)) Hd HcN) as (es & vis & T & ND & R & P). rewrite repeat_map in T.
  assert (Pv : Permutation vis vis1).
  { apply NoDup_Permutation; auto. intros x. rewrite R, R1. apply reachable_repeat. }
  assert (P' : Permutation es (flat_map (fun _ => own r [] NKRoot) (repeat tt (Datatypes.S n)) ++ flat_map (pointee_events h) vis1)).
  { etransitivity; [exact P|]. rewrite flat_map_repeat. apply Permutation_app_head. now apply flat_map_perm. }
  cbn [flat_map] in P1. rewrite app_nil_r in P1.
  assert (A1 : forall p, size_at (out_flamegraph o1) p = shown_s (own r [] NKRoot ++ flat_map (pointee_events h) vis1) p).
  { intros p. rewrite S1. unfold root_events. rewrite T1. cbn [fst]. now apply shown_perm. }
  assert (A : forall p, size_at (out_flamegraph o) p =
    shown_s (flat_map (fun _ => own r [] NKRoot) (repeat tt (Datatypes.S n)) ++ flat_map (pointee_events h) vis1) p).
  { intros p. rewrite S. unfold root_events. rewrite T. cbn [fst]. now apply shown_perm. }
  split; intros p Hp.
  - assert (Hp' : ~ touches (flat_map (pointee_events h) vis1) p).
    { intros (e & He & Q). apply in_flat_map in He as (x & Hx & He). apply R1 in Hx. apply (Hp x Hx). exists e. auto. }
    rewrite A, A1, !shown_split by exact Hp'. apply shown_copies.
  - assert (Hp' : ~ touches (flat_map (fun _ : unit => own r [] NKRoot) (repeat tt (Datatypes.S n))) p).
    { intros (e & He & Q). apply in_flat_map in He as (x & _ & He). apply Hp. exists e. auto. }
    rewrite A, A1. rewrite (shown_perm p (Permutation_app_comm (flat_map _ _) _)), (shown_perm p (Permutation_app_comm (own _ _ _) _)).
    now rewrite !shown_split.
Qed.

(** ** Mixed stacks *)
Lemma child_share_exact es e : Forall (ev_wf [] NKRoot es) es -> In e es ->
  child_share es e + (if is_NKInline (ev_parent e) && unique_at string_dec es (removelast (ev_path e)) then ev_size e else 0) =
  if is_NKInline (ev_parent e) then ev_size e else 0.
Proof.
  intros Hwf He. pose proof (wf_nonempty Hwf) as Hne. rewrite Forall_forall in Hwf.
  destruct (Hwf e He) as (pre & a & E & H). rewrite (@child_share_eq es e pre a E), E, removelast_last.
  destruct H as [[H1 ->]|[[H1 ->]|(e' & H1 & H2 & H3 & [H4|H4])]]; rewrite ?H1, ?H4; cbn [is_NKInline andb].
  - destruct (in_dec (list_eq_dec string_dec) [] (paths_of es)); [contradiction|]. destruct (unique_at string_dec es []); auto.
  - destruct (in_dec (list_eq_dec string_dec) [] (paths_of es)); [contradiction|]. destruct (unique_at string_dec es []); auto.
  - assert (Hin : In pre (paths_of es)) by (apply paths_of_In; exists e'; auto).
    destruct (in_dec (list_eq_dec string_dec) pre (paths_of es)); [|contradiction].
    destruct (unique_at string_dec es pre); lia.
  - assert (Hu : unique_at string_dec es pre = true) by (apply unique_at_In; exists e'; rewrite H3; auto).
    rewrite Hu. reflexivity.
Qed.

Lemma C18_excess_lemma l : Forall (keys_in made_by_new) l -> Forall well_declared l ->
  total_declared (root_events l) < two63 ->
  exists o, (forall m, profile m l = Some o) /\
    (forall m, fg_total_size m (out_flamegraph o) = Some (block_bytes (root_events l) + mixed_bytes (root_events l))).
Proof.
  intros HK HF Ht. destruct (C12_exact_lemma HK Ht) as (o & H1 & _ & (L & H2 & _ & H3) & _).
  exists o. split; [exact H1|]. intros m. rewrite H3, (sum_listing H2). f_equal.
  pose proof (well_declared_clean HF) as Hclean. pose proof (trace_roots_wf l []) as Hwf. fold (root_events l) in Hwf.
  set (es := root_events l) in *.
  assert (E1 : sumN (map (shown_s es) (paths_of es)) + sumN (map (inline_below_s es) (paths_of es)) = total_declared es).
  { rewrite <- sumN_map_add, <- sum_declared. f_equal. apply map_ext_in. intros p Hp.
    assert (p <> []) by (intros ->; now apply (wf_nonempty Hwf)).
    specialize (Hclean p). unfold misdeclared_s, misdeclared in Hclean. unfold shown_s, shown, inline_below_s, declared_s.
    destruct p; [congruence|]. destruct (N.lt_ge_cases (declared string_dec es (s :: p)) (inline_below string_dec es (s :: p))); [|lia].
    exfalso. apply Hclean. auto. }
  rewrite sum_inline_below, total_split in E1. unfold mixed_bytes.
  assert (E2 : sumN (map (child_share es) es) +
    sumN (map (fun e => if is_NKInline (ev_parent e) && unique_at string_dec es (removelast (ev_path e)) then ev_size e else 0) es) =
    sumN (map (fun e => if is_NKInline (ev_parent e) then ev_size e else 0) es)).
  { rewrite <- sumN_map_add. f_equal. apply map_ext_in. intros e He. now apply child_share_exact. }
  lia.
Qed.
