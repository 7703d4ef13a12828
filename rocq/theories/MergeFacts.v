(** * Joint profiles, separate profiles, size_of_unique. *)
From Coq Require Import Permutation Sorted.
From Verif Require Import Base BaseFacts KeyModel KeyFacts HMap FlameModel BuilderModel VisitorModel Spec SizeOfModel
  FlameFacts WriteFacts FlameExtra ArenaFacts RunFacts FinishFacts BuilderFacts EventFacts TraceFacts BuilderProps
  ConserveFacts HeapFacts.

Lemma trace_roots_vis_ext l : forall vis vis',
  (forall y, In y (flat_map pointers l) -> ptr_mem y vis = ptr_mem y vis') ->
  exists es add, trace_roots k_str l vis = (es, add ++ vis) /\ trace_roots k_str l vis' = (es, add ++ vis').
Proof.
  induction l as [|p l IH]; intros vis vis' H; cbn [trace_roots flat_map] in *.
  - exists [], []. auto.
  - destruct (@trace_vis_ext string k_str p vis vis' [] NKRoot) as (e1 & a1 & o1 & E1 & E1').
    { intros y Hy. apply H, in_or_app. auto. }
    rewrite E1, E1'. destruct (IH (a1 ++ vis) (a1 ++ vis')) as (e2 & a2 & E2 & E2').
    { intros y Hy. rewrite !ptr_mem_app. f_equal. apply H, in_or_app. auto. }
    rewrite E2, E2'. exists (e1 ++ e2), (a2 ++ a1). now rewrite <- !app_assoc.
Qed.

Lemma root_events_cons p l : (forall x, In x (pointers p) -> ~ In x (flat_map pointers l)) ->
  root_events (p :: l) = root_events [p] ++ root_events l.
Proof.
  intros H. unfold root_events. cbn [trace_roots].
  destruct (trace k_str p [] [] NKRoot) as [[e1 v1] o1] eqn:E1.
  destruct (@trace_roots_vis_ext l v1 []) as (e2 & a2 & E2 & E2').
  { intros y Hy. cbn. destruct (ptr_mem y v1) eqn:Ey; [|reflexivity]. exfalso.
    destruct (trace_vis_sub E1 Ey) as [Hp|Hp]; [|discriminate]. exact (H y Hp Hy). }
  rewrite E2, E2'. cbn [fst]. now rewrite app_nil_r.
Qed.

Lemma shown_app es1 es2 p :
  Forall (ev_wf [] NKRoot es1) es1 -> Forall (ev_wf [] NKRoot es2) es2 ->
  ~ misdeclared_s es1 p -> ~ misdeclared_s es2 p -> unmixed (es1 ++ es2) ->
  shown_s (es1 ++ es2) p = shown_s es1 p + shown_s es2 p.
Proof.
  intros W1 W2 C1 C2 Hm. unfold shown_s, shown. destruct p as [|a p]; [reflexivity|]. set (q := a :: p) in *.
  assert (Hq : q <> []) by discriminate.
  fold declared_s. rewrite declared_s_app.
  assert (Hb : declared_below string_dec (es1 ++ es2) q = declared_below string_dec es1 q + declared_below string_dec es2 q).
  { unfold declared_below. now rewrite map_app, sumN_app. }
  assert (Hu : unique_at string_dec (es1 ++ es2) q = unique_at string_dec es1 q || unique_at string_dec es2 q).
  { unfold unique_at. apply existsb_app. }
  assert (Hle : forall es, ~ misdeclared_s es q -> inline_below string_dec es q <= declared_s es q).
  { intros es H. destruct (N.le_gt_cases (inline_below string_dec es q) (declared_s es q)); auto. exfalso. apply H. split; auto. }
  apply Hle in C1, C2.
  assert (Hnone : forall es es', Forall (ev_wf [] NKRoot es) es -> (forall e, In e es -> ev_path e = q -> is_NKUnique (ev_kind e) = true) ->
     unique_at string_dec es q = false -> es' = es -> declared_s es q = 0 /\ declared_below string_dec es q = 0).
  { intros es es' W Ha Hf _.
    assert (Hno : forall e, In e es -> ev_path e <> q).
    { intros e He Eq. apply not_true_iff_false in Hf. apply Hf, unique_at_In. exists e. repeat split; auto.
      specialize (Ha e He Eq). destruct (ev_kind e); auto; discriminate. }
    split.
    - apply sumN_map_zero. intros e He. destruct (path_dec string_dec (ev_path e) q); [|reflexivity]. exfalso. now apply (Hno e).
    - apply sumN_map_zero. intros e He. rewrite Forall_forall in W. destruct (W e He) as (pre & b & Eb & H). rewrite Eb, child_of_snoc.
      destruct (path_dec string_dec pre q) as [->|]; [|reflexivity]. exfalso.
      destruct H as [[_ H]|[[_ H]|(e' & H1 & H2 & _)]]; [congruence|congruence|]. now apply (Hno e'). }
  unfold inline_below in *. rewrite Hu, Hb.
  destruct (unique_at string_dec es1 q) eqn:U1, (unique_at string_dec es2 q) eqn:U2; cbn [orb]; try lia.
  - apply unique_at_In in U1 as (e1 & I1 & P1 & K1).
    destruct (Hnone es2 es2 W2) as [Z1 Z2]; auto.
    { intros e He Ee. rewrite <- (Hm e1 e); [now rewrite K1 | | | congruence]; apply in_or_app; auto. }
    lia.
  - apply unique_at_In in U2 as (e2 & I2 & P2 & K2).
    destruct (Hnone es1 es1 W1) as [Z1 Z2]; auto.
    { intros e He Ee. rewrite <- (Hm e2 e); [now rewrite K2 | | | congruence]; apply in_or_app; auto. }
    lia.
Qed.

Lemma unmixed_sub es es' : incl es es' -> unmixed es' -> unmixed es.
Proof. intros Hi H e e' He He'. apply H; auto. Qed.

Lemma merge_fits fs : forall g, fg_ok Debug made_by_new g -> Forall (fg_ok Debug made_by_new) fs ->
  node_sum g + sumN (map node_sum fs) < two64 ->
  exists c, (forall m, fold_left (fun acc f => do a <- acc; fg_add m a f) fs (Some g) = Some c) /\
    fg_ok Debug made_by_new c /\ (forall p, size_at c p = size_at g p + sumN (map (fun f => size_at f p) fs)) /\
    node_sum c = node_sum g + sumN (map node_sum fs).
Proof.
  induction fs as [|f fs IH]; intros g Hg Hfs Hlt; cbn [fold_left map sumN] in *.
  - exists g. repeat split; auto; intros; lia.
  - inversion Hfs as [|? ? Hf Hfs']; subst.
    destruct (@fg_add_fits Debug made_by_new g f Hg Hf) as [c1 E1]; [lia|].
    destruct (fg_add_adds Hf Hg E1) as [Hok Hsz Hsm]. cbn [wrapeq] in Hsz, Hsm.
    destruct (IH c1 Hok Hfs') as (c & Hc & Hok' & Hsz' & Hsm'); [rewrite Hsm; lia|].
    exists c. split; [|split; [exact Hok'|split]].
    + intros m. cbn [obind]. assert (Em : fg_add m g f = Some c1) by (destruct m; [exact E1 | now apply fg_add_debug_release]).
      rewrite Em. apply Hc.
    + intros p. rewrite Hsz', Hsz. lia.
    + rewrite Hsm', Hsm. lia.
Qed.

Lemma joint_lemma l : Forall (keys_in made_by_new) l -> Forall well_declared l -> disjoint_pointers l ->
  unmixed (root_events l) -> total_declared (root_events l) < two63 ->
  exists outs, Forall2 (fun p o' => forall m, profile m [p] = Some o') l outs /\
    Forall (fun o => fg_ok Debug made_by_new (out_flamegraph o)) outs /\
    (forall q, sumN (map (fun o => size_at (out_flamegraph o) q) outs) = shown_s (root_events l) q) /\
    sumN (map (fun o => node_sum (out_flamegraph o)) outs) <= total_declared (root_events l).
Proof.
  intros HK HF HD. revert HK HF. induction HD as [|p l Hp HD IH]; intros HK HF Hm Ht.
  - exists []. split; [constructor|]. split; [constructor|]. split; [|cbn; lia].
    intros q. unfold shown_s, shown. destruct q; reflexivity.
  - inversion HK as [|? ? HKp HKl]; subst. inversion HF as [|? ? HFp HFl]; subst.
    assert (E : root_events (p :: l) = root_events [p] ++ root_events l).
    { apply root_events_cons. intros x Hx Hin. apply in_flat_map in Hin as (q & Hq & Hin).
      rewrite Forall_forall in Hp. exact (Hp q Hq x Hx Hin). }
    rewrite E in *. rewrite total_app in Ht.
    destruct IH as (outs & H1 & H2 & H3 & H4); auto.
    { eapply unmixed_sub; [|exact Hm]. intros e He. apply in_or_app. auto. }
    { lia. }
    destruct (@session [p]) as (f & w & Ef & [Sok Ssz Ssm _]); [repeat constructor; auto | lia |].
    exists (mkOut f w :: outs). split; [constructor; auto|]. split; [constructor; auto|]. split.
    + intros q. cbn [map sumN out_flamegraph]. rewrite H3, Ssz. symmetry. apply shown_app; auto.
      * apply trace_roots_wf.
      * apply trace_roots_wf.
      * apply well_declared_clean. repeat constructor; auto.
      * apply well_declared_clean. auto.
    + cbn [map sumN out_flamegraph]. rewrite total_app. lia.
Qed.

Lemma C21_joint_lemma l : Forall (keys_in made_by_new) l -> Forall well_declared l -> disjoint_pointers l ->
  unmixed (root_events l) -> total_declared (root_events l) < two63 ->
  exists o outs g, (forall m, profile m l = Some o) /\
    Forall2 (fun p o' => forall m, profile m [p] = Some o') l outs /\
    (forall m, merge_all m (map out_flamegraph outs) = Some g) /\
    fg_write g = fg_write (out_flamegraph o) /\
    (forall m, fg_total_size m g = fg_total_size m (out_flamegraph o)).
Proof.
  intros HK HF HD Hm Ht. destruct (joint_lemma HK HF HD Hm Ht) as (outs & H1 & H2 & H3 & H4).
  destruct (session HK Ht) as (f & w & Ef & [Sok Ssz Ssm _]).
  pose proof two63_lt_two64.
  destruct (@merge_fits (map out_flamegraph outs) fg_default) as (c & Hc & Hok & Hsz & _).
  { apply fg_ok_default. }
  { clear -H2. induction H2; cbn; constructor; auto. }
  { rewrite map_map. change (node_sum fg_default) with 0. lia. }
  exists (mkOut f w), outs, c. split; [exact Ef|]. split; [exact H1|]. split; [exact Hc|]. cbn [out_flamegraph].
  assert (Hs : forall p, size_at c p = size_at f p).
  { intros p. rewrite Hsz, Ssz, map_map, H3. destruct p; cbn [size_at fg_default fg_children fg_node_size map sumN]; lia. }
  split.
  - apply (@C05_history_lemma Debug c f); auto; now apply fg_ok_api.
  - intros m. apply (@C05_history_lemma m c f); auto; now apply fg_ok_api.
Qed.

(** ** size_of_unique *)
Lemma wrapped_step m a b : (do v <- wrapped m a; wrapped m (v + b)) = wrapped m (a + b).
Proof.
  destruct m; cbn [wrapped].
  - destruct (N.ltb_spec a two64); cbn [obind]; [reflexivity|]. destruct (N.ltb_spec (a + b) two64); [lia | reflexivity].
  - cbn [obind]. f_equal. apply N.add_mod_idemp_l. discriminate.
Qed.

Lemma wrapped_small m a : a < two64 -> wrapped m a = Some a.
Proof. intros H. destruct m; cbn; [destruct (N.ltb_spec a two64); [reflexivity|lia] | now rewrite N.mod_small]. Qed.

Lemma wrapped_lt m a v : wrapped m a = Some v -> v < two64.
Proof.
  destruct m; cbn; intros E.
  - destruct (N.ltb_spec a two64); inversion E; subst; auto.
  - inversion E. apply N.mod_lt. discriminate.
Qed.

Lemma run_so_spec m p : forall nk size, crash_free p -> size < two64 ->
  run_so m p nk size = wrapped m (size + unique_bytes p nk).
Proof.
  induction p as [| |k s body IHb rest IHr|k s body IHb rest IHr|k s x body IHb r1 IH1 r2 IH2];
    intros nk size Hc Hlt; cbn [crash_free run_so unique_bytes] in *.
  - now rewrite N.add_0_r, wrapped_small.
  - contradiction.
  - destruct Hc as [Hb Hr].
    assert (Hen : so_enter_inline m size k s nk = wrapped m (size + if is_NKUnique nk then s else 0)).
    { destruct nk; cbn [so_enter_inline is_NKUnique] in *; rewrite ?N.add_0_r; try (now rewrite wrapped_small). apply uadd_wrapped. }
    rewrite Hen. replace (size + ((if is_NKUnique nk then s else 0) + unique_bytes body NKInline + unique_bytes rest nk))
      with (size + (if is_NKUnique nk then s else 0) + unique_bytes body NKInline + unique_bytes rest nk) by lia.
    set (X := size + (if is_NKUnique nk then s else 0)).
    rewrite <- (wrapped_step m (X + unique_bytes body NKInline) (unique_bytes rest nk)).
    rewrite <- (wrapped_step m X (unique_bytes body NKInline)).
    destruct (wrapped m X) as [v|] eqn:Ev; [|reflexivity]. cbn [obind].
    rewrite IHb; auto; [|eapply wrapped_lt; eauto].
    destruct (wrapped m (v + unique_bytes body NKInline)) as [v'|] eqn:Ev'; [|reflexivity]. cbn [obind]. unfold so_exit.
    apply IHr; auto. eapply wrapped_lt; eauto.
  - destruct Hc as [Hb Hr]. unfold so_enter_unique. rewrite IHb by auto.
    rewrite N.add_assoc, <- (wrapped_step m (size + unique_bytes body NKUnique) (unique_bytes rest nk)).
    destruct (wrapped m (size + unique_bytes body NKUnique)) as [v'|] eqn:Ev'; [|reflexivity]. cbn [obind]. unfold so_exit.
    apply IHr; auto. eapply wrapped_lt; eauto.
  - destruct Hc as (_ & _ & Hr). unfold so_enter_shared. apply IH2; auto.
Qed.

Lemma run_so_rename m f g p : forall nk size, run_so m (rename f g p) nk size = run_so m p nk size.
Proof.
  induction p as [| |k s body IHb rest IHr|k s body IHb rest IHr|k s x body IHb r1 IH1 r2 IH2];
    intros nk size; cbn [rename run_so so_enter_shared]; auto.
  - unfold so_enter_inline. destruct (match nk with NKUnique => uadd m size s | _ => Some size end); [|reflexivity]. cbn [obind].
    rewrite IHb. destruct (run_so m body NKInline n); [|reflexivity]. cbn [obind]. apply IHr.
  - unfold so_enter_unique. rewrite IHb. destruct (run_so m body NKUnique size); [|reflexivity]. cbn [obind]. apply IHr.
Qed.

(** Shared pointers, being all "already visited", contribute nothing else. *)
Lemma unique_bytes_events p : forall vis here nk es vis' ok, crash_free p ->
  (forall x, In x (pointers p) -> ptr_mem x vis = true) ->
  trace k_str p vis here nk = (es, vis', ok) ->
  unique_bytes p nk = sumN (map (fun e => if is_NKUnique (ev_parent e) && is_NKInline (ev_kind e) then ev_size e else 0) es) /\ vis' = vis.
Proof.
  induction p as [| |k s body IHb rest IHr|k s body IHb rest IHr|k s x body IHb r1 IH1 r2 IH2];
    intros vis here nk es vis' ok Hc Hv E; cbn [crash_free pointers trace unique_bytes] in *.
  - inversion E; subst. auto.
  - contradiction.
  - destruct Hc as [Hb Hr]. pose proof (@crash_free_ok string k_str body vis (here ++ [k_str k]) NKInline Hb) as Hok.
    destruct (trace k_str body vis (here ++ [k_str k]) NKInline) as [[e1 v1] o1] eqn:E1. cbn in Hok. subst o1.
    destruct (IHb _ _ _ _ _ _ Hb (fun x Hx => Hv x (in_or_app _ _ _ (or_introl Hx))) E1) as [H1 ->].
    destruct (trace k_str rest vis here nk) as [[e2 v2] o2] eqn:E2.
    destruct (IHr _ _ _ _ _ _ Hr (fun x Hx => Hv x (in_or_app _ _ _ (or_intror Hx))) E2) as [H2 ->].
    inversion E; subst. split; [|reflexivity]. cbn [map sumN ev_parent ev_kind ev_size]. rewrite map_app, sumN_app, <- H1, <- H2.
    cbn [is_NKInline]. rewrite andb_true_r. lia.
  - destruct Hc as [Hb Hr]. pose proof (@crash_free_ok string k_str body vis (here ++ [k_str k]) NKUnique Hb) as Hok.
    destruct (trace k_str body vis (here ++ [k_str k]) NKUnique) as [[e1 v1] o1] eqn:E1. cbn in Hok. subst o1.
    destruct (IHb _ _ _ _ _ _ Hb (fun x Hx => Hv x (in_or_app _ _ _ (or_introl Hx))) E1) as [H1 ->].
    destruct (trace k_str rest vis here nk) as [[e2 v2] o2] eqn:E2.
    destruct (IHr _ _ _ _ _ _ Hr (fun x Hx => Hv x (in_or_app _ _ _ (or_intror Hx))) E2) as [H2 ->].
    inversion E; subst. split; [|reflexivity]. cbn [map sumN ev_parent ev_kind ev_size]. rewrite map_app, sumN_app, <- H1, <- H2.
    cbn [is_NKInline]. rewrite andb_false_r. lia.
  - destruct Hc as (_ & _ & Hr). rewrite (Hv x) in E by now left.
    destruct (trace k_str r2 vis here nk) as [[e2 v2] o2] eqn:E2.
    destruct (IH2 _ _ _ _ _ _ Hr (fun y Hy => Hv y (or_intror (in_or_app _ _ _ (or_intror (in_or_app _ _ _ (or_intror Hy)))))) E2) as [H2 ->].
    inversion E; subst. split; [|reflexivity]. cbn [map sumN ev_parent ev_kind ev_size is_NKInline]. rewrite andb_false_r, <- H2. lia.
Qed.

Lemma announced_events p : forall vis here nk es vis' ok, announced p nk ->
  trace k_str p vis here nk = (es, vis', ok) ->
  Forall (fun e => ev_parent e = NKUnique -> ev_kind e = NKInline) es.
Proof.
  induction p as [| |k s body IHb rest IHr|k s body IHb rest IHr|k s x body IHb r1 IH1 r2 IH2];
    intros vis here nk es vis' ok Hc E; cbn [announced trace] in *.
  - inversion E; subst. constructor.
  - inversion E; subst. constructor.
  - destruct Hc as [Hb Hr]. destruct (trace k_str body vis (here ++ [k_str k]) NKInline) as [[e1 v1] o1] eqn:E1.
    specialize (IHb _ _ _ _ _ _ Hb E1). destruct o1.
    + destruct (trace k_str rest v1 here nk) as [[e2 v2] o2] eqn:E2. specialize (IHr _ _ _ _ _ _ Hr E2).
      inversion E; subst. constructor; [auto | apply Forall_app; auto].
    + inversion E; subst. constructor; auto.
  - destruct Hc as (Hn & Hb & Hr). destruct (trace k_str body vis (here ++ [k_str k]) NKUnique) as [[e1 v1] o1] eqn:E1.
    specialize (IHb _ _ _ _ _ _ Hb E1). destruct o1.
    + destruct (trace k_str rest v1 here nk) as [[e2 v2] o2] eqn:E2. specialize (IHr _ _ _ _ _ _ Hr E2).
      inversion E; subst. constructor; [cbn; tauto | apply Forall_app; auto].
    + inversion E; subst. constructor; [cbn; tauto | auto].
  - destruct Hc as (Hn & Hb & H1 & H2). destruct (ptr_mem x vis).
    + destruct (trace k_str r2 vis here nk) as [[e2 v2] o2] eqn:E2. specialize (IH2 _ _ _ _ _ _ H2 E2).
      inversion E; subst. constructor; [cbn; tauto | auto].
    + destruct (trace k_str body (x :: vis) [] NKShared) as [[e1 v1] o1] eqn:E1.
      specialize (IHb _ _ _ _ _ _ Hb E1). destruct o1.
      * destruct (trace k_str r1 v1 here nk) as [[e2 v2] o2] eqn:E2. specialize (IH1 _ _ _ _ _ _ H1 E2).
        inversion E; subst. constructor; [cbn; tauto | apply Forall_app; auto].
      * inversion E; subst. constructor; [cbn; tauto | auto].
Qed.

Lemma no_shared_parents p : forall vis here nk es vis' ok, pointers p = [] ->
  trace k_str p vis here nk = (es, vis', ok) ->
  Forall (fun e => ev_parent e = nk \/ ev_parent e = NKInline \/ ev_parent e = NKUnique) es.
Proof.
  assert (Hw : forall nk k (es : list (ev string)), k = NKInline \/ k = NKUnique ->
    Forall (fun e => ev_parent e = k \/ ev_parent e = NKInline \/ ev_parent e = NKUnique) es ->
    Forall (fun e => ev_parent e = nk \/ ev_parent e = NKInline \/ ev_parent e = NKUnique) es).
  { intros nk k es Hk H. eapply Forall_impl; [|exact H]. cbn. intros e [->|He]; tauto. }
  induction p as [| |k s body IHb rest IHr|k s body IHb rest IHr|k s x body IHb r1 IH1 r2 IH2];
    intros vis here nk es vis' ok Hp E; cbn [pointers trace] in *.
  - inversion E; subst. constructor.
  - inversion E; subst. constructor.
  - apply app_eq_nil in Hp as [P1 P2]. destruct (trace k_str body vis (here ++ [k_str k]) NKInline) as [[e1 v1] o1] eqn:E1.
    specialize (IHb _ _ _ _ _ _ P1 E1). apply (Hw nk) in IHb; [|auto]. destruct o1.
    + destruct (trace k_str rest v1 here nk) as [[e2 v2] o2] eqn:E2. specialize (IHr _ _ _ _ _ _ P2 E2).
      inversion E; subst. constructor; [cbn; auto | apply Forall_app; auto].
    + inversion E; subst. constructor; cbn; auto.
  - apply app_eq_nil in Hp as [P1 P2]. destruct (trace k_str body vis (here ++ [k_str k]) NKUnique) as [[e1 v1] o1] eqn:E1.
    specialize (IHb _ _ _ _ _ _ P1 E1). apply (Hw nk) in IHb; [|auto]. destruct o1.
    + destruct (trace k_str rest v1 here nk) as [[e2 v2] o2] eqn:E2. specialize (IHr _ _ _ _ _ _ P2 E2).
      inversion E; subst. constructor; [cbn; auto | apply Forall_app; auto].
    + inversion E; subst. constructor; cbn; auto.
  - discriminate.
Qed.

Lemma C20_agree_lemma k s body : let p := VInline k s body VRet in
  keys_in made_by_new p -> crash_free p -> pointers p = [] -> well_declared p -> announced p NKRoot ->
  unmixed (root_events [p]) -> total_declared (root_events [p]) < two63 ->
  exists o n, forall m, profile m [p] = Some o /\ fg_total_size m (out_flamegraph o) = Some n /\ size_of_unique m s p = Some n.
Proof.
  intros p HK Hc Hp HF Ha Hm Ht.
  destruct (@C17_conservation_lemma [p]) as (o & n & H1 & _ & H2 & _ & H3); [constructor; [exact HK|constructor] | constructor; [exact HF|constructor] | exact Ht |].
  specialize (H3 Hm).
  assert (En : n = s + unique_bytes p NKRoot).
  { rewrite H3. unfold root_events. cbn [trace_roots p].
    destruct (trace k_str p [] [] NKRoot) as [[es v] ok] eqn:E. cbn [fst]. rewrite app_nil_r.
    destruct (@unique_bytes_events p [] [] NKRoot es v ok) as [-> _]; auto.
    { rewrite Hp. contradiction. }
    pose proof (@announced_events p _ _ _ _ _ _ Ha E) as Han.
    unfold p in E. cbn [trace app] in E.
    destruct (trace k_str body [] [k_str k] NKInline) as [[e1 v1] o1] eqn:E1.
    assert (Hpb : pointers body = []) by (cbn in Hp; now apply app_eq_nil in Hp).
    pose proof (@no_shared_parents body _ _ _ _ _ _ Hpb E1) as Hns.
    assert (Ees : es = mkEv [k_str k] NKInline NKRoot s :: e1) by (destruct o1; inversion E; subst; rewrite ?app_nil_r; reflexivity).
    subst es. unfold block_bytes. cbn [map sumN ev_parent ev_kind ev_size is_NKInline is_NKUnique andb]. rewrite N.add_0_l. f_equal.
    f_equal. inversion Han as [|? ? _ Han']; subst. apply map_ext_in. intros e He. rewrite Forall_forall in Hns, Han'.
    destruct (Hns e He) as [Q|[Q|Q]]; rewrite Q; cbn; auto. now rewrite (Han' e He Q). }
  exists o, n. intros m. split; [auto|]. split; [auto|].
  pose proof two63_lt_two64.
  assert (Hn : n < two64).
  { specialize (H2 Debug). unfold fg_total_size in H2. eapply uadd_lt; eauto. }
  unfold size_of_unique, size_of_unique_allocated_data. rewrite run_so_spec by (first [exact Hc | reflexivity]).
  rewrite N.add_0_l, wrapped_small by lia. cbn [obind]. unfold so_exit. rewrite uadd_exact by lia. now rewrite En.
Qed.
