(** * Totals of arbitrary profiles. *)
From Coq Require Import Permutation Sorted.
From Verif Require Import Base BaseFacts KeyModel KeyFacts HMap FlameModel BuilderModel VisitorModel Spec
  FlameFacts WriteFacts FlameExtra ArenaFacts RunFacts FinishFacts BuilderFacts EventFacts TraceFacts BuilderProps ConserveFacts HeapProps TotalSpec.

(** ** All stacks *)
Lemma shown_and_exceeds l : let es := root_events l in
  sumN (map (shown_s es) (paths_of es)) = block_bytes es + mixed_bytes es + sumN (map (exceeds es) (paths_of es)).
Proof.
  intros es. pose proof (trace_roots_wf l []) as Hwf. fold (root_events l) in Hwf. fold es in Hwf.
  assert (E1 : sumN (map (shown_s es) (paths_of es)) + sumN (map (inline_below_s es) (paths_of es)) =
    total_declared es + sumN (map (exceeds es) (paths_of es))).
  { rewrite <- sumN_map_add, <- sum_declared, <- sumN_map_add. f_equal. apply map_ext_in. intros p Hp.
    assert (p <> []) by (intros ->; now apply (wf_nonempty Hwf)).
    unfold shown_s, shown, exceeds, inline_below_s, declared_s. destruct p; [congruence|]. lia. }
  rewrite sum_inline_below, total_split in E1. unfold mixed_bytes.
  assert (E2 : sumN (map (child_share es) es) +
    sumN (map (fun e => if is_NKInline (ev_parent e) && unique_at string_dec es (removelast (ev_path e)) then ev_size e else 0) es) =
    sumN (map (fun e => if is_NKInline (ev_parent e) then ev_size e else 0) es)).
  { rewrite <- sumN_map_add. f_equal. apply map_ext_in. intros e He. now apply child_share_exact. }
  lia.
Qed.

(** Stacks with a warning are the ones that exceed. *)
Lemma exceeds_listed l L : NoDup L -> (forall p, In p L <-> misdeclared_s (root_events l) p) ->
  sumN (map (exceeds (root_events l)) (paths_of (root_events l))) = sumN (map (exceeds (root_events l)) L).
Proof.
  intros HN HL. pose proof (trace_roots_wf l []) as Hwf. fold (root_events l) in Hwf. set (es := root_events l) in *.
  assert (Hp : Permutation L (filter (fun p => 0 <? exceeds es p) (paths_of es))).
  { apply NoDup_Permutation; [exact HN | apply NoDup_filter, NoDup_nodup |]. intros p. rewrite filter_In, HL.
    unfold misdeclared_s, misdeclared, exceeds, inline_below_s, declared_s. rewrite N.ltb_lt. split.
    - intros [Hp Hlt]. split; [|lia]. unfold inline_below in Hlt. destruct (unique_at string_dec es p); [lia|].
      assert (Hd : 0 < declared_below string_dec es p) by lia. clear Hlt.
      assert (He : exists e, In e es /\ child_of string_dec (ev_path e) p = true).
      { unfold declared_below in Hd. clear - Hd. induction es as [|e es IH]; cbn [map sumN] in Hd; [lia|].
        destruct (child_of string_dec (ev_path e) p) eqn:E; [exists e; split; [now left | exact E]|].
        destruct IH as (e' & H1 & H2); [lia|]. exists e'. split; [now right | exact H2]. }
      destruct He as (e & He & Hc). rewrite Forall_forall in Hwf. destruct (Hwf e He) as (pre & a & E & H).
      rewrite E, child_of_snoc in Hc. destruct (path_dec string_dec pre p) as [->|]; [|discriminate].
      destruct H as [[_ ->]|[[_ ->]|(e' & H1 & H2 & _)]]; [congruence|congruence|].
      apply paths_of_In. eauto.
    - intros [Hin Hlt]. split; [intros ->; now apply (wf_nonempty Hwf) | lia]. }
  assert (Hsum : forall l l' : list path, Permutation l l' -> sumN (map (exceeds es) l) = sumN (map (exceeds es) l')).
  { induction 1; cbn; lia. }
  rewrite (Hsum _ _ Hp). clear Hp. induction (paths_of es) as [|p ps IH]; [reflexivity|]. cbn [filter map sumN].
  destruct (N.ltb_spec 0 (exceeds es p)); cbn [map sumN]; rewrite IH; lia.
Qed.

Lemma total_lemma l : Forall (keys_in made_by_new) l -> total_declared (root_events l) < two63 ->
  exists o L, (forall m, profile m l = Some o) /\
    out_warnings o = concat_str (map (warning_for (root_events l)) L) /\ NoDup L /\ (forall p, In p L <-> misdeclared_s (root_events l) p) /\
    (forall m, fg_total_size m (out_flamegraph o) =
       Some (block_bytes (root_events l) + mixed_bytes (root_events l) + sumN (map (exceeds (root_events l)) L))).
Proof.
  intros HK Ht. destruct (C12_exact_lemma HK Ht) as (o & H1 & _ & (L & H2 & _ & H3) & _).
  destruct (C13_warnings_lemma HK Ht) as (o' & L' & G1 & G2 & G3 & G4 & _).
  assert (o' = o) by (specialize (H1 Debug); specialize (G1 Debug); congruence). subst o'.
  assert (HN : NoDup L') by (apply sorted_NoDup; exact G3).
  exists o, L'. split; [exact H1|]. split; [exact G2|]. split; [exact HN|]. split; [exact G4|].
  intros m. rewrite H3, (sum_listing H2), <- (exceeds_listed HN G4). f_equal. apply shown_and_exceeds.
Qed.

Lemma unmixed_zero l : unmixed (root_events l) -> mixed_bytes (root_events l) = 0.
Proof.
  intros Hm. pose proof (trace_roots_wf l []) as Hwf. fold (root_events l) in Hwf. set (es := root_events l) in *.
  unfold mixed_bytes. apply sumN_map_zero. intros e He. rewrite Forall_forall in Hwf.
  destruct (is_NKInline (ev_parent e)) eqn:Ei; [|reflexivity]. cbn [andb].
  destruct (Hwf e He) as (pre & a & E & H). rewrite E, removelast_last.
  destruct (unique_at string_dec es pre) eqn:Hu; [|reflexivity]. apply unique_at_In in Hu as (e'' & G1 & G2 & G3).
  destruct H as [[H _]|[[H _]|(e' & H1 & H2 & H3 & H4)]]; [rewrite H in Ei; discriminate | rewrite H in Ei; discriminate|].
  specialize (Hm e' e'' H1 G1). rewrite G2, H2, H3, G3 in Hm. specialize (Hm eq_refl).
  destruct (ev_parent e); discriminate.
Qed.

(** ** Bounding the excess by the scopes *)
Definition room (here : path) (nk : node_kind) (n : N) (q : path) : N :=
  if is_NKInline nk then if path_dec string_dec here q then n else 0 else 0.

(** [x] distributes at most [n] over the stacks. *)
Definition at_most (x : path -> N) (n : N) : Prop := forall Q, NoDup Q -> sumN (map x Q) <= n.

Lemma at_most_zero : at_most (fun _ => 0) 0.
Proof. intros Q _. rewrite sumN_map_zero; [lia | auto]. Qed.
Lemma at_most_add x y n k : at_most x n -> at_most y k -> at_most (fun q => x q + y q) (n + k).
Proof. intros H1 H2 Q HQ. rewrite sumN_map_add. specialize (H1 Q HQ). specialize (H2 Q HQ). lia. Qed.
Lemma at_most_one p n : at_most (fun q => if path_dec string_dec p q then n else 0) n.
Proof.
  intros Q HQ. destruct (in_dec (list_eq_dec string_dec) p Q) as [H|H]; [rewrite sumN_select by auto; lia|].
  rewrite sumN_select_out by exact H. lia.
Qed.
Lemma at_most_le x n k : n <= k -> at_most x n -> at_most x k.
Proof. intros Hle H Q HQ. specialize (H Q HQ). lia. Qed.

Lemma overspends_books p : forall vis here nk es vis' ok, trace k_str p vis here nk = (es, vis', ok) ->
  exists x, at_most x (overspends p) /\ forall q, below_i es q <= declared_s es q + room here nk (spends p) q + x q.
Proof.
  assert (Hnil : forall q, below_i [] q = 0) by reflexivity.
  assert (Hstep : forall here nk (k : string) kind s w es1 es2 q (x1 x2 : path -> N) extra,
    below_i es1 q <= declared_s es1 q + (if path_dec string_dec (here ++ [k]) q then s + extra else 0) + x1 q ->
    below_i es2 q <= declared_s es2 q + room here nk w q + x2 q ->
    below_i (mkEv (here ++ [k]) kind nk s :: es1 ++ es2) q <=
    declared_s (mkEv (here ++ [k]) kind nk s :: es1 ++ es2) q + room here nk (s + w) q +
      ((if path_dec string_dec (here ++ [k]) q then extra else 0) + x1 q + x2 q)).
  { intros here nk k kind s w es1 es2 q x1 x2 extra H1 H2.
    rewrite below_i_cons, declared_s_cons, below_i_app, declared_s_app. cbn [ev_path ev_size ev_parent].
    rewrite child_of_snoc. unfold room in *. destruct (is_NKInline nk); cbn [andb];
      destruct (path_dec string_dec here q), (path_dec string_dec (here ++ [k]) q); lia. }
  assert (Hstep1 : forall here nk (k : string) kind s w es1 q (x1 : path -> N) extra,
    below_i es1 q <= declared_s es1 q + (if path_dec string_dec (here ++ [k]) q then s + extra else 0) + x1 q ->
    below_i (mkEv (here ++ [k]) kind nk s :: es1) q <=
    declared_s (mkEv (here ++ [k]) kind nk s :: es1) q + room here nk (s + w) q +
      ((if path_dec string_dec (here ++ [k]) q then extra else 0) + x1 q)).
  { intros here nk k kind s w es1 q x1 extra H1. rewrite <- (app_nil_r es1).
    pose proof (Hstep here nk k kind s w es1 [] q x1 (fun _ => 0) extra H1) as H. cbv beta in H. rewrite !N.add_0_r in H. apply H.
    rewrite Hnil. lia. }
  induction p as [| |k s body IHb rest IHr|k s body IHb rest IHr|k s y body IHb r1 IH1 r2 IH2];
    intros vis here nk es vis' ok E; cbn [trace spends overspends] in *.
  - inversion E; subst. exists (fun _ => 0). split; [apply at_most_zero|]. intros q. rewrite Hnil. lia.
  - inversion E; subst. exists (fun _ => 0). split; [apply at_most_zero|]. intros q. rewrite Hnil. lia.
  - destruct (trace k_str body vis (here ++ [k_str k]) NKInline) as [[e1 v1] o1] eqn:E1.
    destruct (IHb _ _ _ _ _ _ E1) as (x1 & A1 & B1). unfold room in B1. cbn [is_NKInline] in B1.
    assert (B1' : forall q, below_i e1 q <= declared_s e1 q +
      (if path_dec string_dec (here ++ [k_str k]) q then s + (spends body - s) else 0) + x1 q).
    { intros q. specialize (B1 q). destruct (path_dec string_dec (here ++ [k_str k]) q); lia. }
    destruct o1.
    + destruct (trace k_str rest v1 here nk) as [[e2 v2] o2] eqn:E2. inversion E; subst.
      destruct (IHr _ _ _ _ _ _ E2) as (x2 & A2 & B2).
      exists (fun q => (if path_dec string_dec (here ++ [k_str k]) q then spends body - s else 0) + x1 q + x2 q).
      split; [apply at_most_add; [apply at_most_add; [apply at_most_one | exact A1] | exact A2]|].
      intros q. apply Hstep; [apply B1' | apply B2].
    + inversion E; subst.
      exists (fun q => (if path_dec string_dec (here ++ [k_str k]) q then spends body - s else 0) + x1 q).
      split; [eapply at_most_le; [|apply at_most_add; [apply at_most_one | exact A1]]; lia|].
      intros q. apply Hstep1, B1'.
  - destruct (trace k_str body vis (here ++ [k_str k]) NKUnique) as [[e1 v1] o1] eqn:E1.
    destruct (IHb _ _ _ _ _ _ E1) as (x1 & A1 & B1). unfold room in B1. cbn [is_NKInline] in B1.
    assert (B1' : forall q, below_i e1 q <= declared_s e1 q + (if path_dec string_dec (here ++ [k_str k]) q then s + 0 else 0) + x1 q).
    { intros q. specialize (B1 q). destruct (path_dec string_dec (here ++ [k_str k]) q); lia. }
    assert (A0 : at_most (fun q => (if path_dec string_dec (here ++ [k_str k]) q then 0 else 0)) 0).
    { intros Q _. rewrite sumN_map_zero; [lia|]. intros q _. destruct (path_dec string_dec _ q); reflexivity. }
    destruct o1.
    + destruct (trace k_str rest v1 here nk) as [[e2 v2] o2] eqn:E2. inversion E; subst.
      destruct (IHr _ _ _ _ _ _ E2) as (x2 & A2 & B2). eexists. split; [|intros q; apply (Hstep _ _ _ _ _ _ _ _ q x1 x2 0); [apply B1' | apply B2]].
      apply at_most_add; [|exact A2]. eapply at_most_le; [|apply at_most_add; [exact A0 | exact A1]]. lia.
    + inversion E; subst. eexists. split;
        [|intros q; apply (Hstep1 here nk (k_str k) NKUnique s (spends rest) e1 q x1 0), B1'].
      eapply at_most_le; [|apply at_most_add; [exact A0 | exact A1]]. lia.
  - assert (A0 : at_most (fun q => (if path_dec string_dec (here ++ [k_str k]) q then 0 else 0)) 0).
    { intros Q _. rewrite sumN_map_zero; [lia|]. intros q _. destruct (path_dec string_dec _ q); reflexivity. }
    assert (Hroom : forall n n' q, n <= n' -> room here nk n q <= room here nk n' q).
    { intros n n' q Hle. unfold room. destruct (is_NKInline nk); [|lia]. destruct (path_dec string_dec here q); lia. }
    destruct (ptr_mem y vis).
    + destruct (trace k_str r2 vis here nk) as [[e2 v2] o2] eqn:E2. inversion E; subst.
      destruct (IH2 _ _ _ _ _ _ E2) as (x2 & A2 & B2). eexists.
      split; [|intros q; apply (Hstep here nk (k_str k) NKShared s (N.max (spends r1) (spends r2)) [] e2 q (fun _ => 0) x2 0); [rewrite Hnil; lia|]].
      * eapply at_most_le; [|apply at_most_add; [apply at_most_add; [exact A0 | apply at_most_zero] | exact A2]]. lia.
      * specialize (B2 q). specialize (Hroom (spends r2) (N.max (spends r1) (spends r2)) q (N.le_max_r _ _)). lia.
    + destruct (trace k_str body (y :: vis) [] NKShared) as [[e1 v1] o1] eqn:E1.
      destruct (IHb _ _ _ _ _ _ E1) as (x1 & A1 & B1). unfold room in B1. cbn [is_NKInline] in B1.
      assert (B1' : forall q, below_i e1 q <= declared_s e1 q + (if path_dec string_dec (here ++ [k_str k]) q then s + 0 else 0) + x1 q).
      { intros q. specialize (B1 q). destruct (path_dec string_dec (here ++ [k_str k]) q); lia. }
      destruct o1.
      * destruct (trace k_str r1 v1 here nk) as [[e2 v2] o2] eqn:E2. inversion E; subst.
        destruct (IH1 _ _ _ _ _ _ E2) as (x2 & A2 & B2). eexists.
        split; [|intros q; apply (Hstep here nk (k_str k) NKShared s (N.max (spends r1) (spends r2)) e1 e2 q x1 x2 0); [apply B1'|]].
        -- eapply at_most_le; [|apply at_most_add; [apply at_most_add; [exact A0 | exact A1] | exact A2]]. lia.
        -- specialize (B2 q). specialize (Hroom (spends r1) (N.max (spends r1) (spends r2)) q (N.le_max_l _ _)). lia.
      * inversion E; subst. eexists.
        split; [|intros q; apply (Hstep1 here nk (k_str k) NKShared s (N.max (spends r1) (spends r2)) e1 q x1 0), B1'].
        eapply at_most_le; [|apply at_most_add; [exact A0 | exact A1]]. lia.
Qed.

Lemma overspends_roots l : forall vis, exists x, at_most x (sumN (map overspends l)) /\
  forall q, below_i (fst (trace_roots k_str l vis)) q <= declared_s (fst (trace_roots k_str l vis)) q + x q.
Proof.
  induction l as [|p l IH]; intros vis; cbn [trace_roots map sumN].
  - exists (fun _ => 0). split; [apply at_most_zero|]. intros q. unfold below_i. cbn. lia.
  - destruct (trace k_str p vis [] NKRoot) as [[e1 v1] o1] eqn:E1. destruct (@overspends_books _ _ _ _ _ _ _ E1) as (x1 & A1 & B1).
    destruct (IH v1) as (x2 & A2 & B2). destruct (trace_roots k_str l v1) as [e2 v2]. cbn [fst] in *.
    exists (fun q => x1 q + x2 q). split; [now apply at_most_add|]. intros q. specialize (B1 q). specialize (B2 q).
    unfold room in B1. cbn [is_NKInline] in B1. rewrite below_i_app, declared_s_app. lia.
Qed.

Lemma exceeds_bounded l : sumN (map (exceeds (root_events l)) (paths_of (root_events l))) <= sumN (map overspends l).
Proof.
  pose proof (trace_roots_wf l []) as Hwf. fold (root_events l) in Hwf. destruct (overspends_roots l []) as (x & A & B).
  fold (root_events l) in B. set (es := root_events l) in *.
  eapply N.le_trans; [|apply (A (paths_of es)), NoDup_nodup]. apply sumN_le. intros p Hp.
  assert (p <> []) by (intros ->; now apply (wf_nonempty Hwf)).
  unfold exceeds, inline_below_s, inline_below. destruct (unique_at string_dec es p) eqn:Hu; [lia|].
  rewrite below_inline by auto. specialize (B p). lia.
Qed.

(** ** Consistent declarations do not overspend. *)
Lemma fits_spends p : forall c, fits p (Some c) -> spends p <= c.
Proof.
  induction p as [| |k s body IHb rest IHr|k s body IHb rest IHr|k s y body IHb r1 IH1 r2 IH2]; intros c H; cbn [fits spends option_map] in *; try lia.
  - destruct H as (H1 & _ & H3). apply IHr in H3. lia.
  - destruct H as (H1 & _ & H3). apply IHr in H3. lia.
  - destruct H as (H1 & _ & H3 & H4). apply IH1 in H3. apply IH2 in H4. lia.
Qed.
Lemma fits_overspends p : forall cap, fits p cap -> overspends p = 0.
Proof.
  induction p as [| |k s body IHb rest IHr|k s body IHb rest IHr|k s y body IHb r1 IH1 r2 IH2]; intros cap H; cbn [fits overspends] in *; try reflexivity.
  - destruct H as (_ & H2 & H3). pose proof (@fits_spends _ _ H2). apply IHb in H2. apply IHr in H3. lia.
  - destruct H as (_ & H2 & H3). apply IHb in H2. apply IHr in H3. lia.
  - destruct H as (_ & H2 & H3 & H4). apply IHb in H2. apply IH1 in H3. apply IH2 in H4. lia.
Qed.
