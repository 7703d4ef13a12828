(** * Lemmas for property C50. *)
From Coq Require Import Permutation Sorted.
From Verif Require Import Base BaseFacts KeyModel KeyFacts HMap FlameModel BuilderModel VisitorModel Spec TraceFacts BuilderProps
  ConserveFacts LayoutModel ImplModel ImplSpec ImplFacts StoreFacts StoreProps PropertiesImpl GrowthSpec.

#[local] Arguments key_new : simpl never.

Lemma root_events_later l l' : root_events (l ++ l') = root_events l ++ later_events l l'.
Proof.
  unfold root_events, later_events. rewrite trace_roots_app. destruct (trace_roots k_str l []) as [e1 v1]. cbn [fst snd].
  destruct (trace_roots k_str l' v1). reflexivity.
Qed.

Lemma untouched es p : ~ touches es p ->
  declared_s es p = 0 /\ declared_below string_dec es p = 0 /\ unique_at string_dec es p = false.
Proof.
  intros H.
  assert (A : forall e, In e es -> ev_path e <> p) by (intros e He E; apply H; exists e; auto).
  assert (B : forall e, In e es -> child_of string_dec (ev_path e) p = false).
  { intros e He. destruct (child_of string_dec (ev_path e) p) eqn:E; [|reflexivity]. exfalso. apply H. exists e. split; [exact He|]. right.
    unfold child_of in E. destruct (ev_path e) as [|x q] eqn:Eq; [discriminate|]. destruct (path_dec string_dec (removelast (x :: q)) p) as [<-|]; [|discriminate].
    exists (List.last (x :: q) EmptyString). apply app_removelast_last. discriminate. }
  split; [|split].
  - apply sumN_map_zero. intros e He. destruct (path_dec string_dec (ev_path e) p) as [E|]; [destruct (A e He E) | reflexivity].
  - apply sumN_map_zero. intros e He. now rewrite B.
  - destruct (unique_at string_dec es p) eqn:E; [|reflexivity]. apply unique_at_In in E as (e & He & Ep & _). destruct (A e He Ep).
Qed.

Lemma below_app es es' p : declared_below string_dec (es ++ es') p = declared_below string_dec es p + declared_below string_dec es' p.
Proof. unfold declared_below. now rewrite map_app, sumN_app. Qed.
Lemma unique_at_app es es' p : unique_at string_dec (es ++ es') p = unique_at string_dec es p || unique_at string_dec es' p.
Proof. apply existsb_app. Qed.

Lemma inline_untouched es es' p : ~ touches es' p -> inline_below_s (es ++ es') p = inline_below_s es p.
Proof.
  intros H. destruct (untouched H) as (_ & E2 & E3). unfold inline_below_s, inline_below. rewrite unique_at_app, E3, orb_false_r.
  destruct (unique_at string_dec es p); [reflexivity|]. rewrite below_app, E2. lia.
Qed.
Lemma declared_untouched es es' p : ~ touches es' p -> declared_s (es ++ es') p = declared_s es p.
Proof. intros H. destruct (untouched H) as (E1 & _). rewrite declared_s_app, E1. lia. Qed.
Lemma shown_untouched es es' p : ~ touches es' p -> shown_s (es ++ es') p = shown_s es p.
Proof.
  intros H. pose proof (@declared_untouched es es' p H) as E1. pose proof (@inline_untouched es es' p H) as E2.
  unfold shown_s, shown. destruct p; [reflexivity|]. unfold declared_s, inline_below_s in *. now rewrite E1, E2.
Qed.

Lemma total_prefix l l' : total_declared (root_events (l ++ l')) < two63 -> total_declared (root_events l) < two63.
Proof. rewrite root_events_later. unfold total_declared. rewrite map_app, sumN_app. lia. Qed.

Lemma C50_frame_lemma : forall l l', Forall (keys_in made_by_new) (l ++ l') ->
  total_declared (root_events (l ++ l')) < two63 ->
  exists o o', (forall m, profile m l = Some o) /\ (forall m, profile m (l ++ l') = Some o') /\
    (exists W W', out_warnings o = concat_str (map (warning_for (root_events l)) W) /\
       out_warnings o' = concat_str (map (warning_for (root_events (l ++ l'))) W') /\
       forall p, ~ touches (later_events l l') p ->
         size_at (out_flamegraph o') p = size_at (out_flamegraph o) p /\
         (In p W' <-> In p W) /\
         warning_for (root_events (l ++ l')) p = warning_for (root_events l) p).
Proof.
  intros l l' HK Ht. pose proof (@total_prefix l l' Ht) as Ht0. assert (HK0 := HK). apply Forall_app in HK0 as [HK0 _].
  destruct (C12_exact_lemma HK0 Ht0) as (o & H1 & H2 & _). destruct (C12_exact_lemma HK Ht) as (o' & H1' & H2' & _).
  destruct (C13_warnings_lemma HK0 Ht0) as (o1 & W & W1 & W2 & _ & W3 & _). destruct (C13_warnings_lemma HK Ht) as (o1' & W' & W1' & W2' & _ & W3' & _).
  assert (o1 = o) as -> by (specialize (H1 Debug); specialize (W1 Debug); congruence).
  assert (o1' = o') as -> by (specialize (H1' Debug); specialize (W1' Debug); congruence).
  exists o, o'. split; [exact H1|]. split; [exact H1'|]. exists W, W'. split; [exact W2|]. split; [exact W2'|].
  intros p Hp. rewrite H2, H2', W3, W3'. rewrite root_events_later.
  split; [now apply shown_untouched|].
  pose proof (@declared_untouched (root_events l) _ p Hp) as E1. pose proof (@inline_untouched (root_events l) _ p Hp) as E2.
  unfold misdeclared_s, misdeclared, warning_for. unfold declared_s, inline_below_s in *. rewrite E1, E2. tauto.
Qed.

(** ** Growth *)
Lemma below_le es p : Forall (ev_wf [] NKRoot es) es -> p <> [] -> unique_at string_dec es p = false ->
  declared_below string_dec es p = below_i es p.
Proof. apply below_inline. Qed.

Lemma later_wf l l' : Forall (ev_wf [] NKRoot (later_events l l')) (later_events l l').
Proof. apply trace_roots_wf. Qed.

Lemma shown_grows l l' p : Forall well_declared (l ++ l') ->
  shown_s (root_events l) p <= shown_s (root_events (l ++ l')) p.
Proof.
  intros HF. rewrite root_events_later. apply Forall_app in HF as [_ HF'].
  unfold shown_s, shown. destruct p as [|a p]; [lia|]. set (q := a :: p) in *.
  pose proof (declared_s_app (root_events l) (later_events l l') q) as E. unfold declared_s in E. rewrite E.
  unfold inline_below. rewrite unique_at_app, below_app.
  destruct (unique_at string_dec (root_events l) q) eqn:U1; cbn [orb]; [lia|].
  destruct (unique_at string_dec (later_events l l') q) eqn:U2; [lia|].
  rewrite (@below_le (later_events l l') q) by (auto using later_wf; discriminate).
  pose proof (@fits_roots l' (snd (trace_roots k_str l [])) HF' q) as X. fold (later_events l l') in X. unfold declared_s in X. lia.
Qed.

Lemma sum_incl (f : path -> N) (a : list path) : forall b, NoDup a -> incl a b -> sumN (map f a) <= sumN (map f b).
Proof.
  induction a as [|x a IH]; intros b Hn Hi; cbn [map sumN]; [lia|].
  assert (In x b) as (b1 & b2 & ->)%in_split by (apply Hi; now left). inversion Hn; subst.
  rewrite map_app, sumN_app. cbn [map sumN]. specialize (IH (b1 ++ b2)).
  rewrite map_app, sumN_app in IH. assert (sumN (map f a) <= sumN (map f b1) + sumN (map f b2)); [|lia].
  apply IH; [assumption|]. intros y Hy. specialize (Hi y (or_intror Hy)). rewrite in_app_iff in *. cbn in Hi. destruct Hi as [Hi|[->|Hi]]; auto. contradiction.
Qed.

Lemma total_grows l l' : Forall well_declared (l ++ l') ->
  sumN (map (shown_s (root_events l)) (paths_of (root_events l))) <=
  sumN (map (shown_s (root_events (l ++ l'))) (paths_of (root_events (l ++ l')))).
Proof.
  intros HF. transitivity (sumN (map (shown_s (root_events (l ++ l'))) (paths_of (root_events l)))).
  - apply sumN_le. intros p _. now apply shown_grows.
  - apply sum_incl; [apply NoDup_nodup|]. intros p. unfold paths_of. rewrite !nodup_In, root_events_later, map_app, in_app_iff. auto.
Qed.

Lemma C50_monotone_lemma : forall l l', Forall (keys_in made_by_new) (l ++ l') -> Forall well_declared (l ++ l') ->
  total_declared (root_events (l ++ l')) < two63 ->
  exists o o' n n', (forall m, profile m l = Some o /\ fg_total_size m (out_flamegraph o) = Some n) /\
    (forall m, profile m (l ++ l') = Some o' /\ fg_total_size m (out_flamegraph o') = Some n') /\
    (forall p, size_at (out_flamegraph o) p <= size_at (out_flamegraph o') p) /\ n <= n'.
Proof.
  intros l l' HK HF Ht. pose proof (@total_prefix l l' Ht) as Ht0. assert (HK0 := HK). apply Forall_app in HK0 as [HK0 _].
  destruct (C12_exact_lemma HK0 Ht0) as (o & H1 & H2 & (L & H3 & _ & H4) & _).
  destruct (C12_exact_lemma HK Ht) as (o' & H1' & H2' & (L' & H3' & _ & H4') & _).
  exists o, o', (sumN (map snd L)), (sumN (map snd L')). split; [auto|]. split; [auto|]. split.
  - intros p. rewrite H2, H2'. now apply shown_grows.
  - rewrite (sum_listing H3), (sum_listing H3'). now apply total_grows.
Qed.

Lemma C50_values_lemma : forall n h roots more, typed_store h -> Forall typed (roots ++ more) ->
  Forall (fun xo => map_free (snd (snd xo))) h -> Forall map_free (roots ++ more) ->
  total_declared (root_events (map (visit_in Debug n h) (roots ++ more))) < two63 ->
  exists o o' t t',
    (forall m, profile m (map (visit_in m n h) roots) = Some o /\ fg_total_size m (out_flamegraph o) = Some t) /\
    (forall m, profile m (map (visit_in m n h) (roots ++ more)) = Some o' /\ fg_total_size m (out_flamegraph o') = Some t') /\
    (forall p, size_at (out_flamegraph o) p <= size_at (out_flamegraph o') p) /\ t <= t'.
Proof.
  intros n h roots more Hh Hr Hmh Hmr Ht. assert (Hr0 := Hr). apply Forall_app in Hr0 as [Hr0 _].
  assert (Hd : Forall well_declared (map (visit_in Debug n h) (roots ++ more))).
  { rewrite Forall_map. rewrite Forall_forall in *. intros v Hv. apply visit_in_declared; auto. now rewrite Forall_forall. }
  pose proof (@visit_in_keys Debug n h (roots ++ more) Hh Hr) as Hk.
  rewrite map_app in *. destruct (C50_monotone_lemma Hk Hd Ht) as (o & o' & t & t' & H1 & H2 & H3).
  exists o, o', t, t'. split; [|split; [|exact H3]].
  - intros m. rewrite (@map_visit_in_mode m Debug) by auto. apply H1.
  - intros m. rewrite (@map_visit_in_mode m Debug) by auto. rewrite map_app. apply H2.
Qed.
