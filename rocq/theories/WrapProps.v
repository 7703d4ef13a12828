(** * Lemmas behind PropertiesWrap.v. *)
From Coq Require Import Permutation Sorted.
From Verif Require Import Base BaseFacts KeyModel KeyFacts HMap FlameModel BuilderModel VisitorModel Spec
  FlameFacts WriteFacts FlameExtra ArenaFacts RunFacts FinishFacts BuilderFacts EventFacts TraceFacts BuilderProps
  WrapSpec WrapRun WrapFinish WrapPanic WrapModes.

Notation s_winv := (winv string_dec k_str made_by_new).
Notation fits es := (forall p, declared_s es p < 2 ^ 64).

Lemma two64_pow : two64 = 2 ^ 64.
Proof. reflexivity. Qed.

(** ** Visits *)
Lemma wvisits m l : Forall (keys_in made_by_new) l -> (m = Debug -> fits (root_events l)) ->
  exists b ps, visit_roots m l b_default = (b, Done) /\ s_winv (root_events l) ps b /\ idle b /\ b_visited b = snd (trace_roots k_str l []).
Proof.
  intros HK Hf. unfold root_events in *. destruct (trace_roots k_str l []) as [es vis] eqn:E. cbn [fst snd] in *.
  destruct (@wb_default_ok string string_dec k_str made_by_new) as (Hb & Hi & Hv).
  destruct (@wvisit_roots_trace string string_dec k_str made_by_new made_by_new_inj m l b_default [] [[]] es vis)
    as (b & ps & Hr & Hb' & Hvis & Hi'); auto.
  exists b, ([[]] ++ ps). auto.
Qed.

Lemma ssorted_nodup (l : list path) : StronglySorted path_lt l -> NoDup l.
Proof.
  induction 1 as [|p l H IH Hp]; constructor; auto.
  intros Hin. rewrite Forall_forall in Hp. apply Hp in Hin. revert Hin. apply path_lt_irrefl.
Qed.

(** ** The listing and the paths of the arena *)
Lemma sum_listing es ps b L : s_winv es ps b -> listing (shown_wrapped_s es) L ->
  sumN (map snd L) = wbelow string_dec es ps [].
Proof.
  intros [Ha Hd _ _] [HL1 HL2]. unfold wbelow. cbn [FinishFacts.prefixb].
  set (sh := shown_wrapped_s es). change (shown_wrapped string_dec es) with sh.
  assert (E : sumN (map sh ps) = sumN (map snd (map (fun p => (p, sh p)) (filter (fun p => 0 <? sh p) ps)))).
  { clear. induction ps as [|p ps IH]; [reflexivity|]. cbn [map sumN filter].
    destruct (N.ltb_spec 0 (sh p)) as [H|H]; cbn [map sumN snd]; lia. }
  transitivity (sumN (map sh ps)); [|apply sumN_map_ext; reflexivity]. rewrite E. apply sumN_perm, Permutation_map, NoDup_Permutation.
  - apply (NoDup_map_inv fst), ssorted_nodup, HL1.
  - apply (NoDup_map_inv fst). rewrite map_map. cbn [fst]. rewrite map_id. apply NoDup_filter, (ar_nodup Ha).
  - intros [p n]. rewrite HL2, in_map_iff. split.
    + intros (Hp & Hn & Es). exists p. split; [unfold sh; congruence|]. apply filter_In. split.
      * destruct (in_dec (path_dec string_dec) p ps) as [|Hno]; [auto|]. exfalso.
        unfold shown_wrapped_s in Es. rewrite (@wshown_absent' string string_dec k_str made_by_new es ps (b_trees b) p Ha Hd Hno) in Es. lia.
      * apply N.ltb_lt. unfold sh. lia.
    + intros (q & Eq & Hin). inversion Eq; subst. apply filter_In in Hin as [_ Hpos]. apply N.ltb_lt in Hpos.
      split; [|auto]. intros ->. unfold sh, shown_wrapped_s in Hpos. cbn in Hpos. lia.
Qed.

(** ** What is returned *)
Record wreport (es : list (ev string)) (o : output) (L : list (path * N)) (W : list path) : Prop := {
  wr_sizes : forall p, size_at (out_flamegraph o) p = shown_wrapped_s es p;
  wr_listing : listing (shown_wrapped_s es) L;
  wr_text : fg_write (out_flamegraph o) = concat_str (map folded_line L);
  wr_total : fg_total_size Release (out_flamegraph o) = Some (low64 (sumN (map snd L)));
  wr_warnings : out_warnings o = concat_str (map (warning_wrapped es) W);
  wr_order : StronglySorted path_lt W;
  wr_flagged : forall p, In p W <-> flagged_wrapped_s es p;
}.

Lemma wfinish_report es ps b : s_winv es ps b -> idle b ->
  exists o L W, finish Release b = Some o /\ wreport es o L W.
Proof.
  intros Hb Hi.
  destruct (@wfinish_ok string string_dec k_str made_by_new made_by_new_inj (fun s => s) (fun k => eq_refl) Release es ps b Hb Hi)
    as (f & w & W & Ef & Hw); [discriminate | discriminate|].
  assert (Hsz : forall p, size_at f p = shown_wrapped_s es p).
  { intros p. apply (@wrapeq_small Release).
    - pose proof (ww_size Hw (fun a b H => H) p) as H. rewrite map_id in H. exact H.
    - apply (@size_at_lt Release), (ww_ok Hw).
    - apply wshown_lt. }
  pose proof (nonroot_lines_listing (ww_ok Hw)) as HL.
  exists (mkOut f w), (nonroot_lines f), W. split; [exact Ef|]. split; cbn [out_flamegraph out_warnings].
  - exact Hsz.
  - destruct HL as [HL1 HL2]. split; [exact HL1|]. intros p n. rewrite HL2, Hsz. reflexivity.
  - apply fg_write_lines.
  - rewrite (fg_total_wrapped (ww_ok Hw)). cbn [wrapped]. f_equal. rewrite low64_eq. f_equal.
    rewrite nonroot_sum. specialize (Hsz []). cbn [size_at] in Hsz. rewrite Hsz. unfold shown_wrapped_s. cbn. lia.
  - rewrite (ww_warn Hw). f_equal. apply map_ext. intros p. unfold wwline, warning_line, warning_wrapped.
    rewrite map_id. reflexivity.
  - pose proof (ww_sorted Hw made_by_new_inj) as H.
    assert (E : map (map (fun s : string => s)) W = W).
    { rewrite (map_ext _ (fun p => p)); [apply map_id | intros p; apply map_id]. }
    rewrite E in H. exact H.
  - intros p. rewrite (ww_in Hw). split; [intros (_ & H & _); exact H|]. intros H. split; [|split; [exact H | exists p; reflexivity]].
    destruct (in_dec (path_dec string_dec) p ps) as [|Hno]; [auto|]. exfalso. destruct H as [_ H].
    rewrite (@wown_absent string string_dec k_str made_by_new es ps (b_trees b) p (wi_arena Hb) (wi_data Hb) Hno) in H. lia.
Qed.

Lemma C61_release_lemma l : Forall (keys_in made_by_new) l ->
  exists o L W, profile Release l = Some o /\ wreport (root_events l) o L W.
Proof.
  intros HK. destruct (@wvisits Release l HK) as (b & ps & E & Hb & Hi & _); [discriminate|].
  destruct (wfinish_report Hb Hi) as (o & L & W & Ef & H). exists o, L, W. split; [|auto]. unfold profile. now rewrite E.
Qed.

(** Any keys: visits and finish never panic in a release build. *)
Lemma C61_visits_lemma l p : crash_free p ->
  exists b b' o, visit_roots Release l b_default = (b, Done) /\ visit_root Release p b = (b', Done) /\
    snd (root_visitor b') = Fine /\ finish Release b' = Some o.
Proof.
  intros Hc. destruct (trace_roots (fun k : key => k) l []) as [es vis] eqn:E.
  destruct (trace (fun k : key => k) p vis [] NKRoot) as [[es1 vis1] ok] eqn:E1.
  destruct (@wb_default_ok key key_dec (fun k => k) any_key) as (Hb & Hi & Hv).
  destruct (@wvisit_roots_trace key key_dec (fun k => k) any_key (fun k k' _ _ H => H) Release l b_default [] [[]] es vis)
    as (b & ps & Hr & Hb' & Hvis & Hi'); auto.
  { apply Forall_forall. intros q _. apply keys_any. }
  { discriminate. }
  destruct (@wvisit_root_trace key key_dec (fun k => k) any_key (fun k k' _ _ H => H) Release p b es ([[]] ++ ps) es1 vis1 ok)
    as (b1 & ps1 & R1 & Hb1 & Ev1 & Hi1); auto.
  { apply keys_any. }
  { now rewrite Hvis. }
  { discriminate. }
  destruct (@wfinish_ok key key_dec (fun k => k) any_key (fun k k' _ _ H => H) k_str (fun k => eq_refl) Release _ _ b1 Hb1 Hi1)
    as (f & w & L & Hf & _); [discriminate | discriminate|].
  assert (ok = true).
  { pose proof (@crash_free_ok key (fun k => k) p vis [] NKRoot Hc) as H. rewrite E1 in H. exact H. }
  subst ok. exists b, b1, (mkOut f w). split; [auto|]. split; [auto|]. split; [|auto].
  destruct Hi1 as (_ & _ & He). unfold root_visitor. now rewrite He.
Qed.

(** ** Debug builds *)
Lemma inline_absent es ps b p : s_winv es ps b -> ~ In p ps -> inline_below_s es p = 0.
Proof.
  intros [Ha Hd _ _] Hno. unfold inline_below_s, inline_below. destruct (unique_at string_dec es p); [reflexivity|].
  unfold declared_below. apply sumN_map_0. intros e He. unfold child_of.
  pose proof (dw_cover Hd He) as Hc. destruct (ev_path e) as [|c q] eqn:E; [reflexivity|].
  destruct (path_dec string_dec (removelast (c :: q)) p) as [E'|]; [|reflexivity]. exfalso. apply Hno.
  assert (Hne : c :: q <> []) by discriminate. destruct (exists_last Hne) as (q' & a' & E2). rewrite E2 in E', Hc.
  rewrite removelast_last in E'. subst q'. apply (arena_prefix Ha (q := [a'])). exact Hc.
Qed.

Lemma wfinish_debug es ps b L : s_winv es ps b -> idle b -> fits es -> listing (shown_wrapped_s es) L ->
  ((forall p, inline_below_s es p < 2 ^ 64) /\ sumN (map snd L) < 2 ^ 64 <-> finish Debug b <> None).
Proof.
  intros Hb Hi Hfit HL. rewrite <- two64_pow. rewrite (sum_listing Hb HL). split.
  - intros [H1 H2].
    destruct (@wfinish_ok string string_dec k_str made_by_new made_by_new_inj (fun s => s) (fun k => eq_refl) Debug es ps b Hb Hi)
      as (f & w & W & Ef & _); auto. rewrite Ef. discriminate.
  - destruct (finish Debug b) as [o|] eqn:Ef; [intros _|congruence].
    pose proof (finish_release Ef) as Er. destruct Hi as (Hc & Hs & He). pose proof Hb as [Ha Hd Hr _].
    unfold finish, finish_impl in Ef. rewrite Hs, Hc, He, Hr in Ef. cbn [ts_stack] in Ef.
    destruct (update_sizes Debug (S (length (b_trees b))) 0%nat (b_trees b)) as [t|] eqn:Eu; [|discriminate]. cbn [obind] in Ef.
    destruct (tree_write Debug (S (length t)) t 0%nat []) as [[f w]|] eqn:Ew; [|discriminate]. cbn [obind] in Ef.
    destruct (@update_sizes_some string string_dec k_str made_by_new made_by_new_inj es ps Hfit _ _ _ _ Ha Hd (ar_root Ha) _ _ (td_same_refl _) Eu)
      as [Hsame Hin].
    split.
    { intros p. destruct (in_dec (path_dec string_dec) p ps) as [Hp|Hp]; [exact (Hin p Hp)|].
      rewrite (inline_absent Hb Hp). apply two64_pos. }
    destruct (@wupdate_sizes_ok string string_dec k_str made_by_new made_by_new_inj (fun s => s) (fun k => eq_refl) Release es ps) with
      (fuel := S (length (b_trees b))) (t0 := b_trees b) (id := 0%nat) (p := @nil string) (t := b_trees b)
      as (t' & Eu' & _ & _ & Hright); auto; [discriminate | apply (ar_root Ha) | lia | apply td_same_refl |].
    rewrite (update_sizes_release Eu) in Eu'. inversion Eu'; subst t'.
    pose proof (arena_same Hsame Ha) as Ha'.
    assert (Hok : fg_ok Debug made_by_new f).
    { eapply (@tree_write_debug_ok made_by_new t); [| |exact Ew].
      - intros i td k c Ht Hk. apply (ar_child Ha' Ht Hk).
      - intros i td Ht. assert (Hp : exists p, nth_error ps i = Some p).
        { destruct (nth_error ps i) eqn:E; [eauto|]. apply nth_error_None in E. apply nth_error_lt in Ht.
          pose proof (ar_len Ha'). lia. }
        destruct Hp as [p Hp]. rewrite (Hright i (ex_intro _ p Hp) _ _ Hp Ht).
        pose proof (clamp64_range (signed64 (declared_s es p) - signed64 (inline_below_s es p))). unfold own_wrapped.
        rewrite two64_pow. change (declared string_dec) with declared_s. change (inline_below string_dec) with inline_below_s. lia. }
    destruct (@wfinish_ok string string_dec k_str made_by_new made_by_new_inj (fun s => s) (fun k => eq_refl) Release es ps b Hb
      (conj Hc (conj Hs He))) as (f' & w' & W & Ef' & Hw); [discriminate | discriminate|].
    assert (f' = f) by congruence. subst f'.
    assert (Hsz : forall p, size_at f p = shown_wrapped_s es p).
    { intros p. apply (@wrapeq_small Release).
      - pose proof (ww_size Hw (fun a b H => H) p) as H. rewrite map_id in H. exact H.
      - apply (@size_at_lt Release), (ww_ok Hw).
      - apply wshown_lt. }
    rewrite <- (sum_listing Hb HL).
    assert (L = nonroot_lines f).
    { eapply listing_unique; [|exact HL|exact (nonroot_lines_listing Hok)]. intros p _. symmetry. apply Hsz. }
    subst L. rewrite nonroot_sum, node_sum_csum. destruct (fg_ok_debug Hok). lia.
Qed.

Lemma C61_debug_lemma l : Forall (keys_in made_by_new) l -> fits (root_events l) ->
  exists o L, profile Release l = Some o /\ listing (shown_wrapped_s (root_events l)) L /\
    ((forall p, inline_below_s (root_events l) p < 2 ^ 64) /\ sumN (map snd L) < 2 ^ 64 -> profile Debug l = Some o) /\
    (~ ((forall p, inline_below_s (root_events l) p < 2 ^ 64) /\ sumN (map snd L) < 2 ^ 64) -> profile Debug l = None).
Proof.
  intros HK Hf. destruct (C61_release_lemma HK) as (o & L & W & Eo & HW).
  destruct (@wvisits Debug l HK) as (b & ps & E & Hb & Hi & _); [auto|].
  exists o, L. split; [auto|]. split; [apply HW|].
  pose proof (wfinish_debug Hb Hi Hf (wr_listing HW)) as Hiff.
  assert (Ep : profile Debug l = finish Debug b) by (unfold profile; now rewrite E).
  rewrite <- Ep in Hiff. split.
  - intros H. apply Hiff in H. destruct (profile Debug l) as [o'|] eqn:E'; [|congruence].
    apply profile_modes in E'. congruence.
  - intros H. destruct (profile Debug l) as [o'|]; [|auto]. exfalso. apply H, Hiff. discriminate.
Qed.

(** The visit that makes a stack's declared size overflow. *)
Lemma C61_overflow_lemma l p : Forall (keys_in made_by_new) (l ++ [p]) -> fits (root_events l) -> ~ fits (root_events (l ++ [p])) ->
  exists b b', visit_roots Debug l b_default = (b, Done) /\ visit_root Debug p b = (b', Unwinding) /\
    snd (root_visitor b') = Panicked /\ (forall m, finish m b' = None).
Proof.
  intros HK Hf Hno. apply Forall_app in HK as [HKl HKp]. inversion HKp as [|? ? Hp _]; subst.
  destruct (@wvisits Debug l HKl) as (b & ps & E & Hb & Hi & Hv); [auto|].
  unfold root_events in Hno. rewrite trace_roots_app in Hno.
  unfold root_events in Hb, Hf. destruct (trace_roots k_str l []) as [es vis] eqn:El. cbn [fst snd trace_roots] in *.
  destruct (trace k_str p vis [] NKRoot) as [[es1 vis1] ok] eqn:Et. cbn [fst] in Hno. rewrite app_nil_r in Hno.
  rewrite <- Hv in Et.
  destruct (@visit_root_over string string_dec k_str made_by_new made_by_new_inj (fun s => s) (fun k => eq_refl) p b es ps es1 vis1 ok Hp Hb Hi Et Hf Hno)
    as (b' & H1 & H2 & H3).
  exists b, b'. auto.
Qed.

Lemma C61_fits_lemma l p : Forall (keys_in made_by_new) (l ++ [p]) -> crash_free p -> fits (root_events (l ++ [p])) ->
  exists b b', visit_roots Debug l b_default = (b, Done) /\ visit_root Debug p b = (b', Done) /\ snd (root_visitor b') = Fine.
Proof.
  intros HK Hc Hf. apply Forall_app in HK as [HKl HKp]. inversion HKp as [|? ? Hp _]; subst.
  unfold root_events in Hf. rewrite trace_roots_app in Hf.
  destruct (@wvisits Debug l HKl) as (b & ps & E & Hb & Hi & Hv).
  { intros _ q. specialize (Hf q). unfold root_events. destruct (trace_roots k_str l []) as [es vis]. cbn [fst].
    destruct (trace_roots k_str [p] vis) as [es1 vis1]. cbn [fst] in Hf. unfold declared_s in *. rewrite declared_app in Hf. lia. }
  unfold root_events in Hb. destruct (trace_roots k_str l []) as [es vis] eqn:El. cbn [fst snd trace_roots] in *.
  destruct (trace k_str p vis [] NKRoot) as [[es1 vis1] ok] eqn:Et. cbn [fst] in Hf. rewrite app_nil_r in Hf.
  pose proof (@crash_free_ok string k_str p vis [] NKRoot Hc) as Hok. rewrite Et in Hok. cbn in Hok. subst ok.
  rewrite <- Hv in Et.
  destruct (@wvisit_root_trace string string_dec k_str made_by_new made_by_new_inj Debug p b es ps es1 vis1 true Hp Hb Hi Et)
    as (b' & ps' & H1 & _ & _ & (_ & _ & H2)); [intros _; exact Hf|].
  exists b, b'. split; [auto|]. split; [auto|]. unfold root_visitor. now rewrite H2.
Qed.

(** ** When the wrapped numbers are the true ones *)
Lemma signed64_small n : n < 2 ^ 63 -> signed64 n = Z.of_N n.
Proof. intros H. unfold signed64, low64. rewrite N.mod_small by lia. destruct (N.ltb_spec n (2 ^ 63)); lia. Qed.

Lemma signed64_fit n : n < 2 ^ 64 -> signed64 n = if n <? 2 ^ 63 then Z.of_N n else (Z.of_N n - 2 ^ 64)%Z.
Proof. intros H. unfold signed64, low64. now rewrite N.mod_small by lia. Qed.

Lemma C61_small_lemma es p : declared_s es p < 2 ^ 63 -> inline_below_s es p < 2 ^ 63 ->
  shown_wrapped_s es p = shown_s es p /\ (flagged_wrapped_s es p <-> misdeclared_s es p) /\
  (misdeclared_s es p -> warning_wrapped es p = warning_for es p).
Proof.
  intros H1 H2. unfold shown_wrapped_s, shown_wrapped, flagged_wrapped_s, flagged_wrapped, warning_wrapped, own_wrapped_s, own_wrapped.
  change (declared string_dec) with declared_s. change (inline_below string_dec) with inline_below_s.
  rewrite (signed64_small H1), (signed64_small H2). unfold misdeclared_s, misdeclared, shown_s, shown.
  change (declared string_dec) with declared_s. change (inline_below string_dec) with inline_below_s.
  assert (E : clamp64 (Z.of_N (declared_s es p) - Z.of_N (inline_below_s es p)) = (Z.of_N (declared_s es p) - Z.of_N (inline_below_s es p))%Z).
  { unfold clamp64. destruct (Z.ltb_spec (Z.of_N (declared_s es p) - Z.of_N (inline_below_s es p)) (- 2 ^ 63)); [lia|].
    destruct (Z.leb_spec (2 ^ 63) (Z.of_N (declared_s es p) - Z.of_N (inline_below_s es p))); lia. }
  rewrite E. split; [destruct p; [reflexivity|lia]|]. split; [split; intros [H3 H4]; split; auto; lia|].
  intros _. unfold warning_for. replace (low64 (declared_s es p)) with (declared_s es p) by (unfold low64; symmetry; apply N.mod_small; lia).
  replace (Z.of_N (declared_s es p) - (Z.of_N (declared_s es p) - Z.of_N (inline_below_s es p)))%Z
      with (Z.of_N (inline_below_s es p)) by lia. now rewrite show_Z_N.
Qed.

(** A correctly declared stack shows its true own bytes iff both numbers are on
    the same side of 2^63, or ...; otherwise it is reported as wrong and shows
    nothing. *)
Lemma C61_true_lemma es p : p <> [] -> declared_s es p < 2 ^ 64 -> inline_below_s es p <= declared_s es p ->
  (declared_s es p < 2 ^ 63 \/ 2 ^ 63 <= inline_below_s es p ->
     shown_wrapped_s es p = shown_s es p /\ ~ flagged_wrapped_s es p) /\
  (inline_below_s es p < 2 ^ 63 <= declared_s es p ->
     shown_wrapped_s es p = 0 /\ flagged_wrapped_s es p /\ 0 < shown_s es p).
Proof.
  intros Hp H1 H2. unfold shown_wrapped_s, shown_wrapped, flagged_wrapped_s, flagged_wrapped, own_wrapped, shown_s, shown.
  change (declared string_dec) with declared_s. change (inline_below string_dec) with inline_below_s.
  rewrite (signed64_fit H1), (@signed64_fit (inline_below_s es p)) by lia.
  set (d := declared_s es p) in *. set (i := inline_below_s es p) in *. clearbody d i. unfold clamp64.
  destruct p as [|a p]; [contradiction|].
  split; intros H3; destruct (N.ltb_spec d (2 ^ 63)); destruct (N.ltb_spec i (2 ^ 63)); try lia;
  match goal with |- context [(?z <? - 2 ^ 63)%Z] =>
    destruct (Z.ltb_spec z (- 2 ^ 63)); [try lia|]; destruct (Z.leb_spec (2 ^ 63) z); try lia end;
  repeat split; try discriminate; lia.
Qed.
