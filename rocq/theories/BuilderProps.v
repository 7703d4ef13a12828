(** * Lemmas behind PropertiesBuilder.v. *)
From Coq Require Import Permutation Sorted.
From Verif Require Import Base BaseFacts KeyModel KeyFacts HMap FlameModel BuilderModel VisitorModel Spec
  FlameFacts WriteFacts ParseFacts FlameExtra ArenaFacts RunFacts FinishFacts BuilderFacts EventFacts TraceFacts.

Lemma last_root l p : total_declared (root_events (l ++ [p])) < two63 ->
  exists b b' o, (forall m, visit_roots m l b_default = (b, Done)) /\
    (forall m, visit_root m p b = (b', if snd (trace k_str p (snd (trace_roots k_str l [])) [] NKRoot) then Done else Unwinding)) /\
    (forall m, visit_roots m (l ++ [p]) b_default = (b', Done)) /\
    idle b' /\ (forall m, finish m b' = Some o).
Proof.
  intros Htot. pose proof Htot as Htot0. rewrite <- total_root_events in Htot. rewrite trace_roots_app in Htot.
  destruct (trace_roots (fun k : key => k) l []) as [es vis] eqn:E. cbn [trace_roots] in Htot.
  destruct (trace (fun k : key => k) p vis [] NKRoot) as [[es1 vis1] ok] eqn:E1. cbn [fst] in Htot. rewrite app_nil_r in Htot.
  assert (Et : total_declared es < two64 /\ total_declared (es ++ es1) < two64).
  { pose proof two63_lt_two64. split; [rewrite total_app in Htot |]; lia. }
  destruct Et as [Ht1 Ht2].
  destruct (@b_default_ok key key_dec (fun k => k) any_key) as (Hb & Hi & Hv).
  destruct (@visit_roots_trace key key_dec (fun k => k) any_key (fun k k' _ _ H => H) l b_default [] [[]] es vis)
    as (b & ps & Hr & Hb' & Hvis & Hi'); auto.
  { apply Forall_forall. intros q _. apply keys_any. }
  destruct (@visit_root_trace key key_dec (fun k => k) any_key (fun k k' _ _ H => H) p b es ([[]] ++ ps) es1 vis1 ok)
    as (b1 & ps1 & R1 & Hb1 & Ev1 & Hi1); auto.
  { apply keys_any. }
  { now rewrite Hvis. }
  destruct (@finish_ok key key_dec (fun k => k) any_key (fun k k' _ _ H => H) k_str (fun k => eq_refl) _ _ _ Hb1 Hi1)
      as (f & w & L & Hf & _); [exact Htot|].
  assert (Eok : snd (trace k_str p (snd (trace_roots k_str l [])) [] NKRoot) = ok).
  { change k_str with (fun k : key => k_str ((fun k : key => k) k)).
    rewrite (trace_roots_map (fun k : key => k) k_str), E. cbn [snd].
    pose proof (trace_map (fun k : key => k) k_str p vis [] NKRoot) as Em. cbn [map] in Em. rewrite Em, E1. reflexivity. }
  assert (Happ : forall m l' b0, visit_roots m (l' ++ [p]) b0 = match visit_roots m l' b0 with
    | (b, Done) => visit_roots m [p] b | r => r end).
  { intros m l'. induction l' as [|q l' IH]; intros b0; cbn [app visit_roots]; [reflexivity|].
    destruct (visit_root m q b0) as [b2 [| |]]; auto. }
  exists b, b1, (mkOut f w). rewrite Eok. repeat split; auto; try apply Hi1.
  intros m. rewrite Happ, Hr. cbn [visit_roots]. rewrite R1. destruct ok; reflexivity.
Qed.

Lemma C10_accepted_lemma l p : crash_free p -> total_declared (root_events (l ++ [p])) < two63 ->
  exists b b' o, forall m,
    visit_roots m l b_default = (b, Done) /\ visit_root m p b = (b', Done) /\
    snd (root_visitor b') = Fine /\ finish m b' = Some o.
Proof.
  intros Hc Htot. destruct (@last_root l p Htot) as (b & b' & o & H1 & H2 & H3 & (_ & _ & Hi) & H4).
  exists b, b', o. intros m. rewrite H1, H2, H4, crash_free_ok by auto.
  unfold root_visitor. rewrite Hi. auto.
Qed.

Lemma C12_exact_lemma l : Forall (keys_in made_by_new) l -> total_declared (root_events l) < two63 ->
  exists o, (forall m, profile m l = Some o) /\
    (forall p, size_at (out_flamegraph o) p = shown_s (root_events l) p) /\
    (exists L, listing (shown_s (root_events l)) L /\
       fg_write (out_flamegraph o) = concat_str (map folded_line L) /\
       forall m, fg_total_size m (out_flamegraph o) = Some (sumN (map snd L))) /\
    (forall m, fg_api m made_by_new (out_flamegraph o)).
Proof.
  intros HK Ht. destruct (session HK Ht) as (f & w & E & [Hok Hsz Hsum Hw]).
  exists (mkOut f w). cbn [out_flamegraph].
  assert (Hapi : forall m, fg_api m made_by_new f) by (intros m; now apply fg_ok_api).
  repeat split; auto.
  destruct (C04_write_is_listing_lemma (Hapi Debug)) as (L & H1 & H2 & H3).
  exists L. split; [|split; [exact H2|]].
  - destruct H1 as [HL1 HL2]. split; [exact HL1|]. intros p n. rewrite HL2, Hsz. reflexivity.
  - assert (Hf0 : size_at f [] = 0) by (rewrite Hsz; reflexivity).
    intros m. rewrite (@C01_total_size_exact_lemma m f f).
    + rewrite <- H3, Hf0, N.add_0_r in *. unfold wrapped. pose proof two63_lt_two64.
      destruct m; [destruct (N.ltb_spec (sumN (map snd L)) two64); [reflexivity|lia] | now rewrite N.mod_small by lia].
    + clear -Hapi. specialize (Hapi m). induction Hapi as [|f n g H IH Hn E|f k c g H1 IH1 Hk H2 IH2 E|f c g H1 IH1 H2 IH2 E].
      * constructor.
      * eapply api_add_self; eauto.
      * refine (api_add_child IH1 _ IH2 E). exact I.
      * eapply api_add; [exact IH1 | exact IH2 | exact E].
    + constructor.
Qed.

Lemma C13_warnings_lemma l : Forall (keys_in made_by_new) l -> total_declared (root_events l) < two63 ->
  exists o L, (forall m, profile m l = Some o) /\
    out_warnings o = concat_str (map (warning_for (root_events l)) L) /\
    StronglySorted path_lt L /\ (forall p, In p L <-> misdeclared_s (root_events l) p) /\
    (out_warnings o = EmptyString <-> forall p, ~ misdeclared_s (root_events l) p).
Proof.
  intros HK Ht. destruct (session HK Ht) as (f & w & E & [Hok Hsz Hsum (L & Hw & Hs & Hin)]).
  exists (mkOut f w), L. cbn [out_warnings]. split; [auto|]. split; [auto|]. split; [auto|]. split; [auto|]. split.
  - intros Hw0 p Hp. apply Hin in Hp. subst w. destruct L as [|q L]; [contradiction|]. cbn in Hw0. discriminate.
  - intros Hno. destruct L as [|q L]; [exact Hw|]. exfalso. apply (Hno q), Hin. now left.
Qed.

Lemma C14_top_level_lemma m l ks k s x body :
  Forall (keys_in made_by_new) (l ++ [nest ks (VShared k s x body VRet VRet)]) ->
  ~ In x (flat_map pointers l) -> ~ In x (pointers body) ->
  total_declared (root_events (l ++ [nest ks (VShared k s x body VRet VRet)])) < two63 ->
  option_map (observe_output m) (profile m (l ++ [nest ks (VShared k s x body VRet VRet)])) =
  option_map (observe_output m) (profile m (l ++ [nest ks (VInline k s VRet VRet); body])).
Proof.
  intros HK Hl Hb Ht. destruct (like_books (@shared_first_books l ks k s x body Hl Hb)) as [H1 H2].
  apply profile_ext; auto; [|now rewrite <- H2].
  apply Forall_app in HK as [HK1 HK2]. apply Forall_app. split; [auto|].
  inversion HK2 as [|? ? H3 _]; subst. apply keys_nest in H3 as [H3 H4]. cbn in H4.
  repeat constructor; [apply keys_nest; cbn; tauto | tauto].
Qed.

Lemma C14_again_lemma m l ks k s x body r1 r2 : visited_by l x ->
  Forall (keys_in made_by_new) (l ++ [nest ks (VShared k s x body r1 r2)]) ->
  total_declared (root_events (l ++ [nest ks (VShared k s x body r1 r2)])) < two63 ->
  option_map (observe_output m) (profile m (l ++ [nest ks (VShared k s x body r1 r2)])) =
  option_map (observe_output m) (profile m (l ++ [nest ks (VInline k s VRet r2)])).
Proof.
  intros Hx HK Ht. destruct (like_books (@shared_again_books l ks k s x body r1 r2 Hx)) as [H1 H2].
  apply profile_ext; auto; [|now rewrite <- H2].
  apply Forall_app in HK as [HK1 HK2]. apply Forall_app. split; [auto|].
  inversion HK2 as [|? ? H3 _]; subst. apply keys_nest in H3 as [H3 H4]. cbn in H4.
  repeat constructor. apply keys_nest; cbn; tauto.
Qed.

Lemma C22_modes_lemma l : total_declared (root_events l) < two63 ->
  exists o, forall m, profile m l = Some o.
Proof.
  intros Ht. destruct (@session_any l Ht) as (b & o & H1 & _ & H2). exists o. intros m.
  unfold profile. now rewrite H1.
Qed.

(** A single crash: what is recorded is an initial part of what the visit
    would have recorded. *)
Lemma C23_recorded_lemma l p q l' : cut p q ->
  exists es rest, root_events (l ++ [q]) = root_events l ++ es /\
    root_events (l ++ [p]) = root_events l ++ es ++ rest /\
    exists es', root_events (l ++ q :: l') = root_events l ++ es ++ es'.
Proof.
  intros Hc. unfold root_events. rewrite !trace_roots_app.
  destruct (trace_roots k_str l []) as [e v]. cbn [trace_roots].
  destruct (cut_prefix k_str Hc v [] NKRoot) as (es2 & H1 & _).
  destruct (trace k_str p v [] NKRoot) as [[e1 v1] o1]. destruct (trace k_str q v [] NKRoot) as [[e1' v1'] o1'].
  cbn [fst snd] in *. subst e1. exists e1', es2. rewrite !app_nil_r. cbn [fst].
  split; [reflexivity|]. split; [reflexivity|].
  destruct (trace_roots k_str l' v1') as [e3 v3]. cbn [fst]. eauto.
Qed.

Lemma C23_usable_lemma l q : total_declared (root_events (l ++ [q])) < two63 ->
  exists b b' o, forall m, visit_roots m l b_default = (b, Done) /\
    (visit_root m q b = (b', Done) \/ visit_root m q b = (b', Unwinding)) /\
    snd (root_visitor b') = Fine /\ finish m b' = Some o.
Proof.
  intros Htot. destruct (@last_root l q Htot) as (b & b' & o & H1 & H2 & H3 & (_ & _ & Hi) & H4).
  exists b, b', o. intros m. rewrite H1, H2, H4. unfold root_visitor. rewrite Hi.
  destruct (snd _); auto.
Qed.
