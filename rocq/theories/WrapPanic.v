(** * When a debug build panics over sizes: visits and finish(). *)
From Coq Require Import Permutation Sorted.
From Verif Require Import Base BaseFacts KeyModel KeyFacts HMap FlameModel BuilderModel VisitorModel Spec FlameFacts WriteFacts
  ArenaFacts RunFacts FinishFacts EventFacts WrapSpec WrapRun WrapFinish.

(** ** A successful debug finish is also the release one *)
Lemma usum_debug_release l : forall a r, usum Debug a l = Some r -> usum Release a l = Some r.
Proof.
  induction l as [|x l IH]; intros a r; cbn [usum]; [auto|].
  destruct (uadd Debug a x) as [c|] eqn:E; [|discriminate]. cbn [obind]. rewrite (uadd_debug_release E). cbn [obind]. apply IH.
Qed.

Lemma us_loop_imp f g l : (forall c t r, f c t = Some r -> g c t = Some r) ->
  forall t r, us_loop f l t = Some r -> us_loop g l t = Some r.
Proof.
  intros H. induction l as [|[k c] l IH]; intros t r; cbn [us_loop]; [auto|].
  destruct (f c t) as [t1|] eqn:E; [|discriminate]. rewrite (H _ _ _ E). cbn [obind]. apply IH.
Qed.

Lemma update_sizes_release fuel : forall id t r,
  update_sizes Debug fuel id t = Some r -> update_sizes Release fuel id t = Some r.
Proof.
  induction fuel as [|fuel IH]; intros id t r; [discriminate|]. rewrite !update_sizes_eq.
  destruct (tree_get t id) as [td|]; [|discriminate]. cbn [obind].
  destruct (us_loop (update_sizes Debug fuel) (td_children td) t) as [t1|] eqn:E; [|discriminate].
  rewrite (us_loop_imp IH E). cbn [obind]. destruct (tree_get t1 id) as [td1|]; [|discriminate]. cbn [obind].
  destruct (td_unique td1); [auto|].
  destruct (get_sizes t1 (td_children td1)) as [sizes|]; [|discriminate]. cbn [obind].
  destruct (usum Debug 0 sizes) as [cs|] eqn:Es; [|discriminate]. now rewrite (usum_debug_release Es).
Qed.

Lemma finish_release b o : finish Debug b = Some o -> finish Release b = Some o.
Proof.
  unfold finish, finish_impl. destruct (b_shared b); [|discriminate]. destruct (ts_stack (b_current b)); [|discriminate].
  destruct (b_entered b); [discriminate|].
  destruct (update_sizes Debug (S (length (b_trees b))) (b_root b) (b_trees b)) as [t|] eqn:E; [|discriminate].
  rewrite (update_sizes_release E). cbn [obind].
  destruct (tree_write Debug (S (length t)) t (b_root b) []) as [[f w]|] eqn:Ew; [|discriminate].
  now rewrite (tree_write_release Ew).
Qed.

Section Panic.
  Variable A : Type.
  Variable A_dec : forall x y : A, {x = y} + {x <> y}.
  Variable name : key -> A.
  Variable K : key -> Prop.
  Hypothesis name_inj : forall k k', K k -> K k' -> name k = name k' -> k = k'.
  Variable astr : A -> string.
  Hypothesis astr_name : forall k, astr (name k) = k_str k.

  Notation pth := (list A).
  Notation arena_ok := (arena_ok name K).
  Notation data_w := (data_w A_dec).
  Notation declared := (declared A_dec).
  Notation unique_at := (unique_at A_dec).
  Notation inline_below := (inline_below A_dec).
  Notation winv := (winv A_dec name K).
  Notation trace := (trace name).
  Notation fitting es := (forall q, declared es q < two64).

  (** ** What a successful debug update_sizes tells *)
  Lemma update_sizes_some es ps : fitting es -> forall fuel t0 id p,
    arena_ok ps t0 -> data_w es ps t0 -> nth_error ps id = Some p ->
    forall t t', Forall2 td_same t0 t -> update_sizes Debug fuel id t = Some t' ->
    Forall2 td_same t t' /\ forall q, In (p ++ q) ps -> inline_below es (p ++ q) < two64.
  Proof.
    intros Hfit. induction fuel as [|fuel IH]; intros t0 id p Ha Hd Hp t t' Hs E; [discriminate|].
    rewrite update_sizes_eq in E.
    pose proof (arena_same Hs Ha) as Ha1. pose proof (wdata_same Hs Hd) as Hd1.
    destruct (arena_idx Ha1 Hp) as [td Ht]. unfold tree_get in E. rewrite Ht in E. cbn [obind] in E.
    assert (Hloop : forall l, (forall k c, In (k, c) l -> In (k, c) (td_children td)) -> forall u u', Forall2 td_same t u ->
      us_loop (update_sizes Debug fuel) l u = Some u' ->
      Forall2 td_same u u' /\ forall k c q, In (k, c) l -> In (p ++ [name k] ++ q) ps -> inline_below es (p ++ [name k] ++ q) < two64).
    { induction l as [|[k c] l IHl]; intros Hsub u u' Hu El; cbn [us_loop] in El.
      - inversion El; subst. split; [apply td_same_refl | intros k c q []].
      - destruct (update_sizes Debug fuel c u) as [u1|] eqn:E1; [|discriminate]. cbn [obind] in El.
        destruct (ar_child Ha1 Ht (Hsub k c (or_introl eq_refl))) as (_ & _ & p' & Hp' & Hc).
        rewrite Hp in Hp'. inversion Hp'; subst p'.
        destruct (IH t c (p ++ [name k]) Ha1 Hd1 Hc u u1 Hu E1) as [Hs1 Hq1].
        destruct (IHl (fun k c H => Hsub k c (or_intror H)) u1 u' (td_same_trans Hu Hs1) El) as [Hs2 Hq2].
        split; [eapply td_same_trans; eauto|]. intros k' c' q [Hin|Hin] Hq.
        + inversion Hin; subst k' c'. rewrite app_assoc in *. now apply Hq1.
        + eapply Hq2; eauto. }
    destruct (us_loop (update_sizes Debug fuel) (td_children td) t) as [t1|] eqn:E1; [|discriminate].
    destruct (Hloop (td_children td) (fun k c H => H) t t1 (td_same_refl t) E1) as [Hs1 Hq1]. cbn [obind] in E.
    destruct (Forall2_nth' Hs1 Ht) as (td1 & Ht1 & (Esz & Eu & Ec)). rewrite Ht1 in E. cbn [obind] in E.
    pose proof (arena_same Hs1 Ha1) as Ha2. pose proof (wdata_same Hs1 Hd1) as Hd2.
    destruct (dw_size Hd2 Hp Ht1) as [_ Hun].
    assert (Hhere : inline_below es p < two64 /\ exists r, t' = upd t1 id (mkTD (td_size td1) r (td_unique td1) (td_children td1))).
    { unfold Spec.inline_below. rewrite <- Hun. destruct (td_unique td1) eqn:Eun.
      - cbn [obind] in E. inversion E. split; [apply two64_pos | eauto].
      - rewrite (@wget_sizes_ok A A_dec name K es ps t1 td1 p (td_children td1) Ha2 Hd2 (fun k c H => H) id Ht1 Hp) in E.
        cbn [obind] in E. destruct (usum Debug 0 _) as [cs|] eqn:Es; [|discriminate]. cbn [obind] in E. inversion E.
        split; [|eauto]. apply usum_debug_some in Es; [|apply two64_pos]. rewrite N.add_0_l in Es.
        rewrite (sumN_map_ext (g := fun kc : key * nat => declared es (p ++ [name (fst kc)]))) in Es
          by (intros kc _; apply N.mod_small, Hfit).
        now rewrite (@wchildren_sum A A_dec name K name_inj es ps t1 id td1 p Ha2 Hd2 Ht1 Hp) in Es. }
    destruct Hhere as [Hhere [r ->]]. split; [eapply td_same_trans; [exact Hs1 | now apply td_same_upd]|].
    intros [|a q] Hq; [now rewrite app_nil_r|].
    assert (Hin : In (p ++ [a]) ps) by (apply (arena_prefix Ha1 (q := q)); now rewrite <- app_assoc).
    apply In_nth_error in Hin as [c Hc].
    destruct (ar_parent Ha1 Hc) as (i' & td'' & k & Hi' & Ht'' & Hin & Ek).
    assert (i' = id) by (eapply NoDup_nth_inj; eauto using ar_nodup). subst i'.
    rewrite Ht in Ht''. inversion Ht''; subst td''. subst a. exact (Hq1 k c q Hin Hq).
  Qed.

  (** ** The graph a debug build returns is consistent *)
  Lemma tree_write_debug_ok t : (forall i td k c, nth_error t i = Some td -> In (k, c) (td_children td) -> K k) ->
    (forall i td, nth_error t i = Some td -> Z.to_N (td_rem td) < two64) ->
    forall fuel id stack f w, tree_write Debug fuel t id stack = Some (f, w) -> fg_ok Debug K f.
  Proof.
    intros HK Hrem. induction fuel as [|fuel IH]; intros id stack f w E; [discriminate|].
    rewrite tree_write_eq in E. unfold tree_get in E. destruct (nth_error t id) as [td|] eqn:Et; [|discriminate]. cbn [obind] in E.
    destruct (tw_node Debug td stack) as [[f0 w0]|] eqn:E0; [|discriminate]. cbn [obind] in E.
    assert (H0 : fg_ok Debug K f0).
    { assert (Hnode : forall n, n < two64 -> fg_ok Debug K (FG [] 0 n)).
      { intros n Hn. constructor; simpl; auto; first [now constructor | now intros k g [] | apply two64_pos]. }
      pose proof two64_pos. unfold tw_node in E0. destruct (0 <? td_rem td)%Z.
      - destruct stack; inversion E0; subst; apply Hnode; eauto.
      - destruct (_ && _); [destruct (inline_children_size _ _); [|discriminate]; cbn [obind] in E0|]; inversion E0; subst; now apply Hnode. }
    assert (Hl : forall k c, In (k, c) (sort_by_key (td_children td)) -> K k).
    { intros k c Hin. eapply HK; eauto. eapply Permutation_in; [apply sort_perm | exact Hin]. }
    clear E0. revert f0 w0 H0 E Hl. generalize (sort_by_key (td_children td)) as l.
    induction l as [|[k c] l IHl]; intros f0 w0 H0 E Hl; cbn [tw_loop] in E; [inversion E; subst; auto|].
    destruct (tree_write Debug fuel t c (stack ++ [key_deref k])) as [[cf cw]|] eqn:Ec; [|discriminate]. cbn [obind] in E.
    destruct (fg_add_child Debug f0 k cf) as [f1|] eqn:E1; [|discriminate]. cbn [obind] in E.
    eapply IHl; [|exact E|intros k' c' Hin; eapply Hl; right; eauto].
    destruct (fg_add_child_spec H0 (Hl k c (or_introl eq_refl)) (IH _ _ _ _ Ec) E1). auto.
  Qed.

  (** ** Visits whose sizes overflow *)
  Lemma fitting_dec (es : list (ev A)) : {fitting es} + {~ fitting es}.
  Proof.
    destruct (forallb (fun e => declared es (ev_path e) <? two64) es) eqn:E.
    - left. intros q. destruct (in_dec (path_dec A_dec) q (map (@ev_path A) es)) as [Hin|Hno].
      + apply in_map_iff in Hin as (e & <- & He). rewrite forallb_forall in E. specialize (E e He). now apply N.ltb_lt.
      + rewrite (@declared_absent A A_dec es q); [apply two64_pos|]. intros e He Eq. apply Hno. subst q. now apply in_map.
    - right. intros H. apply Bool.not_true_iff_false in E. apply E. apply forallb_forall. intros e _. apply N.ltb_lt, H.
  Qed.

  Lemma fitting_one es e : fitting es -> ~ fitting (es ++ [e]) -> two64 <= declared es (ev_path e) + ev_size e.
  Proof.
    intros H Hn. destruct (N.le_gt_cases two64 (declared es (ev_path e) + ev_size e)) as [|Hlt]; [auto|]. exfalso. apply Hn.
    intros q. rewrite declared_app, declared_one. destruct (path_dec A_dec (ev_path e) q) as [E|]; [subst q; exact Hlt|].
    rewrite N.add_0_r. apply H.
  Qed.

  Lemma exit_fine b : b_entered b = true -> shape b -> exists b', exit_impl b = (b', Fine).
  Proof.
    intros He [_ Hs]. unfold exit_impl. rewrite He. cbn [negb]. unfold up.
    destruct (ts_stack (b_current b)) as [|t st]; [|eauto]. destruct (b_shared b) as [|ts rest] eqn:Esh; [eauto|].
    cbn [b_current set_current]. inversion Hs; subst. destruct (ts_stack ts); [contradiction | eauto].
  Qed.

  Lemma entered_deep b : shape b -> (0 < depth b)%nat -> b_entered b = true.
  Proof.
    intros [Hc _] Hd. destruct (b_entered b) eqn:E; [auto|]. destruct (Hc eq_refl) as [H1 H2].
    unfold depth in Hd. rewrite E, H1, H2 in Hd. cbn in Hd. lia.
  Qed.

  (** One open scope too many, and still entered. *)
  Definition off_by_one (b b' : builder) : Prop := shape b' /\ depth b' = S (depth b).

  Lemma leave_off b b1 b2 : (0 < depth b)%nat -> depth b1 = S (depth b) -> off_by_one b1 b2 ->
    exists b3, leave_scope (b2, Unwinding) = (b3, Unwinding) /\ off_by_one b b3.
  Proof.
    intros Hd H1 [Hs H2]. destruct (exit_fine (b := b2)) as [b3 E]; [apply entered_deep; [auto | lia] | auto|].
    exists b3. cbn [leave_scope]. rewrite E. split; [auto|].
    destruct (exit_shape E Hs) as (Hs3 & Hd3 & _). split; [auto | lia].
  Qed.

  Lemma down_over es ps b here k kind nk s : winv es ps b -> at_path ps b here -> K k -> shape b -> b_entered b = true ->
    fitting es -> ~ fitting (es ++ [mkEv (here ++ [name k]) kind nk s]) ->
    exists b1, down b k = (b1, Fine) /\ add_size Debug b1 s = (b1, Panicked) /\ off_by_one b b1.
  Proof.
    intros Hb Hc Hk Hsh He Hfit Hno.
    destruct (@wdown_ok A A_dec name K name_inj es ps b here k Hb Hc Hk) as (b1 & ps' & child & Ed & Hb1 & Hn & Ecur & Esh & Ev & Ee).
    exists b1. split; [exact Ed|]. split.
    - unfold add_size, tree_get. rewrite Ecur. cbn [ts_tree]. destruct (arena_idx (wp_arena Hb1) Hn) as [td Ht]. rewrite Ht.
      destruct (dw_size (wp_data Hb1) Hn Ht) as [Hs _]. rewrite N.mod_small in Hs by apply Hfit.
      pose proof (fitting_one Hfit Hno) as Hbig. cbn [ev_path ev_size] in Hbig.
      unfold uadd. destruct (N.ltb_spec (td_size td + s) two64) as [Hlt|_]; [|reflexivity]. exfalso. rewrite Hs in Hlt. lia.
    - split.
      + constructor; [congruence | rewrite Esh; apply Hsh].
      + unfold depth. rewrite Ecur, Esh, Ee. cbn. destruct (b_entered b); lia.
  Qed.

  Lemma fit_of es : fitting es -> fit A_dec Debug es.
  Proof. intros H _. exact H. Qed.

  Lemma frame_depth b b' : same_frame b b' -> b_entered b = true -> shape b -> shape b' /\ depth b' = depth b.
  Proof.
    intros (E1 & E2 & E3) He Hs. split.
    - constructor; [congruence | rewrite E2; apply Hs].
    - unfold depth. now rewrite E1, E2, E3, He.
  Qed.

  Lemma run_over p : forall b es ps here nk es1 vis1 ok,
    keys_in K p -> winv es ps b -> at_path ps b here -> b_entered b = true -> shape b ->
    trace p (b_visited b) here nk = (es1, vis1, ok) -> fitting es -> ~ fitting (es ++ es1) ->
    exists b', run Debug p b = (b', Unwinding) /\ off_by_one b b'.
  Proof.
    assert (Hpos : forall b, b_entered b = true -> (0 < depth b)%nat).
    { intros b H. unfold depth. rewrite H. lia. }
    induction p as [| |k s body IHb rest IHr|k s body IHb rest IHr|k s x body IHb r1 IH1 r2 IH2];
      intros b es ps here nk es1 vis1 ok HK Hb Hc He Hsh Et Hfit Hno; cbn [Spec.trace] in Et; cbn [run].
    - inversion Et; subst. rewrite app_nil_r in Hno. contradiction.
    - inversion Et; subst. rewrite app_nil_r in Hno. contradiction.
    - (* inline *)
      cbn [keys_in] in HK. destruct HK as (Hk & HKb & HKr).
      destruct (trace body (b_visited b) (here ++ [name k]) NKInline) as [[eb vb] okb] eqn:Etb.
      set (e := mkEv (here ++ [name k]) NKInline nk s) in *.
      destruct (fitting_dec (es ++ [e])) as [Hf1|Hn1].
      2:{ destruct (down_over Hb Hc Hk Hsh He Hfit Hn1) as (b1 & E1 & E2 & Hoff).
          exists b1. unfold enter_inline. rewrite E1. cbn [bind_status]. rewrite E2. auto. }
      destruct (@wenter_inline_ok A A_dec name K name_inj Debug es ps b here k s nk Hb Hc Hk (fit_of Hf1))
        as (b1 & ps1 & child & E1 & Hb1 & Hc1 & Ecur1 & Esh1 & Ev1 & Ee1).
      assert (Hs1 : shape b1) by (constructor; [congruence | rewrite Esh1; apply Hsh]).
      assert (Hd1 : depth b1 = S (depth b)) by (unfold depth; rewrite Ecur1, Esh1, Ee1; cbn; destruct (b_entered b); lia).
      rewrite <- Ev1 in Etb. rewrite E1.
      destruct (fitting_dec ((es ++ [e]) ++ eb)) as [Hf2|Hn2].
      2:{ destruct (IHb b1 _ _ _ _ _ _ _ HKb Hb1 Hc1 (eq_trans Ee1 He) Hs1 Etb Hf1 Hn2) as (b2 & E2 & Hoff).
          rewrite E2. destruct (leave_off (Hpos b He) Hd1 Hoff) as (b3 & E3 & H3). rewrite E3. cbn [and_then]. eauto. }
      destruct (@wrun_trace A A_dec name K name_inj Debug body b1 _ _ _ _ _ _ _ HKb Hb1 Hc1 (eq_trans Ee1 He) Etb (fit_of Hf2))
        as (b2 & ps2 & E2 & Hb2 & Ev2 & Ecur2 & Esh2 & Ee2).
      rewrite E2. destruct okb.
      2:{ exfalso. inversion Et; subst. apply Hno. now rewrite <- app_assoc in Hf2. }
      destruct (trace rest vb here nk) as [[er vr] okr] eqn:Etr. inversion Et; subst es1 vis1 ok; clear Et.
      replace (es ++ e :: eb ++ er) with (((es ++ [e]) ++ eb) ++ er) in Hno by (rewrite <- !app_assoc; reflexivity).
      assert (Hx : exit_impl b2 = (set_current b2 (b_current b), Fine)).
      { erewrite exit_pop; [|exact Ee2|rewrite Ecur2, Ecur1; reflexivity]. now destruct (b_current b). }
      cbn [leave_scope]. rewrite Hx. cbn [and_then].
      assert (Hfr : same_frame b (set_current b2 (b_current b))).
      { unfold same_frame. cbn. split; [auto|]. split; [congruence | auto]. }
      destruct (frame_depth Hfr He Hsh) as [Hs3 Hd3].
      destruct (IHr (set_current b2 (b_current b)) ((es ++ [e]) ++ eb) ((ps ++ ps1) ++ ps2) here nk er vr okr HKr) as (b3 & E3 & Hs4 & Hd4); auto.
      { now apply wbinv_set_current. }
      { rewrite <- app_assoc. eapply at_path_frame; eauto. }
      { cbn. now rewrite Ev2. }
      exists b3. rewrite E3. split; [auto|]. split; [auto | lia].
    - (* unique *)
      cbn [keys_in] in HK. destruct HK as (Hk & HKb & HKr).
      destruct (trace body (b_visited b) (here ++ [name k]) NKUnique) as [[eb vb] okb] eqn:Etb.
      set (e := mkEv (here ++ [name k]) NKUnique nk s) in *.
      destruct (fitting_dec (es ++ [e])) as [Hf1|Hn1].
      2:{ destruct (down_over Hb Hc Hk Hsh He Hfit Hn1) as (b1 & E1 & E2 & Hoff).
          exists b1. unfold enter_unique. rewrite E1. cbn [bind_status]. rewrite E2. auto. }
      destruct (@wenter_unique_ok A A_dec name K name_inj Debug es ps b here k s nk Hb Hc Hk (fit_of Hf1))
        as (b1 & ps1 & child & E1 & Hb1 & Hc1 & Ecur1 & Esh1 & Ev1 & Ee1).
      assert (Hs1 : shape b1) by (constructor; [congruence | rewrite Esh1; apply Hsh]).
      assert (Hd1 : depth b1 = S (depth b)) by (unfold depth; rewrite Ecur1, Esh1, Ee1; cbn; destruct (b_entered b); lia).
      rewrite <- Ev1 in Etb. rewrite E1.
      destruct (fitting_dec ((es ++ [e]) ++ eb)) as [Hf2|Hn2].
      2:{ destruct (IHb b1 _ _ _ _ _ _ _ HKb Hb1 Hc1 (eq_trans Ee1 He) Hs1 Etb Hf1 Hn2) as (b2 & E2 & Hoff).
          rewrite E2. destruct (leave_off (Hpos b He) Hd1 Hoff) as (b3 & E3 & H3). rewrite E3. cbn [and_then]. eauto. }
      destruct (@wrun_trace A A_dec name K name_inj Debug body b1 _ _ _ _ _ _ _ HKb Hb1 Hc1 (eq_trans Ee1 He) Etb (fit_of Hf2))
        as (b2 & ps2 & E2 & Hb2 & Ev2 & Ecur2 & Esh2 & Ee2).
      rewrite E2. destruct okb.
      2:{ exfalso. inversion Et; subst. apply Hno. now rewrite <- app_assoc in Hf2. }
      destruct (trace rest vb here nk) as [[er vr] okr] eqn:Etr. inversion Et; subst es1 vis1 ok; clear Et.
      replace (es ++ e :: eb ++ er) with (((es ++ [e]) ++ eb) ++ er) in Hno by (rewrite <- !app_assoc; reflexivity).
      assert (Hx : exit_impl b2 = (set_current b2 (b_current b), Fine)).
      { erewrite exit_pop; [|exact Ee2|rewrite Ecur2, Ecur1; reflexivity]. now destruct (b_current b). }
      cbn [leave_scope]. rewrite Hx. cbn [and_then].
      assert (Hfr : same_frame b (set_current b2 (b_current b))).
      { unfold same_frame. cbn. split; [auto|]. split; [congruence | auto]. }
      destruct (frame_depth Hfr He Hsh) as [Hs3 Hd3].
      destruct (IHr (set_current b2 (b_current b)) ((es ++ [e]) ++ eb) ((ps ++ ps1) ++ ps2) here nk er vr okr HKr) as (b3 & E3 & Hs4 & Hd4); auto.
      { now apply wbinv_set_current. }
      { rewrite <- app_assoc. eapply at_path_frame; eauto. }
      { cbn. now rewrite Ev2. }
      exists b3. rewrite E3. split; [auto|]. split; [auto | lia].
    - (* shared *)
      cbn [keys_in] in HK. destruct HK as (Hk & HKb & HK1 & HK2).
      set (e := mkEv (here ++ [name k]) NKShared nk s) in *.
      destruct (fitting_dec (es ++ [e])) as [Hf1|Hn1].
      2:{ destruct (down_over Hb Hc Hk Hsh He Hfit Hn1) as (b1 & E1 & E2 & Hoff).
          exists b1. unfold enter_shared. rewrite E1. cbn [bind_status]. rewrite E2. auto. }
      destruct (ptr_mem x (b_visited b)) eqn:Ex.
      + destruct (trace r2 (b_visited b) here nk) as [[er vr] okr] eqn:Etr. inversion Et; subst es1 vis1 ok; clear Et.
        replace (es ++ e :: er) with ((es ++ [e]) ++ er) in Hno by (rewrite <- app_assoc; reflexivity).
        destruct (@wenter_shared_old A A_dec name K name_inj Debug es ps b here k s x nk Hb Hc Hk Ex He (fit_of Hf1))
          as (b1 & ps1 & E1 & Hb1 & Ecur1 & Esh1 & Ev1 & Ee1).
        rewrite <- Ev1 in Etr. rewrite E1.
        assert (Hfr : same_frame b b1) by (unfold same_frame; repeat split; congruence).
        destruct (frame_depth Hfr He Hsh) as [Hs3 Hd3].
        destruct (IH2 b1 (es ++ [e]) (ps ++ ps1) here nk er vr okr HK2) as (b3 & E3 & Hs4 & Hd4); auto.
        { eapply at_path_frame; eauto. }
        { congruence. }
        exists b3. rewrite E3. split; [auto|]. split; [auto | lia].
      + destruct (trace body (x :: b_visited b) [] NKShared) as [[eb vb] okb] eqn:Etb.
        destruct (@wenter_shared_new A A_dec name K name_inj Debug es ps b here k s x nk Hb Hc Hk Ex (fit_of Hf1))
          as (b1 & ps1 & child & E1 & Hb1 & Hc1 & Ecur1 & Esh1 & Ev1 & Ee1).
        assert (Hs1 : shape b1).
        { constructor; [congruence|]. rewrite Esh1. constructor; [discriminate | apply Hsh]. }
        assert (Hd1 : depth b1 = S (depth b)) by (unfold depth; rewrite Ecur1, Esh1, Ee1; cbn; destruct (b_entered b); lia).
        rewrite <- Ev1 in Etb. rewrite E1.
        destruct (fitting_dec ((es ++ [e]) ++ eb)) as [Hf2|Hn2].
        2:{ destruct (IHb b1 _ _ _ _ _ _ _ HKb Hb1 Hc1 (eq_trans Ee1 He) Hs1 Etb Hf1 Hn2) as (b2 & E2 & Hoff).
            rewrite E2. destruct (leave_off (Hpos b He) Hd1 Hoff) as (b3 & E3 & H3). rewrite E3. cbn [and_then]. eauto. }
        destruct (@wrun_trace A A_dec name K name_inj Debug body b1 _ _ _ _ _ _ _ HKb Hb1 Hc1 (eq_trans Ee1 He) Etb (fit_of Hf2))
          as (b2 & ps2 & E2 & Hb2 & Ev2 & Ecur2 & Esh2 & Ee2).
        rewrite E2. destruct okb.
        2:{ exfalso. inversion Et; subst. apply Hno. now rewrite <- app_assoc in Hf2. }
        destruct (trace r1 vb here nk) as [[er vr] okr] eqn:Etr. inversion Et; subst es1 vis1 ok; clear Et.
        replace (es ++ e :: eb ++ er) with (((es ++ [e]) ++ eb) ++ er) in Hno by (rewrite <- !app_assoc; reflexivity).
        set (b2' := set_current (set_shared b2 (b_shared b)) (b_current b)).
        assert (Hx : exit_impl b2 = (b2', Fine)).
        { erewrite exit_shared; [|exact Ee2|rewrite Ecur2, Ecur1; reflexivity|rewrite Esh2, Esh1; reflexivity].
          unfold b2'. now destruct (b_current b). }
        cbn [leave_scope]. rewrite Hx. cbn [and_then].
        assert (Hfr : same_frame b b2') by (unfold same_frame; cbn; auto).
        destruct (frame_depth Hfr He Hsh) as [Hs3 Hd3].
        destruct (IH1 b2' ((es ++ [e]) ++ eb) ((ps ++ ps1) ++ ps2) here nk er vr okr HK1) as (b3 & E3 & Hs4 & Hd4); auto.
        { now apply wbinv_set. }
        { rewrite <- app_assoc. eapply at_path_frame; eauto. }
        { cbn. now rewrite Ev2. }
        exists b3. rewrite E3. split; [auto|]. split; [auto | lia].
  Qed.

  Lemma visit_root_over p b es ps es1 vis1 ok :
    keys_in K p -> winv es ps b -> idle b ->
    trace p (b_visited b) [] NKRoot = (es1, vis1, ok) -> fitting es -> ~ fitting (es ++ es1) ->
    exists b', visit_root Debug p b = (b', Unwinding) /\ snd (root_visitor b') = Panicked /\ (forall m, finish m b' = None).
  Proof.
    intros HK Hb (Hcur & Hsh & Hent) Et Hfit Hno. unfold visit_root, root_visitor. rewrite Hent.
    assert (Hs0 : shape (set_entered b true)).
    { constructor; cbn; [discriminate | rewrite Hsh; constructor]. }
    assert (Hd0 : depth (set_entered b true) = 1%nat).
    { unfold depth. cbn. now rewrite Hcur, Hsh. }
    destruct (@run_over p (set_entered b true) es ps [] NKRoot es1 vis1 ok) as (b1 & E1 & Hs1 & Hd1); auto.
    { now apply wbinv_set_entered. }
    { apply (@at_path_idle A name K); cbn; [apply Hb | apply Hb | exact Hcur]. }
    rewrite E1. destruct (exit_fine (b := b1)) as [b2 E2]; [apply entered_deep; [auto | lia] | auto|].
    destruct (exit_shape E2 Hs1) as (Hs2 & Hd2 & _). exists b2. cbn [leave_scope]. rewrite E2. split; [reflexivity|].
    assert (He2 : b_entered b2 = true) by (apply entered_deep; [auto | lia]).
    rewrite He2. split; [reflexivity|]. intros m. unfold finish, finish_impl. rewrite He2.
    destruct (b_shared b2); [|reflexivity]. destruct (ts_stack (b_current b2)); reflexivity.
  Qed.
End Panic.
