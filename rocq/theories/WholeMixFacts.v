(** * Proofs for C67. *)
From Coq Require Import Lia.
From Verif Require WholeFacts.
From Verif Require Import Base BaseFacts KeyModel KeyFacts HMap FlameModel BuilderModel BuilderFacts VisitorModel Spec EventFacts LayoutModel ImplModel SizeOfModel
  LockModel LockSpec LockFacts SnapshotModel ChangeSession DashModel DashSpec MixModel MixSpec MixRun MixFacts MixSession MixGuard MixEnds PoolModel PoolSpec PoolFacts
  SizeMixModel SizeMixSpec SizeMixGuard MixPoolModel MixPoolSpec MixPoolFacts MixPoolShown MixApartSpec MixApart MixPoolEnds
  GlobalModel GlobalSpec GlobalFacts WholeMixModel WholeMixSpec.

#[local] Arguments key_new : simpl never.

Section Whole.
  Variable (M : xmemory -> Prop) (m : mode) (std : lock -> bool) (statics : groot -> xvalue) (me : tid).
  Notation xgoes := (xgoes M m std statics me).
  Notation xwstep := (xwstep m std statics me).

  Lemma goes_first s H s' : xgoes s H s' -> M (o_mem s).
  Proof. now destruct 1. Qed.

  (** Only the registry produces events. *)
  Lemma goes_registry progs H0 s H s' : xgoes s H s' -> gexec progs H0 (o_reg s) -> gexec progs (H0 ++ H) (o_reg s').
  Proof.
    intros HG. revert H0. induction HG as [s HM|s e s' H s'' HM HS _ IH]; intros H0 H1; [now rewrite app_nil_r|].
    rewrite app_assoc. apply IH. clear IH.
    destruct HS as [| | |s s' [ ]]; cbn [o_reg] in *; try (rewrite app_nil_r; exact H1); eapply gexec_step; eauto.
  Qed.

  (** From any point of the loop to where [left] are left, and then on with [more]. *)
  Definition rest_of (left : list groot) (more : list xvalue) (b' : builder) (o : outcome) (calm : bool) (s : xprocess) (H : list gevent) : Prop :=
    match o_phase s with
    | XAsks b => exists n vis g, In (Ret me n Snapshot (RList (vis ++ left))) H /\ xprofiles M m std g b (map statics vis ++ more) b' o calm
    | XNext rs b => exists vis, rs = vis ++ left /\ xprofiles M m std (o_mem s) b (map statics vis ++ more) b' o calm
    | XWithin rs b k st => exists c b2 vis, rs = vis ++ left /\ xpasses M m std (mkXC (o_mem s) b k st) c /\ xended c /\
        leave_scope (xresult c) = (b2, Done) /\ xprofiles M m std (xk_mem c) b2 (map statics vis ++ more) b' o calm
    | XStopped _ _ => False
    end.
  Lemma goes_profiles_more left more b1' b' o calm s H s' : xgoes s H s' -> o_phase s' = XNext left b1' ->
    xprofiles M m std (o_mem s') b1' more b' o calm -> rest_of left more b' o calm s H.
  Proof.
    induction 1 as [s HM|s e s' H s'' HM HS HG IH]; intros E K.
    - unfold rest_of. rewrite E. exists []. split; [reflexivity | exact K].
    - specialize (IH E K). clear E K HG. destruct HS as [r e r' g ph HR Hne|r n l r' g b HR|r g g' ph HC|s s' [r g x rs b b1 HR|r g x rs b b1 HR
        |r g rs b k st g' b1 k' st' HC|r g rs b k st b1 He Hl|r g rs b k st b1 o1 He Hl Ho]];
        unfold rest_of in *; cbn [o_phase o_mem] in *.
      + destruct ph; auto. destruct IH as (n & vis & g1 & Hin & IH). exists n, vis, g1. split; [apply in_or_app; now right | exact IH].
      + destruct IH as (vis & -> & IH). exists n, vis, g. split; [now left | exact IH].
      + destruct ph as [b|rs b|rs b k st|b o1]; cbn [app]; auto.
        * destruct IH as (vis & -> & IH). exists vis. split; [reflexivity|]. eapply xr_change; eauto.
        * destruct IH as (c & b2 & vis & E & HP & IH). exists c, b2, vis. split; [exact E|]. split; [eapply xp_other; eauto | exact IH].
      + destruct IH as (c & b2 & vis & -> & HP & He & Hl & IH). exists (x :: vis). split; [reflexivity|]. cbn [map app].
        change calm with (match Done with Done => calm | _ => false end).
        eapply xr_visit; eauto. discriminate.
      + contradiction.
      + destruct IH as (c & b2 & vis & E & HP & IH). exists c, b2, vis. split; [exact E|]. split; [eapply xp_visit; eauto | exact IH].
      + destruct IH as (vis & -> & IH). exists (mkXC g b k st), b1, vis. split; [reflexivity|]. split; [now apply xp_end|]. auto.
      + contradiction.
  Qed.
  Lemma goes_profiles left b b' progs g H s' : xgoes (mkPX (g_init progs) g (XAsks b)) H s' -> o_phase s' = XNext left b' ->
    exists n vis g, In (Ret me n Snapshot (RList (vis ++ left))) H /\ xprofiles M m std g b (map statics vis) b' Done true.
  Proof.
    intros HG E. destruct (goes_profiles_more HG E (xr_end _ _ _ _ _)) as (n & vis & g1 & Hin & HP). rewrite app_nil_r in HP. eauto.
  Qed.

  (** From any point to a panic. *)
  Definition rest_stop (b' : builder) (s : xprocess) (H : list gevent) : Prop :=
    match o_phase s with
    | XAsks b => exists n l1 x l2 g, In (Ret me n Snapshot (RList (l1 ++ x :: l2))) H /\ xprofiles M m std g b (map statics (l1 ++ [x])) b' Done false
    | XNext rs b => exists l1 x l2, rs = l1 ++ x :: l2 /\ xprofiles M m std (o_mem s) b (map statics (l1 ++ [x])) b' Done false
    | XWithin rs b k st => exists c b2 o, xpasses M m std (mkXC (o_mem s) b k st) c /\ xended c /\
        leave_scope (xresult c) = (b2, o) /\
        (o = Unwinding /\ b' = b2 \/
         o = Done /\ exists l1 x l2, rs = l1 ++ x :: l2 /\ xprofiles M m std (xk_mem c) b2 (map statics (l1 ++ [x])) b' Done false)
    | XStopped b o => b = b' /\ o = Unwinding
    end.
  Lemma goes_stops b' s H s' : xgoes s H s' -> o_phase s' = XStopped b' Unwinding -> rest_stop b' s H.
  Proof.
    induction 1 as [s HM|s e s' H s'' HM HS HG IH]; intros E.
    - unfold rest_stop. rewrite E. cbn. auto.
    - specialize (IH E). clear E HG. destruct HS as [r e r' g ph HR Hne|r n l r' g b HR|r g g' ph HC|s s' [r g x rs b b1 HR|r g x rs b b1 HR
        |r g rs b k st g' b1 k' st' HC|r g rs b k st b1 He Hl|r g rs b k st b1 o He Hl Ho]];
        unfold rest_stop in *; cbn [o_phase o_mem] in *.
      + destruct ph; auto. destruct IH as (n & l1 & x & l2 & g1 & Hin & IH). exists n, l1, x, l2, g1. split; [apply in_or_app; now right | exact IH].
      + destruct IH as (l1 & x & l2 & -> & IH). exists n, l1, x, l2, g. split; [now left | exact IH].
      + destruct ph as [b|rs b|rs b k st|b o]; cbn [app]; auto.
        * destruct IH as (l1 & x & l2 & -> & IH). exists l1, x, l2. split; [reflexivity|]. eapply xr_change; eauto.
        * destruct IH as (c & b2 & o & HP & IH). exists c, b2, o. split; [eapply xp_other; eauto | exact IH].
      + destruct IH as (c & b2 & o & HP & He & Hl & [[-> ->]|(-> & l1 & y & l2 & -> & IH)]).
        * exists [], x, rs. split; [reflexivity|]. cbn [app map].
          change false with (match Unwinding with Done => true | _ => false end). eapply xr_visit; eauto; [discriminate | constructor].
        * exists (x :: l1), y, l2. split; [reflexivity|]. cbn [app map].
          change false with (match Done with Done => false | _ => false end). eapply xr_visit; eauto. discriminate.
      + destruct IH as [-> _]. exists [], x, rs. split; [reflexivity|]. cbn [app map]. eapply xr_refused; eauto. constructor.
      + destruct IH as (c & b2 & o & HP & IH). exists c, b2, o. split; [eapply xp_visit; eauto | exact IH].
      + exists (mkXC g b k st), b1, Done. split; [now apply xp_end|]. auto.
      + destruct IH as [-> ->]. exists (mkXC g b k st), b', Unwinding. split; [now apply xp_end|]. auto.
  Qed.

  (** The profiling thread is done with the registry when it leaves [XAsks]. *)
  Definition asked_done (s : xprocess) : Prop :=
    match o_phase s with XAsks _ => True | _ => th_pc (g_threads (o_reg s) me) = Idle /\ th_todo (g_threads (o_reg s) me) = [] end.
  Lemma wstep_asked pre progs H0 s e s' : progs me = map Register pre ++ [Snapshot] -> gexec progs H0 (o_reg s) ->
    xwstep s e s' -> asked_done s -> asked_done s'.
  Proof.
    intros HP HX HS HA. destruct HS as [r e r' g ph HR Hne|r n l r' g b HR|r g g' ph HC|s s' [ ]];
      unfold asked_done in *; cbn [o_phase o_reg] in *; auto.
    - destruct ph; auto; eapply WholeFacts.gstep_idle; eauto.
    - destruct (gexec_inv HX) as [S I]. inversion HR as [| | | | | | | |t o res Hpc]; subst.
      assert (Hin : In (mkInst me (th_done (g_threads r me)) Snapshot (RList l)) S) by (apply (gi_effect I); rewrite Hpc; reflexivity).
      destruct (WholeFacts.asked_point HP I Hin) as [_ E]. rewrite Hpc in E. cbn in E.
      cbn [g_threads]. unfold upd. rewrite Nat.eqb_refl. cbn. auto.
  Qed.
  Lemma goes_asked pre progs H0 s H s' : progs me = map Register pre ++ [Snapshot] -> gexec progs H0 (o_reg s) -> asked_done s ->
    xgoes s H s' -> asked_done s'.
  Proof.
    intros HP HX HA HG. revert H0 HX HA. induction HG as [s HM|s e s' H s'' HM HS HG IH]; intros H0 HX HA; [exact HA|].
    apply (IH (H0 ++ e)); [|eapply wstep_asked; eauto].
    eapply (@goes_registry progs H0 s e s'); [|exact HX]. rewrite <- (app_nil_r e). eapply xgo_step; [exact HM | exact HS | apply xgo_end; eapply goes_first; eauto].
  Qed.
End Whole.

(** A visit as part of a schedule. *)
Lemma goes_app M m std statics me s H s' H' s'' : xgoes M m std statics me s H s' -> xgoes M m std statics me s' H' s'' ->
  xgoes M m std statics me s (H ++ H') s''.
Proof.
  induction 1 as [s HM|s e s1 H s2 HM HS HG IH]; intros X; [exact X|].
  rewrite <- app_assoc. eapply xgo_step; [exact HM | exact HS | apply IH; exact X].
Qed.
Lemma passes_goes M m std statics me r rs c c' : xpasses M m std c c' ->
  xgoes M m std statics me (mkPX r (xk_mem c) (XWithin rs (xk_builder c) (xk_control c) (xk_stack c))) []
    (mkPX r (xk_mem c') (XWithin rs (xk_builder c') (xk_control c') (xk_stack c'))).
Proof.
  induction 1 as [c HM|[g b k st] [g1 b1 k1 st1] c'' HM HC HP IH|g g' b k st c'' HM HC HP IH]; cbn [xk_mem xk_builder xk_control xk_stack] in *.
  - now apply xgo_end.
  - change (@nil gevent) with ([] ++ @nil gevent). eapply xgo_step; [exact HM | apply xw_own, xw_visit; exact HC | exact IH].
  - change (@nil gevent) with ([] ++ @nil gevent). eapply xgo_step; [exact HM | apply xw_change; exact HC | exact IH].
Qed.

(** ** Nothing is held between visits *)
Lemma rest_nothing g b k : k <> XLost -> xsteady (mkXC g b k []) -> (forall l, lock_ok (locks (x_shared g) l)) /\ holds_nothing (x_shared g).
Proof.
  intros HL S. specialize (S HL). destruct S as [O G R]. cbn [xk_mem] in *. split; [exact O|]. split.
  - intros l a Hin. apply in_guards in Hin. rewrite G in Hin. cbn in Hin. lia.
  - intros x Hin. apply refs_in in Hin. rewrite R in Hin. cbn in Hin. lia.
Qed.
Section Rest.
  Variable (M : xmemory -> Prop) (m : mode) (std : lock -> bool) (statics : groot -> xvalue) (me : tid).
  Definition nothing_held (g : xmemory) : Prop := (forall l, lock_ok (locks (x_shared g) l)) /\ holds_nothing (x_shared g).
  Definition resting (s : xprocess) : Prop :=
    match o_phase s with
    | XAsks _ | XNext _ _ => nothing_held (o_mem s)
    | XStopped _ o => o <> Aborted -> nothing_held (o_mem s)
    | XWithin rs b k st => exists g0 b0 r, nothing_held g0 /\ xpasses M m std (xbegin g0 b0 (statics r)) (mkXC (o_mem s) b k st)
    end.
  Lemma nothing_change g g' : xchange g g' -> nothing_held g -> nothing_held g'.
  Proof.
    intros H [H1 H2]. apply (@rest_nothing g' b_default XUnwinds); [discriminate|]. eapply xsteady_change; [exact H|].
    intros _. exact (@xbegin_steady g b_default (statics 0) H1 H2 ltac:(discriminate)).
  Qed.
  Lemma ended_nothing g b k st g0 b0 v : nothing_held g0 -> xpasses M m std (xbegin g0 b0 v) (mkXC g b k st) -> xended (mkXC g b k st) ->
    k <> XLost -> nothing_held g.
  Proof.
    intros [H1 H2] HP HE HL. pose proof (xsteady_passes HP (@xbegin_steady g0 b0 v H1 H2)) as S.
    assert (E : st = []) by (unfold xended in HE; cbn in HE; destruct k as [[]| |]; try contradiction; destruct st; auto; contradiction).
    subst st. exact (@rest_nothing g b k HL S).
  Qed.
  Lemma step_resting s e s' : xwstep m std statics me s e s' -> M (o_mem s) -> M (o_mem s') -> resting s -> resting s'.
  Proof.
    intros HS HM HM'. destruct HS as [r e r' g ph HR Hne|r n l r' g b HR|r g g' ph HC|s s' [r g x rs b b1 HR|r g x rs b b1 HR
        |r g rs b k st g' b1 k' st' HC|r g rs b k st b1 He Hl|r g rs b k st b1 o He Hl Ho]];
      unfold resting; cbn [o_phase o_mem] in *; intros H; auto.
    - destruct ph as [b|rs b|rs b k st|b o].
      + eapply nothing_change; eauto.
      + eapply nothing_change; eauto.
      + destruct H as (g0 & b0 & x & H1 & H2). exists g0, b0, x. split; [exact H1|]. eapply xpasses_other; eauto.
      + intros X. eapply nothing_change; [exact HC | exact (H X)].
    - exists g, b1, x. split; [exact H|]. now apply xp_end.
    - destruct H as (g0 & b0 & x & H1 & H2). exists g0, b0, x. split; [exact H1|]. eapply xpasses_step; [exact H2 | exact HC | exact HM'].
    - destruct H as (g0 & b0 & x & H1 & H2). eapply ended_nothing; [exact H1 | exact H2 | exact He |]. intros ->. cbn in Hl. discriminate.
    - intros Ha. destruct H as (g0 & b0 & x & H1 & H2). eapply ended_nothing; [exact H1 | exact H2 | exact He |]. intros ->. cbn in Hl. congruence.
  Qed.
  Lemma goes_resting s H s' : xgoes M m std statics me s H s' -> resting s -> resting s'.
  Proof.
    induction 1 as [s HM|s e s' H s'' HM HS HG IH]; intros R; [exact R|]. apply IH. eapply step_resting; eauto. eapply goes_first; eauto.
  Qed.
End Rest.

(** ** The loop comes to an end *)
Section Ending.
  Variables (m : mode) (std : lock -> bool) (statics : groot -> xvalue) (g0 : xmemory).
  Hypothesis finite : xfinite g0.
  Definition doing_of (ph : xphase) : option doing :=
    match ph with
    | XNext rs b => Some (DRoots b (map statics rs) true)
    | XWithin rs b k st => Some (DVisit b k st (map statics rs) true)
    | XAsks _ | XStopped _ _ => None
    end.
  Lemma own_goes w w' d : xown m std statics w w' -> doing_of (o_phase w) = Some d -> untouched g0 (o_mem w) ->
    untouched g0 (o_mem w') /\ ((exists b o, o_phase w' = XStopped b o) \/ exists d', doing_of (o_phase w') = Some d' /\ goes m std g0 d' d).
  Proof.
    intros H Hd Hu. destruct H as [r g x rs b b1 HR|r g x rs b b1 HR|r g rs b k st g' b1 k' st' HC|r g rs b k st b1 He Hl|r g rs b k st b1 o He Hl Ho];
      cbn [o_phase o_mem doing_of map] in *; injection Hd as <-; eauto.
    - split; [exact Hu|]. right. eexists. split; [reflexivity|]. constructor.
    - split; [|right; eexists; split; [reflexivity|]; eapply go_visit; [exact Hu | exact HC]].
      destruct (xstep_contents HC) as (E1 & E2 & E3). destruct Hu as (U1 & U2 & U3). cbn in *. unfold untouched. repeat split; congruence.
    - split; [exact Hu|]. right. eexists. split; [reflexivity|]. constructor.
  Qed.
  Lemma own_acc d : Acc (goes m std g0) d -> forall w, doing_of (o_phase w) = Some d -> untouched g0 (o_mem w) ->
    Acc (fun w' w => unchanged_own m std statics w w') w.
  Proof.
    induction 1 as [d _ IH]. intros [r g ph] Hd Hu. constructor. intros w' (r' & s & HS). cbn [o_mem o_phase] in *.
    destruct (own_goes HS Hd) as [Hu' [(b & o & E)|(d' & Hd' & Hg)]]; [exact Hu| |].
    - constructor. intros w'' (r'' & s' & HS'). rewrite E in HS'. inversion HS'.
    - eapply IH; eauto.
  Qed.
End Ending.
Lemma loop_ends m std statics w : xfinite (o_mem w) -> Acc (fun w' w => unchanged_own m std statics w w') w.
Proof.
  intros Hf. destruct (doing_of statics (o_phase w)) as [d|] eqn:E.
  - eapply (@own_acc m std statics (o_mem w)); [apply goes_acc; exact Hf | exact E | apply untouched_refl].
  - constructor. intros w' (r & s & HS). destruct (o_phase w); cbn in E; try discriminate; inversion HS.
Qed.
Lemma goes_more (M M' : xmemory -> Prop) m std statics me s H s' : (forall g, M g -> M' g) ->
  xgoes M m std statics me s H s' -> xgoes M' m std statics me s H s'.
Proof. intros HM. induction 1; [apply xgo_end; auto | eapply xgo_step; eauto]. Qed.
Lemma goes_there (M : xmemory -> Prop) m std statics me s H s' : xgoes M m std statics me s H s' -> M (o_mem s').
Proof. induction 1; auto. Qed.
Lemma own_contents m std statics w w' : xown m std statics w w' -> untouched (o_mem w) (o_mem w').
Proof. intros H. destruct H as [| |r g rs b k st g' b1 k' st' HC| |]; cbn [o_mem]; try apply untouched_refl. exact (xstep_contents HC). Qed.
Lemma own_others (M : xmemory -> Prop) m std statics w w' l t a : resting M m std statics w -> xown m std statics w w' ->
  In (Other t, a) (held (locks (x_shared (o_mem w')) l)) -> In (Other t, a) (held (locks (x_shared (o_mem w)) l)).
Proof.
  intros R H. destruct H as [| |r g rs b k st g' b1 k' st' HC| |]; cbn [o_mem]; auto. intros Hin.
  destruct R as (g0 & b0 & x & [H1 H2] & HP). cbn [o_mem] in HP.
  destruct (xstep_effect HC (xsteady_passes HP (@xbegin_steady g0 b0 (statics x) H1 H2))) as [E _].
  assert (Ho : Other t <> Visit) by discriminate. exact (effect_only E Ho Hin).
Qed.

(** ** After visits that returned the builder takes another root *)
Lemma depth_entered b : EventFacts.shape b -> (0 < depth b)%nat -> b_entered b = true.
Proof. intros [H1 H2] Hd. destruct (b_entered b) eqn:He; [reflexivity|]. destruct (H1 eq_refl) as [E1 E2]. unfold depth in Hd. rewrite He, E1, E2 in Hd. cbn in Hd. lia. Qed.
Lemma left_done m r b' : leave_scope r = (b', Done) -> exists b1, r = (b1, Done) /\ step m b1 EvExit = (b', Fine, false).
Proof.
  destruct r as [b1 [| |]]; cbn [leave_scope step]; [|destruct (exit_impl b1) as [b2 [|]]; discriminate | discriminate].
  destruct (exit_impl b1) as [b2 [|]] eqn:E; intros [= <-]. exists b1. rewrite E. auto.
Qed.
Lemma run_depth m p : forall b b', EventFacts.shape b -> (0 < depth b)%nat -> run m p b = (b', Done) -> EventFacts.shape b' /\ depth b' = depth b.
Proof.
  assert (K : forall p r b b1 b', (forall b b', EventFacts.shape b -> (0 < depth b)%nat -> run m p b = (b', Done) -> EventFacts.shape b' /\ depth b' = depth b) ->
    (forall b b', EventFacts.shape b -> (0 < depth b)%nat -> run m r b = (b', Done) -> EventFacts.shape b' /\ depth b' = depth b) ->
    EventFacts.shape b1 -> depth b1 = S (depth b) -> (0 < depth b)%nat -> and_then (leave_scope (run m p b1)) (run m r) = (b', Done) -> EventFacts.shape b' /\ depth b' = depth b).
  { intros p0 r b b1 b' IH1 IH2 S1 D1 D H. destruct (leave_scope (run m p0 b1)) as [b2 [| |]] eqn:EL; cbn [and_then] in H; try discriminate.
    apply (left_done m) in EL as (b3 & ER & EX). destruct (IH1 _ _ S1 ltac:(lia) ER) as [S3 D3].
    destruct (@step_shape m b3 EvExit b2 false 1 EX) as (S2 & D2 & _); [cbn; lia | exact S3 | intros _; apply depth_entered; [exact S3 | lia] |].
    destruct (IH2 b2 b' S2 ltac:(lia) H) as [S' D']. split; [exact S' | lia]. }
  induction p as [| |k s p IH1 r IH2|k s p IH1 r IH2|k s x p IH1 r1 IH2 r2 IH3]; intros b b' S D H; cbn [run] in H.
  - injection H as <-. auto.
  - discriminate.
  - destruct (enter_inline m b k s) as [b1 [|]] eqn:E; [|discriminate].
    destruct (@step_shape m b (EvInline k s) b1 true 1) as (S1 & D1 & _); [cbn [step]; now rewrite E | cbn; lia | exact S | intros _; now apply depth_entered |].
    exact (K p r b b1 b' IH1 IH2 S1 D1 D H).
  - destruct (enter_unique m b k s) as [b1 [|]] eqn:E; [|discriminate].
    destruct (@step_shape m b (EvUnique k s) b1 true 1) as (S1 & D1 & _); [cbn [step]; now rewrite E | cbn; lia | exact S | intros _; now apply depth_entered |].
    exact (K p r b b1 b' IH1 IH2 S1 D1 D H).
  - destruct (enter_shared m b k s x) as [[b1 [|]] ret] eqn:E; [|discriminate].
    destruct (@step_shape m b (EvShared k s x) b1 ret 1) as (S1 & D1 & _); [cbn [step]; now rewrite E | cbn; lia | exact S | intros _; now apply depth_entered |].
    destruct ret.
    + exact (K p r1 b b1 b' IH1 IH2 S1 D1 D H).
    + destruct (IH3 b1 b' S1 ltac:(lia) H) as [S' D']. split; [exact S' | lia].
Qed.
Lemma visit_root_idle m p b b' : EventFacts.shape b -> b_entered b = false -> visit_root m p b = (b', Done) -> EventFacts.shape b' /\ b_entered b' = false.
Proof.
  intros S He H. unfold visit_root in H. destruct (root_visitor b) as [b1 [|]] eqn:E; [|discriminate].
  assert (D : depth b = 0%nat) by (destruct (sh_closed S He) as [E1 E2]; unfold depth; now rewrite He, E1, E2).
  destruct (@step_shape m b EvRoot b1 true 0) as (S1 & D1 & _); [cbn [step]; now rewrite E | cbn; lia | exact S | lia |].
  apply (left_done m) in H as (b2 & ER & EX). destruct (@run_depth m p b1 b2 S1 ltac:(lia) ER) as [S2 D2].
  destruct (@step_shape m b2 EvExit b' false 1 EX) as (S3 & D3 & _); [cbn; lia | exact S2 | intros _; apply depth_entered; [exact S2 | lia] |].
  split; [exact S3|]. destruct (b_entered b') eqn:He'; [|reflexivity]. unfold depth in *. rewrite He' in D3. lia.
Qed.
Lemma all_done_idle m l : forall b b' o, EventFacts.shape b -> b_entered b = false -> all_done m l b -> visit_roots m l b = (b', o) -> b_entered b' = false.
Proof.
  induction l as [|p l IH]; intros b b' o S He HA H; cbn [visit_roots all_done] in *; [now injection H as <- <-|].
  destruct HA as [H1 H2]. destruct (visit_root m p b) as [b1 o1] eqn:E. cbn [fst snd] in *. subst o1.
  destruct (@visit_root_idle m p b b1 S He E) as [S1 He1]. eapply IH; eauto.
Qed.
