(** * Lemmas for property C64: one state for a whole session. *)
From Verif Require Import Base BaseFacts KeyModel KeyFacts HMap FlameModel BuilderModel BuilderFacts VisitorModel Spec LayoutModel ImplModel ImplSpec ImplFacts
  StoreFacts LockModel LockSpec LockFacts SnapshotModel SnapshotSpec SnapshotFacts SnapshotRun DashModel DashSpec MixModel MixSpec MixRun MixFacts.
From Verif Require ChangeSession.

#[local] Arguments key_new : simpl never.

Lemma pointing_vseq f p q : pointing f (vseq p q) = vseq (pointing f p) (pointing f q).
Proof. induction p; cbn; congruence. Qed.

(** ** Only newly visited allocations matter *)
Definition xagree (h1 h2 : list (ptr * vprog)) (b b' : builder) : Prop :=
  forall x, seen b x = false -> seen b' x = true -> object_at h2 x = object_at h1 x.
Lemma xagree_sub h1 h2 a a' b b' : grows a b -> grows b' a' -> xagree h1 h2 a a' -> xagree h1 h2 b b'.
Proof. intros G1 G2 H x X1 X2. apply H; [|now apply G2]. destruct (seen a x) eqn:E; [|reflexivity]. apply G1 in E. congruence. Qed.

Lemma xscope_frame m n h1 h2 body1 body2 r b1 :
  run m body2 b1 = run m body1 b1 ->
  (forall b2, leave_scope (run m body1 b1) = (b2, Done) -> run m (linked n h2 r) b2 = run m (linked n h1 r) b2) ->
  and_then (leave_scope (run m body2 b1)) (run m (linked n h2 r)) = and_then (leave_scope (run m body1 b1)) (run m (linked n h1 r)).
Proof. intros -> H. destruct (leave_scope (run m body1 b1)) as [b2 [| |]]; cbn [and_then]; auto. Qed.

Lemma xframe_run m n : forall h1 h2 p b, xagree h1 h2 b (fst (run m (linked n h1 p) b)) ->
  run m (linked n h2 p) b = run m (linked n h1 p) b.
Proof.
  induction n as [n IHn] using lt_wf_ind. intros h1 h2 p.
  induction p as [| |k s body IHb rest IHr|k s body IHb rest IHr|k s x body IHb r1 IH1 r2 IH2]; intros b H; unfold linked in *; cbn [pointing run] in *; fold (linked n h1) (linked n h2) in *; try reflexivity.
  - pose proof (inline_visited m b k s) as E. destruct (enter_inline m b k s) as [b1 [|]]; [|reflexivity]. cbn [fst] in E.
    apply xscope_frame.
    + apply IHb. eapply xagree_sub; [apply grows_eq, E | | exact H]. apply and_then_grows. intros; apply run_grows.
    + intros b2 E2. apply IHr. rewrite E2 in H. cbn [and_then] in H. eapply xagree_sub; [| |exact H]; [|intros y; auto].
      eapply grows_trans; [apply grows_eq, E|]. eapply grows_trans; [apply run_grows|]. apply grows_eq. rewrite <- leave_visited, E2. reflexivity.
  - pose proof (unique_visited m b k s) as E. destruct (enter_unique m b k s) as [b1 [|]]; [|reflexivity]. cbn [fst] in E.
    apply xscope_frame.
    + apply IHb. eapply xagree_sub; [apply grows_eq, E | | exact H]. apply and_then_grows. intros; apply run_grows.
    + intros b2 E2. apply IHr. rewrite E2 in H. cbn [and_then] in H. eapply xagree_sub; [| |exact H]; [|intros y; auto].
      eapply grows_trans; [apply grows_eq, E|]. eapply grows_trans; [apply run_grows|]. apply grows_eq. rewrite <- leave_visited, E2. reflexivity.
  - pose proof (shared_visited m b k s x) as E. destruct (enter_shared m b k s x) as [[b1 [|]] [|]]; try reflexivity.
    + destruct E as [E0 E]. destruct (grows_cons E) as [G Gx]. apply xscope_frame.
      * assert (Ef : object_at h2 x = object_at h1 x).
        { apply H; [exact E0|]. eapply and_then_grows; [intros; apply run_grows|]. now apply run_grows. }
        destruct n as [|n']; [reflexivity|]. cbn [target] in *. rewrite Ef. destruct (object_at h1 x) as [w|] eqn:Eo; [|reflexivity].
        apply (IHn n'); [lia|]. eapply xagree_sub; [exact G | | exact H]. apply and_then_grows. intros; apply run_grows.
      * intros b2 E2. apply IH1. rewrite E2 in H. cbn [and_then] in H. eapply xagree_sub; [| |exact H]; [|intros y; auto].
        eapply grows_trans; [exact G|]. eapply grows_trans; [apply run_grows|]. apply grows_eq. rewrite <- leave_visited, E2. reflexivity.
    + apply IH2. eapply xagree_sub; [apply grows_eq, E | | exact H]. intros y; auto.
Qed.

(** ** Combining *)
Definition xmerge (f : ptr -> bool) (h1 h2 : list (ptr * vprog)) : list (ptr * vprog) :=
  filter (fun xo => f (fst xo)) h1 ++ filter (fun xo => negb (f (fst xo))) h2.
Lemma at_filter f h x : object_at (filter (fun xo => f (fst xo)) h) x = if f x then object_at h x else None.
Proof.
  induction h as [|[y o] h IH]; cbn [filter object_at]; [destruct (f x); reflexivity|]. cbn [fst]. destruct (f y) eqn:Ey; cbn [object_at]; rewrite IH.
  - destruct (N.eqb_spec x y) as [->|]; [now rewrite Ey | reflexivity].
  - destruct (N.eqb_spec x y) as [->|]; [now rewrite Ey | reflexivity].
Qed.
Lemma at_app h1 h2 x : object_at (h1 ++ h2) x = match object_at h1 x with Some o => Some o | None => object_at h2 x end.
Proof. induction h1 as [|[y o] h1 IH]; cbn [app object_at]; [reflexivity|]. destruct (N.eqb x y); [reflexivity | exact IH]. Qed.
Lemma xmerge_at f h1 h2 x : object_at (xmerge f h1 h2) x = if f x then object_at h1 x else object_at h2 x.
Proof.
  unfold xmerge. rewrite at_app, at_filter, (@at_filter (fun y => negb (f y))). destruct (f x); cbn [negb]; [|reflexivity]. destruct (object_at h1 x); reflexivity.
Qed.
Lemma xmerge_shown M m E f h1 h2 : shown_objects M m E h1 -> shown_objects M m E h2 -> shown_objects M m E (xmerge f h1 h2).
Proof.
  intros H1 H2. unfold xmerge, shown_objects. apply Forall_app. split; apply Forall_forall; intros x Hx; apply filter_In in Hx as [Hx _].
  - exact (proj1 (Forall_forall _ _) H1 x Hx).
  - exact (proj1 (Forall_forall _ _) H2 x Hx).
Qed.

Definition xframed (m : mode) (bd : list (ptr * vprog) -> vprog) (b1 : builder) : Prop :=
  forall h1 h2, (forall y, seen (fst (run m (bd h1) b1)) y = true -> object_at h2 y = object_at h1 y) -> run m (bd h2) b1 = run m (bd h1) b1.
Lemma xframed_code m n p b1 : xframed m (fun h => linked n h p) b1.
Proof. intros h1 h2 H. apply xframe_run. intros x _ Hx. now apply H. Qed.
Lemma xframed_pointee m n x b1 : seen b1 x = true -> xframed m (fun h => target n h x) b1.
Proof.
  intros Hx h1 h2 H. assert (E : object_at h2 x = object_at h1 x) by (apply H; now apply run_grows).
  destruct n as [|n]; [reflexivity|]. cbn [target] in *. rewrite E. destruct (object_at h1 x) as [w|] eqn:Eo; [|reflexivity].
  apply (@xframe_run m n h1 h2 w b1). intros y _ Hy. now apply H.
Qed.

Lemma xcombine_two m (bd : nat -> list (ptr * vprog) -> vprog) b1 r1 h1 n1 s q2 h2 n2 r' :
  (forall k, xframed m (bd k) b1) -> (forall k, (n1 <= k)%nat -> run m (bd k h1) b1 = r1) -> b_visited (fst s) = b_visited (fst r1) ->
  (forall k, (n2 <= k)%nat -> and_then s (run m (linked k h2 q2)) = r') ->
  forall k, (Nat.max n1 n2 <= k)%nat ->
    run m (bd k (xmerge (seen (fst s)) h1 h2)) b1 = r1 /\ and_then s (run m (linked k (xmerge (seen (fst s)) h1 h2) q2)) = r'.
Proof.
  intros Hbd H1 HV H2 k Hk. split.
  - rewrite <- (H1 k) by lia. apply Hbd. intros y Hy. rewrite xmerge_at. rewrite H1 in Hy by lia. unfold seen in *. now rewrite HV, Hy.
  - rewrite <- (H2 k) by lia. destruct s as [b2 [| |]]; cbn [and_then fst]; try reflexivity.
    apply xframe_run. intros y Hy _. rewrite xmerge_at. now rewrite Hy.
Qed.

Section XState.
  Variable M : xmemory -> Prop.
  Variable m : mode.
  Variable E : Prop.

  Lemma xnot_done_after r rest r' : xafter M m r rest r' -> snd r <> Done -> snd r' <> Done.
  Proof. intros H. destruct H; cbn [snd]; try congruence; auto. Qed.
  Lemma xnot_done_leave r : snd r <> Done -> snd (leave_scope r) <> Done.
  Proof. destruct r as [b [| |]]; cbn; [congruence | |discriminate]. destruct (exit_impl b) as [? [|]]; cbn; congruence. Qed.

  Theorem xbig_state :
    (forall p b r, xbig M m p b r -> (snd r <> Done -> E) -> exists n q h n0, tells M m E n p q /\ shown_objects M m E h /\
      forall k, (n0 <= k)%nat -> run m (linked k h q) b = r) /\
    (forall r rest r', xafter M m r rest r' -> (snd r' <> Done -> E) -> exists n q h n0, tells M m E n rest q /\ shown_objects M m E h /\
      forall k, (n0 <= k)%nat -> and_then r (run m (linked k h q)) = r').
  Proof.
    apply xbig_after_ind.
    - intros b _. exists 0%nat, VRet, [], 0%nat. repeat split; constructor.
    - intros b HE. exists 0%nat, VCrash, [], 0%nat. repeat split; constructor. apply HE. discriminate.
    - intros k s body rest b b1 r r' He Hb IHb Ha IHa HE.
      destruct IHb as (n1 & q1 & h1 & k1 & S1 & A1 & R1). { intros X. apply HE. eapply xnot_done_after; [exact Ha|]. now apply xnot_done_leave. }
      destruct (IHa HE) as (n2 & q2 & h2 & k2 & S2 & A2 & R2).
      exists (Nat.max n1 n2), (VInline k s q1 q2), (xmerge (seen (fst (leave_scope r))) h1 h2), (Nat.max k1 k2).
      split; [constructor; eapply tells_le'; try eassumption; lia|]. split; [now apply xmerge_shown|]. intros j Hj. unfold linked. cbn [pointing run]. rewrite He.
      destruct (xcombine_two (bd := fun k h => linked k h q1) (fun k => @xframed_code m k q1 b1) R1 (leave_visited r) R2 Hj) as [C1 C2]. unfold linked in C1, C2. now rewrite C1, C2.
    - intros k s body rest b b1 He HE. assert (X : E) by (apply HE; cbn; congruence).
      destruct (tells_some M m (XInline k s body rest) X) as (n & q & Hq). exists n, q, [], 0%nat. split; [exact Hq|]. split; [constructor|].
      intros j _. inversion Hq; subst. unfold linked. cbn [pointing run]. now rewrite He.
    - intros k s body rest b b1 r r' He Hb IHb Ha IHa HE.
      destruct IHb as (n1 & q1 & h1 & k1 & S1 & A1 & R1). { intros X. apply HE. eapply xnot_done_after; [exact Ha|]. now apply xnot_done_leave. }
      destruct (IHa HE) as (n2 & q2 & h2 & k2 & S2 & A2 & R2).
      exists (Nat.max n1 n2), (VUnique k s q1 q2), (xmerge (seen (fst (leave_scope r))) h1 h2), (Nat.max k1 k2).
      split; [constructor; eapply tells_le'; try eassumption; lia|]. split; [now apply xmerge_shown|]. intros j Hj. unfold linked. cbn [pointing run]. rewrite He.
      destruct (xcombine_two (bd := fun k h => linked k h q1) (fun k => @xframed_code m k q1 b1) R1 (leave_visited r) R2 Hj) as [C1 C2]. unfold linked in C1, C2. now rewrite C1, C2.
    - intros k s body rest b b1 He HE. assert (X : E) by (apply HE; cbn; congruence).
      destruct (tells_some M m (XUnique k s body rest) X) as (n & q & Hq). exists n, q, [], 0%nat. split; [exact Hq|]. split; [constructor|].
      intros j _. inversion Hq; subst. unfold linked. cbn [pointing run]. now rewrite He.
    - intros k s x rest b b1 g r r' He Hg Hb IHb Ha IHa HE.
      destruct IHb as (n1 & q1 & h1 & k1 & S1 & A1 & R1). { intros X. apply HE. eapply xnot_done_after; [exact Ha|]. now apply xnot_done_leave. }
      destruct (IHa HE) as (n2 & q2 & h2 & k2 & S2 & A2 & R2).
      pose proof (shared_visited m b k s x) as V. rewrite He in V. destruct V as [V0 V]. destruct (grows_cons V) as [_ Gx].
      assert (X : exists h1', shown_objects M m E h1' /\ forall j, (S k1 <= j)%nat -> run m (target j h1' x) b1 = r).
      { assert (C : q1 = VCrash -> exists h1', shown_objects M m E h1' /\ forall j, (S k1 <= j)%nat -> run m (target j h1' x) b1 = r).
        { intros ->. exists []. split; [constructor|]. intros [|j] Hj; [lia|]. cbn [target object_at]. rewrite <- (R1 k1) by lia. reflexivity. }
        destruct (x_object g x) as [[i v]|] eqn:Eo; [|apply C; now inversion S1].
        destruct (behind_told S1) as [Z | (w & Hw & ->)]; [auto|].
        exists ((x, visit_inner i (xsize v, w)) :: h1). split; [constructor; [exists g, i, v, w; auto | exact A1]|].
        intros [|j] Hj; [lia|]. cbn [target object_at]. rewrite N.eqb_refl.
        rewrite <- (R1 j) by lia. apply (@xframe_run m j h1). intros y Hy _. cbn [object_at]. destruct (N.eqb_spec y x) as [->|]; [congruence | reflexivity]. }
      destruct X as (h1' & A1' & R1').
      exists n2, (VShared k s x VRet q2 q2), (xmerge (seen (fst (leave_scope r))) h1' h2), (Nat.max (S k1) k2).
      split; [now constructor|]. split; [now apply xmerge_shown|]. intros j Hj. unfold linked. cbn [pointing run]. rewrite He.
      destruct (xcombine_two (bd := fun k h => target k h x) (fun k => @xframed_pointee m k x b1 Gx) R1' (leave_visited r) R2 Hj) as [C1 C2]. unfold linked in C2. now rewrite C1, C2.
    - intros k s x rest b b1 r He Hb IHb HE. destruct (IHb HE) as (n1 & q1 & h1 & k1 & S1 & A1 & R1).
      exists n1, (VShared k s x VRet q1 q1), h1, k1. split; [now constructor|]. split; [exact A1|]. intros j Hj. unfold linked. cbn [pointing run]. rewrite He. apply (R1 j Hj).
    - intros k s x rest b b1 ret He HE. assert (X : E) by (apply HE; cbn; congruence).
      destruct (tells_some M m (XShared k s x rest) X) as (n & q & Hq). exists n, q, [], 0%nat. split; [exact Hq|]. split; [constructor|].
      intros j _. inversion Hq; subst. unfold linked. cbn [pointing run]. now rewrite He.
    - intros l a field rest b g r r' G1 G2 G3 Hb IHb Ha IHa HE.
      destruct IHb as (n1 & q1 & h1 & k1 & S1 & A1 & R1). { intros X. apply HE. eapply xnot_done_after; eauto. }
      destruct (IHa HE) as (n2 & q2 & h2 & k2 & S2 & A2 & R2).
      exists (Nat.max n1 n2), (vseq q1 q2), (xmerge (seen (fst r)) h1 h2), (Nat.max k1 k2).
      split; [eapply tl_try; try eassumption; eapply tells_le'; try eassumption; lia|]. split; [now apply xmerge_shown|]. intros j Hj. unfold linked. rewrite pointing_vseq, run_vseq.
      destruct (xcombine_two (bd := fun k h => linked k h q1) (fun k => @xframed_code m k q1 b) R1 eq_refl R2 Hj) as [C1 C2]. unfold linked in C1, C2. now rewrite C1, C2.
    - intros l a field rest b g r G1 G2 Hb IHb HE. destruct (IHb HE) as (n1 & q1 & h1 & k1 & S1 & A1 & R1).
      exists n1, q1, h1, k1. split; [apply tl_try_fails; [right; eauto | exact S1]|]. auto.
    - intros x body rest b g r r' G1 G2 Hb IHb Ha IHa HE.
      destruct IHb as (n1 & q1 & h1 & k1 & S1 & A1 & R1). { intros X. apply HE. eapply xnot_done_after; eauto. }
      destruct (IHa HE) as (n2 & q2 & h2 & k2 & S2 & A2 & R2).
      exists (Nat.max n1 n2), (vseq q1 q2), (xmerge (seen (fst r)) h1 h2), (Nat.max k1 k2).
      split; [apply tl_upgrade; [eauto | |]; eapply tells_le'; try eassumption; lia|]. split; [now apply xmerge_shown|]. intros j Hj. unfold linked. rewrite pointing_vseq, run_vseq.
      destruct (xcombine_two (bd := fun k h => linked k h q1) (fun k => @xframed_code m k q1 b) R1 eq_refl R2 Hj) as [C1 C2]. unfold linked in C1, C2. now rewrite C1, C2.
    - intros x body rest b g r G1 G2 Hb IHb HE. destruct (IHb HE) as (n1 & q1 & h1 & k1 & S1 & A1 & R1).
      exists n1, q1, h1, k1. split; [apply tl_dead; [right; eauto | exact S1]|]. auto.
    - intros v rest b r r' Hb IHb Ha IHa HE.
      destruct IHb as (n1 & q1 & h1 & k1 & S1 & A1 & R1). { intros X. apply HE. eapply xnot_done_after; eauto. }
      destruct (IHa HE) as (n2 & q2 & h2 & k2 & S2 & A2 & R2).
      exists (S (Nat.max n1 n2)), (vseq q1 q2), (xmerge (seen (fst r)) h1 h2), (Nat.max k1 k2).
      split; [apply tl_visit; eapply tells_le'; try eassumption; lia|]. split; [now apply xmerge_shown|]. intros j Hj. unfold linked. rewrite pointing_vseq, run_vseq.
      destruct (xcombine_two (bd := fun k h => linked k h q1) (fun k => @xframed_code m k q1 b) R1 eq_refl R2 Hj) as [C1 C2]. unfold linked in C1, C2. now rewrite C1, C2.
    - intros w l ls acc k b g n r G1 G2 G3 Hb IHb HE. destruct (IHb HE) as (n1 & q1 & h1 & k1 & S1 & A1 & R1).
      exists n1, q1, h1, k1. split; [|auto]. eapply tl_sum; [right; eauto | exact G3 | exact S1].
    - intros w l ls acc k b g G1 G2 G3 HE. exists 0%nat, VCrash, [], 0%nat. split; [|split; [constructor | reflexivity]].
      eapply tl_sum_overflow; [apply HE; discriminate | right; eauto | exact G3].
    - intros w acc k b r Hb IHb HE. destruct (IHb HE) as (n1 & q1 & h1 & k1 & S1 & A1 & R1).
      exists n1, q1, h1, k1. split; [now constructor | auto].
    - intros kd l ls rest b g r r' G1 G2 Hb IHb Ha IHa HE.
      destruct IHb as (n1 & q1 & h1 & k1 & S1 & A1 & R1). { intros X. apply HE. eapply xnot_done_after; eauto. }
      destruct (IHa HE) as (n2 & q2 & h2 & k2 & S2 & A2 & R2).
      exists (Nat.max n1 n2), (vseq q1 q2), (xmerge (seen (fst r)) h1 h2), (Nat.max k1 k2).
      split; [eapply tl_iter; try eassumption; eapply tells_le'; try eassumption; lia|]. split; [now apply xmerge_shown|]. intros j Hj. unfold linked. rewrite pointing_vseq, run_vseq.
      destruct (xcombine_two (bd := fun k h => linked k h q1) (fun k => @xframed_code m k q1 b) R1 eq_refl R2 Hj) as [C1 C2]. unfold linked in C1, C2. now rewrite C1, C2.
    - intros kd rest b r Hb IHb HE. destruct (IHb HE) as (n1 & q1 & h1 & k1 & S1 & A1 & R1).
      exists n1, q1, h1, k1. split; [now constructor | auto].
    - intros b rest r Hb IHb HE. exact (IHb HE).
    - intros b o rest Ho HE. assert (X : E) by (apply HE; exact Ho). destruct (tells_some M m rest X) as (n & q & Hq).
      exists n, q, [], 0%nat. split; [exact Hq|]. split; [constructor|]. intros j _. destruct o; [congruence | reflexivity | reflexivity].
  Qed.

  Theorem xvisit_state std g b v c : xpasses M m std (xbegin g b v) c -> xended c -> (snd (xresult c) <> Done -> E) ->
    exists q h n0, shown M m E v q /\ shown_objects M m E h /\ forall k, (n0 <= k)%nat -> run m (linked k h q) b = xresult c.
  Proof.
    intros HP He HE. pose proof (xpasses_big HP He) as HB. revert HB HE. generalize (xresult c) as res. intros res HB HE.
    inversion HB as [| | | | | | | | | | | | |? ? ? r ? Hb Ha| | | | |]; subst.
    assert (Er : r = res) by (inversion Ha as [b1 ? ? Hb1|]; subst; [inversion Hb1; subst; reflexivity | reflexivity]).
    subst r. destruct xbig_state as [BS _]. destruct (BS _ _ _ Hb HE) as (n & q & h & n0 & S1 & A1 & R1).
    exists q, h, n0. split; [exact (value_told S1)|]. auto.
  Qed.

  Lemma xroots_frame k h1 h2 (b0 : builder) qs : (forall y, seen b0 y = false -> object_at h2 y = object_at h1 y) ->
    forall b, grows b0 b -> visit_roots m (map (linked k h2) qs) b = visit_roots m (map (linked k h1) qs) b.
  Proof.
    intros A. induction qs as [|v vs IH]; intros b G; [reflexivity|]. cbn [map visit_roots]. unfold visit_root. destruct (root_visitor b) as [b1 st] eqn:Er.
    assert (V : b_visited b1 = b_visited b) by (unfold root_visitor in Er; destruct (b_entered b); injection Er as <- _; reflexivity).
    assert (G' : grows b0 b1) by (eapply grows_trans; [exact G | now apply grows_eq]).
    destruct st; [|now apply IH].
    rewrite (@xframe_run m k h1 h2).
    2:{ intros y Hy _. apply A. destruct (seen b0 y) eqn:Ey; [apply G' in Ey; congruence | reflexivity]. }
    pose proof (leave_visited (run m (linked k h1 v) b1)) as LV.
    destruct (leave_scope _) as [b3 o3]. cbn [fst] in LV.
    assert (G3 : grows b0 b3) by (eapply grows_trans; [exact G'|]; eapply grows_trans; [apply run_grows|]; apply grows_eq, LV).
    destruct o3; [now apply IH | now apply IH | reflexivity].
  Qed.

  Lemma xall_done_frame k h1 h2 (b0 : builder) qs : (forall y, seen b0 y = false -> object_at h2 y = object_at h1 y) ->
    forall b, grows b0 b -> ChangeSession.all_done m (map (linked k h1) qs) b -> ChangeSession.all_done m (map (linked k h2) qs) b.
  Proof.
    intros A. induction qs as [|v vs IH]; intros b G; [auto|]. cbn [map ChangeSession.all_done].
    assert (X : visit_root m (linked k h2 v) b = visit_root m (linked k h1 v) b).
    { unfold visit_root. destruct (root_visitor b) as [b1 st] eqn:Er.
      assert (V : b_visited b1 = b_visited b) by (unfold root_visitor in Er; destruct (b_entered b); injection Er as <- _; reflexivity).
      destruct st; [|reflexivity]. f_equal. apply xframe_run. intros y Hy _. apply A.
      destruct (seen b0 y) eqn:Ey; [|reflexivity]. apply G in Ey. unfold seen in *. congruence. }
    rewrite X. intros [H1 H2]. split; [exact H1|]. apply IH; [|exact H2].
    unfold visit_root. destruct (root_visitor b) as [b1 st] eqn:Er.
    assert (V : b_visited b1 = b_visited b) by (unfold root_visitor in Er; destruct (b_entered b); injection Er as <- _; reflexivity).
    assert (G' : grows b0 b1) by (eapply grows_trans; [exact G | now apply grows_eq]).
    destruct st; [|exact G']. eapply grows_trans; [exact G'|]. eapply grows_trans; [apply run_grows|]. apply grows_eq, leave_visited.
  Qed.

  Lemma shown_some v : E -> exists q, shown M m E v q.
  Proof. intros HE. destruct (tells_value M m v HE) as (n & q & H). exists q. exact (value_told H). Qed.

  Theorem xsession_state std roots : forall g b b' o calm, xprofiles M m std g b roots b' o calm -> (calm = false -> E) ->
    exists qs h n0, Forall2 (shown M m E) roots qs /\ shown_objects M m E h /\ forall k, (n0 <= k)%nat ->
      visit_roots m (map (linked k h) qs) b = (b', o) /\ (calm = true -> ChangeSession.all_done m (map (linked k h) qs) b).
  Proof.
    intros g b b' o calm H HE.
    assert (D : E -> forall vs, exists ws, Forall2 (shown M m E) vs ws).
    { intros X vs. induction vs as [|v vs (ws & IH)]; [exists []; constructor|]. destruct (shown_some v X) as [w Hw]. exists (w :: ws). now constructor. }
    induction H as [g b|g g' b vs b' o calm HM HC HP IH|g b v vs b1 b' o calm Er HP IH|g b v vs b1 c b2 o2 b' o calm Er HP He El No HS IH|g b v vs b1 c b2 Er HP He El].
    - exists [], [], 0%nat. split; [constructor|]. split; [constructor|]. intros k _. split; [reflexivity | intros _; exact I].
    - auto.
    - destruct IH as (ws & h & n0 & H1 & H2 & H3); [intros; now apply HE|].
      destruct (shown_some v (HE eq_refl)) as [w Hw]. exists (w :: ws), h, n0. split; [now constructor|]. split; [exact H2|].
      intros k Hk. cbn [map visit_roots]. unfold visit_root. rewrite Er. split; [apply (H3 k Hk) | discriminate].
    - assert (HE2 : snd (leave_scope (xresult c)) <> Done -> E). { rewrite El. cbn [snd]. intros X. apply HE. destruct o2; [congruence | reflexivity | reflexivity]. }
      destruct IH as (ws & h2 & k2 & W2 & A2 & R2); [intros ->; apply HE; destruct o2; reflexivity |].
      destruct (xvisit_state HP He) as (w & h1 & k1 & W1 & A1 & R1); [intros X; apply HE2; now apply xnot_done_leave|].
      exists (w :: ws), (xmerge (seen b2) h1 h2), (Nat.max k1 k2). split; [now constructor|]. split; [now apply xmerge_shown|].
      intros k Hk. cbn [map visit_roots]. unfold visit_root. rewrite Er.
      assert (L : b_visited b2 = b_visited (fst (xresult c))) by (rewrite <- leave_visited, El; reflexivity).
      assert (X : run m (linked k (xmerge (seen b2) h1 h2) w) b1 = xresult c).
      { rewrite <- (R1 k) by lia. apply xframe_run. intros y _ Hy. rewrite xmerge_at. rewrite R1 in Hy by lia.
        unfold seen in *. now rewrite L, Hy. }
      rewrite X, El.
      assert (A : forall y, seen b2 y = false -> object_at (xmerge (seen b2) h1 h2) y = object_at h2 y) by (intros y Hy; rewrite xmerge_at; now rewrite Hy).
      destruct (R2 k) as [R3 R4]; [lia|].
      assert (Y : visit_roots m (map (linked k (xmerge (seen b2) h1 h2)) ws) b2 = (b', o)).
      { rewrite <- R3. apply (@xroots_frame k h2 _ b2); [exact A | intros y; auto]. }
      split; [destruct o2; auto; congruence|]. cbn [ChangeSession.all_done]. unfold visit_root. rewrite Er, X, El. cbn [fst snd]. destruct o2; try discriminate. intros ->. split; [reflexivity|].
      apply (@xall_done_frame k h2 _ b2); [exact A | intros y; auto | auto].
    - pose proof (HE eq_refl) as X.
      destruct (xvisit_state HP He) as (w & h1 & k1 & W1 & A1 & R1); [auto|]. destruct (D X vs) as (ws & Hws).
      exists (w :: ws), h1, k1. split; [now constructor|]. split; [exact A1|]. intros k Hk. cbn [map visit_roots]. unfold visit_root. split; [now rewrite Er, R1, El | discriminate].
  Qed.
End XState.
