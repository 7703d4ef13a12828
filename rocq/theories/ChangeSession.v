(** * Lemmas for property C52: one state for a whole session. *)
From Verif Require Import Base BaseFacts KeyModel KeyFacts HMap FlameModel BuilderModel BuilderFacts VisitorModel Spec LayoutModel ImplModel ImplSpec ImplFacts
  StoreFacts LockModel LockSpec LockFacts SnapshotModel SnapshotSpec SnapshotFacts SnapshotRun ChangeModel ChangeSpec ChangeRun ChangeFacts.

#[local] Arguments key_new : simpl never.

(** ** Combining stores *)
Definition merge (f : ptr -> bool) (h1 h2 : store) : store :=
  filter (fun xo => f (fst xo)) h1 ++ filter (fun xo => negb (f (fst xo))) h2.
Lemma find_filter f h x : find_obj (filter (fun xo => f (fst xo)) h) x = if f x then find_obj h x else None.
Proof.
  induction h as [|[y o] h IH]; cbn [filter find_obj]; [destruct (f x); reflexivity|]. cbn [fst]. destruct (f y) eqn:Ey; cbn [find_obj]; rewrite IH.
  - destruct (N.eqb_spec x y) as [->|]; [now rewrite Ey | reflexivity].
  - destruct (N.eqb_spec x y) as [->|]; [now rewrite Ey | reflexivity].
Qed.
Lemma find_app h1 h2 x : find_obj (h1 ++ h2) x = match find_obj h1 x with Some o => Some o | None => find_obj h2 x end.
Proof. induction h1 as [|[y o] h1 IH]; cbn [app find_obj]; [reflexivity|]. destruct (N.eqb x y); [reflexivity | exact IH]. Qed.
Lemma merge_find f h1 h2 x : find_obj (merge f h1 h2) x = if f x then find_obj h1 x else find_obj h2 x.
Proof.
  unfold merge. rewrite find_app, find_filter, (@find_filter (fun y => negb (f y))). destruct (f x); cbn [negb]; [|reflexivity]. destruct (find_obj h1 x); reflexivity.
Qed.
Lemma filter_appeared M E f h : appeared M E h -> appeared M E (filter f h).
Proof. unfold appeared. rewrite !Forall_forall. intros H xo Hx. apply filter_In in Hx as [Hx _]. auto. Qed.
Lemma merge_appeared M E f h1 h2 : appeared M E h1 -> appeared M E h2 -> appeared M E (merge f h1 h2).
Proof. intros H1 H2. apply Forall_app. split; now apply filter_appeared. Qed.

Lemma combine_two m (bd : nat -> store -> vprog) b1 r1 h1 n1 s q2 h2 n2 r' :
  (forall k, framed m (bd k) b1) -> (forall k, (n1 <= k)%nat -> run m (bd k h1) b1 = r1) -> b_visited (fst s) = b_visited (fst r1) ->
  (forall k, (n2 <= k)%nat -> and_then s (run m (retarget (pt_of m k h2) q2)) = r') ->
  forall k, (Nat.max n1 n2 <= k)%nat ->
    run m (bd k (merge (seen (fst s)) h1 h2)) b1 = r1 /\ and_then s (run m (retarget (pt_of m k (merge (seen (fst s)) h1 h2)) q2)) = r'.
Proof.
  intros Hbd H1 HV H2 k Hk. split.
  - rewrite <- (H1 k) by lia. apply Hbd. intros y Hy. rewrite merge_find. rewrite H1 in Hy by lia. unfold seen in *. now rewrite HV, Hy.
  - rewrite <- (H2 k) by lia. destruct s as [b2 [| |]]; cbn [and_then fst]; try reflexivity.
    apply frame. intros y Hy _. rewrite merge_find. now rewrite Hy.
Qed.

Section State.
  Variable M : memory -> Prop.
  Variable m : mode.
  Variable E : Prop.
  Variable good : mvalue -> Prop.
  Hypothesis good_child : forall s cs, good (MPlain s cs) -> Forall good cs.
  Hypothesis good_content : forall g l, M g -> good (m_content g l).
  Hypothesis good_object : forall g x i v, M g -> m_object g x = Some (i, v) -> good v.
  Hypothesis good_skip : forall s cs i c, good (MPlain s cs) -> nth_error cs i = Some c ->
    pointer s = true \/ marks (N.of_nat i) (visit_shape m unseen s (placeholders 0 (map msize cs))) = 0%nat -> exists w, appears M E c w.

  Lemma not_done_after r rest r' : after M m r rest r' -> snd r <> Done -> snd r' <> Done.
  Proof. intros H. destruct H; cbn [snd]; try congruence; auto. Qed.
  Lemma not_done_leave r : snd r <> Done -> snd (leave_scope r) <> Done.
  Proof. destruct r as [b [| |]]; cbn; [congruence | |discriminate]. destruct (exit_impl b) as [? [|]]; cbn; congruence. Qed.

  Lemma sees_le n p q n' : sees M m E n p q -> (n <= n')%nat -> sees M m E n' p q.
  Proof. intros H L. exact (@sees_mono M m E E n p q (fun e => e) H n' L). Qed.

  Theorem big_state :
    (forall p b r, big M m p b r -> (snd r <> Done -> E) -> exists n q h n0, sees M m E n p q /\ appeared M E h /\
      forall k, (n0 <= k)%nat -> run m (retarget (pt_of m k h) q) b = r) /\
    (forall r rest r', after M m r rest r' -> (snd r' <> Done -> E) -> exists n q h n0, sees M m E n rest q /\ appeared M E h /\
      forall k, (n0 <= k)%nat -> and_then r (run m (retarget (pt_of m k h) q)) = r').
  Proof.
    apply big_after_ind.
    - intros b _. exists 0%nat, VRet, [], 0%nat. repeat split; constructor.
    - intros b _. exists 0%nat, VCrash, [], 0%nat. repeat split; constructor.
    - intros k s body rest b b1 r r' He Hb IHb Ha IHa HE.
      destruct IHb as (n1 & q1 & h1 & k1 & S1 & A1 & R1). { intros X. apply HE. eapply not_done_after; [exact Ha|]. now apply not_done_leave. }
      destruct (IHa HE) as (n2 & q2 & h2 & k2 & S2 & A2 & R2).
      exists (Nat.max n1 n2), (VInline k s q1 q2), (merge (seen (fst (leave_scope r))) h1 h2), (Nat.max k1 k2).
      split; [constructor; eapply sees_le; try eassumption; lia|]. split; [now apply merge_appeared|]. intros j Hj. cbn [retarget run]. rewrite He.
      destruct (combine_two (bd := fun k h => retarget (pt_of m k h) q1) (fun k => @framed_code m k q1 b1) R1 (leave_visited r) R2 Hj) as [C1 C2]. now rewrite C1, C2.
    - intros k s body rest b b1 He HE. assert (X : E) by (apply HE; cbn; congruence).
      destruct (sees_some M m (CInline k s body rest) X) as (n & q & Hq). exists n, q, [], 0%nat. split; [exact Hq|]. split; [constructor|].
      intros j _. inversion Hq; subst. cbn [retarget run]. now rewrite He.
    - intros k s body rest b b1 r r' He Hb IHb Ha IHa HE.
      destruct IHb as (n1 & q1 & h1 & k1 & S1 & A1 & R1). { intros X. apply HE. eapply not_done_after; [exact Ha|]. now apply not_done_leave. }
      destruct (IHa HE) as (n2 & q2 & h2 & k2 & S2 & A2 & R2).
      exists (Nat.max n1 n2), (VUnique k s q1 q2), (merge (seen (fst (leave_scope r))) h1 h2), (Nat.max k1 k2).
      split; [constructor; eapply sees_le; try eassumption; lia|]. split; [now apply merge_appeared|]. intros j Hj. cbn [retarget run]. rewrite He.
      destruct (combine_two (bd := fun k h => retarget (pt_of m k h) q1) (fun k => @framed_code m k q1 b1) R1 (leave_visited r) R2 Hj) as [C1 C2]. now rewrite C1, C2.
    - intros k s body rest b b1 He HE. assert (X : E) by (apply HE; cbn; congruence).
      destruct (sees_some M m (CUnique k s body rest) X) as (n & q & Hq). exists n, q, [], 0%nat. split; [exact Hq|]. split; [constructor|].
      intros j _. inversion Hq; subst. cbn [retarget run]. now rewrite He.
    - intros k s x rest b b1 g r r' He Hg Hb IHb Ha IHa HE.
      destruct IHb as (n1 & q1 & h1 & k1 & S1 & A1 & R1). { intros X. apply HE. eapply not_done_after; [exact Ha|]. now apply not_done_leave. }
      destruct (IHa HE) as (n2 & q2 & h2 & k2 & S2 & A2 & R2).
      pose proof (shared_visited m b k s x) as V. rewrite He in V. destruct V as [V0 V]. destruct (grows_cons V) as [_ Gx].
      assert (X : exists h1', appeared M E h1' /\ forall j, (S k1 <= j)%nat -> run m (pt_of m j h1' x) b1 = r).
      { assert (C : q1 = VCrash -> exists h1', appeared M E h1' /\ forall j, (S k1 <= j)%nat -> run m (pt_of m j h1' x) b1 = r).
        { intros ->. exists []. split; [constructor|]. intros [|j] Hj; [lia|]. cbn [pt_of find_obj]. rewrite <- (R1 k1) by lia. reflexivity. }
        destruct (m_object g x) as [[i v]|] eqn:Eo; [|apply C; now inversion S1].
        pose proof (@good_object g x i v Hg Eo) as Gv.
        destruct (behind_seen good_child good_content good_skip Gv S1) as [Z | (w & Hw & ->)]; [auto|].
        exists ((x, (i, w)) :: h1). split; [constructor; [exists g, v; auto | exact A1]|].
        intros [|j] Hj; [lia|]. rewrite (@pt_of_obj m j _ x i w) by (cbn [find_obj]; now rewrite N.eqb_refl).
        rewrite <- (R1 j) by lia. apply frame. intros y Hy _. cbn [find_obj]. destruct (N.eqb_spec y x) as [->|]; [congruence | reflexivity]. }
      destruct X as (h1' & A1' & R1').
      exists n2, (VShared k s x VRet q2 q2), (merge (seen (fst (leave_scope r))) h1' h2), (Nat.max (S k1) k2).
      split; [now constructor|]. split; [now apply merge_appeared|]. intros j Hj. cbn [retarget run]. rewrite He.
      destruct (combine_two (bd := fun k h => pt_of m k h x) (fun k => @framed_pointee m k x b1 Gx) R1' (leave_visited r) R2 Hj) as [C1 C2]. now rewrite C1, C2.
    - intros k s x rest b b1 r He Hb IHb HE. destruct (IHb HE) as (n1 & q1 & h1 & k1 & S1 & A1 & R1).
      exists n1, (VShared k s x VRet q1 q1), h1, k1. split; [now constructor|]. split; [exact A1|]. intros j Hj. cbn [retarget run]. rewrite He. auto.
    - intros k s x rest b b1 ret He HE. assert (X : E) by (apply HE; cbn; congruence).
      destruct (sees_some M m (CShared k s x rest) X) as (n & q & Hq). exists n, q, [], 0%nat. split; [exact Hq|]. split; [constructor|].
      intros j _. inversion Hq; subst. cbn [retarget run]. now rewrite He.
    - intros l a field rest b g r r' G1 G2 G3 Hb IHb Ha IHa HE.
      destruct IHb as (n1 & q1 & h1 & k1 & S1 & A1 & R1). { intros X. apply HE. eapply not_done_after; eauto. }
      destruct (IHa HE) as (n2 & q2 & h2 & k2 & S2 & A2 & R2).
      exists (Nat.max n1 n2), (vseq q1 q2), (merge (seen (fst r)) h1 h2), (Nat.max k1 k2).
      split; [eapply se_try; try eassumption; eapply sees_le; try eassumption; lia|]. split; [now apply merge_appeared|]. intros j Hj. rewrite ret_vseq, run_vseq.
      destruct (combine_two (bd := fun k h => retarget (pt_of m k h) q1) (fun k => @framed_code m k q1 b) R1 eq_refl R2 Hj) as [C1 C2]. now rewrite C1, C2.
    - intros l a field rest b g r G1 G2 Hb IHb HE. destruct (IHb HE) as (n1 & q1 & h1 & k1 & S1 & A1 & R1).
      exists n1, q1, h1, k1. split; [apply se_try_fails; [right; eauto | exact S1]|]. auto.
    - intros x body rest b g r r' G1 G2 Hb IHb Ha IHa HE.
      destruct IHb as (n1 & q1 & h1 & k1 & S1 & A1 & R1). { intros X. apply HE. eapply not_done_after; eauto. }
      destruct (IHa HE) as (n2 & q2 & h2 & k2 & S2 & A2 & R2).
      exists (Nat.max n1 n2), (vseq q1 q2), (merge (seen (fst r)) h1 h2), (Nat.max k1 k2).
      split; [eapply se_upgrade; try eassumption; eapply sees_le; try eassumption; lia|]. split; [now apply merge_appeared|]. intros j Hj. rewrite ret_vseq, run_vseq.
      destruct (combine_two (bd := fun k h => retarget (pt_of m k h) q1) (fun k => @framed_code m k q1 b) R1 eq_refl R2 Hj) as [C1 C2]. now rewrite C1, C2.
    - intros x body rest b g r G1 G2 Hb IHb HE. destruct (IHb HE) as (n1 & q1 & h1 & k1 & S1 & A1 & R1).
      exists n1, q1, h1, k1. split; [apply se_dead; [right; eauto | exact S1]|]. auto.
    - intros v rest b r r' Hb IHb Ha IHa HE.
      destruct IHb as (n1 & q1 & h1 & k1 & S1 & A1 & R1). { intros X. apply HE. eapply not_done_after; eauto. }
      destruct (IHa HE) as (n2 & q2 & h2 & k2 & S2 & A2 & R2).
      exists (S (Nat.max n1 n2)), (vseq q1 q2), (merge (seen (fst r)) h1 h2), (Nat.max k1 k2).
      split; [apply se_visit; eapply sees_le; try eassumption; lia|]. split; [now apply merge_appeared|]. intros j Hj. rewrite ret_vseq, run_vseq.
      destruct (combine_two (bd := fun k h => retarget (pt_of m k h) q1) (fun k => @framed_code m k q1 b) R1 eq_refl R2 Hj) as [C1 C2]. now rewrite C1, C2.
    - intros b rest r Hb IHb HE. exact (IHb HE).
    - intros b o rest Ho HE. assert (X : E) by (apply HE; exact Ho). destruct (sees_some M m rest X) as (n & q & Hq).
      exists n, q, [], 0%nat. split; [exact Hq|]. split; [constructor|]. intros j _. destruct o; [congruence | reflexivity | reflexivity].
  Qed.

  Theorem visit_state std g b v c : good v -> passes M m std (begin g b v) c -> ended c -> (snd (result c) <> Done -> E) ->
    exists w h n0, appears M E v w /\ appeared M E h /\ forall k, (n0 <= k)%nat -> run m (visit_in m k h w) b = result c.
  Proof.
    intros Gv HP He HE. pose proof (passes_big HP He) as HB. revert HB HE. generalize (result c) as res. intros res HB HE.
    inversion HB as [| | | | | | | | | | | | |? ? ? r ? Hb Ha]; subst.
    assert (Er : r = res) by (inversion Ha as [b1 ? ? Hb1|]; subst; [inversion Hb1; subst; reflexivity | reflexivity]).
    subst r. destruct big_state as [BS _]. destruct (BS _ _ _ Hb HE) as (n & q & h & n0 & S1 & A1 & R1).
    destruct (value_seen good_child good_content good_skip Gv S1) as (w & Hw & ->). exists w, h, n0. split; [exact Hw|]. split; [exact A1|].
    intros k Hk. rewrite visit_in_pt. auto.
  Qed.

  Hypothesis default : E -> forall v, exists w, appears M E v w.

  Lemma roots_frame k h1 h2 (b0 : builder) vs : (forall y, seen b0 y = false -> find_obj h2 y = find_obj h1 y) ->
    forall b, grows b0 b -> visit_roots m (map (visit_in m k h2) vs) b = visit_roots m (map (visit_in m k h1) vs) b.
  Proof.
    intros A. induction vs as [|v vs IH]; intros b G; [reflexivity|]. cbn [map visit_roots]. unfold visit_root. destruct (root_visitor b) as [b1 st] eqn:Er.
    assert (V : b_visited b1 = b_visited b) by (unfold root_visitor in Er; destruct (b_entered b); injection Er as <- _; reflexivity).
    assert (G' : grows b0 b1) by (eapply grows_trans; [exact G | now apply grows_eq]).
    destruct st; [|now apply IH]. rewrite !visit_in_pt.
    rewrite (@frame m k h1 h2).
    2:{ intros y Hy _. apply A. destruct (seen b0 y) eqn:Ey; [apply G' in Ey; congruence | reflexivity]. }
    pose proof (leave_visited (run m (retarget (pt_of m k h1) (visit m unseen v)) b1)) as LV.
    destruct (leave_scope _) as [b3 o3]. cbn [fst] in LV.
    assert (G3 : grows b0 b3) by (eapply grows_trans; [exact G'|]; eapply grows_trans; [apply run_grows|]; apply grows_eq, LV).
    destruct o3; [now apply IH | now apply IH | reflexivity].
  Qed.

  (** Every root visit returns. *)
  Fixpoint all_done (l : list vprog) (b : builder) : Prop :=
    match l with [] => True | p :: l' => snd (visit_root m p b) = Done /\ all_done l' (fst (visit_root m p b)) end.
  Lemma all_done_frame k h1 h2 (b0 : builder) vs : (forall y, seen b0 y = false -> find_obj h2 y = find_obj h1 y) ->
    forall b, grows b0 b -> all_done (map (visit_in m k h1) vs) b -> all_done (map (visit_in m k h2) vs) b.
  Proof.
    intros A. induction vs as [|v vs IH]; intros b G; [auto|]. cbn [map all_done].
    assert (X : visit_root m (visit_in m k h2 v) b = visit_root m (visit_in m k h1 v) b).
    { unfold visit_root. destruct (root_visitor b) as [b1 st] eqn:Er.
      assert (V : b_visited b1 = b_visited b) by (unfold root_visitor in Er; destruct (b_entered b); injection Er as <- _; reflexivity).
      destruct st; [|reflexivity]. f_equal. rewrite !visit_in_pt. apply frame. intros y Hy _. apply A.
      destruct (seen b0 y) eqn:Ey; [|reflexivity]. apply G in Ey. unfold seen in *. congruence. }
    rewrite X. intros [H1 H2]. split; [exact H1|]. apply IH; [|exact H2].
    unfold visit_root. destruct (root_visitor b) as [b1 st] eqn:Er.
    assert (V : b_visited b1 = b_visited b) by (unfold root_visitor in Er; destruct (b_entered b); injection Er as <- _; reflexivity).
    assert (G' : grows b0 b1) by (eapply grows_trans; [exact G | now apply grows_eq]).
    destruct st; [|exact G']. eapply grows_trans; [exact G'|]. eapply grows_trans; [apply run_grows|]. apply grows_eq, leave_visited.
  Qed.

  Theorem session_state std roots : forall g b b' o calm, Forall good roots -> profiles M m std g b roots b' o calm -> (calm = false -> E) ->
    exists ws h n0, Forall2 (appears M E) roots ws /\ appeared M E h /\ forall k, (n0 <= k)%nat ->
      visit_roots m (map (visit_in m k h) ws) b = (b', o) /\ (calm = true -> all_done (map (visit_in m k h) ws) b).
  Proof.
    intros g b b' o calm Gr H HE.
    assert (D : E -> forall vs, exists ws, Forall2 (appears M E) vs ws).
    { intros X vs. induction vs as [|v vs (ws & IH)]; [exists []; constructor|]. destruct (default X v) as [w Hw]. exists (w :: ws). now constructor. }
    induction H as [g b|g g' b vs b' o calm HM HC HP IH|g b v vs b1 b' o calm Er HP IH|g b v vs b1 c b2 o2 b' o calm Er HP He El No HS IH|g b v vs b1 c b2 Er HP He El].
    - exists [], [], 0%nat. repeat split; constructor.
    - auto.
    - inversion Gr as [|? ? Gv Gvs]; subst. destruct (IH Gvs) as (ws & h & n0 & H1 & H2 & H3); [intros; now apply HE|].
      destruct (default (HE eq_refl) v) as [w Hw]. exists (w :: ws), h, n0. split; [now constructor|]. split; [exact H2|].
      intros k Hk. split; [|discriminate]. cbn [map visit_roots]. unfold visit_root. rewrite Er. apply (H3 k Hk).
    - inversion Gr as [|? ? Gv Gvs]; subst.
      assert (HE2 : snd (leave_scope (result c)) <> Done -> E). { rewrite El. cbn [snd]. intros X. apply HE. destruct o2; [congruence | reflexivity | reflexivity]. }
      destruct IH as (ws & h2 & k2 & W2 & A2 & R2); [exact Gvs | intros ->; apply HE; destruct o2; reflexivity |].
      destruct (visit_state Gv HP He) as (w & h1 & k1 & W1 & A1 & R1); [intros X; apply HE2; now apply not_done_leave|].
      exists (w :: ws), (merge (seen b2) h1 h2), (Nat.max k1 k2). split; [now constructor|]. split; [now apply merge_appeared|].
      intros k Hk. cbn [map visit_roots all_done]. unfold visit_root. rewrite Er.
      assert (L : b_visited b2 = b_visited (fst (result c))) by (rewrite <- leave_visited, El; reflexivity).
      assert (X : run m (visit_in m k (merge (seen b2) h1 h2) w) b1 = result c).
      { rewrite <- (R1 k) by lia. rewrite !visit_in_pt. apply frame. intros y _ Hy. rewrite merge_find. rewrite <- visit_in_pt, R1 in Hy by lia.
        unfold seen in *. now rewrite L, Hy. }
      rewrite X, El.
      assert (A : forall y, seen b2 y = false -> find_obj (merge (seen b2) h1 h2) y = find_obj h2 y) by (intros y Hy; rewrite merge_find; now rewrite Hy).
      destruct (R2 k) as [R3 R4]; [lia|].
      assert (Y : visit_roots m (map (visit_in m k (merge (seen b2) h1 h2)) ws) b2 = (b', o)).
      { rewrite <- R3. apply (@roots_frame k h2 _ b2); [exact A | intros y; auto]. }
      split; [destruct o2; auto; congruence|]. cbn [fst snd]. destruct o2; try discriminate. intros ->. split; [reflexivity|].
      apply (@all_done_frame k h2 _ b2); [exact A | intros y; auto | auto].
    - inversion Gr as [|? ? Gv Gvs]; subst. pose proof (HE eq_refl) as X.
      destruct (visit_state Gv HP He) as (w & h1 & k1 & W1 & A1 & R1); [auto|]. destruct (D X vs) as (ws & Hws).
      exists (w :: ws), h1, k1. split; [now constructor|]. split; [exact A1|]. intros k Hk. split; [|discriminate]. cbn [map visit_roots]. unfold visit_root. now rewrite Er, R1, El.
  Qed.
End State.
