(** * Lemmas for property C52: a visit that returns has met everything reachable. *)
From Verif Require Import Base BaseFacts KeyModel KeyFacts HMap FlameModel BuilderModel BuilderFacts VisitorModel Spec LayoutModel ImplModel ImplSpec ImplFacts OwnedFacts
  StoreFacts StoreProps LockModel LockSpec LockFacts SnapshotModel SnapshotSpec SnapshotFacts SnapshotRun ChangeModel ChangeSpec ChangeRun ChangeFacts ChangeSession ChangeTyped.

#[local] Arguments key_new : simpl never.

Section Complete.
  Variable m : mode.
  Variable h : store.
  Hypothesis Hh : typed_store h.
  Hypothesis Hp : plain_store h.

  (** What was met between [b] and [b'] is there, and so is what it refers to. *)
  Definition met (b b' : builder) : Prop :=
    forall x, seen b x = false -> seen b' x = true -> exists i w, find_obj h x = Some (i, w) /\ forall y, In y (value_refs w) -> seen b' y = true.
  Lemma met_trans a b c : grows b c -> met a b -> met b c -> met a c.
  Proof.
    intros G H1 H2 x Ha Hc. destruct (seen b x) eqn:Eb; [|now apply H2]. destruct (H1 x Ha Eb) as (i & w & E & Hy). exists i, w. split; [exact E|]. intros y Hin. apply G. auto.
  Qed.
  Lemma met_eq a b : b_visited b = b_visited a -> met a b.
  Proof. intros E x. unfold seen. rewrite E. congruence. Qed.
  Lemma met_after a b c : b_visited c = b_visited b -> met a b -> met a c.
  Proof. intros E H. eapply met_trans; [apply grows_eq, E | exact H | apply met_eq, E]. Qed.

  Lemma leave_done r b : leave_scope r = (b, Done) -> snd r = Done.
  Proof. destruct r as [b0 [| |]]; cbn; [reflexivity | |discriminate]. destruct (exit_impl b0) as [? [|]]; discriminate. Qed.
  Lemma and_then_done r f b' : and_then r f = (b', Done) -> exists b, r = (b, Done) /\ f b = (b', Done).
  Proof. destruct r as [b [| |]]; cbn [and_then]; intros E; try discriminate. eauto. Qed.

  Lemma scope_met body k rest b1 b' : and_then (leave_scope (run m body b1)) (run m (retarget (pt_of m k h) rest)) = (b', Done) ->
    exists b2 b3, run m body b1 = (b2, Done) /\ b_visited b3 = b_visited b2 /\ run m (retarget (pt_of m k h) rest) b3 = (b', Done).
  Proof.
    intros H. apply and_then_done in H as (b3 & E3 & E). pose proof (leave_done E3) as D. destruct (run m body b1) as [b2 o2] eqn:E2. cbn [snd] in D. subst o2.
    exists b2, b3. split; [reflexivity|]. split; [|exact E]. pose proof (leave_visited (b2, Done)) as V. rewrite E3 in V. exact V.
  Qed.

  Theorem returns_met n : forall p b b', tame nowhere p -> run m (retarget (pt_of m n h) p) b = (b', Done) ->
    (forall x, In x (prog_refs p) -> seen b' x = true) /\ met b b'.
  Proof.
    induction n as [n IHn] using lt_wf_ind.
    assert (S : forall body rest b b1 b', b_visited b1 = b_visited b ->
      (forall b b', tame nowhere body -> run m (retarget (pt_of m n h) body) b = (b', Done) -> (forall x, In x (prog_refs body) -> seen b' x = true) /\ met b b') ->
      (forall b b', tame nowhere rest -> run m (retarget (pt_of m n h) rest) b = (b', Done) -> (forall x, In x (prog_refs rest) -> seen b' x = true) /\ met b b') ->
      tame nowhere body -> tame nowhere rest ->
      and_then (leave_scope (run m (retarget (pt_of m n h) body) b1)) (run m (retarget (pt_of m n h) rest)) = (b', Done) ->
      (forall x, In x (prog_refs body ++ prog_refs rest) -> seen b' x = true) /\ met b b').
    { intros body rest b b1 b' V IHb IHr Tb Tr H. apply scope_met in H as (b2 & b3 & E2 & V3 & E3).
      destruct (IHb _ _ Tb E2) as [B1 B2]. destruct (IHr _ _ Tr E3) as [R1 R2].
      assert (G3 : grows b3 b') by (pose proof (@run_grows m (retarget (pt_of m n h) rest) b3) as G; rewrite E3 in G; exact G).
      assert (G2 : grows b2 b') by (eapply grows_trans; [apply grows_eq, V3 | exact G3]).
      split; [intros x Hx; apply in_app_iff in Hx as [Hx|Hx]; auto|].
      eapply met_trans; [|apply met_eq, V|]; [|].
      { eapply grows_trans; [|exact G2]. pose proof (@run_grows m (retarget (pt_of m n h) body) b1) as G. rewrite E2 in G. exact G. }
      eapply met_trans; [exact G3 | | exact R2]. eapply met_after; eauto. }
    induction p as [| |k s body IHb rest IHr|k s body IHb rest IHr|k s x body IHb r1 IH1 r2 IH2]; intros b b' T; cbn [retarget run]; intros H.
    - injection H as <-. split; [intros x [] | now apply met_eq].
    - discriminate.
    - cbn [tame] in T. pose proof (inline_visited m b k s) as V. destruct (enter_inline m b k s) as [b1 [|]]; [|discriminate]. cbn [fst] in V.
      rewrite refs_inline. eapply S; eauto; tauto.
    - cbn [tame] in T. pose proof (unique_visited m b k s) as V. destruct (enter_unique m b k s) as [b1 [|]]; [|discriminate]. cbn [fst] in V.
      rewrite refs_unique. eapply S; eauto; tauto.
    - cbn [tame] in T. destruct T as (Tk & Tb & <- & T).
      change (prog_refs (VShared k s x body r1 r1)) with (x :: prog_refs r1).
      pose proof (shared_visited m b k s x) as V. destruct (enter_shared m b k s x) as [[b1 [|]] [|]] eqn:Es; try discriminate.
      + destruct V as [V0 V]. destruct (grows_cons V) as [G1 Gx]. apply scope_met in H as (b2 & b3 & E2 & V3 & E3).
        destruct (IH1 _ _ T E3) as [R1 R2]. destruct n as [|n']; [discriminate|].
        destruct (find_obj h x) as [[i w]|] eqn:Eo; [|cbn [pt_of] in E2; rewrite Eo in E2; discriminate].
        rewrite (pt_of_obj m n' Eo) in E2. destruct (find_obj_ok Hh Eo) as [Hi Hw].
        assert (Hm : manual_free w). { unfold plain_store in Hp. rewrite Forall_forall in Hp. apply (Hp _ (find_obj_in Eo)). }
        destruct (IHn n' (Nat.lt_succ_diag_r n') _ _ _ (tame_inner Hi (tame_visit m nowhere Hw)) E2) as [B1 B2].
        change (prog_refs (visit_inner i (size_of_val w, visit m nowhere w))) with (refs (items_inner m i w)) in B1. rewrite (refs_inner m Hi Hw Hm) in B1.
        assert (G3 : grows b3 b') by (pose proof (@run_grows m (retarget (pt_of m (Datatypes.S n') h) r1) b3) as G; rewrite E3 in G; exact G).
        assert (G2 : grows b2 b') by (eapply grows_trans; [apply grows_eq, V3 | exact G3]).
        assert (G12 : grows b1 b2) by (pose proof (@run_grows m (retarget (pt_of m n' h) (visit_inner i (size_of_val w, visit m unseen w))) b1) as G; rewrite E2 in G; exact G).
        split; [intros y [<-|Hy]; [apply G2, G12, Gx | auto]|].
        intros y Y1 Y2. destruct (N.eqb_spec y x) as [->|Ny].
        * exists i, w. split; [exact Eo|]. intros z Hz. apply G2. auto.
        * assert (Y3 : seen b1 y = false). { unfold seen, ptr_mem in *. rewrite V. cbn [existsb]. rewrite Y1. now apply N.eqb_neq in Ny; rewrite ?(N.eqb_sym x y), Ny. }
          apply (@met_trans b1 b3 b' G3); auto. eapply met_after; [exact V3 | exact B2].
      + destruct (IH1 _ _ T H) as [R1 R2].
        assert (Gx : seen b x = true).
        { unfold enter_shared in Es. pose proof (inline_visited m b k s) as I. unfold enter_inline in I. destruct (bind_status _ _) as [b2 [|]]; cbn [fst] in I; [|discriminate].
          unfold seen. destruct (ptr_mem x (b_visited b2)) eqn:Em; [congruence | discriminate]. }
        assert (G : grows b b'). { eapply grows_trans; [apply grows_eq, V|]. pose proof (@run_grows m (retarget (pt_of m n h) r1) b1) as G. rewrite H in G. exact G. }
        split; [intros y [<-|Hy]; auto|]. intros y Y1 Y2. apply R2; [|exact Y2]. unfold seen in *. congruence.
  Qed.

  Theorem roots_met n ws : Forall typed ws -> Forall manual_free ws -> forall b, all_done m (map (visit_in m n h) ws) b ->
    forall b', fst (visit_roots m (map (visit_in m n h) ws) b) = b' -> (forall w x, In w ws -> In x (value_refs w) -> seen b' x = true) /\ met b b' /\ grows b b'.
  Proof.
    intros Ht. induction Ht as [|w ws Hw _ IH]; intros Hm b HA b' <-; cbn [map visit_roots all_done fst] in *.
    - split; [intros w x []|]. split; [now apply met_eq | intros x; auto].
    - inversion Hm as [|? ? Hmw Hmws]; subst. destruct HA as [HA1 HA2]. unfold visit_root in *. destruct (root_visitor b) as [b1 [|]] eqn:Er; cbn [snd] in HA1; [|discriminate].
      assert (V : b_visited b1 = b_visited b) by (unfold root_visitor in Er; destruct (b_entered b); inversion Er; reflexivity).
      destruct (leave_scope (run m (visit_in m n h w) b1)) as [b2 o2] eqn:El. cbn [snd fst] in *. subst o2.
      pose proof (leave_done El) as D. destruct (run m (visit_in m n h w) b1) as [b3 o3] eqn:E3. cbn [snd] in D. subst o3.
      pose proof (leave_visited (b3, Done)) as V3. rewrite El in V3. cbn [fst] in V3.
      rewrite visit_in_pt in E3. destruct (@returns_met n (visit m unseen w) b1 b3 (tame_visit m nowhere Hw) E3) as [R1 R2].
      change (prog_refs (visit m unseen w)) with (refs (items_in m w)) in R1. rewrite (refs_visit m Hw Hmw) in R1.
      destruct (IH Hmws b2 HA2 _ eq_refl) as (I1 & I2 & I3).
      assert (G13 : grows b1 b3) by (pose proof (@run_grows m (retarget (pt_of m n h) (visit m unseen w)) b1) as G; rewrite E3 in G; exact G).
      split; [|split].
      + intros v x [<-|Hv] Hx; [|eauto]. apply I3. unfold seen. rewrite V3. now apply R1.
      + eapply met_trans; [|apply met_eq, V|]; [eapply grows_trans; [exact G13|]; eapply grows_trans; [apply grows_eq, V3 | exact I3]|].
        eapply met_trans; [exact I3 | eapply met_after; [exact V3 | exact R2] | exact I2].
      + eapply grows_trans; [apply grows_eq, V|]. eapply grows_trans; [exact G13|]. eapply grows_trans; [apply grows_eq, V3 | exact I3].
  Qed.

  Theorem nothing_dangles n ws : Forall typed ws -> Forall manual_free ws -> all_done m (map (visit_in m n h) ws) b_default -> no_dangling h ws.
  Proof.
    intros Ht Hm HA. destruct (roots_met Ht Hm HA eq_refl) as (R1 & R2 & _). set (b' := fst _) in *.
    assert (X : forall x, store_reachable h ws x -> seen b' x = true).
    { induction 1 as [r x Hr Hx|y i w x Hy IH Hf Hx]; [eauto|]. destruct (R2 y) as (i' & w' & E & Hin); [reflexivity | exact IH|]. rewrite Hf in E. injection E as <- <-. auto. }
    intros x Hx. destruct (R2 x) as (i & w & E & _); [reflexivity | auto|]. eauto.
  Qed.
End Complete.
