(** * Lemmas for property C52: a list that grows while it is visited. *)
From Verif Require Import Base BaseFacts KeyModel KeyFacts HMap FlameModel BuilderModel BuilderFacts VisitorModel Spec EventFacts SolidFacts LayoutModel ImplModel ImplSpec
  LockModel LockSpec LockFacts SnapshotModel ChangeModel ChangeSpec.

#[local] Arguments key_new : simpl never.
#[local] Arguments key_for_type_name : simpl never.

(** [struct Node(Mutex<Option<Arc<Node>>>)], at address [x]; [next]: the following node. *)
Definition t_node : tinfo := mkT "std::sync::poison::mutex::Mutex<core::option::Option<alloc::sync::Arc<Node>>>" 16 true.
Definition t_next : tinfo := mkT "core::option::Option<alloc::sync::Arc<Node>>" 8 true.
Definition t_arc_node : tinfo := mkT "alloc::sync::Arc<Node>" 8 true.
Definition arc_node (x : ptr) : mvalue := MPlain (SShared t_arc_node 8 x) [].
Definition node (x : ptr) : mvalue := MLock t_node x Exclusive.
Definition no_next : mvalue := MPlain (SStruct t_next []) [].
Definition next (x : ptr) : mvalue := MPlain (SStruct t_next ["Some"%string]) [arc_node x].

(** One node, at address 0, which is the last one. *)
Definition one_node : memory :=
  mkMem (mkShared (fun _ => mkLock [] false) (fun _ => [Other 0])) (fun _ => no_next)
    (fun x => if N.eqb x 0 then Some (InArc 8, node 0) else None).

(** What a visit that has come to the pointer to node [x] needs. *)
Record ready (x : ptr) (g : memory) (b : builder) : Prop := {
  r_solid : solid b; r_shape : EventFacts.shape b; r_entered : b_entered b = true;
  r_seen : forall y, x <= y -> ptr_mem y (b_visited b) = false;
  r_object : m_object g x = Some (InArc 8, node x);
  r_none : forall y, x < y -> m_object g y = None;
  r_lock : forall y, x <= y -> locks (m_shared g) y = mkLock [] false;
  r_content : forall y, x <= y -> m_content g y = no_next;
  r_flat : forall y, inline_locks (m_content g y) = [] }.

Lemma inline_ready b k s : solid b -> EventFacts.shape b -> b_entered b = true ->
  exists b', enter_inline Release b k s = (b', Fine) /\ solid b' /\ EventFacts.shape b' /\ b_entered b' = true /\ b_visited b' = b_visited b.
Proof.
  intros H1 H2 H3. destruct (inline_solid Release k s H1) as [I1 I2]. specialize (I2 eq_refl). destruct (enter_inline Release b k s) as [b' st] eqn:E. cbn [fst snd] in *. subst st.
  exists b'. split; [reflexivity|]. split; [exact I1|]. destruct (enter_inline_shape E) as (c & F1 & F2 & F3 & F4 & _).
  split; [|split; congruence]. constructor; [congruence | rewrite F2; apply H2].
Qed.
Lemma shared_ready b k s x : solid b -> EventFacts.shape b -> b_entered b = true -> ptr_mem x (b_visited b) = false ->
  exists b', enter_shared Release b k s x = (b', Fine, true) /\ solid b' /\ EventFacts.shape b' /\ b_entered b' = true /\ b_visited b' = x :: b_visited b.
Proof.
  intros H1 H2 H3 H4. destruct (inline_ready k s H1 H2 H3) as (b1 & E & I1 & I2 & I3 & I4).
  pose proof (shared_solid Release k s x H1) as S. unfold enter_shared in *. unfold enter_inline in E. rewrite E in *. rewrite I4, H4 in *.
  eexists. split; [reflexivity|]. split; [exact S|]. split; [|split; [exact I3 | cbn; congruence]].
  constructor; cbn; [congruence|]. constructor; [|apply I2].
  destruct (@enter_inline_shape Release b k s b1 E) as (c & F1 & _). rewrite F1. cbn. discriminate.
Qed.

Lemma below (n : N) : exists xs : list ptr, forall x, x < n -> In x xs.
Proof.
  induction n as [|n (xs & IH)] using N.peano_ind; [exists []; lia|]. exists (n :: xs). intros x Hx. cbn. destruct (N.eq_dec n x); [now left|]. right. apply IH. lia.
Qed.
Lemma bounded_finite n g : (forall x, m_object g x <> None -> x < n) -> (forall l, inline_locks (m_content g l) = []) -> finite_memory g.
Proof.
  intros H1 H2. split.
  - destruct (below n) as (xs & Hx). exists xs. auto.
  - exists (fun _ => 0%nat). intros l l'. rewrite H2. intros [].
Qed.
Lemma ready_finite x g b : ready x g b -> finite_memory g.
Proof. intros R. apply (@bounded_finite (N.succ x)); [|apply R]. intros y Hy. destruct (N.le_gt_cases y x); [lia|]. elim Hy. now apply (r_none R). Qed.

Lemma behind_node x : behind (Some (InArc 8, node x)) = CInline (key_new "ArcInner") 32 (CVisit (node x) CRet) CRet.
Proof. reflexivity. Qed.
Lemma code_node m x : implementation m (node x) = CInline (key_for_type_name (t_name t_node)) 16 (CTry x Exclusive true CRet) CRet.
Proof. reflexivity. Qed.
Lemma opened_next x : opened true (next x) = CInline DATA_NAME 8 (CVisit (next x) CRet) CRet.
Proof. reflexivity. Qed.
Lemma code_next m x : implementation m (next x) = CInline (key_for_type_name (t_name t_next)) 8 (CInline (key_new "Some") 8 (CVisit (arc_node x) CRet) CRet) CRet.
Proof. reflexivity. Qed.
Lemma code_arc m x : implementation m (arc_node x) = CInline (key_for_type_name (t_name t_arc_node)) 8 (CShared PTR_NAME 8 x CRet) CRet.
Proof. reflexivity. Qed.

(** Some run leads on to [n] pointers, and the visit is still not over. *)
Definition leads (std : lock -> bool) (n : nat) (c : cconf) : Prop :=
  exists c', passes finite_memory Release std c c' /\ (n <= length (b_visited (k_builder c')))%nat /\ ~ ended c'.

Section Grow.
  Variable std : lock -> bool.
  Lemma leads_step n c c' : finite_memory (k_mem c) -> cstep Release std c c' -> leads std n c' -> leads std n c.
  Proof. intros H1 H2 (c2 & H3 & H4). exists c2. split; [eapply ps_visit; eauto | exact H4]. Qed.
  Lemma leads_other n g g' b k st : finite_memory g -> change g g' -> leads std n (mkC g' b k st) -> leads std n (mkC g b k st).
  Proof. intros H1 H2 (c2 & H3 & H4). exists c2. split; [eapply ps_other; eauto | exact H4]. Qed.
  Lemma leads_inline n g b k s body rest st : finite_memory g -> solid b -> EventFacts.shape b -> b_entered b = true ->
    (forall b', solid b' -> EventFacts.shape b' -> b_entered b' = true -> b_visited b' = b_visited b -> leads std n (mkC g b' (Run body) (KScope rest :: st))) ->
    leads std n (mkC g b (Run (CInline k s body rest)) st).
  Proof.
    intros Hg H1 H2 H3 HR. destruct (inline_ready k s H1 H2 H3) as (b' & E & I1 & I2 & I3 & I4).
    eapply leads_step; [exact Hg | eapply k_inline; exact E | auto].
  Qed.

  Lemma leads_on n x g b st : ready x g b ->
    (forall g' b' st', ready (N.succ x) g' b' -> length (b_visited b') = S (length (b_visited b)) -> leads std n (mkC g' b' (Run (CShared PTR_NAME 8 (N.succ x) CRet)) st')) ->
    leads std n (mkC g b (Run (CShared PTR_NAME 8 x CRet)) st).
  Proof.
    intros R K. pose proof (ready_finite R) as F. destruct R as [R1 R2 R3 R4 R5 R6 R7 R8 R9].
    destruct (shared_ready PTR_NAME 8 R1 R2 R3 (R4 x (N.le_refl _))) as (b1 & E1 & S1 & S2 & S3 & S4).
    eapply leads_step; [exact F | eapply k_shared; exact E1|]. rewrite R5, behind_node.
    apply leads_inline; auto. intros b2 A1 A2 A3 A4. eapply leads_step; [exact F | apply k_visit|]. rewrite code_node.
    apply leads_inline; auto. intros b3 B1 B2 B3 B4.
    (* the other thread *)
    assert (FO : forall s c, (forall y, inline_locks (c y) = []) -> finite_memory (mkMem s c (fun y => if N.eqb y (N.succ x) then Some (InArc 8, node (N.succ x)) else m_object g y))).
    { intros s c Hc. apply (@bounded_finite (N.succ (N.succ x))); [|exact Hc]. intros y. cbn [m_object]. destruct (N.eqb_spec y (N.succ x)) as [->|]; [lia|]. intros Hy.
      destruct (N.le_gt_cases y x); [lia|]. elim Hy. now apply R6. }
    assert (R9' : forall y, inline_locks (if y =? x then next (N.succ x) else m_content g y) = []) by (intros y; destruct (N.eqb y x); [reflexivity | apply R9]).
    eapply leads_other; [exact F | apply (ch_object g (N.succ x) (Some (InArc 8, node (N.succ x))))|].
    eapply leads_other; [apply FO; assumption | apply ch_shared, (@o_acquire _ x 1%nat Exclusive); cbn; rewrite R7 by lia; reflexivity|].
    eapply leads_other; [apply FO; assumption | apply (@ch_write _ x 1%nat (next (N.succ x))); cbn; rewrite N.eqb_refl; cbn; now left|].
    eapply leads_other; [apply FO; assumption | apply ch_shared, (@o_release _ x 1%nat Exclusive false); cbn; rewrite N.eqb_refl; cbn; now left|].
    eapply leads_step; [apply FO; assumption | apply k_try; cbn; rewrite ?N.eqb_refl; cbn; rewrite ?N.eqb_refl, ?R7 by lia; reflexivity|].
    cbn [m_content set_shared_state]. rewrite N.eqb_refl, opened_next. 
    apply leads_inline; [apply FO; assumption | auto | auto | auto |]. intros b4 C1 C2 C3 C4. eapply leads_step; [apply FO; assumption | apply k_visit|]. rewrite code_next.
    apply leads_inline; [apply FO; assumption | auto | auto | auto |]. intros b5 D1 D2 D3 D4.
    apply leads_inline; [apply FO; assumption | auto | auto | auto |]. intros b6 G1 G2 G3 G4. eapply leads_step; [apply FO; assumption | apply k_visit|]. rewrite code_arc.
    apply leads_inline; [apply FO; assumption | auto | auto | auto |]. intros b7 J1 J2 J3 J4.
    assert (V : b_visited b7 = x :: b_visited b) by congruence.
    apply K; [|now rewrite V]. constructor; auto; cbn [m_shared m_content m_object set_shared_state locks acquire release set_lock].
    - intros y Hy. rewrite V. unfold ptr_mem in *. cbn [existsb]. rewrite R4 by lia. destruct (N.eqb_spec y x); [lia | reflexivity].
    - now rewrite N.eqb_refl.
    - intros y Hy. destruct (N.eqb_spec y (N.succ x)); [lia|]. apply R6. lia.
    - intros y Hy. destruct (N.eqb_spec y x); [lia|]. apply R7. lia.
    - intros y Hy. destruct (N.eqb_spec y x); [lia|]. apply R8. lia.
  Qed.

  Lemma leads_far n : forall x g b st, ready x g b -> leads std (n + length (b_visited b)) (mkC g b (Run (CShared PTR_NAME 8 x CRet)) st).
  Proof.
    induction n as [|n IH]; intros x g b st R.
    - exists (mkC g b (Run (CShared PTR_NAME 8 x CRet)) st). split; [apply ps_end; cbn; eapply ready_finite, R|]. split; [cbn; lia | intros []].
    - apply (leads_on st R). intros g' b' st' R' L. specialize (IH _ _ _ st' R'). rewrite L in IH. replace (S n + length (b_visited b))%nat with (n + S (length (b_visited b)))%nat by lia. exact IH.
  Qed.

  Lemma list_leads n b : root_visitor b_default = (b, Fine) -> leads std n (begin one_node b (arc_node 0)).
  Proof.
    intros [= <-]. assert (F : finite_memory one_node). { apply (@bounded_finite 1); [|reflexivity]. intros x. cbn. destruct (N.eqb_spec x 0); [lia | congruence]. }
    eapply leads_step; [exact F | apply k_visit|]. rewrite code_arc.
    assert (S : solid (set_entered b_default true)) by (destruct solid_default; constructor; auto).
    apply leads_inline; [exact F | exact S | constructor; [discriminate | constructor] | reflexivity|]. intros b' S1 S2 S3 S4.
    replace n with (n + length (b_visited b'))%nat by (rewrite S4; cbn; lia). apply leads_far. constructor; auto.
    - intros y _. now rewrite S4.
    - intros y Hy. cbn. destruct (N.eqb_spec y 0); [lia | reflexivity].
  Qed.
End Grow.
