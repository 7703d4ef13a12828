(** * Lemmas for property C52: what a visit saw is a value. *)
From Verif Require Import Base BaseFacts KeyModel KeyFacts HMap FlameModel BuilderModel BuilderFacts VisitorModel Spec LayoutModel ImplModel ImplSpec ImplFacts
  StoreFacts LockModel LockSpec LockFacts SnapshotModel SnapshotSpec SnapshotFacts SnapshotRun ChangeModel ChangeSpec ChangeRun.

#[local] Arguments key_new : simpl never.

Lemma nth_Forall2 {A B} (P : A -> B -> Prop) (Q : nat -> B -> Prop) l :
  (forall i a, nth_error l i = Some a -> exists b, P a b /\ Q i b) ->
  exists l', Forall2 P l l' /\ (forall i b, nth_error l' i = Some b -> Q i b).
Proof.
  revert Q. induction l as [|a l IH]; intros Q H.
  - exists []. split; [constructor|]. intros [|i] b; discriminate.
  - destruct (H 0%nat a eq_refl) as (b & H1 & H2). destruct (IH (fun i => Q (S i))) as (l' & H3 & H4).
    { intros i a' E. exact (H (S i) a' E). }
    exists (b :: l'). split; [now constructor|]. intros [|i] b' E; [injection E as <-; exact H2 | exact (H4 _ _ E)].
Qed.

Lemma appears_size M E v w : appears M E v w -> size_of_val w = msize v.
Proof.
  intros H. unfold msize. inversion H as [s cs ws Hc| | | | | |]; subst; cbn [outline]; try reflexivity.
  cbn [size_of_val]. destruct s; try reflexivity. f_equal. unfold len. now rewrite map_length, (Forall2_len Hc).
Qed.
Lemma appears_mono (M M' : memory -> Prop) (E E' : Prop) : (forall g, M g -> M' g) -> (E -> E') -> forall v w, appears M E v w -> appears M' E' v w.
Proof.
  intros HM HE. fix go 3. intros v w H. destruct H as [s cs ws Hc|t l a g w H1 H2 H3 H4|t l a H|t l g w H1 H2 H3 H4|t l H|t t' ps x g H1 H2|t t' ps x H].
  - constructor. induction Hc as [|c w cs ws H _ IH]; constructor; [apply go, H | exact IH].
  - eapply ap_open; eauto.
  - apply ap_shut. destruct H as [H|[H|[H|(g & H & H')]]]; eauto 8.
  - eapply ap_set; eauto.
  - apply ap_unset. destruct H as [H|[H|[H|(g & H & H')]]]; eauto 8.
  - eapply ap_alive; eauto.
  - apply ap_dead. destruct H as [H|[H|[H|(g & H & H')]]]; eauto 8.
Qed.
Lemma appeared_mono (M M' : memory -> Prop) (E E' : Prop) h : (forall g, M g -> M' g) -> (E -> E') -> appeared M E h -> appeared M' E' h.
Proof.
  intros HM HE. unfold appeared. apply Forall_impl. intros xo (g & v & H1 & H2 & H3). exists g, v. split; [auto|]. split; [exact H2 | eapply appears_mono; eauto].
Qed.
Lemma appears_outline M (E : Prop) v : E -> appears M E v (outline v).
Proof.
  intros HE. induction v as [s cs IH|t l a|t l|t t' ps x] using mvalue_induction; cbn [outline]; [|constructor; auto..].
  constructor. induction IH; cbn; constructor; auto.
Qed.

Section Seen.
  Variable M : memory -> Prop.
  Variable m : mode.
  Variable E : Prop.
  Variable good : mvalue -> Prop.
  Hypothesis good_child : forall s cs, good (MPlain s cs) -> Forall good cs.
  Hypothesis good_content : forall g l, M g -> good (m_content g l).
  Hypothesis good_skip : forall s cs i c, good (MPlain s cs) -> nth_error cs i = Some c ->
    pointer s = true \/ marks (N.of_nat i) (visit_shape m unseen s (placeholders 0 (map msize cs))) = 0%nat -> exists w, appears M E c w.

  Definition shows (v : mvalue) (q : vprog) : Prop := exists w, appears M E v w /\ q = visit m unseen w.

  Lemma calls_seen n cs p q : (forall k v q', (k < n)%nat -> good v -> sees M m E k (implementation m v) q' -> shows v q') ->
    Forall good cs -> (forall i, (marks i p <= 1)%nat) -> sees M m E n (calls cs p) q ->
    exists f, (forall i c, nth_error cs (N.to_nat i) = Some c -> (0 < marks i p)%nat -> shows c (f i)) /\
      (forall i, nth_error cs (N.to_nat i) = None -> f i = VRet) /\ q = fill f p.
  Proof.
    intros IHn Hg. revert q.
    induction p as [| |k s b IHb r IHr|k s b IHb r IHr|k s x b _ r IHr r2 _]; cbn [marks calls fill]; intros q H1 H.
    - inversion H; subst. exists (fun _ => VRet). split; [intros; lia|]. auto.
    - inversion H; subst. exists (fun _ => VRet). split; [intros; lia|]. auto.
    - inversion H as [| |? ? ? ? ? b' r' Hb Hr| | | | | | |]; subst.
      destruct (IHb b' ltac:(intros i; specialize (H1 i); lia) Hb) as (fb & Hfb & Hnb & ->).
      destruct (IHr r' ltac:(intros i; specialize (H1 i); lia) Hr) as (fr & Hfr & Hnr & ->).
      exists (fun i => if Nat.eqb (marks i b) 0 then fr i else fb i). split; [|split].
      + intros i c Hc Hm. destruct (Nat.eqb_spec (marks i b) 0); [apply Hfr; auto; lia | apply Hfb; auto; lia].
      + intros i Hi. destruct (Nat.eqb (marks i b) 0); auto.
      + f_equal; apply fill_ext; intros i Hi; destruct (Nat.eqb_spec (marks i b) 0); auto; specialize (H1 i); lia.
    - inversion H as [| | |? ? ? ? ? b' r' Hb Hr| | | | | |]; subst.
      destruct (IHb b' ltac:(intros i; specialize (H1 i); lia) Hb) as (fb & Hfb & Hnb & ->).
      destruct (IHr r' ltac:(intros i; specialize (H1 i); lia) Hr) as (fr & Hfr & Hnr & ->).
      exists (fun i => if Nat.eqb (marks i b) 0 then fr i else fb i). split; [|split].
      + intros i c Hc Hm. destruct (Nat.eqb_spec (marks i b) 0); [apply Hfr; auto; lia | apply Hfb; auto; lia].
      + intros i Hi. destruct (Nat.eqb (marks i b) 0); auto.
      + f_equal; apply fill_ext; intros i Hi; destruct (Nat.eqb_spec (marks i b) 0); auto; specialize (H1 i); lia.
    - assert (H1r : forall i, (marks i r <= 1)%nat) by (intros i; specialize (H1 i); lia).
      assert (Hx : marks x r = 0%nat) by (specialize (H1 x); rewrite N.eqb_refl in H1; lia).
      destruct (nth_error cs (N.to_nat x)) as [c|] eqn:Ec.
      + inversion H as [| | | | | | | | |n' ? ? q1 r' Hv Hr]; subst.
        destruct (IHr r' H1r Hr) as (fr & Hfr & Hnr & ->).
        exists (fun i => if N.eqb i x then q1 else fr i). split; [|split].
        * intros i c' Hc' Hm. destruct (N.eqb_spec i x) as [->|]; [|apply Hfr; auto; lia].
          replace c' with c by congruence. apply (IHn n'); [lia | | exact Hv]. apply nth_error_In in Ec. rewrite Forall_forall in Hg. auto.
        * intros i Hi. destruct (N.eqb_spec i x) as [->|]; [congruence | auto].
        * rewrite N.eqb_refl. f_equal. apply fill_ext. intros i Hi. destruct (N.eqb_spec i x) as [->|]; [lia | reflexivity].
      + destruct (IHr q H1r H) as (fr & Hfr & Hnr & ->).
        exists fr. split; [|split]; auto.
        * intros i c Hc Hm. apply Hfr; auto. destruct (N.eqb_spec i x) as [->|]; [congruence | lia].
        * now rewrite (Hnr _ Ec).
  Qed.

  (** The pointer implementations as they are. *)
  Fixpoint bare (p : vprog) : Prop :=
    match p with
    | VRet | VCrash => True
    | VInline _ _ b r | VUnique _ _ b r => bare b /\ bare r
    | VShared _ _ _ b r1 r2 => b = VRet /\ r1 = r2 /\ bare r1
    end.
  Lemma pointers_seen n p q : bare p -> sees M m E n (pointer_calls p) q -> q = p.
  Proof.
    revert q. induction p as [| |k s b IHb r IHr|k s b IHb r IHr|k s x b _ r IHr r2 _]; cbn [pointer_calls bare]; intros q Hp H; inversion H; subst; try reflexivity.
    - destruct Hp. f_equal; auto.
    - destruct Hp. f_equal; auto.
    - destruct Hp as (-> & <- & Hp). f_equal; auto.
  Qed.

  Lemma list_seen n cs p q : (forall k v q', (k < n)%nat -> good v -> sees M m E k (implementation m v) q' -> shows v q') ->
    Forall good cs -> (forall i, (marks i p <= 1)%nat) ->
    (forall i c, nth_error cs i = Some c -> marks (N.of_nat i) p = 0%nat -> exists w, appears M E c w) ->
    sees M m E n (calls cs p) q -> exists ws, Forall2 (appears M E) cs ws /\ q = fill (pick (map (visit m unseen) ws)) p.
  Proof.
    intros IHn Hg H1 Hs H. destruct (calls_seen IHn Hg H1 H) as (f & F1 & F2 & ->).
    destruct (@nth_Forall2 _ _ (appears M E) (fun i w => (0 < marks (N.of_nat i) p)%nat -> f (N.of_nat i) = visit m unseen w) cs) as (ws & W1 & W2).
    { intros i c Hc. destruct (Nat.eq_dec (marks (N.of_nat i) p) 0) as [Z|Z].
      - destruct (Hs i c Hc Z) as [w Hw]. exists w. split; [exact Hw | lia].
      - destruct (F1 (N.of_nat i) c) as (w & Hw & Ew); [now rewrite Nat2N.id | lia |]. exists w. auto. }
    exists ws. split; [exact W1|]. apply fill_ext. intros i Hi. unfold pick.
    destruct (nth_error ws (N.to_nat i)) as [w|] eqn:Ew.
    - rewrite (nth_indep _ VRet (visit m unseen w)) by (rewrite map_length; apply nth_error_Some; congruence).
      rewrite map_nth. erewrite nth_error_nth by exact Ew. specialize (W2 _ _ Ew). rewrite N2Nat.id in W2. auto.
    - apply nth_error_None in Ew. rewrite nth_overflow by (rewrite map_length; exact Ew). apply F2. apply nth_error_None. now rewrite (Forall2_len W1).
  Qed.

  Lemma combine_sizes_m cs ws : Forall2 (appears M E) cs ws ->
    combine (map msize cs) (map (visit m unseen) ws) = map (fun w => (size_of_val w, visit m unseen w)) ws.
  Proof. induction 1 as [|c w cs ws H _ IH]; cbn [map combine]; [reflexivity|]. now rewrite IH, (appears_size H). Qed.

  Lemma opened_seen n field c q : (forall k v q', (k < n)%nat -> good v -> sees M m E k (implementation m v) q' -> shows v q') -> good c ->
    sees M m E n (opened field c) q -> exists w, appears M E c w /\ q = (if field then VInline DATA_NAME (msize c) (visit m unseen w) VRet else visit m unseen w).
  Proof.
    intros IHn Hc H. unfold opened in H.
    assert (X : forall q, sees M m E n (CVisit c CRet) q -> shows c q).
    { intros q' H'. inversion H' as [| | | | | | | | |n' ? ? q1 r' Hv Hr]; subst. inversion Hr; subst. rewrite vseq_ret. apply (IHn n'); auto. }
    destruct field.
    - inversion H as [| |? ? ? ? ? b' r' Hb Hr| | | | | | |]; subst. inversion Hr; subst. apply X in Hb as (w & Hw & ->). eauto.
    - apply X in H as (w & Hw & ->). eauto.
  Qed.

  Theorem value_seen n : forall v q, good v -> sees M m E n (implementation m v) q -> shows v q.
  Proof.
    induction n as [n IHn] using lt_wf_ind. intros v q Hv H.
    assert (IHn' : forall k v q', (k < n)%nat -> good v -> sees M m E k (implementation m v) q' -> shows v q') by (intros; eapply IHn; eauto).
    destruct v as [s cs|t l a|t l|t t' ps x].
    - destruct (pointer s) eqn:Es.
      + assert (H' : q = visit_shape m unseen s []).
        { apply (@pointers_seen n); [destruct s as [| | | | | | | | | | | | | | | | | | | | | | | | | | | | |? [[[? ?] ?]|]]; try discriminate; cbn; tauto | destruct s; try discriminate; exact H]. }
        destruct (@nth_Forall2 _ _ (appears M E) (fun _ _ => True) cs) as (ws & W1 & _).
        { intros i c Hc. destruct (@good_skip s cs i c Hv Hc (or_introl Es)) as [w Hw]. eauto. }
        exists (Node s ws). split; [now constructor|]. rewrite H', visit_node. destruct s; try discriminate; reflexivity.
      + assert (H' : sees M m E n (calls cs (visit_shape m unseen s (placeholders 0 (map msize cs)))) q) by (destruct s; try discriminate; exact H).
        apply list_seen in H' as (ws & W1 & ->).
        * exists (Node s ws). split; [now constructor|]. rewrite visit_node. unfold subs_of.
          rewrite <- (combine_sizes_m W1), <- (@fill_placeholders (map msize cs) (map (visit m unseen) ws) []) by (rewrite !map_length; apply (Forall2_len W1)).
          cbn [app]. change (len []) with 0. now rewrite <- fill_shape by exact Es.
        * exact IHn'.
        * eapply good_child; eauto.
        * intros i. etransitivity; [apply marks_shape, Es|]. etransitivity; [apply marks_placeholders|]. destruct (i <? 0)%N; lia.
        * intros i c Hc Z. eapply good_skip; eauto.
    - cbn [implementation] in H. inversion H as [| |? ? ? ? ? b' r' Hb Hr| | | | | | |]; subst. inversion Hr; subst.
      inversion Hb as [| | | | |? ? ? ? ? g q1 r1 G1 G2 G3 Hq Hr1|? ? ? ? ? r1 Z Hr1| | |]; subst; inversion Hr1; subst.
      + apply opened_seen in Hq as (w & Hw & ->); [|exact IHn' | now apply good_content]. exists (Node (SCell t true) [w]). split; [now apply (@ap_open M E t l a g w)|].
        rewrite vseq_ret. cbn [visit visit_shape map]. unfold impl_cell, enter_self, v_enter_self, fields_named, field, v_field, v_field_with. cbn [map vseqs fst snd vseq].
        now rewrite (appears_size Hw).
      + exists (Node (SCell t false) []). split; [apply ap_shut; tauto | reflexivity].
    - cbn [implementation] in H. inversion H as [| |? ? ? ? ? b' r' Hb Hr| | | | | | |]; subst. inversion Hr; subst.
      inversion Hb as [| | | | |? ? ? ? ? g q1 r1 G1 G2 G3 Hq Hr1|? ? ? ? ? r1 Z Hr1| | |]; subst; inversion Hr1; subst.
      + apply opened_seen in Hq as (w & Hw & ->); [|exact IHn' | now apply good_content]. exists (Node (SOnce t true) [w]). split; [now apply (@ap_set M E t l g w)|].
        rewrite vseq_ret. cbn [visit visit_shape map]. unfold impl_once, enter_self, v_enter_self. cbn [map vseqs snd]. now rewrite !vseq_ret.
      + exists (Node (SOnce t false) []). split; [apply ap_unset; tauto | reflexivity].
    - cbn [implementation] in H. inversion H as [| |? ? ? ? ? b' r' Hb Hr| | | | | | |]; subst. inversion Hr; subst.
      inversion Hb as [| | | | | | |? ? ? ? g q1 r1 G1 G2 Hq Hr1|? ? ? ? r1 Z Hr1|]; subst; inversion Hr1; subst.
      + change (sees M m E n (pointer_calls (impl_shared_ptr unseen t' ps x)) q1) in Hq. apply pointers_seen in Hq as ->; [|cbn; tauto]. exists (Node (SWeak t (Some (t', ps, x))) []). split; [now apply (@ap_alive M E t t' ps x g)|]. now rewrite vseq_ret.
      + exists (Node (SWeak t None) []). split; [apply ap_dead; tauto | reflexivity].
  Qed.

  Lemma marks_inner_crash i n : marks 0 (visit_inner i (n, VShared DATA_NAME 0 0 VRet VRet VRet)) = 0%nat ->
    visit_inner i (n, VShared DATA_NAME 0 0 VRet VRet VRet) = VCrash.
  Proof.
    destruct i; cbn [visit_inner fst snd]; try match goal with |- context [with_val ?x _] => destruct x end; cbn; intros H; first [discriminate H | reflexivity | idtac].
  Qed.
  Lemma behind_seen n i v q : good v -> sees M m E n (behind (Some (i, v))) q ->
    q = VCrash \/ exists w, appears M E v w /\ q = visit_inner i (size_of_val w, visit m unseen w).
  Proof.
    intros Hv H. cbn [behind] in H.
    destruct (Nat.eq_dec (marks 0 (visit_inner i (msize v, VShared DATA_NAME 0 0 VRet VRet VRet))) 0) as [Z|Z].
    { left. rewrite (marks_inner_crash Z) in H. now inversion H. }
    right. apply list_seen in H as (ws & W1 & ->).
    - inversion W1 as [|? w ? ? Hw Hn]; subst. inversion Hn; subst. exists w. split; [exact Hw|]. rewrite (appears_size Hw).
      assert (E' : (msize v, visit m unseen w) = fill_sub (pick [visit m unseen w]) (msize v, VShared DATA_NAME 0 0 VRet VRet VRet)).
      { unfold fill_sub. cbn [fst snd fill]. now rewrite vseq_ret. }
      now rewrite E', <- fill_inner.
    - intros k u q' _ Hu. now apply value_seen.
    - auto.
    - intros j. etransitivity; [apply marks_inner|]. cbn. destruct (j =? 0); lia.
    - intros [|[|j]] c Hc; try discriminate. injection Hc as <-. intros Z'. contradiction.
  Qed.
End Seen.
