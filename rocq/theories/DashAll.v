(** * Every combination of answers a changing [DashMap] may give does occur. *)
From Verif Require Import Base BaseFacts KeyModel KeyFacts HMap FlameModel BuilderModel VisitorModel LayoutModel Spec ImplModel LockFacts DashModel DashSpec DashFacts DashProps.

#[local] Arguments key_new : simpl never.
#[local] Arguments enter_inline : simpl never.
#[local] Arguments enter_unique : simpl never.
#[local] Arguments leave_scope : simpl never.

Section All.
Variables (m : mode) (kd : dash) (t e : tinfo) (k : nat).
Notation goes := (goes m kd t e).
Notation vstep := (visit_step m kd t e).
Variable X : list shard -> Prop.
Hypothesis Xk : forall s, X s -> length s = k.

(** A run that ends with [r], passing through the present contents and then [T]. *)
Definition reach (T : list (list shard)) (d : dstate) (r : builder * outcome) : Prop :=
  exists H d', goes d H d' /\ finished d' (fst r) (snd r) /\ passes (d_shards d :: T) H.

Lemma reach_step T d d1 r : vstep d = Some d1 -> X (d_shards d) -> reach T d1 r -> reach T d r.
Proof.
  intros S Hx (H & d' & G & F & HX). exists (d_shards d :: H), d'. split; [eapply goes_visit; eauto|]. split; [exact F|].
  rewrite (shards_step S) in HX. now constructor.
Qed.

Definition with_shards (s : list shard) (d : dstate) : dstate := mkD s (d_point d) (d_open d) (d_builder d) (d_outcome d).

Lemma reach_others T d s r : guarded d = None -> X (d_shards d) -> X s -> reach T (with_shards s d) r -> reach (s :: T) d r.
Proof.
  intros Hg Hx Hs (H & d' & G & F & HX). exists (d_shards d :: H), d'. split; [|split; [exact F|]].
  - eapply goes_others; [|exact G]. exists s. split; [reflexivity|]. split; [now rewrite (Xk Hs), (Xk Hx)|]. intros i. rewrite Hg. discriminate.
  - apply passes_stay, passes_on. exact HX.
Qed.

Lemma reach_stop T d : d_point d = PStop -> X (d_shards d) -> reach T d (d_builder d, d_outcome d).
Proof. intros P Hx. exists [d_shards d], d. split; [constructor|]. split; [repeat split; auto|]. apply passes_stay, passes_end. Qed.

Lemma reach_leave T n : forall d, d_point d = PLeave -> d_open d = n -> X (d_shards d) -> reach T d (leaves n (d_builder d, d_outcome d)).
Proof.
  induction n as [|n IH]; intros [s p op b o] P O Hx; cbn in *; subst.
  - eapply reach_step; [reflexivity | exact Hx|]. cbn. apply (@reach_stop T (d_goto (mkD s PLeave 0 b o) PStop)); auto.
  - destruct (leave_scope (b, o)) as [b1 o1] eqn:E. eapply reach_step; [unfold visit_step; cbn; rewrite E; reflexivity | exact Hx|].
    apply (IH (mkD s PLeave n b1 o1)); auto.
Qed.

Lemma reach_panic T d b o : X (d_shards d) -> reach T (d_panic d b o) (leaves (d_open d) (b, o)).
Proof. intros Hx. apply (@reach_leave T (d_open d) (d_panic d b o)); auto. Qed.

(** What is left of the history begins with the present moment, or is empty. *)
Definition near (s : list shard) (H : list (list shard)) : Prop := (H = [] \/ exists T, H = s :: T) /\ forall x, In x H -> X x.

Lemma near_tail s s0 H : near s (s0 :: H) -> s0 = s /\ X s /\ forall x, In x H -> X x.
Proof.
  intros [[E|[T E]] Hx]; [discriminate|]. injection E as -> ->. split; [reflexivity|]. split; [apply Hx; now left|].
  intros x Hin. apply Hx. now right.
Qed.

Lemma none_past (s : list shard) : X s -> nth_error s k = None.
Proof. intros Hx. apply nth_error_None. rewrite (Xk Hx). lia. Qed.

(** ** The phases, last one first *)
Lemma all_unused T d c n : d_point d = PUnused c n -> d_outcome d = Done -> X (d_shards d) ->
  reach T d (leaves (d_open d) (run m (t_unused m e c n) (d_builder d))).
Proof.
  destruct d as [s p op b o]; cbn [d_point d_outcome d_shards d_open d_builder]; intros -> -> Hx.
  eapply reach_step; [reflexivity | exact Hx|]. unfold t_unused, d_calc. destruct (umul m _ _) as [v|]; cbn [with_val].
  - unfold d_run. cbn [d_builder]. destruct (run m (v_simple UNUSED_CAPACITY_NAME v) b) as [b1 o1].
    destruct o1; [|apply (@reach_panic _ (mkD s (PUnused c n) op b Done)); auto ..].
    apply (@reach_leave _ op (mkD s PLeave op b1 Done)); auto.
  - apply (@reach_panic _ (mkD s (PUnused c n) op b Done)); auto.
Qed.


Lemma all_len c n i H lens H' : reads sh_len n i H lens H' -> (n + i = k)%nat ->
  forall d acc, d_point d = PLen c i acc -> d_outcome d = Done -> X (d_shards d) -> near (d_shards d) H ->
  reach (tl H) d (leaves (d_open d) (run m (t_len m e c acc lens) (d_builder d))).
Proof.
  induction 1 as [i H|n i s H l H' R IH|n i s H x l H' E R IH]; intros Hk [sd p op b o] acc; cbn [d_point d_outcome d_shards d_open d_builder]; intros -> -> Hx N.
  - cbn in Hk. subst i. eapply reach_step; [unfold visit_step; cbn; rewrite none_past by exact Hx; reflexivity | exact Hx|].
    apply (@all_unused _ (mkD sd (PUnused c acc) op b Done)); auto.
  - destruct (near_tail N) as (-> & _ & HX). destruct H as [|s' T].
    + apply (IH Hk (mkD sd (PLen c i acc) op b Done)); auto. split; [now left | exact HX].
    + assert (X s') by (apply HX; now left). apply (@reach_others T (mkD sd (PLen c i acc) op b Done) s'); auto.
      apply (IH Hk (mkD s' (PLen c i acc) op b Done)); auto. split; [right; now exists T | exact HX].
  - destruct (near_tail N) as (-> & _ & HX).
    eapply reach_step; [unfold visit_step; cbn [d_point d_shards]; rewrite E; reflexivity | exact Hx|].
    unfold d_calc, t_len. cbn [usum obind]. fold (sh_len x). destruct (uadd m acc (sh_len x)) as [a|]; cbn [obind].
    + apply (IH ltac:(lia) (mkD sd (PLen c (S i) a) op b Done)); auto.
    + apply (@reach_panic _ (mkD sd (PLen c i acc) op b Done)); auto.
Qed.

Lemma all_cap2 lens H4 n i H caps H' : reads sh_cap n i H caps H' -> reads sh_len k 0 H' lens H4 -> (n + i = k)%nat ->
  forall d acc, d_point d = PCap2 i acc -> d_outcome d = Done -> X (d_shards d) -> near (d_shards d) H ->
  reach (tl H) d (leaves (d_open d) (run m (t_cap2 m e acc caps lens) (d_builder d))).
Proof.
  intros R R4. revert R4. induction R as [i H|n i s H l H' R IH|n i s H x l H' E R IH]; intros R4 Hk [sd p op b o] acc; cbn [d_point d_outcome d_shards d_open d_builder]; intros -> -> Hx N.
  - cbn in Hk. subst i. eapply reach_step; [unfold visit_step; cbn; rewrite none_past by exact Hx; reflexivity | exact Hx|].
    apply (@all_len acc k 0 H lens H4 R4 ltac:(lia) (mkD sd (PLen acc 0 0) op b Done)); auto.
  - destruct (near_tail N) as (-> & _ & HX). destruct H as [|s' T].
    + apply (IH R4 Hk (mkD sd (PCap2 i acc) op b Done)); auto. split; [now left | exact HX].
    + assert (X s') by (apply HX; now left). apply (@reach_others T (mkD sd (PCap2 i acc) op b Done) s'); auto.
      apply (IH R4 Hk (mkD s' (PCap2 i acc) op b Done)); auto. split; [right; now exists T | exact HX].
  - destruct (near_tail N) as (-> & _ & HX).
    eapply reach_step; [unfold visit_step; cbn [d_point d_shards]; rewrite E; reflexivity | exact Hx|].
    unfold d_calc, t_cap2. cbn [usum obind]. destruct (uadd m acc (sh_cap x)) as [a|]; cbn [obind].
    + apply (IH R4 ltac:(lia) (mkD sd (PCap2 (S i) a) op b Done)); auto.
    + apply (@reach_panic _ (mkD sd (PCap2 i acc) op b Done)); auto.
Qed.

(** The entries of one shard, at one moment. *)
Lemma all_shard T sd i sh op rest : X sd -> nth_error sd i = Some sh ->
  (forall b, reach T (mkD sd (PNext (S i)) op b Done) (leaves op (run m rest b))) ->
  forall ens b, (exists pre, sh_entries sh = pre ++ ens) ->
  reach T (mkD sd (PEntry i (length (sh_entries sh) - length ens)) op b Done) (leaves op (run m (vseq (vseqs (map (visit_entry kd) ens)) rest) b)).
Proof.
  intros Hx E Hend. induction ens as [|en ens IH]; intros b [pre Epre].
  - rewrite Nat.sub_0_r. eapply reach_step; [unfold visit_step; cbn [d_point d_shards]; rewrite E; rewrite (proj2 (nth_error_None _ _)) by lia; reflexivity | exact Hx|].
    cbn [map vseqs]. rewrite run_vseq. cbn [run and_then]. apply Hend.
  - assert (El : (length (sh_entries sh) - length (en :: ens) = length pre)%nat) by (rewrite Epre, app_length; lia).
    rewrite El. eapply reach_step; [unfold visit_step; cbn [d_point d_shards]; rewrite E; rewrite Epre, nth_error_app2, Nat.sub_diag by lia; cbn [nth_error]; reflexivity | exact Hx|].
    cbn [map vseqs]. rewrite !run_vseq. unfold d_run. cbn [d_builder]. destruct (run m (visit_entry kd en) b) as [b1 o1].
    destruct o1; [|apply (@reach_panic _ (mkD sd (PEntry i (length pre)) op b Done)); auto ..]. cbn [and_then].
    specialize (IH b1). rewrite run_vseq in IH. replace (S (length pre)) with (length (sh_entries sh) - length ens)%nat by (rewrite Epre, app_length; cbn [length]; lia).
    apply IH. exists (pre ++ [en]). rewrite Epre, <- app_assoc. reflexivity.
Qed.

Lemma all_entries_run caps H3 lens H4 n i H ens H' : reads sh_entries n i H ens H' -> reads sh_cap k 0 H' caps H3 -> reads sh_len k 0 H3 lens H4 -> (n + i = k)%nat ->
  forall d, d_point d = PNext i -> d_outcome d = Done -> X (d_shards d) -> near (d_shards d) H ->
  reach (tl H) d (leaves (d_open d) (run m (t_entries m kd e (concat ens) caps lens) (d_builder d))).
Proof.
  intros R R3 R4. revert R3. induction R as [i H|n i s H l H' R IH|n i s H x l H' E R IH]; intros R3 Hk [sd p op b o]; cbn [d_point d_outcome d_shards d_open d_builder]; intros -> -> Hx N.
  - cbn in Hk. subst i. eapply reach_step; [unfold visit_step; cbn; rewrite none_past by exact Hx; reflexivity | exact Hx|].
    unfold t_entries. cbn [concat map vseqs]. rewrite run_vseq. cbn [run and_then].
    apply (@all_cap2 lens H4 k 0 H caps H3 R3 R4 ltac:(lia) (mkD sd (PCap2 0 0) op b Done)); auto.
  - destruct (near_tail N) as (-> & _ & HX). destruct H as [|s' T].
    + apply (IH R3 Hk (mkD sd (PNext i) op b Done)); auto. split; [now left | exact HX].
    + assert (X s') by (apply HX; now left). apply (@reach_others T (mkD sd (PNext i) op b Done) s'); auto.
      apply (IH R3 Hk (mkD s' (PNext i) op b Done)); auto. split; [right; now exists T | exact HX].
  - destruct (near_tail N) as (-> & _ & HX).
    eapply reach_step; [unfold visit_step; cbn [d_point d_shards]; rewrite E; reflexivity | exact Hx|].
    unfold d_goto. cbn [d_shards d_open d_builder d_outcome].
    assert (Ev : run m (t_entries m kd e (concat (sh_entries x :: l)) caps lens) b =
                 run m (vseq (vseqs (map (visit_entry kd) (sh_entries x))) (t_entries m kd e (concat l) caps lens)) b).
    { unfold t_entries. cbn [concat]. rewrite map_app. generalize (map (visit_entry kd) (concat l)) as ps2, (t_cap2 m e 0 caps lens) as q. intros ps2 q.
      generalize (map (visit_entry kd) (sh_entries x)) as ps. clear. intros ps. revert b. induction ps as [|p ps IH]; intros b; cbn [app vseqs].
      - rewrite (run_vseq m VRet). reflexivity.
      - rewrite !run_vseq. specialize (fun b => IH b). destruct (run m p b) as [b1 []]; cbn [and_then]; auto.
        specialize (IH b1). rewrite !run_vseq in IH. rewrite <- IH. reflexivity. }
    rewrite Ev. replace 0%nat with (length (sh_entries x) - length (sh_entries x))%nat by lia.
    apply all_shard; auto; [|now exists []]. intros b1. apply (IH R3 ltac:(lia) (mkD sd (PNext (S i)) op b1 Done)); auto.
Qed.

Lemma all_cap1 ens H2 caps' H3 lens H4 n i H caps H' : reads sh_cap n i H caps H' -> reads sh_entries k 0 H' ens H2 ->
  reads sh_cap k 0 H2 caps' H3 -> reads sh_len k 0 H3 lens H4 -> (n + i = k)%nat ->
  forall d acc, d_point d = PCap1 i acc -> d_outcome d = Done -> X (d_shards d) -> near (d_shards d) H ->
  reach (tl H) d (leaves (d_open d) (run m (t_cap1 m kd e acc caps ens caps' lens) (d_builder d))).
Proof.
  intros R R2 R3 R4. revert R2. induction R as [i H|n i s H l H' R IH|n i s H x l H' E R IH]; intros R2 Hk [sd p op b o] acc; cbn [d_point d_outcome d_shards d_open d_builder]; intros -> -> Hx N.
  - cbn in Hk. subst i. eapply reach_step; [unfold visit_step; cbn [d_point d_shards]; rewrite none_past by exact Hx; reflexivity | exact Hx|].
    unfold d_calc, t_cap1. cbn [usum obind]. destruct (umul m acc (t_size e)) as [total|]; cbn [with_val];
      [|apply (@reach_panic _ (mkD sd (PCap1 k acc) op b Done)); auto].
    unfold d_enter. cbn [d_builder d_shards d_open d_outcome]. rewrite run_inline. destruct (enter_inline m b CAPACITY_NAME total) as [b1 []];
      [|apply (@reach_panic _ (mkD sd (PCap1 k acc) op b Done)); auto].
    apply (@all_entries_run caps' H3 lens H4 k 0 H ens H2 R2 R3 R4 ltac:(lia) (mkD sd (PNext 0) (S op) b1 Done)); auto.
  - destruct (near_tail N) as (-> & _ & HX). destruct H as [|s' T].
    + apply (IH R2 Hk (mkD sd (PCap1 i acc) op b Done)); auto. split; [now left | exact HX].
    + assert (X s') by (apply HX; now left). apply (@reach_others T (mkD sd (PCap1 i acc) op b Done) s'); auto.
      apply (IH R2 Hk (mkD s' (PCap1 i acc) op b Done)); auto. split; [right; now exists T | exact HX].
  - destruct (near_tail N) as (-> & _ & HX).
    eapply reach_step; [unfold visit_step; cbn [d_point d_shards]; rewrite E; reflexivity | exact Hx|].
    unfold d_calc, t_cap1. cbn [usum obind]. destruct (uadd m acc (sh_cap x)) as [a|]; cbn [obind].
    + apply (IH R2 ltac:(lia) (mkD sd (PCap1 (S i) a) op b Done)); auto.
    + apply (@reach_panic _ (mkD sd (PCap1 i acc) op b Done)); auto.
Qed.

Lemma all_told s H caps ens caps' lens b : told k (s :: H) caps ens caps' lens -> (forall x, In x (s :: H) -> X x) ->
  reach H (d_start s b) (run m (visit_told m kd t e caps ens caps' lens) b).
Proof.
  intros (H1 & H2 & H3 & H4 & R1 & R2 & R3 & R4) HX. assert (Hx : X s) by (apply HX; now left).
  rewrite visit_told_eq. unfold enter_self, v_enter_self. rewrite run_inline.
  eapply reach_step; [reflexivity | exact Hx|]. unfold d_enter, d_start. cbn [d_builder d_shards d_open d_outcome].
  destruct (enter_inline m b (key_for_type_name (t_name t)) (t_size t)) as [b1 []]; [|apply (@reach_panic _ (mkD s PSelf 0 b Done)); auto].
  eapply reach_step; [reflexivity | exact Hx|]. unfold d_enter. cbn [d_builder d_shards d_open d_outcome]. rewrite run_unique.
  destruct (enter_unique m b1 PTR_NAME ptr_size) as [b2 []]; [|apply (@reach_panic _ (mkD s PPtr 1 b1 Done)); auto].
  apply (@all_cap1 ens H2 caps' H3 lens H4 k 0 (s :: H) caps H1 R1 R2 R3 R4 ltac:(lia) (mkD s (PCap1 0 0) 2 b2 Done)); auto.
  split; [right; now exists H | exact HX].
Qed.
End All.

Lemma session_all m kd t e s H caps ens caps' lens : told (length s) (s :: H) caps ens caps' lens ->
  (forall x, In x H -> length x = length s) ->
  exists H', dash_profile m kd t e s H' (profile m [visit_told m kd t e caps ens caps' lens]) /\ passes (s :: H) H'.
Proof.
  intros Ht Hl. destruct (root_visitor b_default) as [b0 st] eqn:Er. assert (st = Fine) by (revert Er; vm_compute; congruence). subst st.
  destruct (@all_told m kd t e (length s) (fun x => In x (s :: H)) ltac:(intros x [<-|Hx]; auto) s H caps ens caps' lens b0 Ht ltac:(auto))
    as (H' & d & G & F & HX).
  exists H'. split; [|exact HX]. exists b0, d, (fst (run m (visit_told m kd t e caps ens caps' lens) b0)), (snd (run m (visit_told m kd t e caps ens caps' lens) b0)).
  split; [exact Er|]. split; [exact G|]. split; [exact F|]. rewrite <- surjective_pairing. unfold profile. cbn [visit_roots]. unfold visit_root. rewrite Er.
  destruct (leave_scope _) as [b1 []]; reflexivity.
Qed.
