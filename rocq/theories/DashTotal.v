(** * How much of a changing [DashMap] is shown. *)
From Verif Require Import Base BaseFacts KeyModel KeyFacts HMap FlameModel BuilderModel VisitorModel LayoutModel Spec ImplModel ImplFacts
  ConserveFacts TotalSpec TotalFacts DashModel DashSpec DashFacts DashProps.

#[local] Arguments key_new : simpl never.

(** The stack of the entries. *)
Definition slots_path (t : tinfo) : path := [t_name t; "ptr"%string; "capacity"%string].

(** The blocks that the visits of these entries, inside the slots, report: the memory
    the entries own, and the shared allocations first seen there. *)
Definition entry_blocks (kd : dash) (t : tinfo) (ens : list entry) : N :=
  block_bytes (fst (fst (trace k_str (in_turn (flat_map (entry_fields kd) ens) VRet) [] (slots_path t) NKInline))).

Lemma in_turn_app a b q : in_turn (a ++ b) q = in_turn a (in_turn b q).
Proof. unfold in_turn. apply fold_right_app. Qed.
Lemma in_turn_entries kd ens q : in_turn (flat_map (entry_fields kd) ens) q = vseq (vseqs (map (visit_entry kd) ens)) q.
Proof.
  induction ens as [|en ens IH]; [reflexivity|]. cbn [flat_map map vseqs]. rewrite in_turn_app, IH.
  destruct kd; unfold in_turn, visit_entry, field, v_field, v_field_with; cbn [entry_fields fold_right vseq fst snd]; reflexivity.
Qed.
Lemma vseq_ret p : vseq p VRet = p.
Proof. induction p; cbn [vseq]; congruence. Qed.
Lemma entry_blocks_eq kd t ens : entry_blocks kd t ens = block_bytes (fst (fst (trace k_str (vseqs (map (visit_entry kd) ens)) [] (slots_path t) NKInline))).
Proof. unfold entry_blocks. now rewrite in_turn_entries, vseq_ret. Qed.

Lemma spends_vseq p q : spends (vseq p q) <= spends p + spends q.
Proof. induction p; cbn [vseq spends]; lia. Qed.
Lemma overspends_vseq p q : overspends (vseq p q) <= overspends p + overspends q.
Proof. induction p; cbn [vseq overspends]; lia. Qed.

Lemma block_bytes_app a b : block_bytes (a ++ b) = block_bytes a + block_bytes b.
Proof. unfold block_bytes. now rewrite map_app, sumN_app. Qed.

Lemma trace_vseq_blocks p : forall q vis here nk, (forall vis, block_bytes (fst (fst (trace k_str q vis here nk))) = 0) ->
  block_bytes (fst (fst (trace k_str (vseq p q) vis here nk))) = block_bytes (fst (fst (trace k_str p vis here nk))).
Proof.
  assert (Hc : forall (e : ev string) es, block_bytes (e :: es) = (if is_NKInline (ev_parent e) then 0 else ev_size e) + block_bytes es) by reflexivity.
  induction p as [| |k s body IHb rest IHr|k s body IHb rest IHr|k s y body IHb r1 IH1 r2 IH2]; intros q vis here nk Hq; cbn [vseq trace].
  - rewrite Hq. reflexivity.
  - reflexivity.
  - destruct (trace k_str body vis (here ++ [k_str k]) NKInline) as [[e1 v1] [|]]; [|reflexivity].
    specialize (IHr q v1 here nk Hq). destruct (trace k_str (vseq rest q) v1 here nk) as [[e2 v2] o2], (trace k_str rest v1 here nk) as [[e3 v3] o3].
    cbn [fst] in *. rewrite !Hc, !block_bytes_app, IHr. reflexivity.
  - destruct (trace k_str body vis (here ++ [k_str k]) NKUnique) as [[e1 v1] [|]]; [|reflexivity].
    specialize (IHr q v1 here nk Hq). destruct (trace k_str (vseq rest q) v1 here nk) as [[e2 v2] o2], (trace k_str rest v1 here nk) as [[e3 v3] o3].
    cbn [fst] in *. rewrite !Hc, !block_bytes_app, IHr. reflexivity.
  - destruct (ptr_mem y vis).
    + specialize (IH2 q vis here nk Hq). destruct (trace k_str (vseq r2 q) vis here nk) as [[e2 v2] o2], (trace k_str r2 vis here nk) as [[e3 v3] o3].
      cbn [fst] in *. rewrite !Hc, IH2. reflexivity.
    + destruct (trace k_str body (y :: vis) [] NKShared) as [[e1 v1] [|]]; [|reflexivity].
      specialize (IH1 q v1 here nk Hq). destruct (trace k_str (vseq r1 q) v1 here nk) as [[e2 v2] o2], (trace k_str r1 v1 here nk) as [[e3 v3] o3].
      cbn [fst] in *. rewrite !Hc, !block_bytes_app, IH1. reflexivity.
Qed.

Lemma told_total m kd t e s H caps ens caps' lens : told (length s) (s :: H) caps ens caps' lens ->
  (forall x, In x (s :: H) -> map sh_cap x = map sh_cap s) ->
  (forall x, In x (s :: H) -> slots_ok kd e x /\ entries_fit x) -> ptr_size <= t_size t ->
  dash_capacity s * t_size e < two64 -> dash_capacity s < two64 ->
  let p := visit_told m kd t e caps ens caps' lens in
  block_bytes (root_events [p]) = t_size t + dash_capacity s * t_size e + entry_blocks kd t (concat ens) /\
  overspends p <= dash_capacity s * t_size e.
Proof.
  intros (H1 & H2 & H3 & H4 & R1 & R2 & R3 & R4) HC Hok Hp Hc Hc' p.
  assert (J1 : incl H1 (s :: H)) by apply (reads_from R1). assert (J2 : incl H2 (s :: H)) by (intros x Hx; apply J1; now apply (reads_from R2)).
  assert (J3 : incl H3 (s :: H)) by (intros x Hx; apply J2; now apply (reads_from R3)).
  assert (E1 : caps = map sh_cap s) by (rewrite (@reads_const _ sh_cap (map sh_cap s) _ _ _ _ _ R1); auto; rewrite map_length; lia).
  assert (E3 : caps' = map sh_cap s).
  { rewrite (@reads_const _ sh_cap (map sh_cap s) _ _ _ _ _ R3); auto. rewrite map_length. lia. }
  destruct (reads_from R2) as (L2 & _ & F2). destruct (reads_from R4) as (L4 & _ & F4).
  assert (Hseen : Forall2 N.le (map len ens) (map sh_cap s)).
  { apply Forall2_nth; [rewrite !map_length; congruence|]. intros j a b Ha Hb. rewrite nth_error_map in Ha.
    destruct (nth_error ens j) as [l|] eqn:El; [|discriminate Ha]. injection Ha as <-. destruct (F2 j l El) as (x & sh & G1 & G2 & ->).
    cbn [Nat.add] in G2. destruct (Hok x (J1 _ G1)) as [Hs _]. unfold slots_ok in Hs. rewrite Forall_forall in Hs.
    destruct (Hs sh) as [Hle _]; [eapply nth_error_In; eauto|]. rewrite <- (HC x (J1 _ G1)), nth_error_map, G2 in Hb. injection Hb as <-. exact Hle. }
  assert (Hlens : Forall2 N.le lens (map sh_cap s)).
  { apply Forall2_nth; [rewrite map_length; congruence|]. intros j a b Ha Hb. destruct (F4 j a Ha) as (x & sh & G1 & G2 & ->).
    cbn [Nat.add] in G2. destruct (Hok x (J3 _ G1)) as [Hs _]. unfold slots_ok in Hs. rewrite Forall_forall in Hs.
    destruct (Hs sh) as [Hle _]; [eapply nth_error_In; eauto|]. rewrite <- (HC x (J3 _ G1)), nth_error_map, G2 in Hb. injection Hb as <-. exact Hle. }
  apply sum_le in Hseen, Hlens. rewrite <- len_concat in Hseen. unfold dash_capacity in *. set (C := sumN (map sh_cap s)) in *.
  assert (Hle : (C - sumN lens) * t_size e <= C * t_size e) by (apply N.mul_le_mono_r; lia).
  assert (Ep : p = enter_self t (VUnique PTR_NAME ptr_size (VInline CAPACITY_NAME (C * t_size e)
    (vseq (vseqs (map (visit_entry kd) (concat ens))) (v_simple UNUSED_CAPACITY_NAME ((C - sumN lens) * t_size e))) VRet) VRet)).
  { unfold p, visit_told. rewrite E1, E3, !usum_exact by (fold C; lia). cbn [obind N.add]. fold C. rewrite umul_exact by exact Hc. cbn [with_val].
    unfold usaturating_sub. rewrite umul_exact by lia. reflexivity. }
  assert (Hf : fits (vseqs (map (visit_entry kd) (concat ens))) (Some (len (concat ens) * t_size e))).
  { apply fits_entries. rewrite Forall_forall. intros en Hen. apply in_concat in Hen as (l & Hl & Hen).
    apply In_nth_error in Hl as [j Ej]. destruct (F2 j l Ej) as (x & sh & G1 & G2 & ->). apply nth_error_In in G2.
    destruct (Hok x (J1 _ G1)) as [Hs Hf]. unfold slots_ok in Hs. rewrite Forall_forall in Hs. destruct (Hs sh G2) as [_ Hsz].
    rewrite Forall_forall in Hsz. unfold entries_fit in Hf. rewrite Forall_forall in Hf.
    destruct (Hf en) as [Hk Hv]; [unfold all_entries; apply in_flat_map; eauto|]. apply fits_entry; auto. }
  rewrite Ep. clear p Ep. set (q := vseqs (map (visit_entry kd) (concat ens))) in *. set (u := v_simple UNUSED_CAPACITY_NAME ((C - sumN lens) * t_size e)).
  split.
  - unfold root_events, enter_self, v_enter_self. cbn [trace_roots trace app].
    assert (Et : k_str (key_for_type_name (t_name t)) = t_name t) by apply key_str_new.
    pose proof (@trace_vseq_blocks q u [] (slots_path t) NKInline) as Hb. cbn [app] in Hb.
    rewrite Et. change [t_name t; k_str PTR_NAME; k_str CAPACITY_NAME] with (slots_path t).
    assert (Hb' : block_bytes (fst (fst (trace k_str (vseq q u) [] (slots_path t) NKInline))) = entry_blocks kd t (concat ens)) by (rewrite entry_blocks_eq; apply Hb; intros vis; reflexivity).
    destruct (trace k_str (vseq q u) [] (slots_path t) NKInline) as [[e1 v1] [|]] eqn:E; cbn [fst app] in *;
      unfold block_bytes in *; cbn [map sumN ev_parent ev_size is_NKInline app]; rewrite ?app_nil_r, Hb'; lia.
  - unfold enter_self, v_enter_self. cbn [overspends spends]. pose proof (@fits_spends _ _ Hf) as Hs1. pose proof (@fits_overspends _ _ Hf) as Ho1.
    pose proof (@spends_vseq q u) as Hs. pose proof (@overspends_vseq q u) as Ho.
    assert (Eu : spends u = (C - sumN lens) * t_size e) by (unfold u, v_simple; cbn [spends]; lia).
    assert (Ev : overspends u = 0) by reflexivity.
    assert (len (concat ens) * t_size e <= C * t_size e) by (apply N.mul_le_mono_r; exact Hseen).
    unfold ptr_size in *. lia.
Qed.

(** Visits of told answers, without overflow, scope by scope. *)
Lemma told_scopes m kd t e caps ens caps' lens :
  sumN caps < two64 -> sumN caps * t_size e < two64 -> sumN caps' < two64 -> sumN lens < two64 -> (sumN caps' - sumN lens) * t_size e < two64 ->
  visit_told m kd t e caps ens caps' lens =
  VInline (key_new (t_name t)) (t_size t)
    (VUnique (key_new "ptr") 8
      (VInline (key_new "capacity") (sumN caps * t_size e)
        (in_turn (flat_map (entry_fields kd) (concat ens)) (VInline (key_new "unused_capacity") ((sumN caps' - sumN lens) * t_size e) VRet VRet)) VRet) VRet) VRet.
Proof.
  intros H1 H2 H3 H4 H5. unfold visit_told. rewrite !usum_exact by lia. cbn [obind N.add]. rewrite umul_exact by exact H2. cbn [with_val].
  unfold usaturating_sub. rewrite umul_exact by exact H5. cbn [with_val]. rewrite in_turn_entries. reflexivity.
Qed.
(** All keys in it are made from strings, if those of the entries are. *)
Lemma told_keys m kd t e caps ens caps' lens :
  (forall en, In en (concat ens) -> keys_in made_by_new (snd (en_key en)) /\ keys_in made_by_new (snd (en_val en))) ->
  keys_in made_by_new (visit_told m kd t e caps ens caps' lens).
Proof.
  intros H. assert (A : forall ens' q, (forall en, In en ens' -> keys_in made_by_new (snd (en_key en)) /\ keys_in made_by_new (snd (en_val en))) ->
    keys_in made_by_new q -> keys_in made_by_new (in_turn (flat_map (entry_fields kd) ens') q)).
  { clear. induction ens' as [|en ens' IH]; intros q H Hq; [exact Hq|]. cbn [flat_map]. rewrite in_turn_app.
    destruct (H en (or_introl eq_refl)) as [Hk Hv]. assert (R : keys_in made_by_new (in_turn (flat_map (entry_fields kd) ens') q)).
    { apply IH; [|exact Hq]. intros en' He. apply H. now right. }
    revert R. generalize (in_turn (flat_map (entry_fields kd) ens') q). intros q' R.
    destruct kd; cbn [in_turn entry_fields fold_right keys_in fst snd]; repeat split; auto; try (eexists; reflexivity). }
  unfold visit_told, enter_self, v_enter_self. cbn [keys_in]. split; [eexists; reflexivity|]. split; [|exact I].
  split; [eexists; reflexivity|]. split; [|exact I]. destruct (do c <- usum m 0 caps; umul m c (t_size e)) as [total|]; [|exact I]. cbn [with_val keys_in].
  split; [eexists; reflexivity|]. split; [|exact I]. rewrite <- in_turn_entries. apply A; [exact H|].
  destruct (do c <- usum m 0 caps'; do n <- usum m 0 lens; umul m (usaturating_sub c n) (t_size e)); cbn; [split; [eexists; reflexivity | auto] | exact I].
Qed.
