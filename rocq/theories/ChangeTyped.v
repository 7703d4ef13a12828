(** * Lemmas for property C52: well-typed memory. *)
From Verif Require Import Base BaseFacts KeyModel KeyFacts HMap FlameModel BuilderModel BuilderFacts VisitorModel Spec LayoutModel ImplModel ImplSpec ImplFacts OwnedFacts
  StoreFacts LockModel LockSpec LockFacts SnapshotModel SnapshotSpec SnapshotFacts SnapshotRun SnapshotProps ChangeModel ChangeSpec ChangeRun ChangeFacts ChangeSession.

#[local] Arguments key_new : simpl never.

(** ** Everything that need be is visited *)
Section Marks.
  Variable i : N.
  Fixpoint returns (p : vprog) : Prop :=
    match p with VRet => True | VCrash => False | VInline _ _ _ r | VUnique _ _ _ r | VShared _ _ _ _ r _ => returns r end.
  Lemma returns_vseq p q : returns p -> returns q -> returns (vseq p q).
  Proof. induction p; cbn; tauto. Qed.
  Lemma returns_vseqs l : Forall returns l -> returns (vseqs l).
  Proof. induction 1; cbn; [exact I|]. now apply returns_vseq. Qed.
  Lemma marks_vseq_eq p q : returns p -> marks i (vseq p q) = (marks i p + marks i q)%nat.
  Proof. induction p as [| |k s b IHb r IHr|k s b IHb r IHr|k s x b IHb r1 IH1 r2 IH2]; cbn [returns vseq marks]; intros H; try rewrite IHr by exact H; try rewrite IH1 by exact H; try lia; contradiction. Qed.
  Lemma marks_vseqs_eq l : Forall returns l -> marks i (vseqs l) = list_sum (map (marks i) l).
  Proof. induction 1 as [|p l Hp Hl IH]; cbn [vseqs map list_sum fold_right marks]; [reflexivity|]. rewrite marks_vseq_eq by exact Hp. unfold list_sum in IH. now rewrite IH. Qed.

  Variable cs : list sub.
  Hypothesis Hcs : Forall (fun c => returns (snd c)) cs.
  Lemma returns_subs : Forall returns (map snd cs).
  Proof. rewrite Forall_map. exact Hcs. Qed.
  Lemma marks_subs_eq : marks i (vseqs (map snd cs)) = sub_marks i cs.
  Proof. rewrite marks_vseqs_eq by apply returns_subs. now rewrite map_map. Qed.
  Lemma returns_field k c : returns (field k c). Proof. exact I. Qed.
End Marks.
Lemma marks_fields_named_eq i k cs : marks i (fields_named k cs) = sub_marks i cs.
Proof.
  unfold fields_named. rewrite marks_vseqs_eq by (rewrite Forall_map; apply Forall_forall; intros; exact I). rewrite map_map. unfold sub_marks.
  f_equal. apply map_ext. intros c. cbn. lia.
Qed.
Lemma returns_fields_named k cs : returns (fields_named k cs).
Proof. apply returns_vseqs. rewrite Forall_map. apply Forall_forall. intros; exact I. Qed.
Lemma marks_fields_eq i names cs : length names = length cs -> marks i (fields names cs) = sub_marks i cs.
Proof.
  revert cs; induction names as [|n names IH]; intros [|c cs] H; try discriminate; [reflexivity|]. cbn [fields]. injection H as H.
  rewrite marks_vseq_eq by exact I. rewrite IH by exact H. rewrite sub_marks_cons, marks_field. reflexivity.
Qed.
Lemma marks_fields_kv_eq i kk kv cs : even_length cs -> marks i (fields_kv kk kv cs) = sub_marks i cs.
Proof.
  induction cs as [|c|k v cs IH] using pair_ind; cbn [even_length]; intros H; [reflexivity | contradiction |].
  cbn [fields_kv]. rewrite !marks_vseq_eq by exact I. rewrite IH by exact H. rewrite !sub_marks_cons, !marks_field. lia.
Qed.
Lemma returns_fields_kv kk kv cs : returns (fields_kv kk kv cs).
Proof. induction cs as [|c|k v cs IH] using pair_ind; cbn [fields_kv]; try exact I. apply returns_vseq; [exact I|]. apply returns_vseq; [exact I | exact IH]. Qed.
Lemma entries_even e cs : entries e cs -> even_length cs.
Proof. induction cs as [|c|k v cs IH] using pair_ind; cbn; auto. tauto. Qed.
Lemma even_map {A B} (f : A -> B) l : even_length (map f l) <-> even_length l.
Proof. induction l as [|c|k v cs IH] using pair_ind; cbn; tauto. Qed.

(** Not worth looking at. *)
Definition idle (v : value) : Prop := drop_of v = false \/ size_of_val v = 0.
Lemma elems_idle e vs : elems e vs -> t_drop e = false \/ t_size e = 0 -> Forall idle vs.
Proof.
  intros H Z. eapply Forall_impl; [|exact H]. intros v [H1 H2]. unfold idle. destruct Z as [Z|Z]; [left | right; congruence].
  destruct (drop_of v); [rewrite H2 in Z by reflexivity; discriminate | reflexivity].
Qed.
Lemma iter_marked i m e vs (cs : list sub) : elems e vs -> Forall (fun c => returns (snd c)) cs ->
  (marks i (v_iter m (t_name e) (t_size e) (t_drop e) (map snd cs)) = sub_marks i cs /\ returns (v_iter m (t_name e) (t_size e) (t_drop e) (map snd cs))) \/ Forall idle vs.
Proof.
  intros He Hc. unfold v_iter. destruct (negb (t_drop e) || (t_size e =? 0)) eqn:E.
  - right. apply (elems_idle He). apply orb_true_iff in E as [E|E]; [left; now apply negb_true_iff | right; now apply N.eqb_eq].
  - left. split; [now apply marks_subs_eq | apply returns_vseqs, returns_subs, Hc].
Qed.

Lemma no_buffer i e cap vs (cs : list sub) : elems e vs -> len vs <= cap -> length cs = length vs -> negb (cap =? 0) && negb (t_size e =? 0) = false ->
  sub_marks i cs = 0%nat \/ Forall idle vs.
Proof.
  intros He Hb Hl E. apply andb_false_iff in E as [E|E]; apply negb_false_iff, N.eqb_eq in E.
  - left. subst cap. destruct vs; [|unfold len in Hb; cbn [length] in Hb; lia]. destruct cs; [reflexivity | discriminate].
  - right. apply (elems_idle He). auto.
Qed.
Lemma sub_marks_split i n cs : sub_marks i cs = (sub_marks i (firstn n cs) + sub_marks i (skipn n cs))%nat.
Proof. rewrite <- sub_marks_app. now rewrite firstn_skipn. Qed.

Lemma shape_marked i m s vs (cs : list sub) : pointer s = false -> match s with SCell _ _ | SOnce _ _ => False | _ => True end ->
  shape_ok s vs -> length cs = length vs -> Forall (fun c => returns (snd c)) cs ->
  (sub_marks i cs <= marks i (visit_shape m unseen s cs))%nat \/ Forall idle vs.
Proof.
  intros Hp Hc Hok Hl Hr.
  assert (Z : vs = [] -> sub_marks i cs = 0%nat) by (intros ->; destruct cs; [reflexivity | discriminate]).
  assert (L : len cs = len vs) by (unfold len; now rewrite Hl).
  assert (EV : even_length vs -> even_length cs).
  { clear - Hl. revert cs Hl. induction vs as [|c|k v vs IH] using pair_ind; intros cs Hl H; cbn in H; try contradiction.
    - destruct cs; [exact I | discriminate].
    - destruct cs as [|a [|b cs]]; try discriminate. cbn. apply IH; auto. now injection Hl as Hl. }
  destruct s as [t|t|n|n|e|t names|t variant|t|t a|t a|t ps|t e cap|t e front cap|t n cap|t n cap|t h|t e cap|t e sp|t d
      |t e cap|t e cap|t|t e cap|t e cap|t e cap|t|t|t al ch|t ps x|t target]; cbn [shape_ok] in Hok; cbn [visit_shape]; try discriminate; try contradiction;
    try (left; rewrite Z by tauto; lia).
  - left. unfold impl_slice. cbn [marks]. rewrite marks_fields_named_eq. lia.
  - left. unfold impl_struct, enter_self, v_enter_self. cbn [marks]. rewrite marks_fields_eq; [lia|]. rewrite Hl. tauto.
  - left. unfold impl_enum, enter_self, v_enter_self. destruct variant as [[v names]|]; cbn [marks]; [|rewrite Z by exact Hok; lia].
    rewrite marks_fields_eq; [lia|]. rewrite Hl. tauto.
  - left. unfold impl_manually_drop, enter_self, v_enter_self. cbn [marks]. rewrite marks_fields_named_eq. lia.
  - left. unfold impl_box, enter_self, v_enter_self. cbn [marks]. rewrite marks_subs_eq by exact Hr. lia.
  - destruct Hok as (Ho & He & Hb). unfold impl_vec, enter_self, v_enter_self. cbn [marks]. destruct (negb (cap =? 0) && negb (t_size e =? 0)) eqn:E.
    + unfold v_slice. destruct (iter_marked i m He Hr) as [[I1 I2] | I]; [|now right]. left. cbn [marks]. rewrite marks_vseq_eq by exact I2. lia.
    + destruct (@no_buffer i e cap vs cs He) as [N|N]; auto; [apply Hb|]. left. lia.
  - destruct Hok as (Ho & He & Hb). unfold impl_vec_deque, enter_self, v_enter_self. cbn [marks]. destruct (negb (cap =? 0) && negb (t_size e =? 0)) eqn:E.
    + unfold v_slice. rewrite <- (firstn_skipn front cs) in Hr. apply Forall_app in Hr as [Hr1 Hr2].
      destruct (iter_marked i m He Hr1) as [[I1 I2] | I]; [|now right]. destruct (iter_marked i m He Hr2) as [[J1 J2] | I]; [|now right].
      left. cbn [marks]. rewrite marks_vseq_eq by exact I2. rewrite marks_vseq_eq by exact J2. rewrite (sub_marks_split i front cs). lia.
    + destruct (@no_buffer i e cap vs cs He) as [N|N]; auto; [apply Hb|]. left. lia.
  - destruct Hok as (Ho & He & Hb). unfold impl_slab, enter_self, v_enter_self. cbn [marks]. destruct (negb (cap =? 0) && negb (t_size e =? 0)) eqn:E.
    + destruct (iter_marked i m He Hr) as [[I1 I2] | I]; [|now right]. left. cbn [marks]. rewrite marks_vseq_eq by exact I2. lia.
    + destruct (@no_buffer i e cap vs cs He) as [N|N]; auto; [apply Hb|]. left. lia.
  - left. unfold impl_small_vec, enter_self, v_enter_self. cbn [marks]. destruct sp; cbn [marks]; rewrite marks_fields_named_eq; lia.
  - left. unfold impl_index_set, enter_self, v_enter_self. cbn [marks]. rewrite marks_vseq_eq by apply returns_fields_named. rewrite marks_fields_named_eq. lia.
  - left. destruct Hok as (_ & _ & He & _). unfold impl_index_map, enter_self, v_enter_self. cbn [marks]. rewrite marks_vseq_eq by apply returns_fields_kv.
    rewrite marks_fields_kv_eq; [lia|]. eapply EV, entries_even, He.
  - left. unfold impl_json_map, enter_self, v_enter_self. cbn [marks]. rewrite marks_fields_kv_eq; [lia|]. apply EV. tauto.
  - left. destruct Hok as (Ho & He & Hb). unfold impl_dash_map, enter_self, v_enter_self. cbn [marks]. rewrite umul_exact by (eapply buffer_total; eauto). cbn [with_val marks].
    rewrite marks_vseq_eq by apply returns_fields_kv. rewrite marks_fields_kv_eq; [lia|]. eapply EV, entries_even, He.
  - left. destruct Hok as (Ho & He & Hb). unfold impl_dash_set, enter_self, v_enter_self. cbn [marks]. rewrite umul_exact by (eapply buffer_total; eauto). cbn [with_val marks].
    rewrite marks_vseq_eq by apply returns_fields_named. rewrite marks_fields_named_eq. lia.
  - destruct Hok as (Ho & He & Hn & Hf). unfold impl_hash_table, enter_self, v_enter_self. cbn [marks]. rewrite table_resolved by exact Hf. cbn [with_val marks].
    destruct (iter_marked i m He Hr) as [[I1 I2] | I]; [|now right]. left. lia.
  - left. destruct Hok as (Ho & He). apply EV in He. unfold impl_map, enter_self, v_enter_self, v_generic_map_fields, v_field_with. cbn [marks]. rewrite !Nat.add_0_r.
    rewrite marks_vseqs_eq; [|rewrite Forall_map; apply Forall_forall; intros; exact I]. rewrite map_map. clear - He.
    induction cs as [|c|k v cs IH] using pair_ind; cbn [even_length] in He; [cbn; lia | contradiction |]. cbn [pair_up map list_sum fold_right].
    specialize (IH He). unfold list_sum in IH. match type of IH with (_ <= ?x)%nat => set (F := x) in * end. rewrite !sub_marks_cons. unfold v_field, v_field_with. cbn [vseq marks fst snd]. lia.
  - left. unfold impl_set, enter_self, v_enter_self, v_generic_set_fields, v_field_with. cbn [marks]. rewrite !Nat.add_0_r.
    rewrite marks_vseqs_eq; [|rewrite Forall_map; apply Forall_forall; intros; exact I]. rewrite map_map. clear.
    induction cs as [|c cs IH]; cbn [map list_sum fold_right]; [cbn; lia|]. unfold list_sum in IH. match type of IH with (_ <= ?x)%nat => set (F := x) in * end. rewrite sub_marks_cons. unfold v_field, v_field_with. cbn [marks]. lia.
Qed.

Lemma placeholders_marks sizes : forall j i n, nth_error sizes i = Some n -> (1 <= sub_marks (j + N.of_nat i) (placeholders j sizes))%nat.
Proof.
  induction sizes as [|n0 sizes IH]; intros j [|i] n H; try discriminate; cbn [placeholders]; rewrite sub_marks_cons; cbn [snd marks].
  - change (N.of_nat 0) with 0. rewrite N.add_0_r, N.eqb_refl. lia.
  - specialize (IH (N.succ j) i n H). replace (N.succ j + N.of_nat i) with (j + N.of_nat (S i)) in IH by lia. lia.
Qed.
Lemma placeholders_return sizes : forall j, Forall (fun c => returns (snd c)) (placeholders j sizes).
Proof. induction sizes; cbn; constructor; auto. exact I. Qed.
Lemma placeholders_length sizes : forall j, length (placeholders j sizes) = length sizes.
Proof. induction sizes; cbn; auto. Qed.

(** ** Well-typed values *)
Section Typed.
  Variable tyl : lock -> N * bool.
  Variable M : memory -> Prop.
  Variable E : Prop.

  Lemma contained_idle t vs : contained t vs -> t_drop t = false \/ t_size t = 0 -> Forall idle vs.
  Proof.
    intros [H1 H2] [Z|Z].
    - eapply Forall_impl; [|exact H2]. cbn beta. intros v Hv. left. destruct (drop_of v); [|reflexivity]. rewrite Hv in Z by reflexivity. discriminate.
    - rewrite Z in H1. clear - H1. induction vs as [|v vs IH]; constructor; cbn [map sumN fold_right] in H1.
      + right. unfold sumN in H1. cbn in H1. lia.
      + apply IH. unfold sumN in *. cbn in H1. lia.
  Qed.
  Lemma idle_children s vs : shape_ok s vs -> match s with SManuallyDrop _ => False | _ => True end -> idle (Node s vs) -> Forall idle vs.
  Proof.
    intros Hok Hm Hi. unfold idle in Hi.
    assert (P : forall t, ImplSpec.owner t -> t_drop t = false \/ t_size t = 0 -> Forall idle vs).
    { intros t [H1 H2] [Z|Z]; [congruence|]. rewrite Z in H1. unfold ptr_size in H1. lia. }
    destruct s as [t|t|n|n|e|t names|t variant|t|t a|t a|t ps|t e cap|t e front cap|t n cap|t n cap|t h|t e cap|t e sp|t d
      |t e cap|t e cap|t|t e cap|t e cap|t e cap|t|t|t al ch|t ps x|t target]; cbn [shape_ok] in Hok; cbn [drop_of size_of_val shape_info] in Hi; try contradiction;
      try (replace vs with (@nil value) by (symmetry; tauto); constructor); try (apply (P t); tauto).
    - destruct vs as [|v vs]; [constructor|]. apply (elems_idle Hok). destruct Hi as [Hi|Hi]; [now left|]. apply N.mul_eq_0 in Hi as [Hi|Hi]; [now right|].
      unfold len in Hi. cbn [length] in Hi. lia.
    - apply (@contained_idle t); tauto.
    - destruct variant as [[v names]|]; [apply (@contained_idle t); tauto | rewrite Hok; constructor].
    - apply (@contained_idle t); tauto.
    - apply (@contained_idle t); tauto.
    - apply (P t); [split; [lia | tauto] | tauto].
    - apply (P t); [split; [lia | tauto] | tauto].
    - apply (P t); [split; [lia | tauto] | tauto].
  Qed.

  Lemma idle_outline v : mtyped tyl v -> manual_free (outline v) -> idle (outline v) -> appears M E v (outline v).
  Proof.
    induction v as [s cs IH|t l a|t l|t t' ps x] using mvalue_induction; intros Ht Hm Hi; cbn [outline] in *.
    - inversion Ht as [? ? Hs Hok Hcs| | |]; subst. cbn [manual_free] in Hm. destruct Hm as [Hm1 Hm2].
      assert (Hi' : Forall idle (map outline cs)) by (apply (idle_children Hok); [destruct s; tauto | exact Hi]).
      apply and_map in Hm2. constructor. clear - IH Hcs Hm2 Hi'.
      induction cs as [|c cs IHc]; cbn in *; constructor; inversion IH; inversion Hcs; inversion Hm2; inversion Hi'; subst; auto.
    - apply ap_shut. destruct Hi as [Hi|Hi]; cbn in Hi; tauto.
    - apply ap_unset. destruct Hi as [Hi|Hi]; cbn in Hi; tauto.
    - apply ap_dead. destruct Hi as [Hi|Hi]; cbn in Hi; tauto.
  Qed.

  (** The values a session meets. *)
  Definition neat (v : mvalue) : Prop := mtyped tyl v /\ manual_free (outline v).
  Lemma neat_child s cs : neat (MPlain s cs) -> Forall neat cs.
  Proof.
    intros [H1 H2]. inversion H1 as [? ? _ _ Hcs| | |]; subst. cbn [outline manual_free] in H2. destruct H2 as [_ H2]. apply and_map in H2.
    clear - Hcs H2. induction cs as [|c cs IH]; cbn in *; constructor; inversion Hcs; inversion H2; subst; [split; auto | auto].
  Qed.
  Lemma neat_skip m s cs i c : neat (MPlain s cs) -> nth_error cs i = Some c ->
    pointer s = true \/ marks (N.of_nat i) (visit_shape m unseen s (placeholders 0 (map msize cs))) = 0%nat -> exists w, appears M E c w.
  Proof.
    intros HN Hc Z. pose proof (neat_child HN) as HNc. destruct HN as [H1 H2]. inversion H1 as [? ? Hs Hok Hcs| | |]; subst.
    assert (Hn : neat c) by (apply nth_error_In in Hc; rewrite Forall_forall in HNc; auto).
    destruct (pointer s) eqn:Ep.
    { exfalso. destruct s; try discriminate; [|contradiction]. cbn [shape_ok] in Hok. destruct Hok as [Hok _]. destruct cs; [destruct i; discriminate | discriminate]. }
    destruct Z as [Z|Z]; [discriminate|].
    destruct (@shape_marked (N.of_nat i) m s (map outline cs) (placeholders 0 (map msize cs)) Ep) as [X|X].
    - destruct s; auto.
    - exact Hok.
    - now rewrite placeholders_length, !map_length.
    - apply placeholders_return.
    - exfalso. pose proof (@placeholders_marks (map msize cs) 0 i (msize c)) as Y. rewrite N.add_0_l in Y.
      rewrite nth_error_map, Hc in Y. specialize (Y eq_refl). lia.
    - exists (outline c). destruct Hn. apply idle_outline; auto. rewrite Forall_map in X. apply nth_error_In in Hc. rewrite Forall_forall in X. auto.
  Qed.
End Typed.

(** ** What was seen is as good as what was there *)
Lemma appears_drop M E v w : appears M E v w -> drop_of w = drop_of (outline v).
Proof. intros H. inversion H as [s cs ws Hc| | | | | |]; subst; cbn [outline]; try reflexivity. Qed.
Lemma appears_alike M E v w : appears M E v w -> alike (outline v) w.
Proof. intros H. split; [symmetry; apply (appears_size H) | symmetry; apply (appears_drop H)]. Qed.
Lemma Forall2_alike M E cs ws : Forall2 (appears M E) cs ws -> Forall2 alike (map outline cs) ws.
Proof. induction 1; cbn; constructor; eauto using appears_alike. Qed.

Lemma appears_induction (M : memory -> Prop) (E : Prop) (P : mvalue -> value -> Prop) :
  (forall s cs ws, Forall2 (appears M E) cs ws -> Forall2 P cs ws -> P (MPlain s cs) (Node s ws)) ->
  (forall t l a g w, M g -> appears M E (m_content g l) w -> P (m_content g l) w -> P (MLock t l a) (Node (SCell t true) [w])) ->
  (forall t l a, P (MLock t l a) (Node (SCell t false) [])) ->
  (forall t l g w, M g -> appears M E (m_content g l) w -> P (m_content g l) w -> P (MOnce t l) (Node (SOnce t true) [w])) ->
  (forall t l, P (MOnce t l) (Node (SOnce t false) [])) ->
  (forall t t' ps x, P (MWeak t t' ps x) (Node (SWeak t (Some (t', ps, x))) [])) ->
  (forall t t' ps x, P (MWeak t t' ps x) (Node (SWeak t None) [])) ->
  forall v w, appears M E v w -> P v w.
Proof.
  intros H1 H2 H3 H4 H5 H6 H7. fix go 3. intros v w H. destruct H as [s cs ws Hc|t l a g w G1 G2 G3 G4|t l a H|t l g w G1 G2 G3 G4|t l H|t t' ps x g G1 G2|t t' ps x H].
  - apply H1; [exact Hc|]. induction Hc as [|c w cs ws H _ IH]; constructor; [apply go, H | exact IH].
  - eapply H2; eauto.
  - apply H3.
  - eapply H4; eauto.
  - apply H5.
  - apply H6.
  - apply H7.
Qed.

Section Same.
  Variable M : memory -> Prop.
  Variable E : Prop.

  Theorem appears_typed tyl : (forall g, M g -> mem_typed tyl g) -> forall v w, appears M E v w -> mtyped tyl v -> typed w.
  Proof.
    intros HM. apply (@appears_induction M E (fun v w => mtyped tyl v -> typed w)).
    - intros s cs ws Ha Hc Ht. inversion Ht as [? ? _ Hok Hcs| | |]; subst. constructor; [eapply shape_ok_alike; [eapply Forall2_alike, Ha | exact Hok]|].
      clear - Hc Hcs. induction Hc; inversion Hcs; subst; constructor; auto.
    - intros t l a g w Hg Ha IH Ht. inversion Ht as [|? ? ? [F1 F2]| |]; subst. destruct (HM _ Hg) as [HM1 _]. destruct (HM1 l) as (T1 & T2 & T3).
      constructor; [|repeat constructor; auto]. cbn [shape_ok]. unfold contained. cbn [map sumN fold_right]. rewrite (appears_size Ha), T2. split; [unfold sumN; cbn; lia|].
      repeat constructor. rewrite (appears_drop Ha). auto.
    - intros t l a Ht. constructor; [|constructor]. cbn. split; [apply N.le_0_l | constructor].
    - intros t l g w Hg Ha IH Ht. inversion Ht as [| |? ? [F1 F2]|]; subst. destruct (HM _ Hg) as [HM1 _]. destruct (HM1 l) as (T1 & T2 & T3).
      constructor; [|repeat constructor; auto]. cbn [shape_ok]. unfold contained. cbn [map sumN fold_right]. rewrite (appears_size Ha), T2. split; [unfold sumN; cbn; lia|].
      repeat constructor. rewrite (appears_drop Ha). auto.
    - intros t l Ht. constructor; [|constructor]. cbn. split; [apply N.le_0_l | constructor].
    - intros t t' ps x Ht. inversion Ht; subst. constructor; [assumption | constructor].
    - intros t t' ps x Ht. inversion Ht as [| | |? ? ? ? H]; subst. constructor; [|constructor]. cbn [shape_ok] in *. tauto.
  Qed.

  Theorem appears_manual : (forall g, M g -> mem_all manual_free g) -> forall v w, appears M E v w -> manual_free (outline v) -> manual_free w.
  Proof.
    intros HM. apply (@appears_induction M E (fun v w => manual_free (outline v) -> manual_free w)); cbn [outline manual_free map fold_right]; try tauto.
    - intros s cs ws _ Hc [H1 H2]. split; [exact H1|]. apply and_map in H2. apply and_map. clear - Hc H2.
      induction Hc; cbn in *; inversion H2; subst; constructor; auto.
    - intros t l a g w Hg _ IH _. destruct (HM _ Hg) as [HM1 _]. specialize (HM1 l). tauto.
    - intros t l g w Hg _ IH _. destruct (HM _ Hg) as [HM1 _]. specialize (HM1 l). tauto.
  Qed.
  Theorem appears_map_free : (forall g, M g -> mem_all map_free g) -> forall v w, appears M E v w -> map_free (outline v) -> map_free w.
  Proof.
    intros HM. apply (@appears_induction M E (fun v w => map_free (outline v) -> map_free w)); cbn [outline map_free map fold_right]; try tauto.
    - intros s cs ws _ Hc [H1 H2]. split.
      + destruct s; auto; destruct cs; try discriminate; inversion Hc; reflexivity.
      + apply and_map in H2. apply and_map. clear - Hc H2. induction Hc; cbn in *; inversion H2; subst; constructor; auto.
    - intros t l a g w Hg _ IH _. destruct (HM _ Hg) as [HM1 _]. specialize (HM1 l). tauto.
    - intros t l g w Hg _ IH _. destruct (HM _ Hg) as [HM1 _]. specialize (HM1 l). tauto.
  Qed.

  Lemma appeared_typed tyl h : (forall g, M g -> mem_typed tyl g) -> appeared M E h -> typed_store h.
  Proof.
    intros HM. unfold appeared, typed_store. apply Forall_impl. intros [x [i w]] (g & v & G1 & G2 & G3). cbn [fst snd] in *.
    destruct (HM _ G1) as [_ HM2]. destruct (HM2 _ _ _ G2) as [T1 T2]. split; [|eapply appears_typed; eauto].
    destruct (appears_alike G3) as [Es _]. unfold inner_ok in *. rewrite <- Es. exact T1.
  Qed.
  Lemma appeared_plain h : (forall g, M g -> mem_all manual_free g) -> appeared M E h -> plain_store h.
  Proof.
    intros HM. unfold appeared, plain_store. apply Forall_impl. intros [x [i w]] (g & v & G1 & G2 & G3). cbn [fst snd] in *.
    destruct (HM _ G1) as [_ HM2]. eapply appears_manual; eauto.
  Qed.
  Lemma appeared_map_free h : (forall g, M g -> mem_all map_free g) -> appeared M E h -> Forall (fun xo => map_free (snd (snd xo))) h.
  Proof.
    intros HM. unfold appeared. apply Forall_impl. intros [x [i w]] (g & v & G1 & G2 & G3). cbn [fst snd] in *.
    destruct (HM _ G1) as [_ HM2]. eapply appears_map_free; eauto.
  Qed.
End Same.
