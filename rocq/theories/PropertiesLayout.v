(** * Properties of allocation-size arithmetic: C30, C31, C40. *)
From Verif Require Import Base BaseFacts LayoutModel LayoutFacts Spec MergeFacts.
#[local] Transparent two64 two63.

Lemma valid_hdr c : c <= 1000 -> valid_layout (mkLayout c 8).
Proof. intros H. split; [exists 3; reflexivity|]. cbn [l_align l_size]. unfold two63. lia. Qed.

(** ** C30: Arc/Rc allocation sizes.

    [holds c v S]: a block of [S] bytes, [S] a multiple of both alignments, has
    room for a header of [c] bytes and then, at an aligned offset, a value of
    layout [v].  The reported size is the least such [S]; the computation panics
    exactly when that does not fit in [isize] (no such allocation can exist). *)
Theorem C30_rc_exact : forall v S, valid_layout v ->
  (rcbox_layout_size v = Some S <-> S < two63 /\ holds 16 v S /\ forall S', holds 16 v S' -> S <= S').
Proof.
  intros v S Hv. unfold rcbox_layout_size. rewrite extend_pad; [| |exact Hv].
  2:{ apply valid_hdr; lia. }
  assert (D : N.divide 8 16) by (exists 2; reflexivity).
  pose proof (padded_holds Hv D) as H. pose proof (fun S' => @padded_least 16 v S' Hv) as L.
  unfold rcbox_unit_layout. destruct (N.ltb_spec (padded_size (mkLayout 16 8) v) two63) as [Hlt|Hge].
  - split; [intros [= <-]; auto|]. intros (H1 & H2 & H3). f_equal. apply N.le_antisymm; auto.
  - split; [discriminate|]. intros (H1 & H2 & H3). apply L in H2. lia.
Qed.
Print Assumptions C30_rc_exact.

Theorem C30_rc_panic : forall v, valid_layout v ->
  (rcbox_layout_size v = None <-> forall S, holds 16 v S -> two63 <= S).
Proof.
  intros v Hv. unfold rcbox_layout_size. rewrite extend_pad; [| |exact Hv].
  2:{ apply valid_hdr; lia. }
  assert (D : N.divide 8 16) by (exists 2; reflexivity).
  pose proof (padded_holds Hv D) as H. pose proof (fun S' => @padded_least 16 v S' Hv) as L.
  unfold rcbox_unit_layout. destruct (N.ltb_spec (padded_size (mkLayout 16 8) v) two63) as [Hlt|Hge].
  - split; [discriminate|]. intros X. apply X in H. lia.
  - split; [|reflexivity]. intros _ S HS. apply L in HS. lia.
Qed.
Print Assumptions C30_rc_panic.

Theorem C30_triomphe_exact : forall v S, valid_layout v ->
  (triomphe_arc_size v = Some S <-> S < two63 /\ holds 8 v S /\ forall S', holds 8 v S' -> S <= S').
Proof.
  intros v S Hv. unfold triomphe_arc_size. rewrite extend_pad; [| |exact Hv].
  2:{ apply valid_hdr; lia. }
  pose proof (padded_holds Hv (N.divide_refl 8)) as H. pose proof (fun S' => @padded_least 8 v S' Hv) as L.
  unfold arc_inner_repr_layout. destruct (N.ltb_spec (padded_size (mkLayout 8 8) v) two63) as [Hlt|Hge].
  - split; [intros [= <-]; auto|]. intros (H1 & H2 & H3). f_equal. apply N.le_antisymm; auto.
  - split; [discriminate|]. intros (H1 & H2 & H3). apply L in H2. lia.
Qed.
Print Assumptions C30_triomphe_exact.

(** The counters and the contents always fit in the reported size. *)
Theorem C30_covers : forall v S, valid_layout v ->
  (rcbox_layout_size v = Some S -> 16 + l_size v <= S) /\ (triomphe_arc_size v = Some S -> 8 + l_size v <= S).
Proof.
  intros v S Hv. split; intros E.
  - apply C30_rc_exact in E as (_ & (_ & _ & o & Ho & _ & Hs) & _); [lia | exact Hv].
  - apply C30_triomphe_exact in E as (_ & (_ & _ & o & Ho & _ & Hs) & _); [lia | exact Hv].
Qed.
Print Assumptions C30_covers.

(** sync.rs 232-240 (test_arc_align): a 64-byte aligned byte. *)
Example C30_satisfiable : valid_layout (mkLayout 64 64) /\ rcbox_layout_size (mkLayout 64 64) = Some 128 /\
  rcbox_layout_size (mkLayout 3 1) = Some 24 /\ triomphe_arc_size (mkLayout 1 1) = Some 16 /\
  rcbox_layout_size (mkLayout (two63 - 1) 1) = None.
Proof.
  split; [split; [exists 6; reflexivity|]; cbn [l_align l_size]; unfold two63; lia | repeat split; vm_compute; reflexivity].
Qed.

(** *** ThinArc.  [header_slice_layout] and [thin_arc_real] (LayoutSpec) are
    triomphe's nested repr(C) structs. *)

(** [repr_c], used in their definition, is the C struct layout: the least size,
    a multiple of all alignments, in which the fields fit in order. *)
Theorem C30_repr_c : forall fields, Forall (fun f => pow2 (l_align f)) fields ->
  c_struct fields (l_size (repr_c fields)) /\ forall S, c_struct fields S -> l_size (repr_c fields) <= S.
Proof. exact repr_c_least. Qed.
Print Assumptions C30_repr_c.

(** What is recorded is never less than the header and the elements it contains. *)
Theorem C30_thin_covers : forall h sz al n S, sized h -> valid_layout (thin_arc_inner_repr_layout h) -> pow2 al -> al <= two63 ->
  thin_arc_size h sz al n = Some S -> l_size (header_slice_layout h sz al n) <= S.
Proof. exact thin_covers. Qed.
Print Assumptions C30_thin_covers.

(** It is the exact allocation size when the elements are not aligned more
    strictly than the header and the counters. *)
Theorem C30_thin_exact : forall h sz al n S, sized h -> valid_layout (thin_arc_inner_repr_layout h) -> pow2 al ->
  al <= N.max (l_align h) 8 ->
  thin_arc_size h sz al n = Some S -> S = l_size (thin_arc_real h sz al n).
Proof.
  intros h sz al n S Hh Hv Hal Hle E. destruct (hwl_shift Hh) as (A1 & A2 & A3 & A4). set (A := N.max (l_align h) 8) in *.
  assert (HA : pow2 A) by (apply pow2_max; auto using pow2_8; apply Hh). pose proof (pow2_pos HA) as HpA.
  apply thin_arc_size_spec in E as [-> _]; auto; [|destruct Hv as (_ & Hx & _); rewrite A2 in Hx; lia].
  pose proof (pow2_pos Hal) as Hp. unfold thin_arc_real, header_slice_layout.
  rewrite repr_c2; [|cbn; lia | rewrite repr_c2 by (cbn [l_align]; rewrite ?A1; auto); cbn [l_align]; rewrite A1; lia].
  rewrite repr_c2 by (cbn [l_align]; rewrite ?A1; auto). cbn [l_size l_align usize_layout]. rewrite A1.
  replace (N.max A al) with A by lia. replace (N.max 8 A) with A by (subst A; lia).
  unfold padded_size. cbn [l_size l_align]. rewrite A2, A3. replace (N.max A al) with A by lia.
  assert (D : N.divide al A) by (apply pow2_divide; auto).
  assert (DW : N.divide al (l_size (repr_c [h; usize_layout]))) by (eapply N.divide_trans; [exact D | exact A4]).
  rewrite (@round_up_id _ al) by (auto using N.divide_add_r). rewrite (@round_up_id _ al) by auto.
  assert (E8 : round_up 8 A = A).
  { apply N.le_antisymm; [apply round_up_le; auto; [apply N.divide_refl | subst A; lia]|].
    destruct (round_up_divide 8 A) as [q Eq]. pose proof (@round_up_ge 8 A HpA). rewrite Eq in *. destruct q; nia. }
  rewrite E8, <- N.add_assoc. rewrite round_up_add by (auto; apply N.divide_refl).
  rewrite (@round_up_add A A (round_up _ _)); [|auto | apply N.divide_refl].
  rewrite round_up_round_up; auto using N.divide_refl.
Qed.
Print Assumptions C30_thin_exact.

(** It never exceeds the allocation, and it is defined for every possible allocation. *)
Theorem C30_thin_at_most : forall h sz al n, sized h -> valid_layout (thin_arc_inner_repr_layout h) -> pow2 al ->
  l_size (thin_arc_real h sz al n) < two63 ->
  exists S, thin_arc_size h sz al n = Some S /\ S <= l_size (thin_arc_real h sz al n).
Proof. exact thin_defined. Qed.
Print Assumptions C30_thin_at_most.

(** With more strictly aligned elements the size is under-reported: a [ThinArc]
    of one 64-byte aligned element occupies 192 bytes, 128 are recorded. *)
Theorem C30_thin_refuted : exists h sz al n S, sized h /\ valid_layout (thin_arc_inner_repr_layout h) /\ pow2 al /\
  N.divide al sz /\ thin_arc_size h sz al n = Some S /\ S < l_size (thin_arc_real h sz al n).
Proof.
  exists (mkLayout 0 1), 64, 64, 1, 128. split; [split; [exists 0; reflexivity | cbn; apply N.divide_0_r]|].
  split; [|split; [exists 6; reflexivity|]].
  - split; [exists 3; reflexivity|]. vm_compute. split; discriminate.
  - split; [exists 1; reflexivity|]. split; vm_compute; reflexivity.
Qed.
Print Assumptions C30_thin_refuted.

Example C30_thin_satisfiable : sized (mkLayout 4 4) /\ valid_layout (thin_arc_inner_repr_layout (mkLayout 4 4)) /\
  thin_arc_size (mkLayout 4 4) 3 1 7 = Some 48.
Proof.
  split; [split; [exists 2; reflexivity | apply N.divide_refl]|]. split; [|vm_compute; reflexivity].
  split; [exists 3; reflexivity|]. vm_compute. split; discriminate.
Qed.

(** ** C31: hash table estimate. *)
Theorem C31_exact : forall m sz len p, 0 < len -> least_pow2 (N.max 4 len) p -> (sz + 1) * p < two64 ->
  raw_table_alloc_size_for_len m sz len = Some ((sz + 1) * p).
Proof.
  intros m sz len p Hl (Hp & Hle & Hmin) Hf. unfold raw_table_alloc_size_for_len.
  assert (Hp4 : 4 <= p) by lia.
  rewrite (proj2 (N.eqb_neq len 0)) by lia.
  assert (E : (if len <? 4 then Some 4 else next_power_of_two m len) = Some p).
  { destruct (N.ltb_spec len 4) as [H4|H4].
    - f_equal. apply N.le_antisymm; [lia|]. apply Hmin; [exists 2; reflexivity | lia].
    - unfold next_power_of_two. rewrite (proj2 (N.leb_gt len 1)) by lia.
      destruct (@next_power_of_two_spec len ltac:(lia)) as (G & L & P). cbv zeta in *.
      assert (Eq : 2 ^ (N.log2 (len - 1) + 1) = p).
      { apply N.le_antisymm; [eapply pow2_least; [exact P | exact L | exact Hp | lia] | apply Hmin; [exact P | lia]]. }
      rewrite Eq. assert (Hlt : p < two64) by nia. rewrite (proj2 (N.ltb_lt _ _) Hlt). reflexivity. }
  rewrite E. cbn [obind]. rewrite uadd_exact by nia. cbn [obind]. apply umul_exact. exact Hf.
Qed.
Print Assumptions C31_exact.

Theorem C31_empty : forall m sz, sz + 1 < two64 -> raw_table_alloc_size_for_len m sz 0 = Some 0.
Proof.
  intros m sz H. unfold raw_table_alloc_size_for_len. change (0 =? 0) with true. cbv iota. cbn [obind].
  rewrite uadd_exact by exact H. cbn [obind]. unfold umul. rewrite N.mul_0_r. reflexivity.
Qed.
Print Assumptions C31_empty.

Lemma least_pow2_exists n : 1 < n -> exists p, least_pow2 n p /\ p < 2 * n.
Proof.
  intros H. destruct (next_power_of_two_spec H) as (G & L & P). eexists. split; [|exact L].
  split; [exact P|]. split; [exact G|]. intros q Hq Hn. eapply pow2_least; eauto.
Qed.

(** Bounds: at least one control byte and one element per entry, and less than
    twice that from four entries on. *)
Theorem C31_bounds : forall m sz len, 4 <= len -> 2 * ((sz + 1) * len) < two64 ->
  exists n, raw_table_alloc_size_for_len m sz len = Some n /\ (sz + 1) * len <= n < 2 * ((sz + 1) * len).
Proof.
  intros m sz len H4 Hf. destruct (@least_pow2_exists len ltac:(lia)) as (p & Hp & L).
  exists ((sz + 1) * p). destruct Hp as (P & Hle & Hmin). split; [|nia].
  apply C31_exact; [lia | | nia]. replace (N.max 4 len) with len by lia. split; auto.
Qed.
Print Assumptions C31_bounds.

Theorem C31_monotone : forall m sz len len', len <= len' -> 2 * ((sz + 1) * N.max 4 len') < two64 ->
  exists n n', raw_table_alloc_size_for_len m sz len = Some n /\ raw_table_alloc_size_for_len m sz len' = Some n' /\ n <= n'.
Proof.
  intros m sz len len' Hle Hf.
  destruct (@least_pow2_exists (N.max 4 len') ltac:(lia)) as (p' & Hp' & L').
  destruct (@least_pow2_exists (N.max 4 len) ltac:(lia)) as (p & Hp & L).
  assert (Hpp : p <= p').
  { destruct Hp as (_ & _ & Hmin). destruct Hp' as (P' & G' & _). apply Hmin; [exact P' | lia]. }
  assert (Hsz : sz + 1 < two64) by nia.
  destruct (N.eq_dec len 0) as [->|Hn].
  - destruct (N.eq_dec len' 0) as [->|Hn'].
    + exists 0, 0. rewrite C31_empty by auto. repeat split; lia.
    + exists 0, ((sz + 1) * p'). rewrite C31_empty by auto. rewrite (@C31_exact m sz len' p') by (auto; nia).
      repeat split; lia.
  - exists ((sz + 1) * p), ((sz + 1) * p'). rewrite (@C31_exact m sz len p) by (auto; nia).
    rewrite (@C31_exact m sz len' p') by (auto; nia). repeat split; nia.
Qed.
Print Assumptions C31_monotone.

(** Given the capacity of a table (as [HashTable] does), the estimate has the
    true number of buckets. *)
Theorem C31_exact_for_capacity : forall m sz k, 2 <= k -> (sz + 1) * 2 ^ k < two64 ->
  raw_table_alloc_size_for_len m sz (hashbrown_capacity (2 ^ k)) = Some ((sz + 1) * 2 ^ k).
Proof.
  intros m sz k Hk Hf. assert (H4 : 4 <= 2 ^ k) by (change 4 with (2 ^ 2); apply N.pow_le_mono_r; lia).
  unfold hashbrown_capacity. destruct (N.leb_spec (2 ^ k) 8) as [H8|H8].
  - apply C31_exact; [lia | | exact Hf]. split; [eexists; reflexivity|]. split; [lia|].
    intros q [j ->] Hq. assert (k = 2 \/ k = 3) as [-> | ->].
    { destruct (N.le_gt_cases k 3) as [X|X]; [lia|]. assert (2 ^ 4 <= 2 ^ k) by (apply N.pow_le_mono_r; lia). lia. }
    + lia.
    + apply N.pow_le_mono_r; [lia|]. destruct (N.le_gt_cases 3 j) as [X|X]; [exact X|].
      assert (2 ^ j <= 2 ^ 2) by (apply N.pow_le_mono_r; lia). cbn in *. lia.
  - assert (Hk3 : 4 <= k).
    { destruct (N.le_gt_cases 4 k) as [X|X]; [exact X|]. assert (2 ^ k <= 2 ^ 3) by (apply N.pow_le_mono_r; lia). cbn in *. lia. }
    assert (E : 2 ^ k = 8 * 2 ^ (k - 3)) by (change 8 with (2 ^ 3); rewrite <- N.pow_add_r; f_equal; lia).
    assert (E' : 2 ^ (k - 3) = 2 * 2 ^ (k - 4)) by (rewrite <- N.pow_succ_r'; f_equal; lia).
    assert (Hpos : 1 <= 2 ^ (k - 4)) by (change 1 with (2 ^ 0); apply N.pow_le_mono_r; lia).
    assert (Ed : 2 ^ k / 8 = 2 ^ (k - 3)) by (rewrite E, N.mul_comm; apply N.div_mul; lia). rewrite Ed.
    apply C31_exact; [lia | | exact Hf]. split; [eexists; reflexivity|]. split; [lia|].
    intros q [j ->] Hq. apply N.pow_le_mono_r; [lia|]. destruct (N.le_gt_cases k j) as [X|X]; [exact X|]. exfalso.
    assert (2 ^ j <= 2 ^ (k - 1)) by (apply N.pow_le_mono_r; lia).
    assert (E1 : 2 ^ (k - 1) = 8 * 2 ^ (k - 4)) by (change 8 with (2 ^ 3); rewrite <- N.pow_add_r; f_equal; lia). lia.
Qed.
Print Assumptions C31_exact_for_capacity.

(** Given the number of entries (as [IndexMap]/[IndexSet] do), the estimate can
    be half the truth: eight entries need sixteen buckets. *)
Theorem C31_len_refuted : exists sz len buckets, hashbrown_capacity (buckets / 2) < len <= hashbrown_capacity buckets /\
  raw_table_alloc_size_for_len Debug sz len = Some ((sz + 1) * (buckets / 2)).
Proof. exists 8, 8, 16. vm_compute. repeat split; discriminate. Qed.
Print Assumptions C31_len_refuted.

Example C31_satisfiable : least_pow2 (N.max 4 100) 128 /\ raw_table_alloc_size_for_len Debug 24 100 = Some 3200 /\
  raw_table_alloc_size_for_len Debug 24 (hashbrown_capacity 128) = Some 3200.
Proof.
  split; [|split; vm_compute; reflexivity]. split; [exists 7; reflexivity|]. split; [vm_compute; discriminate|].
  intros q Hq Hn. eapply pow2_least with (n := 100); [exists 7; reflexivity | reflexivity | exact Hq | lia].
Qed.

(** ** C40: bump arenas. *)
Lemma usum_wrapped m l a : a < two64 -> usum m a l = wrapped m (a + sumN l).
Proof.
  revert a; induction l as [|x l IH]; intros a Ha; cbn [usum sumN].
  - rewrite N.add_0_r, wrapped_small by exact Ha. reflexivity.
  - rewrite FlameFacts.uadd_wrapped. rewrite N.add_assoc, <- (wrapped_step m (a + x) (sumN l)).
    destruct (wrapped m (a + x)) as [v|] eqn:E; [|reflexivity]. cbn [obind]. rewrite IH; [reflexivity|].
    apply wrapped_lt in E. exact E.
Qed.

Theorem C40_total : forall m allocated chunks used unused, allocated < two64 ->
  bump_counters m allocated chunks = Some (used, unused) ->
  (used + unused) mod two64 = allocated /\ used < two64 /\ unused < two64 /\ wrapeq m used (sumN chunks).
Proof.
  intros m al ch u un Ha. unfold bump_counters. rewrite usum_wrapped by (unfold two64; lia). rewrite N.add_0_l.
  destruct (wrapped m (sumN ch)) as [v|] eqn:E; [|discriminate]. cbn [obind]. intros [= <- <-].
  pose proof (wrapped_lt E) as Hv. split; [|split; [exact Hv | split]].
  - unfold wrapping_sub. rewrite N.add_mod_idemp_r by (unfold two64; lia).
    replace (v + (al + two64 - v)) with (al + 1 * two64) by lia.
    rewrite N.mod_add by (unfold two64; lia). now apply N.mod_small.
  - unfold wrapping_sub. apply N.mod_lt. unfold two64; lia.
  - destruct m; cbn in E |- *.
    + destruct (sumN ch <? two64); congruence.
    + injection E as <-. apply N.mod_mod. unfold two64; lia.
Qed.
Print Assumptions C40_total.

(** Exact when the chunks fit in the arena. *)
Theorem C40_exact : forall m allocated chunks, allocated < two64 -> sumN chunks <= allocated ->
  bump_counters m allocated chunks = Some (sumN chunks, allocated - sumN chunks).
Proof.
  intros m al ch Ha Hs. unfold bump_counters. rewrite usum_exact by (rewrite N.add_0_l; lia). rewrite N.add_0_l.
  cbn [obind]. rewrite wrapping_sub_exact by assumption. reflexivity.
Qed.
Print Assumptions C40_exact.

Example C40_satisfiable : bump_counters Debug 4064 [4001] = Some (4001, 63).
Proof. vm_compute. reflexivity. Qed.
