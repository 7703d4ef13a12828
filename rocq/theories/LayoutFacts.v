(** * Facts about layout arithmetic. *)
From Verif Require Import Base BaseFacts LayoutModel.
From Verif Require Export LayoutSpec.
#[local] Transparent two64 two63.

Lemma pow2_pos a : pow2 a -> 0 < a.
Proof. intros [k ->]. apply N.neq_0_lt_0, N.pow_nonzero. lia. Qed.

Lemma pow2_divide a b : pow2 a -> pow2 b -> a <= b -> N.divide a b.
Proof.
  intros [k ->] [j ->] H. destruct (N.le_gt_cases k j) as [Hk|Hk].
  - exists (2 ^ (j - k)). rewrite <- N.pow_add_r. f_equal. lia.
  - exfalso. apply (N.pow_lt_mono_r 2) in Hk; lia.
Qed.

Lemma pow2_max a b : pow2 a -> pow2 b -> pow2 (N.max a b).
Proof. intros Ha Hb. destruct (N.max_spec a b) as [[_ ->] | [_ ->]]; assumption. Qed.

Lemma pow2_8 : pow2 8. Proof. exists 3. reflexivity. Qed.
Lemma pow2_two63 : pow2 two63. Proof. exists 63. reflexivity. Qed.

(** ** Rounding up *)
Lemma round_up_divide n a : N.divide a (round_up n a).
Proof. exists ((n + a - 1) / a). reflexivity. Qed.

Lemma round_up_ge n a : 0 < a -> n <= round_up n a.
Proof.
  intros Ha. unfold round_up. pose proof (N.div_mod (n + a - 1) a ltac:(lia)) as E.
  pose proof (N.mod_lt (n + a - 1) a ltac:(lia)) as L. rewrite (N.mul_comm _ a). lia.
Qed.

Lemma round_up_lt n a : 0 < a -> round_up n a < n + a.
Proof.
  intros Ha. unfold round_up. pose proof (N.div_mod (n + a - 1) a ltac:(lia)) as E. rewrite (N.mul_comm _ a). lia.
Qed.

Lemma round_up_le n a x : 0 < a -> N.divide a x -> n <= x -> round_up n a <= x.
Proof.
  intros Ha [q ->] H. unfold round_up. apply N.mul_le_mono_r.
  apply N.lt_succ_r. apply N.div_lt_upper_bound; [lia|]. nia.
Qed.

Lemma round_up_id n a : 0 < a -> N.divide a n -> round_up n a = n.
Proof. intros Ha Hd. apply N.le_antisymm; [apply round_up_le; auto; lia | apply round_up_ge; auto]. Qed.

Lemma round_up_mono n n' a : 0 < a -> n <= n' -> round_up n a <= round_up n' a.
Proof. intros Ha H. apply round_up_le; [auto | apply round_up_divide |]. pose proof (@round_up_ge n' a Ha). lia. Qed.

(** The bit trick of the standard library is rounding up. *)
Lemma ldiff_round_up n a : pow2 a -> 0 < n + a -> N.ldiff (n + a - 1) (a - 1) = round_up n a.
Proof.
  intros [k ->] H. replace (2 ^ k - 1) with (N.ones k) by (rewrite N.ones_equiv; lia).
  rewrite N.ldiff_ones_r, N.shiftl_mul_pow2, N.shiftr_div_pow2. reflexivity.
Qed.

Lemma padding_spec len a : pow2 a -> a <= two63 -> len < two63 ->
  len + padding_needed_for len a = round_up len a.
Proof.
  intros Ha Hb Hl. pose proof (pow2_pos Ha) as Hp. unfold padding_needed_for.
  assert (E1 : (len + a) mod two64 = len + a) by (apply N.mod_small; unfold two64, two63 in *; lia).
  rewrite E1.
  assert (E2 : wrapping_sub (len + a) 1 = len + a - 1).
  { unfold wrapping_sub. replace (len + a + two64 - 1) with (len + a - 1 + 1 * two64) by (unfold two64 in *; lia).
    rewrite N.mod_add by (unfold two64; lia). apply N.mod_small. unfold two64, two63 in *; lia. }
  rewrite E2, ldiff_round_up by (auto; lia).
  pose proof (@round_up_ge len a Hp) as G. pose proof (@round_up_lt len a Hp) as L.
  unfold wrapping_sub. replace (round_up len a + two64 - len) with (round_up len a - len + 1 * two64) by (unfold two64 in *; lia).
  rewrite N.mod_add by (unfold two64; lia). rewrite N.mod_small by (unfold two64, two63 in *; lia). lia.
Qed.

(** ** Extending a header by a value and padding *)
Definition padded_size (h v : layout) : N :=
  round_up (round_up (l_size h) (l_align v) + l_size v) (N.max (l_align h) (l_align v)).

Lemma extend_pad h v : valid_layout h -> valid_layout v ->
  option_map (fun l => l_size (layout_pad_to_align l)) (layout_extend h v) =
  if padded_size h v <? two63 then Some (padded_size h v) else None.
Proof.
  intros (Hh & Hha & Hhs) (Hv & Hva & Hvs).
  assert (Hsh : l_size h < two63) by (pose proof (pow2_pos Hh); unfold two63 in *; lia).
  assert (Hsv : l_size v < two63) by (pose proof (pow2_pos Hv); unfold two63 in *; lia).
  unfold layout_extend, layout_from_size_align, padded_size. rewrite padding_spec by auto.
  pose proof (@round_up_lt (l_size h) _ (pow2_pos Hv)) as L. pose proof (pow2_max Hh Hv) as Hm.
  set (A := N.max (l_align h) (l_align v)) in *. set (o := round_up (l_size h) (l_align v)) in *.
  assert (HA : A <= two63) by (subst A; lia).
  assert (E1 : (o <? two64) = true) by (apply N.ltb_lt; unfold two64, two63 in *; lia). rewrite E1.
  pose proof (@round_up_ge (o + l_size v) _ (pow2_pos Hm)) as G.
  destruct (N.leb_spec (o + l_size v) (two63 - A)) as [H|H].
  - assert (E2 : (o + l_size v <? two64) = true) by (apply N.ltb_lt; unfold two64, two63 in *; lia). rewrite E2.
    cbn [option_map layout_pad_to_align l_size l_align].
    assert (HH : o + l_size v < two63) by (pose proof (pow2_pos Hm); lia).
    rewrite padding_spec by auto.
    assert (Hle : round_up (o + l_size v) A <= two63 - A).
    { apply round_up_le; auto using pow2_pos. destruct (pow2_divide Hm pow2_two63 HA) as [q ->].
      exists (q - 1). pose proof (pow2_pos Hm). nia. }
    assert (E3 : (round_up (o + l_size v) A <? two63) = true) by (apply N.ltb_lt; pose proof (pow2_pos Hm); lia).
    now rewrite E3.
  - assert (E3 : (round_up (o + l_size v) A <? two63) = false).
    { apply N.ltb_ge. destruct (N.lt_ge_cases (round_up (o + l_size v) A) two63) as [X|X]; [|exact X]. exfalso.
      destruct (pow2_divide Hm pow2_two63 HA) as [q Eq]. destruct (round_up_divide (o + l_size v) A) as [r Er].
      rewrite Er, Eq in X. assert (r < q) by nia. assert (r * A + A <= q * A) by nia. rewrite <- Eq, <- Er in *.
      pose proof (pow2_pos Hm). lia. }
    rewrite E3. destruct (o + l_size v <? two64); reflexivity.
Qed.

Lemma padded_holds c v : valid_layout v -> N.divide 8 c -> holds c v (padded_size (mkLayout c 8) v).
Proof.
  intros (Hv & Hva & Hvs) Hc. unfold padded_size, holds. cbn [l_size l_align].
  pose proof (pow2_max pow2_8 Hv) as Hm.
  set (A := N.max 8 (l_align v)) in *.
  assert (D8 : N.divide 8 A) by (apply pow2_divide; auto using pow2_8; subst A; lia).
  assert (Da : N.divide (l_align v) A) by (apply pow2_divide; auto; subst A; lia).
  split; [eapply N.divide_trans; [exact D8 | apply round_up_divide]|].
  split; [eapply N.divide_trans; [exact Da | apply round_up_divide]|].
  exists (round_up c (l_align v)). split; [apply round_up_ge; auto using pow2_pos|].
  split; [apply round_up_divide | apply round_up_ge; auto using pow2_pos].
Qed.

Lemma padded_least c v S : valid_layout v -> holds c v S -> padded_size (mkLayout c 8) v <= S.
Proof.
  intros (Hv & Hva & Hvs) (H8 & Ha & o & Ho & Hd & Hs). unfold padded_size. cbn [l_size l_align].
  apply round_up_le.
  - apply pow2_pos, pow2_max; auto using pow2_8.
  - destruct (N.max_spec 8 (l_align v)) as [[_ ->] | [_ ->]]; assumption.
  - pose proof (@round_up_le c (l_align v) o (pow2_pos Hv) Hd Ho). lia.
Qed.

(** ** Hash tables *)
Lemma next_power_of_two_spec n : 1 < n ->
  let p := 2 ^ (N.log2 (n - 1) + 1) in n <= p /\ p < 2 * n /\ pow2 p.
Proof.
  intros H p. subst p. pose proof (N.log2_spec (n - 1) ltac:(lia)) as [L U].
  rewrite N.add_1_r. split; [|split].
  - lia.
  - rewrite N.pow_succ_r'. lia.
  - eexists; reflexivity.
Qed.

Lemma pow2_least p n q : pow2 p -> p < 2 * n -> pow2 q -> n <= q -> p <= q.
Proof.
  intros [k ->] H [j ->] Hn. destruct (N.le_gt_cases k j) as [Hk|Hk]; [apply N.pow_le_mono_r; lia|].
  exfalso. assert (2 ^ N.succ j <= 2 ^ k) by (apply N.pow_le_mono_r; lia). rewrite N.pow_succ_r' in H0. lia.
Qed.

(** ** ThinArc *)

Lemma round_up_add a x y : 0 < a -> N.divide a x -> round_up (x + y) a = x + round_up y a.
Proof.
  intros Ha Hx. apply N.le_antisymm.
  - apply round_up_le; auto; [apply N.divide_add_r; [auto | apply round_up_divide]|].
    pose proof (@round_up_ge y a Ha). lia.
  - pose proof (@round_up_ge (x + y) a Ha) as G.
    assert (E : x + (round_up (x + y) a - x) = round_up (x + y) a) by lia. rewrite <- E.
    apply N.add_le_mono_l. apply round_up_le; auto; [|lia].
    destruct Hx as [q ->]. destruct (round_up_divide (q * a + y) a) as [r Er]. rewrite Er. exists (r - q). nia.
Qed.

Lemma round_up_round_up n a b : 0 < a -> 0 < b -> N.divide a b -> round_up (round_up n a) b = round_up n b.
Proof.
  intros Ha Hb D. apply N.le_antisymm.
  - apply round_up_le; auto; [apply round_up_divide|]. apply round_up_le; auto.
    + eapply N.divide_trans; [exact D | apply round_up_divide].
    + apply round_up_ge; auto.
  - apply round_up_mono; auto. apply round_up_ge; auto.
Qed.

Lemma round_up_1 n : round_up n 1 = n.
Proof. apply round_up_id; [lia | apply N.divide_1_l]. Qed.

Lemma round_up_0 a : 0 < a -> round_up 0 a = 0.
Proof. intros. apply round_up_id; [auto | apply N.divide_0_r]. Qed.

Lemma repr_c2 a b : 0 < l_align a -> 0 < l_align b ->
  repr_c [a; b] = mkLayout (round_up (round_up (l_size a) (l_align b) + l_size b) (N.max (l_align a) (l_align b)))
                           (N.max (l_align a) (l_align b)).
Proof.
  intros Ha Hb. unfold repr_c. cbn [fold_left repr_c_add l_size l_align].
  rewrite round_up_0, N.add_0_l by auto. replace (N.max 1 (l_align a)) with (l_align a) by lia. reflexivity.
Qed.

Lemma repr_c3 a b c : 0 < l_align a -> 0 < l_align b -> 0 < l_align c ->
  repr_c [a; b; c] =
    let A := N.max (N.max (l_align a) (l_align b)) (l_align c) in
    mkLayout (round_up (round_up (round_up (l_size a) (l_align b) + l_size b) (l_align c) + l_size c) A) A.
Proof.
  intros Ha Hb Hc. unfold repr_c. cbn [fold_left repr_c_add l_size l_align].
  rewrite round_up_0, N.add_0_l by auto. replace (N.max 1 (l_align a)) with (l_align a) by lia. reflexivity.
Qed.

(** [HeaderWithLength<H>] and [ThinArcInnerRepr<H>]: the latter is the former
    shifted by one maximal alignment. *)
Lemma hwl_shift h : sized h ->
  let A := N.max (l_align h) 8 in
  l_align (repr_c [h; usize_layout]) = A /\ l_align (thin_arc_inner_repr_layout h) = A /\
  l_size (thin_arc_inner_repr_layout h) = A + l_size (repr_c [h; usize_layout]) /\
  N.divide A (l_size (repr_c [h; usize_layout])).
Proof.
  intros [Hp Hd] A. pose proof (pow2_pos Hp) as Hpos.
  unfold thin_arc_inner_repr_layout. rewrite repr_c2, repr_c3 by (cbn; lia). cbn [l_size l_align usize_layout].
  replace (N.max (N.max 8 (l_align h)) 8) with A by (subst A; lia). fold A.
  assert (HA : pow2 A) by (apply pow2_max; auto using pow2_8).
  assert (D8 : N.divide 8 A) by (apply pow2_divide; auto using pow2_8; subst A; lia).
  split; [reflexivity|]. split; [reflexivity|]. split; [|apply round_up_divide].
  assert (E : round_up 8 (l_align h) = A).
  { destruct (N.le_gt_cases (l_align h) 8) as [Hle|Hgt].
    - rewrite round_up_id; [subst A; lia | auto | apply pow2_divide; auto using pow2_8].
    - apply N.le_antisymm.
      + apply round_up_le; [auto | apply pow2_divide; auto; subst A; lia | subst A; lia].
      + replace A with (l_align h) by (subst A; lia).
        destruct (round_up_divide 8 (l_align h)) as [q Eq]. pose proof (@round_up_ge 8 _ Hpos) as G. rewrite Eq in *.
        destruct q; nia. }
  rewrite E. rewrite (@round_up_add 8 A (l_size h)); [|lia | exact D8]. rewrite <- N.add_assoc.
  apply round_up_add; [apply pow2_pos; auto | apply N.divide_refl].
Qed.

Lemma thin_arc_size_spec h sz al n S : sized h -> valid_layout (thin_arc_inner_repr_layout h) -> pow2 al -> al <= two63 ->
  thin_arc_size h sz al n = Some S ->
  S = padded_size (thin_arc_inner_repr_layout h) (mkLayout (sz * n) al) /\ S < two63.
Proof.
  intros Hh Hv Hal Hal2. unfold thin_arc_size, layout_array.
  destruct (N.leb_spec (sz * n) (two63 - al)) as [Hle|]; [|discriminate]. cbn [obind].
  rewrite extend_pad; [|exact Hv | repeat split; cbn [l_size l_align]; auto].
  destruct (N.ltb_spec (padded_size (thin_arc_inner_repr_layout h) (mkLayout (sz * n) al)) two63); [|discriminate].
  intros [= <-]. auto.
Qed.

Lemma thin_covers : forall h sz al n S, sized h -> valid_layout (thin_arc_inner_repr_layout h) -> pow2 al -> al <= two63 ->
  thin_arc_size h sz al n = Some S -> l_size (header_slice_layout h sz al n) <= S.
Proof.
  intros h sz al n S Hh Hv Hal Hal2 E. apply thin_arc_size_spec in E as [-> _]; auto.
  destruct (hwl_shift Hh) as (A1 & A2 & A3 & A4). set (A := N.max (l_align h) 8) in *.
  pose proof (pow2_pos Hal) as Hp. assert (HA : pow2 A) by (apply pow2_max; auto using pow2_8; apply Hh).
  unfold header_slice_layout. rewrite repr_c2 by (cbn [l_align]; rewrite ?A1; auto using pow2_pos).
  unfold padded_size. cbn [l_size l_align]. rewrite A1, A2, A3.
  apply round_up_mono; [apply pow2_pos, pow2_max; auto|]. apply N.add_le_mono_r. apply round_up_mono; auto. lia.
Qed.

Lemma round_up_sub_add a x y : 0 < a -> round_up (x + y) a <= round_up x a + round_up y a.
Proof.
  intros Ha. apply round_up_le; auto.
  - apply N.divide_add_r; apply round_up_divide.
  - pose proof (@round_up_ge x a Ha). pose proof (@round_up_ge y a Ha). lia.
Qed.

Lemma thin_arc_real_size h sz al n : sized h -> pow2 al ->
  let M := N.max (N.max (l_align h) 8) al in
  l_size (thin_arc_real h sz al n) = M + l_size (header_slice_layout h sz al n) /\
  l_size (header_slice_layout h sz al n) = round_up (round_up (l_size (repr_c [h; usize_layout])) al + sz * n) M.
Proof.
  intros Hh Hal M. destruct (hwl_shift Hh) as (A1 & A2 & A3 & A4). set (A := N.max (l_align h) 8) in *.
  assert (HA : pow2 A) by (apply pow2_max; auto using pow2_8; apply Hh). pose proof (pow2_pos HA) as HpA.
  pose proof (pow2_pos Hal) as Hp. assert (HM : pow2 M) by (apply pow2_max; auto). pose proof (pow2_pos HM) as HpM.
  unfold thin_arc_real, header_slice_layout.
  rewrite repr_c2; [|cbn; lia | rewrite repr_c2 by (cbn [l_align]; rewrite ?A1; auto); cbn [l_align]; rewrite A1; lia].
  rewrite repr_c2 by (cbn [l_align]; rewrite ?A1; auto). cbn [l_size l_align usize_layout]. rewrite A1. fold M.
  split; [|reflexivity]. assert (8 <= M) by (subst M A; lia). replace (N.max 8 M) with M by lia.
  assert (E8 : round_up 8 M = M).
  { apply N.le_antisymm; [apply round_up_le; auto; apply N.divide_refl|].
    destruct (round_up_divide 8 M) as [q Eq]. pose proof (@round_up_ge 8 M HpM). rewrite Eq in *. destruct q; nia. }
  rewrite E8, round_up_add by (auto; apply N.divide_refl). rewrite round_up_round_up; auto using N.divide_refl.
Qed.

Lemma thin_defined h sz al n : sized h -> valid_layout (thin_arc_inner_repr_layout h) -> pow2 al ->
  l_size (thin_arc_real h sz al n) < two63 ->
  exists S, thin_arc_size h sz al n = Some S /\ S <= l_size (thin_arc_real h sz al n).
Proof.
  intros Hh Hv Hal Hr. destruct (@thin_arc_real_size h sz al n Hh Hal) as [E1 E2]. cbv zeta in *.
  destruct (hwl_shift Hh) as (A1 & A2 & A3 & A4). set (A := N.max (l_align h) 8) in *. set (M := N.max A al) in *.
  assert (HA : pow2 A) by (apply pow2_max; auto using pow2_8; apply Hh). pose proof (pow2_pos HA) as HpA.
  pose proof (pow2_pos Hal) as Hp. assert (HM : pow2 M) by (apply pow2_max; auto). pose proof (pow2_pos HM) as HpM.
  set (W := l_size (repr_c [h; usize_layout])) in *.
  pose proof (@round_up_ge (round_up W al + sz * n) M HpM) as G.
  assert (alM : al <= M) by (subst M; lia).
  exists (padded_size (thin_arc_inner_repr_layout h) (mkLayout (sz * n) al)).
  assert (Hle : padded_size (thin_arc_inner_repr_layout h) (mkLayout (sz * n) al) <= l_size (thin_arc_real h sz al n)).
  { rewrite E1, E2. unfold padded_size. cbn [l_size l_align]. rewrite A2, A3. fold M W.
    rewrite <- round_up_add by (auto; apply N.divide_refl). apply round_up_mono; auto. rewrite N.add_assoc.
    apply N.add_le_mono_r. etransitivity; [apply round_up_sub_add; auto|]. apply N.add_le_mono_r.
    apply round_up_le; auto; [apply pow2_divide; auto | subst M; lia]. }
  split; [|exact Hle].
  unfold thin_arc_size, layout_array.
  assert (E3 : (sz * n <=? two63 - al) = true) by (apply N.leb_le; lia). rewrite E3. cbn [obind].
  rewrite extend_pad; [|exact Hv | repeat split; cbn [l_size l_align]; auto; lia].
  assert (E4 : (padded_size (thin_arc_inner_repr_layout h) (mkLayout (sz * n) al) <? two63) = true) by (apply N.ltb_lt; lia).
  now rewrite E4.
Qed.

(** ** repr(C): the least size that holds the fields in order *)
Lemma fold_align fs l : l_align (fold_left repr_c_add fs l) = fold_left N.max (map l_align fs) (l_align l).
Proof. revert l; induction fs as [|f fs IH]; intros l; [reflexivity|]. cbn [fold_left map]. now rewrite IH. Qed.

Lemma fold_max_pow2 l a : pow2 a -> Forall pow2 l -> pow2 (fold_left N.max l a).
Proof. intros Ha Hl; revert a Ha; induction Hl as [|x l Hx Hl IH]; intros a Ha; [exact Ha|]. cbn [fold_left]. apply IH. now apply pow2_max. Qed.

Lemma fold_max_ge l a : a <= fold_left N.max l a.
Proof. revert a; induction l as [|x l IH]; intros a; cbn [fold_left]; [lia|]. specialize (IH (N.max a x)). lia. Qed.

Lemma fold_max_in l a x : In x l -> x <= fold_left N.max l a.
Proof.
  revert a; induction l as [|y l IH]; intros a; [intros []|]. intros [-> | H]; cbn [fold_left]; [|now apply IH].
  pose proof (@fold_max_ge l (N.max a x)). lia.
Qed.

Lemma fold_max_cases l a : fold_left N.max l a = a \/ In (fold_left N.max l a) l.
Proof.
  revert a; induction l as [|y l IH]; intros a; [auto|]. cbn [fold_left]. destruct (IH (N.max a y)) as [E|H]; [|right; right; exact H].
  rewrite E. destruct (N.max_spec a y) as [[_ ->] | [_ ->]]; cbn; auto.
Qed.

Lemma fold_size_placed fs l S : Forall (fun f => 0 < l_align f) fs ->
  (placed (l_size l) fs S <-> l_size (fold_left repr_c_add fs l) <= S).
Proof.
  intros Hp; revert l; induction Hp as [|f fs Hf Hp IH]; intros l; cbn [fold_left placed]; [reflexivity|].
  rewrite <- IH. cbn [repr_c_add l_size]. split.
  - intros (o & H1 & H2 & H3). pose proof (@round_up_le (l_size l) (l_align f) o Hf H2 H1) as H.
    apply IH with (l := mkLayout (o + l_size f) 1) in H3. change (placed (l_size (repr_c_add l f)) fs S). apply IH.
    cbn [l_size repr_c_add] in *. revert H3. clear -H Hp. intros H3.
    eapply N.le_trans; [|exact H3]. clear H3.
    assert (M : forall l1 l2, l_size l1 <= l_size l2 -> l_size (fold_left repr_c_add fs l1) <= l_size (fold_left repr_c_add fs l2)).
    { induction Hp as [|g gs Hg Hp IHp]; intros l1 l2 H12; [exact H12|]. cbn [fold_left]. apply IHp. cbn [repr_c_add l_size].
      pose proof (@round_up_mono _ _ (l_align g) Hg H12). lia. }
    apply M. cbn [l_size repr_c_add]. lia.
  - intros H. exists (round_up (l_size l) (l_align f)). split; [now apply round_up_ge|]. split; [apply round_up_divide | exact H].
Qed.

Lemma repr_c_least fs : Forall (fun f => pow2 (l_align f)) fs ->
  c_struct fs (l_size (repr_c fs)) /\ forall S, c_struct fs S -> l_size (repr_c fs) <= S.
Proof.
  intros Hp. assert (Hpos : Forall (fun f => 0 < l_align f) fs) by (eapply Forall_impl; [|exact Hp]; intros f; apply pow2_pos).
  unfold repr_c. set (l := fold_left repr_c_add fs (mkLayout 0 1)). cbn [l_size].
  assert (EA : l_align l = fold_left N.max (map l_align fs) 1) by apply fold_align.
  assert (HA : pow2 (l_align l)).
  { rewrite EA. apply fold_max_pow2; [exists 0; reflexivity|]. rewrite Forall_map. exact Hp. }
  split.
  - split.
    + change 0 with (l_size (mkLayout 0 1)). apply fold_size_placed; [exact Hpos|]. now apply round_up_ge, pow2_pos.
    + intros f Hf. eapply N.divide_trans; [|apply round_up_divide]. apply pow2_divide; [|exact HA|].
      * rewrite Forall_forall in Hp. auto.
      * rewrite EA. apply fold_max_in. now apply in_map.
  - intros S [H1 H2]. apply round_up_le; [now apply pow2_pos | |].
    + rewrite EA. destruct (@fold_max_cases (map l_align fs) 1) as [-> | H]; [apply N.divide_1_l|].
      apply in_map_iff in H as (f & E & Hf). rewrite <- E. auto.
    + change 0 with (l_size (mkLayout 0 1)) in H1. now apply fold_size_placed in H1.
Qed.
