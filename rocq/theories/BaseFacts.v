(** * Lemmas about Base. *)
From Verif Require Import Base.
From Coq Require Import DecimalString DecimalN Permutation.
From Coq Require Import ZifyBool ZifyN ZifyNat.

#[global] Arguments N.add : simpl never.
#[global] Arguments N.sub : simpl never.
#[global] Arguments N.mul : simpl never.
#[global] Arguments N.modulo : simpl never.
#[global] Arguments N.div : simpl never.
#[global] Arguments N.eqb : simpl never.
#[global] Arguments N.ltb : simpl never.
#[global] Arguments N.leb : simpl never.
#[global] Arguments N.max : simpl never.
#[global] Arguments N.min : simpl never.
#[global] Opaque two64 two63.

Lemma two64_val : two64 = 18446744073709551616. Proof. reflexivity. Qed.
Lemma two63_val : two63 = 9223372036854775808. Proof. reflexivity. Qed.
Lemma two64_pos : 0 < two64. Proof. rewrite two64_val; lia. Qed.
Lemma two63_lt_two64 : two63 < two64. Proof. rewrite two64_val, two63_val; lia. Qed.

Lemma uadd_exact m a b : a + b < two64 -> uadd m a b = Some (a + b).
Proof. unfold uadd; intros H; destruct (N.ltb_spec (a + b) two64); [reflexivity | lia]. Qed.

Lemma uadd_debug_some a b c : uadd Debug a b = Some c -> c = a + b /\ a + b < two64.
Proof. unfold uadd; destruct (N.ltb_spec (a + b) two64); intros E; inversion E; auto. Qed.

Lemma uadd_release a b : uadd Release a b = Some ((a + b) mod two64).
Proof.
  unfold uadd; destruct (N.ltb_spec (a + b) two64) as [H|H]; [|reflexivity].
  now rewrite N.mod_small.
Qed.

Lemma uadd_lt m a b c : uadd m a b = Some c -> c < two64.
Proof.
  destruct m; intros E.
  - apply uadd_debug_some in E as [-> H]; exact H.
  - rewrite uadd_release in E; inversion E; apply N.mod_lt; rewrite two64_val; lia.
Qed.

Lemma umul_exact m a b : a * b < two64 -> umul m a b = Some (a * b).
Proof. unfold umul; intros H; destruct (N.ltb_spec (a * b) two64); [reflexivity | lia]. Qed.

Lemma usub_exact m a b : b <= a -> usub m a b = Some (a - b).
Proof. unfold usub; intros H; destruct (N.leb_spec b a); [reflexivity | lia]. Qed.

Lemma wrapping_sub_exact a b : b <= a -> a < two64 -> wrapping_sub a b = a - b.
Proof.
  unfold wrapping_sub; intros H1 H2.
  replace (a + two64 - b) with (a - b + 1 * two64) by lia.
  rewrite N.mod_add by (rewrite two64_val; lia).
  apply N.mod_small; lia.
Qed.

Lemma as_isize_small x : x < two63 -> as_isize x = Z.of_N x.
Proof. unfold as_isize; intros H; destruct (N.ltb_spec x two63); [reflexivity | lia]. Qed.

Lemma isat_small a b : a < two63 -> b < two63 ->
  isaturating_sub (Z.of_N a) (Z.of_N b) = (Z.of_N a - Z.of_N b)%Z.
Proof.
  unfold isaturating_sub, isize_min, isize_max; intros; lia.
Qed.

Lemma isub_exact m a b : (isize_min <= a - b <= isize_max)%Z -> isub m a b = Some (a - b)%Z.
Proof.
  unfold isub; intros H.
  destruct ((isize_min <=? a - b) && (a - b <=? isize_max))%Z eqn:E; [reflexivity|].
  apply andb_false_iff in E; lia.
Qed.

(** ** Sums *)
Lemma sumN_app l1 l2 : sumN (l1 ++ l2) = sumN l1 + sumN l2.
Proof. induction l1 as [|x l IH]; simpl; [lia | rewrite IH; lia]. Qed.

Lemma sumN_perm l1 l2 : Permutation l1 l2 -> sumN l1 = sumN l2.
Proof. induction 1; simpl; lia. Qed.

Lemma sumN_map_add {A} (f g : A -> N) l :
  sumN (map (fun x => f x + g x) l) = sumN (map f l) + sumN (map g l).
Proof. induction l as [|x l IH]; simpl; [reflexivity | rewrite IH; lia]. Qed.

Lemma sumN_map_ext {A} (f g : A -> N) l :
  (forall x, In x l -> f x = g x) -> sumN (map f l) = sumN (map g l).
Proof.
  induction l as [|x l IH]; simpl; intros H; [reflexivity|].
  rewrite H, IH; auto.
Qed.

Lemma sumN_map_le {A} (f g : A -> N) l :
  (forall x, In x l -> f x <= g x) -> sumN (map f l) <= sumN (map g l).
Proof.
  induction l as [|x l IH]; simpl; intros H; [lia|].
  assert (f x <= g x) by auto. assert (sumN (map f l) <= sumN (map g l)) by auto. lia.
Qed.

Lemma sumN_map_0 {A} (f : A -> N) l : (forall x, In x l -> f x = 0) -> sumN (map f l) = 0.
Proof.
  intros H; rewrite (@sumN_map_ext _ f (fun _ => 0)) by exact H.
  induction l as [|x l IH]; simpl; [reflexivity|]. rewrite IH; [reflexivity|].
  intros; apply H; now right.
Qed.

Lemma sumN_map_mul {A} (f : A -> N) c l : sumN (map (fun x => c * f x) l) = c * sumN (map f l).
Proof. induction l as [|x l IH]; simpl; [lia | rewrite IH; lia]. Qed.

Lemma sumN_map_sub {A} (f g : A -> N) l : (forall x, In x l -> g x <= f x) ->
  sumN (map (fun x => f x - g x) l) = sumN (map f l) - sumN (map g l).
Proof.
  induction l as [|x l IH]; simpl; intros H; [lia|].
  rewrite IH by auto.
  assert (g x <= f x) by auto.
  assert (sumN (map g l) <= sumN (map f l)) by (apply sumN_map_le; auto).
  lia.
Qed.

Lemma sumN_swap {A B} (f : A -> B -> N) (la : list A) (lb : list B) :
  sumN (map (fun a => sumN (map (f a) lb)) la) = sumN (map (fun b => sumN (map (fun a => f a b) la)) lb).
Proof.
  induction la as [|a la IH]; simpl.
  - symmetry; apply sumN_map_0; reflexivity.
  - rewrite IH, <- sumN_map_add. reflexivity.
Qed.

Lemma sumN_le_In x l : In x l -> x <= sumN l.
Proof. induction l as [|y l IH]; simpl; intros []; subst; [lia|]. specialize (IH H); lia. Qed.

Lemma sumN_flat_map {A B} (f : A -> list B) (g : B -> N) l :
  sumN (map g (flat_map f l)) = sumN (map (fun a => sumN (map g (f a))) l).
Proof. induction l as [|a l IH]; simpl; [reflexivity|]. now rewrite map_app, sumN_app, IH. Qed.

(** Sum of an indicator over a duplicate-free list. *)
Lemma sumN_indicator {A} (dec : forall x y : A, {x = y} + {x <> y}) (a : A) (c : N) l :
  NoDup l -> sumN (map (fun x => if dec x a then c else 0) l) = if in_dec dec a l then c else 0.
Proof.
  induction 1 as [|x l Hx Hl IH]; [reflexivity|].
  cbn [map sumN]. rewrite IH.
  destruct (dec x a) as [->|Hne].
  - destruct (in_dec dec a l) as [Hi|Hi]; [contradiction|].
    destruct (in_dec dec a (a :: l)) as [Hi'|Hi']; [lia|]. exfalso; apply Hi'; now left.
  - destruct (in_dec dec a l) as [Hi|Hi]; destruct (in_dec dec a (x :: l)) as [Hi'|Hi']; try lia.
    + exfalso; apply Hi'; now right.
    + destruct Hi' as [|]; [contradiction | contradiction].
Qed.

Lemma usum_exact m l a : a + sumN l < two64 -> usum m a l = Some (a + sumN l).
Proof.
  revert a; induction l as [|x l IH]; intros a H; simpl in *.
  - f_equal; lia.
  - rewrite uadd_exact by lia. simpl. rewrite IH by lia. f_equal; lia.
Qed.

(** ** Order on strings *)
Lemma str_cmp_refl a : str_cmp a a = Eq.
Proof. induction a as [|x a IH]; simpl; [reflexivity|]. now rewrite N.compare_refl. Qed.

Lemma N_of_ascii_inj x y : N_of_ascii x = N_of_ascii y -> x = y.
Proof. intros H. rewrite <- (ascii_N_embedding x), <- (ascii_N_embedding y). now rewrite H. Qed.

Lemma str_cmp_eq a b : str_cmp a b = Eq <-> a = b.
Proof.
  split; [|intros ->; apply str_cmp_refl].
  revert b; induction a as [|x a IH]; intros [|y b]; simpl; try discriminate; [reflexivity|].
  destruct (N.compare_spec (N_of_ascii x) (N_of_ascii y)) as [E|E|E]; try discriminate.
  intros H; apply IH in H; apply N_of_ascii_inj in E; congruence.
Qed.

Lemma str_cmp_antisym a b : str_cmp b a = CompOpp (str_cmp a b).
Proof.
  revert b; induction a as [|x a IH]; intros [|y b]; simpl; try reflexivity.
  rewrite N.compare_antisym.
  destruct (N.compare (N_of_ascii x) (N_of_ascii y)); simpl; auto.
Qed.

Lemma str_cmp_lt_trans a b c : str_cmp a b = Lt -> str_cmp b c = Lt -> str_cmp a c = Lt.
Proof.
  revert b c; induction a as [|x a IH]; intros [|y b] [|z c]; simpl; try discriminate; auto.
  destruct (N.compare_spec (N_of_ascii x) (N_of_ascii y)) as [E1|E1|E1]; try discriminate;
  destruct (N.compare_spec (N_of_ascii y) (N_of_ascii z)) as [E2|E2|E2]; try discriminate;
  intros H1 H2; destruct (N.compare_spec (N_of_ascii x) (N_of_ascii z)) as [E3|E3|E3];
  try lia; try reflexivity.
  eapply IH; eauto.
Qed.

Lemma str_cmp_gt_lt a b : str_cmp a b = Gt <-> str_cmp b a = Lt.
Proof. rewrite (str_cmp_antisym a b). destruct (str_cmp a b); simpl; split; congruence. Qed.

(** ** Strings *)
Lemma str_app_assoc (a b c : string) : ((a ++ b) ++ c = a ++ b ++ c)%string.
Proof. induction a; simpl; [reflexivity | now f_equal]. Qed.

Lemma str_app_nil_r (a : string) : (a ++ "" = a)%string.
Proof. induction a; simpl; [reflexivity | now f_equal]. Qed.

Lemma concat_str_app l1 l2 : concat_str (l1 ++ l2) = (concat_str l1 ++ concat_str l2)%string.
Proof. induction l1 as [|x l IH]; simpl; [reflexivity|]. now rewrite IH, str_app_assoc. Qed.

Definition string_dec_path : forall p q : list string, {p = q} + {p <> q} := list_eq_dec string_dec.
