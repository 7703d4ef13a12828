(** * Lemmas for property C47: pointer identities. *)
From Verif Require Import Base BaseFacts KeyModel HMap FlameModel BuilderModel VisitorModel LayoutModel LayoutSpec LayoutFacts
  ImplModel ImplSpec IdentityModel IdentitySpec Spec.

Lemma std_block a al : pow2 al -> a_inner a = InArc al \/ a_inner a = InRc al ->
  16 <= round_up 16 al /\ round_up 16 al + size_of_val (a_value a) <= block_size a.
Proof.
  intros Hp Hi. pose proof (pow2_pos Hp) as Hpos. split; [now apply round_up_ge|].
  assert (E : block_size a = l_size (repr_c [usize_layout; usize_layout; mkLayout (size_of_val (a_value a)) al])).
  { unfold block_size. destruct Hi as [-> | ->]; reflexivity. }
  rewrite E. unfold repr_c. cbn [fold_left repr_c_add l_size l_align usize_layout].
  change (round_up (round_up 0 8 + 8) 8 + 8) with 16. apply round_up_ge. lia.
Qed.

Lemma start_block a : alloc_ok a -> triomphe_alloc a = true -> identity a = a_base a /\ 0 < block_size a.
Proof.
  unfold alloc_ok, triomphe_alloc, identity, block_size. destruct (a_inner a) as [al|al|al|tn h sz al n|]; try discriminate.
  - intros Hp _. split; [reflexivity|]. pose proof (pow2_pos Hp) as Hpos. rewrite repr_c2 by (cbn; lia).
    cbn [l_size l_align usize_layout]. pose proof (@round_up_ge 8 al Hpos).
    pose proof (@round_up_ge (round_up 8 al + size_of_val (a_value a)) (N.max 8 al) ltac:(lia)). lia.
  - intros [Hh Hp] _. split; [reflexivity|]. pose proof (repr_c_least (fs := [usize_layout; header_slice_layout h sz al n])) as L.
    destruct L as [[P _] _].
    + constructor; [exists 3; reflexivity|]. constructor; [|constructor]. unfold header_slice_layout, repr_c.
      cbn [fold_left repr_c_add l_align usize_layout]. repeat apply pow2_max; try (exists 0; reflexivity); try (exists 3; reflexivity); try apply Hh; auto.
    + unfold thin_arc_real. cbn [placed] in P. destruct P as (o1 & _ & _ & o2 & H & _ & X). cbn [l_size usize_layout] in *. lia.
Qed.

Lemma interior_block a : alloc_ok a -> triomphe_alloc a = false ->
  a_base a < identity a /\ identity a + size_of_val (a_value a) <= a_base a + block_size a.
Proof.
  intros Ha Ht. pose proof (std_block (a := a)) as S. unfold alloc_ok, triomphe_alloc, identity, block_size in *.
  destruct (a_inner a) as [al|al|al|tn h sz al n|] eqn:E; try discriminate.
  - specialize (S al Ha (or_introl eq_refl)). lia.
  - specialize (S al Ha (or_intror eq_refl)). lia.
  - lia.
Qed.

(** ** C47: two different live allocations have the same identity exactly when one
    holds a zero-sized value behind a std pointer (or a [futures::Shared]) and the
    other is a triomphe allocation that starts right behind it. *)
Lemma C47_collision_iff_lemma : forall a b, alloc_ok a -> alloc_ok b -> disjoint a b ->
  (identity a = identity b <-> behind a b \/ behind b a).
Proof.
  intros a b Ha Hb Hd. split.
  - intros E. destruct (triomphe_alloc a) eqn:Ta, (triomphe_alloc b) eqn:Tb.
    + destruct (start_block Ha Ta) as [E1 P1]. destruct (start_block Hb Tb) as [E2 P2]. unfold disjoint in Hd. lia.
    + destruct (start_block Ha Ta) as [E1 P1]. destruct (interior_block Hb Tb) as [E2 P2]. right. unfold disjoint in Hd.
      unfold behind. repeat split; auto; lia.
    + destruct (start_block Hb Tb) as [E1 P1]. destruct (interior_block Ha Ta) as [E2 P2]. left. unfold disjoint in Hd.
      unfold behind. repeat split; auto; lia.
    + destruct (interior_block Ha Ta) as [E1 P1]. destruct (interior_block Hb Tb) as [E2 P2]. unfold disjoint in Hd. lia.
  - intros [(T1 & T2 & _ & _ & E) | (T1 & T2 & _ & _ & E)]; rewrite <- E.
    + symmetry. now apply start_block.
    + now apply start_block.
Qed.

Lemma find_store mem a : In a mem -> (forall b, In b mem -> identity b = identity a -> b = a) ->
  find_obj (store_of mem) (identity a) = Some (a_inner a, a_value a).
Proof.
  induction mem as [|b mem IH]; [intros []|]. intros Hi Hu. cbn [store_of map find_obj].
  destruct (N.eqb_spec (identity a) (identity b)) as [E|E].
  - rewrite (Hu b); [reflexivity | now left | now symmetry].
  - destruct Hi as [-> | Hi]; [congruence|]. apply IH; [exact Hi|]. intros c Hc. apply Hu. now right.
Qed.

(** Without such neighbours -- in particular if no triomphe pointer is used, or
    no std pointer leads to a zero-sized value -- every pointer is resolved to its
    own allocation, so that the theorems on stores (C43, C44, C46) apply. *)
Lemma C47_resolves_lemma : forall mem, memory_ok mem -> (forall a b, In a mem -> In b mem -> ~ behind a b) ->
  NoDup (map fst (store_of mem)) /\
  forall a, In a mem -> find_obj (store_of mem) (identity a) = Some (a_inner a, a_value a).
Proof.
  intros mem [Hok Hd] Hn.
  assert (HN : NoDup (map fst (store_of mem))).
  { unfold store_of. rewrite map_map. cbn [fst]. induction Hd as [|a mem Hd1 Hd2 IH]; constructor.
    - intros HI. apply in_map_iff in HI as (b & E & Hb). rewrite Forall_forall in Hd1. inversion Hok as [|? ? Ha Hok']; subst.
      assert (B : alloc_ok b) by (rewrite Forall_forall in Hok'; auto).
      pose proof (proj1 (C47_collision_iff_lemma Ha B (Hd1 _ Hb))) as C. destruct C as [C|C]; [now symmetry | |].
      + apply (Hn a b); [now left | now right | exact C].
      + apply (Hn b a); [now right | now left | exact C].
    - apply IH; [now inversion Hok|]. intros c d Hc Hd'. apply Hn; now right. }
  split; [exact HN|]. intros a Ha. apply find_store; [exact Ha|].
  intros b Hb E. clear -HN Ha Hb E. unfold store_of in HN. rewrite map_map in HN. cbn [fst] in HN.
  induction mem as [|c mem IH]; [destruct Ha|]. cbn [map] in HN. inversion HN as [|? ? H1 H2]; subst.
  destruct Ha as [-> | Ha], Hb as [-> | Hb]; auto.
  - exfalso. apply H1. rewrite <- E. now apply in_map.
  - exfalso. apply H1. rewrite E. now apply in_map.
Qed.

Lemma C47_no_triomphe_lemma : forall mem, memory_ok mem -> Forall (fun a => triomphe_alloc a = false) mem ->
  forall a, In a mem -> find_obj (store_of mem) (identity a) = Some (a_inner a, a_value a).
Proof.
  intros mem H Ht. apply C47_resolves_lemma; [exact H|]. intros a b _ Hb (_ & T & _). rewrite Forall_forall in Ht. rewrite Ht in T by auto. discriminate.
Qed.

Lemma C47_no_zero_sized_lemma : forall mem, memory_ok mem ->
  Forall (fun a => triomphe_alloc a = true \/ size_of_val (a_value a) <> 0) mem ->
  forall a, In a mem -> find_obj (store_of mem) (identity a) = Some (a_inner a, a_value a).
Proof.
  intros mem H Ht. apply C47_resolves_lemma; [exact H|]. intros a b Ha _ (T & _ & Z & _). rewrite Forall_forall in Ht.
  destruct (Ht a Ha) as [X|X]; congruence.
Qed.
