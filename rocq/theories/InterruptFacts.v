(** * Lemmas on flame graphs after panics. *)
From Coq Require Import Permutation Sorted Lia.
From Verif Require Import Base BaseFacts KeyModel KeyFacts HMap FlameModel BuilderModel VisitorModel Spec FlameFacts WriteFacts InterruptModel InterruptSpec.

Fixpoint children_left (m : mode) (self : fg) (l : list (key * fg)) : fg * bool :=
  match l with
  | [] => (self, true)
  | (k, child) :: l' => let (s, ok) := add_child_left m self k child in if ok then children_left m s l' else (s, false)
  end.

Lemma add_left_eq m self other : add_left m self other =
  match uadd m (fg_node_size self) (fg_node_size other) with
  | None => (self, false)
  | Some n => children_left m (FG (fg_children self) (fg_children_size self) n) (fg_children other)
  end.
Proof.
  destruct other as [cs c n]. cbn [add_left fg_node_size fg_children]. destruct (uadd m (fg_node_size self) n) as [n'|]; [|reflexivity].
  generalize (FG (fg_children self) (fg_children_size self) n'). induction cs as [|[k child] cs IH]; intros s; [reflexivity|].
  cbn [children_left]. unfold add_child_left. destruct (do t <- fg_total_size m child; uadd m (fg_children_size s) t) as [cz|]; [|reflexivity].
  destruct (hm_find (fg_children s) k) as [e|]; [|apply IH]. destruct (add_left m e child) as [e' ok]. destruct ok; [apply IH | reflexivity].
Qed.

(** ** The same calls, with and without the state. *)
Lemma add_child_returned m a k b : (forall a', returned (add_left m a' b) = fg_add m a' b) ->
  returned (add_child_left m a k b) = fg_add_child m a k b.
Proof.
  intros H. unfold add_child_left, fg_add_child. destruct (fg_total_size m b) as [t|]; [|reflexivity]. cbn [obind].
  destruct (uadd m (fg_children_size a) t) as [cs|]; [|reflexivity]. cbn [obind]. destruct (hm_find (fg_children a) k) as [e|]; [|reflexivity].
  rewrite <- H. destruct (add_left m e b) as [e' []]; reflexivity.
Qed.

Lemma add_returned m b : forall a, returned (add_left m a b) = fg_add m a b.
Proof.
  induction b as [cs c n IH] using fg_ind'. intros a. rewrite add_left_eq, fg_add_eq. cbn [fg_node_size fg_children].
  destruct (uadd m (fg_node_size a) n) as [n'|]; [|reflexivity]. cbn [obind]. generalize (FG (fg_children a) (fg_children_size a) n'). clear a n'.
  induction cs as [|[k b] cs IHl]; intros s; [reflexivity|]. cbn [children_left add_children].
  rewrite <- (add_child_returned s k (IH k b (or_introl eq_refl))). destruct (add_child_left m s k b) as [s' []]; cbn [returned snd fst obind]; [|reflexivity].
  apply IHl. intros k' f' Hin. eapply IH. right. exact Hin.
Qed.

Lemma add_self_returned m a n : returned (add_self_left m a n) = fg_add_self m a n.
Proof. unfold add_self_left, fg_add_self. destruct (uadd m (fg_node_size a) n); reflexivity. Qed.

(** ** Graphs inside graphs from the API are from the API. *)
Definition all_api (m : mode) (K : key -> Prop) (f : fg) : Prop :=
  fg_api m K f /\ forall k c, In (k, c) (fg_children f) -> K k /\ fg_api m K c.

Lemma add_child_all m (K : key -> Prop) a k b c : all_api m K a -> K k -> fg_api m K b -> fg_add_child m a k b = Some c -> all_api m K c.
Proof.
  intros [A1 A2] Hk Hb E. split; [exact (api_add_child A1 Hk Hb E)|]. unfold fg_add_child in E.
  destruct (fg_total_size m b) as [t|]; [|discriminate]. cbn [obind] in E. destruct (uadd m (fg_children_size a) t) as [cs|]; [|discriminate]. cbn [obind] in E.
  destruct (hm_find (fg_children a) k) as [e|] eqn:Ef.
  - destruct (fg_add m e b) as [e'|] eqn:Ee; [|discriminate]. cbn [obind] in E. inversion E; subst c. cbn [fg_children].
    intros k1 c1 Hin. apply hm_replace_In in Hin as [Hin|[-> ->]]; [apply A2, Hin|].
    split; [exact Hk|]. apply hm_find_In in Ef. eapply api_add; [exact (proj2 (A2 _ _ Ef)) | exact Hb | exact Ee].
  - inversion E; subst c. cbn [fg_children]. intros k1 c1 Hin. apply in_app_or in Hin as [Hin|[Hin|[]]]; [apply A2, Hin|]. inversion Hin; subst. split; assumption.
Qed.

Lemma add_children_all m (K : key -> Prop) l : forall a c, (forall k b, In (k, b) l -> K k /\ fg_api m K b) -> all_api m K a ->
  add_children m a l = Some c -> all_api m K c.
Proof.
  induction l as [|[k b] l IH]; intros a c Hl Ha E; cbn [add_children] in E; [inversion E; now subst|].
  destruct (fg_add_child m a k b) as [s|] eqn:Es; [|discriminate]. cbn [obind] in E. destruct (Hl k b (or_introl eq_refl)) as [Hk Hb].
  eapply IH; [intros; apply Hl; now right | eapply add_child_all; eauto | exact E].
Qed.

Lemma api_node m K f : fg_api m K f -> fg_node_size f < two64.
Proof. intros H. destruct (fg_ok_inv (fg_api_ok H)) as (_ & _ & Hn & _). exact Hn. Qed.

Lemma add_self_all m K a n c : all_api m K a -> n < two64 -> fg_add_self m a n = Some c -> all_api m K c.
Proof.
  intros [A1 A2] Hn E. split; [exact (api_add_self A1 Hn E)|]. unfold fg_add_self in E. destruct (uadd m (fg_node_size a) n); [|discriminate]. inversion E; subst. exact A2.
Qed.

Lemma api_all m K f : fg_api m K f -> all_api m K f.
Proof.
  induction 1 as [|f n g Hf IH Hn E|f k c g Hf IHf Hk Hc IHc E|f c g Hf IHf Hc IHc E].
  - split; [constructor | intros k c []].
  - exact (add_self_all IH Hn E).
  - exact (add_child_all IHf Hk Hc E).
  - rewrite fg_add_eq in E. destruct (uadd m (fg_node_size f) (fg_node_size c)) as [n|] eqn:En; [|discriminate]. cbn [obind] in E.
    eapply add_children_all; [exact (proj2 IHc) | eapply (@add_self_all m K f (fg_node_size c)); [exact IHf | exact (api_node Hc) | unfold fg_add_self; rewrite En; reflexivity] | exact E].
Qed.

(** ** A panic leaves a graph from the API. *)
Lemma add_child_stops K a k b : fg_ok Debug K a -> fg_ok Debug K b -> snd (add_child_left Debug a k b) = false -> fst (add_child_left Debug a k b) = a.
Proof.
  intros Ha Hb. pose proof (@add_child_returned Debug a k b (add_returned Debug b)) as R.
  assert (D : csum a + node_sum b < two64 -> exists c, fg_add_child Debug a k b = Some c).
  { apply (@fg_add_child_debug K a k b); [|exact Ha | exact Hb]. intros a' Ha' Hs. apply (fg_add_debug Hb Ha'). rewrite !node_sum_csum in Hs. lia. }
  intros Hf. unfold returned in R. rewrite Hf in R.
  unfold add_child_left in *. rewrite (fg_total_wrapped Hb) in *. cbn [wrapped] in *. destruct (node_sum b <? two64) eqn:El; [|reflexivity]. cbn [obind] in *.
  destruct (fg_ok_debug Ha) as [Hca _]. rewrite Hca in *. unfold uadd in *. destruct (N.ltb_spec (csum a + node_sum b) two64) as [Hs|Hs]; [|reflexivity].
  destruct (D Hs) as [c Ec]. congruence.
Qed.

(** What a call of [add] that panics has done: the own bytes, and some of the
    children, completely. *)
Lemma children_stop (K : key -> Prop) l : forall a, fg_api Debug K a -> (forall k b, In (k, b) l -> K k /\ fg_api Debug K b) ->
  exists l1 l2, l = l1 ++ l2 /\ add_children Debug a l1 = Some (fst (children_left Debug a l)) /\ (snd (children_left Debug a l) = true -> l2 = []) /\
    (snd (children_left Debug a l) = false -> l2 <> []).
Proof.
  induction l as [|[k b] l IH]; intros a Ha Hl; cbn [children_left].
  - exists [], []. repeat split; auto. discriminate.
  - destruct (Hl k b (or_introl eq_refl)) as [Hk Hb]. pose proof (@add_child_stops K a k b (fg_api_ok Ha) (fg_api_ok Hb)) as St.
    pose proof (@add_child_returned Debug a k b (add_returned Debug b)) as R. unfold returned in R.
    destruct (add_child_left Debug a k b) as [s ok]. cbn [fst snd] in *. destruct ok.
    + destruct (IH s) as (l1 & l2 & -> & E & H1 & H2); [eapply api_add_child; [exact Ha | exact Hk | exact Hb | symmetry; exact R] | intros; apply Hl; now right|].
      exists ((k, b) :: l1), l2. split; [reflexivity|]. split; [cbn [add_children]; rewrite <- R; cbn [obind]; exact E|]. split; assumption.
    + exists [], ((k, b) :: l). cbn [fst snd add_children app]. rewrite St by reflexivity. repeat split; discriminate.
Qed.

Lemma add_left_stops (K : key -> Prop) a b : fg_api Debug K a -> fg_api Debug K b -> snd (add_left Debug a b) = false ->
  fst (add_left Debug a b) = a \/
  exists n l1 l2, fg_add_self Debug a (fg_node_size b) = Some n /\ fg_children b = l1 ++ l2 /\ l2 <> [] /\ add_children Debug n l1 = Some (fst (add_left Debug a b)).
Proof.
  intros Ha Hb. rewrite add_left_eq. unfold fg_add_self. destruct (uadd Debug (fg_node_size a) (fg_node_size b)) as [n|] eqn:En; [|left; reflexivity].
  intros Hf. right. destruct (@children_stop K (fg_children b) (FG (fg_children a) (fg_children_size a) n)) as (l1 & l2 & E & A & _ & H2).
  - eapply api_add_self; [exact Ha | exact (api_node Hb) | unfold fg_add_self; rewrite En; reflexivity].
  - exact (proj2 (api_all Hb)).
  - exists (FG (fg_children a) (fg_children_size a) n), l1, l2. split; [reflexivity|]. split; [exact E|]. split; [exact (H2 Hf) | exact A].
Qed.

Lemma add_left_api m (K : key -> Prop) a b : fg_api m K a -> fg_api m K b -> fg_api m K (fst (add_left m a b)).
Proof.
  intros Ha Hb. pose proof (add_returned m b a) as R. unfold returned in R. destruct (snd (add_left m a b)) eqn:Es; [eapply api_add; [exact Ha | exact Hb | symmetry; exact R]|].
  destruct m; [|destruct (fg_add_release b a); congruence].
  destruct (add_left_stops Ha Hb Es) as [->|(n & l1 & l2 & En & El & _ & E)]; [exact Ha|].
  refine (proj1 (@add_children_all Debug K l1 n _ _ _ E)).
  - intros k c Hin. apply (proj2 (api_all Hb)). rewrite El. apply in_or_app. now left.
  - exact (add_self_all (api_all Ha) (api_node Hb) En).
Qed.

Lemma add_child_left_api m (K : key -> Prop) a k b : fg_api m K a -> K k -> fg_api m K b -> fg_api m K (fst (add_child_left m a k b)).
Proof.
  intros Ha Hk Hb. pose proof (@add_child_returned m a k b (add_returned m b)) as R. unfold returned in R. destruct (snd (add_child_left m a k b)) eqn:Es.
  - eapply api_add_child; [exact Ha | exact Hk | exact Hb | symmetry; exact R].
  - destruct m; [|destruct (fg_add_child_release a k b); congruence]. rewrite (@add_child_stops K a k b (fg_api_ok Ha) (fg_api_ok Hb) Es). exact Ha.
Qed.

Lemma used_api m K f : fg_used m K f <-> fg_api m K f.
Proof.
  split.
  - induction 1 as [|f n Hf IH Hn|f k c Hf IHf Hk Hc IHc|f c Hf IHf Hc IHc]; [constructor | | now apply add_child_left_api | now apply add_left_api].
    pose proof (add_self_returned m f n) as R. unfold add_self_left, returned in *. destruct (uadd m (fg_node_size f) n); [|exact IH].
    cbn [fst snd] in *. eapply api_add_self; [exact IH | exact Hn | symmetry; exact R].
  - assert (G : forall r g, returned r = Some g -> g = fst r) by (intros [x []] g E; cbn in *; congruence).
    induction 1 as [|f n g Hf IH Hn E|f k c g Hf IHf Hk Hc IHc E|f c g Hf IHf Hc IHc E].
    + constructor.
    + rewrite <- add_self_returned in E. rewrite (G _ _ E). now constructor.
    + rewrite <- (@add_child_returned m f k c (add_returned m c)) in E. rewrite (G _ _ E). now constructor.
    + rewrite <- add_returned in E. rewrite (G _ _ E). now constructor.
Qed.

(** ** Per child: all or nothing. *)
Lemma NoDup_app_disjoint {A} (l l' : list A) x : NoDup (l ++ l') -> In x l -> In x l' -> False.
Proof.
  induction l as [|y l IH]; [intros _ [] |]. cbn [app]. intros H [->|Hx] Hx'; inversion H; subst; [|now apply IH]. apply H2. apply in_or_app. now right.
Qed.

Lemma stopped_sizes (K : key -> Prop) a b : (forall k, K k -> made_by_new k) -> fg_api Debug K a -> fg_api Debug K b -> snd (add_left Debug a b) = false ->
  fst (add_left Debug a b) = a \/
  (forall s, (forall p, size_at (fst (add_left Debug a b)) (s :: p) = size_at a (s :: p) + size_at b (s :: p)) \/
             (forall p, size_at (fst (add_left Debug a b)) (s :: p) = size_at a (s :: p))) /\
  size_at (fst (add_left Debug a b)) [] = size_at a [] + size_at b [].
Proof.
  intros HK Ha Hb Es. destruct (add_left_stops Ha Hb Es) as [E|(n & l1 & l2 & En & El & Hl2 & E)]; [left; exact E|]. right.
  pose proof (@add_self_all Debug K a (fg_node_size b) n (api_all Ha) (api_node Hb) En) as Hn.
  unfold fg_add_self in En. destruct (uadd Debug (fg_node_size a) (fg_node_size b)) as [nn|] eqn:Enn; [|discriminate]. apply uadd_debug_some in Enn as [-> _]. inversion En; subst n. clear En.
  assert (Hl1 : forall k c, In (k, c) l1 -> K k /\ fg_ok Debug K c /\ forall a' c', fg_ok Debug K a' -> fg_add Debug a' c = Some c' -> adds Debug K a' c c').
  { intros k c Hin. destruct (proj2 (api_all Hb) k c) as [A B]; [rewrite El; apply in_or_app; now left|]. split; [exact A|]. split; [exact (fg_api_ok B)|].
    intros a' c' Ha' E'. exact (fg_add_adds (fg_api_ok B) Ha' E'). }
  destruct (@add_children_adds Debug K l1 _ _ Hl1 (fg_api_ok (proj1 Hn)) E) as (_ & Hsz & _).
  cbn [wrapeq] in Hsz. split.
  - intros s.
    pose proof (@fg_ok_strings Debug K b HK (fg_api_ok Hb)) as Hnd. rewrite El, map_app in Hnd.
    assert (Hsz' : forall p, size_at (fst (add_left Debug a b)) (s :: p) = size_at a (s :: p) + sumN (map (fun kc => child_at (fst kc) (snd kc) (s :: p)) l1)) by (intros p; rewrite Hsz; rewrite !size_at_cons; reflexivity).
    destruct (child_dec l1 s) as [(k1 & c1 & Hin & Hk1)|Hno].
    + left. intros p. rewrite Hsz'. f_equal. rewrite size_at_cons, El, map_app, sumN_app. rewrite (@size_at_no_child l2 s (fun g => size_at g p)), N.add_0_r; [reflexivity|].
      intros k2 c2 Hin2 Hk2. apply (in_map (fun kv => k_str (fst kv))) in Hin. apply (in_map (fun kv => k_str (fst kv))) in Hin2. cbn [fst] in Hin, Hin2. rewrite Hk1 in Hin. rewrite Hk2 in Hin2.
      exact (NoDup_app_disjoint Hnd Hin Hin2).
    + right. intros p. rewrite Hsz'. replace (sumN _) with 0; [lia|]. symmetry. exact (@size_at_no_child l1 s (fun g => size_at g p) Hno).
  - rewrite Hsz. cbn [size_at fg_node_size]. replace (sumN (map (fun kc => child_at (fst kc) (snd kc) []) l1)) with 0; [lia|]. clear. induction l1; cbn; [reflexivity | exact IHl1].
Qed.
