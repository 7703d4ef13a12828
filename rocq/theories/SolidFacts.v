(** * Structure of the builder that does not depend on sizes. *)
From Coq Require Import Permutation Sorted.
From Verif Require Import Base BaseFacts KeyModel KeyFacts HMap FlameModel BuilderModel VisitorModel Spec
  FlameFacts WriteFacts ArenaFacts RunFacts FinishFacts FlameExtra BuilderFacts EventFacts.

(** Every tree id in use exists. *)
Definition known (n : nat) (ts : tree_stack) : Prop := (ts_tree ts < n)%nat /\ Forall (fun i => (i < n)%nat) (ts_stack ts).
Record solid (b : builder) : Prop := {
  so_current : known (length (b_trees b)) (b_current b);
  so_shared : Forall (known (length (b_trees b))) (b_shared b);
  so_root : (b_root b < length (b_trees b))%nat;
  so_children : Forall (fun td => Forall (fun ke => (snd ke < length (b_trees b))%nat) (td_children td)) (b_trees b);
}.

Lemma known_le n n' ts : (n <= n')%nat -> known n ts -> known n' ts.
Proof. intros H [H1 H2]. split; [lia|]. eapply Forall_impl; [|exact H2]. cbn. lia. Qed.
Lemma children_le n n' (l : trees) : (n <= n')%nat -> Forall (fun td => Forall (fun ke => (snd ke < n)%nat) (td_children td)) l ->
  Forall (fun td => Forall (fun ke => (snd ke < n')%nat) (td_children td)) l.
Proof. intros H. apply Forall_impl. intros td. apply Forall_impl. intros; lia. Qed.
Lemma Forall_upd {A} (P : A -> Prop) l i a : Forall P l -> P a -> Forall P (upd l i a).
Proof. intros H Ha. revert i. induction H as [|x l Hx Hl IH]; intros [|i]; cbn; try constructor; auto. Qed.
Lemma find_in {V} (m : hmap V) k v : hm_find m k = Some v -> exists k', In (k', v) m.
Proof. induction m as [|[k' v'] m IH]; cbn; [discriminate|]. destruct (key_eqb k' k); [intros [= ->]; eauto|]. intros E. destruct (IH E) as [k'' H]. eauto. Qed.
Lemma get_some (t : trees) i : (i < length t)%nat -> exists td, tree_get t i = Some td.
Proof. intros H. unfold tree_get. destruct (nth_error t i) eqn:E; [eauto|]. apply nth_error_None in E. lia. Qed.

Lemma solid_default : solid b_default.
Proof. constructor; cbn; [split; cbn; [lia | constructor] | constructor | lia | repeat constructor]. Qed.

Lemma down_solid b k : solid b -> solid (fst (down b k)) /\ snd (down b k) = Fine.
Proof.
  intros [[H1 H2] H3 H4 H5]. unfold down. cbn [b_trees set_current b_current ts_stack]. destruct (get_some H1) as [td E]. rewrite E.
  assert (Htd : Forall (fun ke => (snd ke < length (b_trees b))%nat) (td_children td)).
  { rewrite Forall_forall in H5. apply H5. unfold tree_get in E. eapply nth_error_In, E. }
  destruct (hm_find (td_children td) k) as [e|] eqn:Ef.
  - split; [|reflexivity]. destruct (find_in Ef) as [k' Hin]. rewrite Forall_forall in Htd. specialize (Htd _ Hin). cbn in Htd.
    constructor; cbn; auto. split; cbn; auto.
  - cbn [new_tree]. rewrite upd_length, Nat.eqb_refl. split; [|reflexivity].
    assert (L : length (upd (b_trees b) (ts_tree (b_current b)) (mkTD (td_size td) (td_rem td) (td_unique td) (hm_insert_new (td_children td) k (length (b_trees b)))) ++ [td_default]) = S (length (b_trees b))).
    { rewrite app_length, upd_length. cbn. lia. }
    constructor; cbn [fst b_trees b_current b_shared b_root set_current set_trees]; rewrite L.
    + split; cbn; [lia|]. constructor; [lia|]. eapply Forall_impl; [|exact H2]. cbn. lia.
    + eapply Forall_impl; [|exact H3]. intros ts. apply known_le. lia.
    + lia.
    + apply Forall_app. split; [|repeat constructor]. apply Forall_upd; [eapply children_le; [|exact H5]; lia|]. cbn [td_children]. unfold hm_insert_new.
      apply Forall_app. split; [eapply Forall_impl; [|exact Htd]; cbn; lia | repeat constructor; cbn; lia].
Qed.
Lemma upd_solid b i td td' : solid b -> tree_get (b_trees b) i = Some td -> td_children td' = td_children td -> solid (set_trees b (upd (b_trees b) i td')).
Proof.
  intros [H1 H3 H4 H5] E Ec. constructor; cbn [b_trees b_current b_shared b_root set_trees]; rewrite upd_length; auto.
  apply Forall_upd; [exact H5|]. rewrite Ec. rewrite Forall_forall in H5. apply H5. unfold tree_get in E. eapply nth_error_In, E.
Qed.
Lemma add_size_solid m b s : solid b -> solid (fst (add_size m b s)) /\ (m = Release -> snd (add_size m b s) = Fine).
Proof.
  intros H. unfold add_size. destruct (get_some (proj1 (so_current H))) as [td E]. rewrite E. destruct (uadd m (td_size td) s) as [n|] eqn:Eu; cbn [fst snd].
  - split; [eapply upd_solid; eauto | reflexivity].
  - split; [exact H|]. intros ->. rewrite uadd_release in Eu. discriminate.
Qed.
Lemma mark_solid b : solid b -> solid (fst (mark_unique b)) /\ snd (mark_unique b) = Fine.
Proof. intros H. unfold mark_unique. destruct (get_some (proj1 (so_current H))) as [td E]. rewrite E. cbn [fst snd]. split; [eapply upd_solid; eauto | reflexivity]. Qed.

Lemma inline_solid m b k s : solid b -> solid (fst (enter_inline m b k s)) /\ (m = Release -> snd (enter_inline m b k s) = Fine).
Proof.
  intros H. unfold enter_inline. destruct (down_solid k H) as [D1 D2]. destruct (down b k) as [b1 st]. cbn [fst snd] in *. subst st. cbn [bind_status]. now apply add_size_solid.
Qed.
Lemma unique_solid m b k s : solid b -> solid (fst (enter_unique m b k s)) /\ (m = Release -> snd (enter_unique m b k s) = Fine).
Proof.
  intros H. unfold enter_unique. destruct (down_solid k H) as [D1 D2]. destruct (down b k) as [b1 st]. cbn [fst snd] in *. subst st. cbn [bind_status].
  destruct (add_size_solid m s D1) as [A1 A2]. destruct (add_size m b1 s) as [b2 [|]]; cbn [fst snd bind_status] in *; [|auto].
  destruct (mark_solid A1) as [M1 M2]. auto.
Qed.
Lemma exit_solid b : solid b -> solid (fst (exit_impl b)).
Proof.
  intros [[H1 H2] H3 H4 H5]. unfold exit_impl. destruct (negb (b_entered b)); [constructor; auto; split; auto|]. unfold up.
  destruct (ts_stack (b_current b)) as [|i st] eqn:E.
  - destruct (b_shared b) as [|ts rest] eqn:Es; [constructor; cbn; rewrite ?Es; auto; split; [auto | rewrite E; constructor]|].
    inversion H3 as [|? ? [K1 K2] H6]; subst. cbn [set_current set_shared b_current]. destruct (ts_stack ts) as [|j st'] eqn:Et.
    + constructor; cbn; auto. split; [auto | rewrite Et; constructor].
    + inversion K2; subst. constructor; cbn; auto. split; auto.
  - inversion H2; subst. constructor; cbn; auto. split; auto.
Qed.
Lemma shared_solid m b k s x : solid b -> solid (fst (fst (enter_shared m b k s x))).
Proof.
  intros H. unfold enter_shared. destruct (inline_solid m k s H) as [I1 _]. unfold enter_inline in I1. destruct (bind_status _ _) as [b1 [|]]; cbn [fst] in I1; [|exact I1].
  destruct (ptr_mem x (b_visited b1)).
  - apply exit_solid in I1. destruct (exit_impl b1); exact I1.
  - destruct I1 as [J1 J2 J3 J4]. constructor; cbn; auto. split; cbn; auto.
Qed.
Lemma step_solid m b e : solid b -> solid (fst (fst (step m b e))).
Proof.
  intros H. destruct e as [|k s|k s|k s x| |]; cbn [step].
  - unfold root_visitor. destruct (b_entered b); cbn; [exact H|]. destruct H; constructor; auto.
  - apply inline_solid, H.
  - apply unique_solid, H.
  - apply shared_solid, H.
  - apply exit_solid, H.
  - exact H.
Qed.
Lemma reorder_solid b b' : solid b -> reordered b b' -> solid b'.
Proof.
  intros [H1 H3 H4 H5] (_ & E2 & E3 & E4 & _ & HF). pose proof (Forall2_len HF) as L. constructor; rewrite ?E2, ?E3, ?E4, <- ?L; auto.
  clear - HF H5. set (n := length (b_trees b)) in *. clearbody n.
  induction HF as [|td td' l l' Htd _ IH]; constructor; inversion H5 as [|? ? Hc Hl]; subst; [|auto].
  eapply Permutation_Forall; [apply Htd | exact Hc].
Qed.
Lemma history_solid m evs b live : history m evs b live -> solid b.
Proof.
  induction 1 as [|evs b live e b' ret _ IH _ E|evs b live b' _ IH Hr].
  - apply solid_default.
  - apply (step_solid m e) in IH. now rewrite E in IH.
  - eapply reorder_solid; eauto.
Qed.

(** With overflow checks off no call panics, whatever the sizes. *)
Lemma shared_fine b k s x : solid b -> shape b -> b_entered b = true -> exists b' ret, enter_shared Release b k s x = (b', Fine, ret).
Proof.
  intros Hs Hsh He. unfold enter_shared. destruct (inline_solid Release k s Hs) as [I1 I2]. specialize (I2 eq_refl).
  destruct (enter_inline Release b k s) as [b1 st] eqn:E1. cbn [snd] in I2. subst st. pose proof (enter_inline_shape E1) as (c & F1 & F2 & F3 & _).
  unfold enter_inline in E1. rewrite E1. destruct (ptr_mem x (b_visited b1)); [|eauto].
  destruct (@exit_fine b1) as [b2 E2]; [|congruence|].
  - constructor; [congruence | rewrite F2; apply Hsh].
  - rewrite E2. eauto.
Qed.
Lemma history_release evs b live e : history Release evs b live -> allowed live e -> (e = EvRoot -> leaked evs = 0%nat) ->
  exists b' ret, step Release b e = (b', Fine, ret).
Proof.
  intros Hh Hal Hroot. pose proof (history_solid Hh) as Hsol. destruct (history_depth Hh) as [Hs Hd].
  assert (Hent : (0 < live)%nat -> b_entered b = true).
  { intros Hl. destruct (b_entered b) eqn:He; [reflexivity|]. destruct (sh_closed Hs He) as [H1 H2].
    unfold depth in Hd. rewrite He, H1, H2 in Hd. cbn in Hd. lia. }
  destruct e as [|k s|k s|k s x| |]; cbn [step allowed] in *.
  - unfold root_visitor. destruct (b_entered b) eqn:He; [|eauto]. exfalso. rewrite (Hroot eq_refl) in Hd. subst live. unfold depth in Hd. rewrite He in Hd. cbn in Hd. lia.
  - destruct (inline_solid Release k s Hsol) as [_ F]. specialize (F eq_refl). destruct (enter_inline Release b k s) as [b' st]. cbn in F. subst. eauto.
  - destruct (unique_solid Release k s Hsol) as [_ F]. specialize (F eq_refl). destruct (enter_unique Release b k s) as [b' st]. cbn in F. subst. eauto.
  - apply shared_fine; auto.
  - destruct (exit_fine Hs (Hent Hal)) as [b' E]. rewrite E. eauto.
  - eauto.
Qed.
