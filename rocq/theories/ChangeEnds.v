(** * Lemmas for property C52: a visit of memory that does not change comes to an end. *)
From Verif Require Import Base BaseFacts KeyModel KeyFacts HMap FlameModel BuilderModel BuilderFacts VisitorModel Spec LayoutModel ImplModel
  LockModel LockSpec LockFacts SnapshotModel SnapshotRun ChangeModel ChangeSpec ChangeRun.

#[local] Arguments key_new : simpl never.

Section Ends.
  Variable m : mode.
  Variable content : lock -> mvalue.
  Variable object : ptr -> option (inner * mvalue).
  Variable rank : lock -> nat.
  Variable xs : list ptr.
  Hypothesis Hrank : forall l l', In l' (inline_locks (content l)) -> (rank l' < rank l)%nat.
  Hypothesis Hxs : forall x, object x <> None -> In x xs.

  (** How many steps a piece of code takes, apart from what is behind pointers. *)
  Inductive cost : code -> nat -> Prop :=
  | co_ret : cost CRet 0
  | co_crash : cost CCrash 1
  | co_inline k s b r i j : cost b i -> cost r j -> cost (CInline k s b r) (2 + i + j)
  | co_unique k s b r i j : cost b i -> cost r j -> cost (CUnique k s b r) (2 + i + j)
  | co_shared k s x r j : cost r j -> cost (CShared k s x r) (3 + j)
  | co_try l a f r i j : cost (opened f (content l)) i -> cost r j -> cost (CTry l a f r) (2 + i + j)
  | co_upgrade x b r i j : cost b i -> cost r j -> cost (CUpgrade x b r) (2 + i + j)
  | co_visit v r i j : cost (implementation m v) i -> cost r j -> cost (CVisit v r) (2 + i + j).

  Lemma cost_calls cs p : Forall (fun c => exists n, cost (implementation m c) n) cs -> exists n, cost (calls cs p) n.
  Proof.
    intros Hc. induction p as [| |k s b (i & H1) r (j & H2)|k s b (i & H1) r (j & H2)|k s x b _ r (j & H1) r2 _]; cbn [calls]; try (eexists; econstructor; eauto; fail).
    destruct (nth_error cs (N.to_nat x)) as [c|] eqn:Ec; [|eauto]. apply nth_error_In in Ec. rewrite Forall_forall in Hc.
    destruct (Hc _ Ec) as (i & H2). eexists; econstructor; eauto.
  Qed.
  Lemma cost_pointers p : exists n, cost (pointer_calls p) n.
  Proof. induction p as [| |k s b (i & H1) r (j & H2)|k s b (i & H1) r (j & H2)|k s x b _ r (j & H1) r2 _]; cbn [pointer_calls]; eexists; econstructor; eauto. Qed.

  Lemma cost_opened f l n : cost (implementation m (content l)) n -> exists n', cost (opened f (content l)) n'.
  Proof. intros H. unfold opened. destruct f; eexists; repeat (econstructor; eauto). Qed.

  Lemma cost_ranked r : forall v, (forall l, In l (inline_locks v) -> (rank l < r)%nat) -> exists n, cost (implementation m v) n.
  Proof.
    induction r as [r IHr] using (well_founded_induction lt_wf).
    induction v as [s cs IH|t l a|t l|t t' ps x] using mvalue_induction; cbn [inline_locks]; intros Hl.
    - assert (Hc : Forall (fun c => exists n, cost (implementation m c) n) cs).
      { rewrite Forall_forall in *. intros c Hin. apply IH; [exact Hin|]. intros l Hlc. apply Hl. apply in_concat. exists (inline_locks c). split; [apply in_map, Hin | exact Hlc]. }
      pose proof (cost_calls (visit_shape m unseen s (placeholders 0 (map msize cs))) Hc) as C. pose proof (cost_pointers (visit_shape m unseen s [])) as P.
      destruct s; first [exact C | exact P].
    - destruct (IHr (rank l) (Hl l (or_introl eq_refl)) (content l)) as (n & Hn); [intros l' Hl'; now apply Hrank|].
      destruct (@cost_opened true l n Hn) as (n' & Hn'). eexists; repeat (econstructor; eauto).
    - destruct (IHr (rank l) (Hl l (or_introl eq_refl)) (content l)) as (n & Hn); [intros l' Hl'; now apply Hrank|].
      destruct (@cost_opened false l n Hn) as (n' & Hn'). eexists; repeat (econstructor; eauto).
    - cbn [implementation]. destruct (cost_pointers (impl_shared_ptr unseen t' ps x)) as (n & Hn). eexists; repeat (econstructor; eauto).
  Qed.
  Lemma some_bound (ls : list lock) : exists r, forall l, In l ls -> (rank l < r)%nat.
  Proof.
    induction ls as [|l ls (r & IH)]; [exists 0%nat; intros l []|]. exists (Nat.max (S (rank l)) r). intros l' [<-|H]; [lia|]. specialize (IH _ H). lia.
  Qed.
  Lemma cost_value v : exists n, cost (implementation m v) n.
  Proof. destruct (some_bound (inline_locks v)) as (r & Hr). eapply cost_ranked, Hr. Qed.
  Lemma cost_code p : exists n, cost p n.
  Proof.
    induction p as [| |k s b (i & H1) r (j & H2)|k s b (i & H1) r (j & H2)|k s x r (j & H1)|l a f r (j & H1)|x b (i & H1) r (j & H2)|v r (j & H1)]; try (eexists; econstructor; eauto; fail).
    - destruct (cost_value (content l)) as (n & Hn). destruct (@cost_opened f l n Hn) as (n' & Hn'). eexists; econstructor; eauto.
    - destruct (cost_value v) as (n & Hn). eexists; econstructor; eauto.
  Qed.

  Definition rest_of (f : cframe) : code := match f with KScope r | KGuard _ _ r | KArc _ r | KThen r => r end.
  Inductive costs : list cframe -> nat -> Prop :=
  | cs_nil : costs [] 0
  | cs_cons f st i j : cost (rest_of f) i -> costs st j -> costs (f :: st) (1 + i + j).
  Lemma costs_some st : exists n, costs st n.
  Proof. induction st as [|f st (j & IH)]; [eexists; constructor|]. destruct (cost_code (rest_of f)) as (i & Hi). eexists; econstructor; eauto. Qed.
  Definition weighs (c : cconf) (n : nat) : Prop :=
    match k_control c with
    | Run p => exists i j, cost p i /\ costs (k_stack c) j /\ n = (i + j)%nat
    | Unwinds => costs (k_stack c) n
    | Lost => n = 0%nat
    end.
  Lemma weighs_some c : exists n, weighs c n.
  Proof.
    unfold weighs. destruct (costs_some (k_stack c)) as (j & Hj). destruct (k_control c) as [p| |]; eauto. destruct (cost_code p) as (i & Hi). eauto 10.
  Qed.
  (** The allocations not visited yet. *)
  Definition unvisited (b : builder) : nat := length (filter (fun x => negb (ptr_mem x (b_visited b))) xs).
  Lemma unvisited_same b b' : b_visited b' = b_visited b -> unvisited b' = unvisited b.
  Proof. unfold unvisited. now intros ->. Qed.
  Lemma filter_le {A} (f g : A -> bool) l : (forall x, f x = true -> g x = true) -> (length (filter f l) <= length (filter g l))%nat.
  Proof. intros H. induction l as [|x l IH]; cbn; [lia|]. specialize (H x). destruct (f x); [rewrite H by reflexivity; cbn; lia|]. destruct (g x); cbn; lia. Qed.
  Lemma filter_lt {A} (f g : A -> bool) l y : (forall x, f x = true -> g x = true) -> In y l -> f y = false -> g y = true -> (length (filter f l) < length (filter g l))%nat.
  Proof.
    intros H Hy F G. induction l as [|x l IH]; [destruct Hy|]. cbn. destruct Hy as [->|Hy].
    - rewrite F, G. cbn. pose proof (@filter_le _ f g l H). lia.
    - specialize (IH Hy). pose proof (H x). destruct (f x); [rewrite H0 by reflexivity; cbn; lia|]. destruct (g x); cbn; lia.
  Qed.
  Lemma unvisited_cons b b' x : b_visited b' = x :: b_visited b -> (unvisited b' <= unvisited b)%nat /\ (In x xs -> ptr_mem x (b_visited b) = false -> (unvisited b' < unvisited b)%nat).
  Proof.
    intros E. unfold unvisited. rewrite E. assert (H : forall y, negb (ptr_mem y (x :: b_visited b)) = true -> negb (ptr_mem y (b_visited b)) = true).
    { intros y. unfold ptr_mem. cbn. destruct (N.eqb y x); cbn; [discriminate | auto]. }
    split; [now apply filter_le|]. intros Hx Hn. eapply filter_lt; [exact H | exact Hx | | now rewrite Hn].
    unfold ptr_mem. cbn. now rewrite N.eqb_refl.
  Qed.

  Definition fixed (g : memory) : Prop := m_content g = content /\ m_object g = object.

  Lemma exit_seen b r b' : exit_impl b = (b', r) -> unvisited b' = unvisited b.
  Proof. intros H. apply unvisited_same. rewrite <- (exit_visited b), H. reflexivity. Qed.
  Lemma inline_seen b k s r b' : enter_inline m b k s = (b', r) -> unvisited b' = unvisited b.
  Proof. intros H. apply unvisited_same. rewrite <- (inline_visited m b k s), H. reflexivity. Qed.
  Lemma unique_seen b k s r b' : enter_unique m b k s = (b', r) -> unvisited b' = unvisited b.
  Proof. intros H. apply unvisited_same. rewrite <- (unique_visited m b k s), H. reflexivity. Qed.

  Lemma step_weight std c c' n : fixed (k_mem c) -> cstep m std c c' -> weighs c n ->
    fixed (k_mem c') /\ ((unvisited (k_builder c') < unvisited (k_builder c))%nat \/ ((unvisited (k_builder c') <= unvisited (k_builder c))%nat /\ exists n', weighs c' n' /\ (n' < n)%nat)).
  Proof.
    intros F H W. destruct H; unfold weighs in *; cbn [k_mem k_builder k_control k_stack] in *; (split; [exact F|]);
      try (apply exit_seen in H; rewrite H); try (apply inline_seen in H; rewrite H); try (apply unique_seen in H; rewrite H);
      try (destruct W as (i & j & W1 & W2 & ->); inversion W1; subst); try (match type of W2 with costs (_ :: _) _ => inversion W2; subst; cbn [rest_of] in * end);
      try (match type of W with costs (_ :: _) _ => inversion W; subst; cbn [rest_of] in * end);
      try (right; split; [lia|]; eexists; split; [eassumption | lia]);
      try (right; split; [lia|]; eexists; split; [do 2 eexists; split; [eassumption|]; split; [first [eassumption | econstructor; eassumption] | reflexivity] | lia]);
      try (right; split; [lia|]; exists 0%nat; split; [reflexivity | lia]).
    - (* a new pointer *)
      match type of H with enter_shared m ?b ?k ?s ?x = _ => pose proof (shared_visited m b k s x) as V end. rewrite H in V. destruct V as [V1 V2]. destruct (unvisited_cons V2) as [U1 U2].
      destruct F as [F1 F2]. rewrite F2 in *. destruct (object x) as [[o w]|] eqn:Ex.
      + left. apply U2; [apply Hxs; congruence | exact V1].
      + right. split; [exact U1|]. eexists. split; [do 2 eexists; split; [apply co_crash|]; split; [econstructor; eassumption | reflexivity]|]. cbn. lia.
    - match type of H with enter_shared m ?b ?k ?s ?x = _ => pose proof (shared_visited m b k s x) as V end. rewrite H in V. rewrite (@unvisited_same b b' V). right. split; [lia|].
      eexists. split; [do 2 eexists; split; [eassumption|]; split; [eassumption | reflexivity] | lia].
    - match type of H with enter_shared m ?b ?k ?s ?x = _ => pose proof (shared_visited m b k s x) as V end. rewrite H in V. right. destruct ret.
      + destruct V as [_ V2]. destruct (unvisited_cons V2) as [U1 _]. split; [exact U1|]. eexists. split; [eassumption | lia].
      + rewrite (@unvisited_same b b' V). split; [lia|]. eexists. split; [eassumption | lia].
    - destruct F as [F1 F2]. rewrite F1. right. split; [lia|]. eexists. split; [do 2 eexists; split; [eassumption|]; split; [econstructor; eassumption | reflexivity] | cbn; lia].
  Qed.

  Lemma unchanged_fixed std u : forall n c, fixed (k_mem c) -> (unvisited (k_builder c) <= u)%nat -> weighs c n -> Acc (fun c' c => unchanged_step m std c c') c.
  Proof.
    induction u as [u IHu] using (well_founded_induction lt_wf). induction n as [n IHn] using (well_founded_induction lt_wf).
    intros c F U W. constructor. intros c' (s & H). apply (@step_weight _ _ _ n) in H; [|exact F | exact W]. destruct H as [F' [L|[L (n' & W' & Ln)]]]; cbn [k_builder] in *.
    - destruct (weighs_some c') as (n' & W'). eapply IHu with (n := n'); [|exact F' | apply le_n | exact W']. lia.
    - eapply IHn; [exact Ln | exact F' | lia | exact W'].
  Qed.
End Ends.

Theorem unchanged_ends m std c : finite_memory (k_mem c) -> Acc (fun c' c => unchanged_step m std c c') c.
Proof.
  intros ((xs & Hx) & (rank & Hr)). destruct (@weighs_some m (m_content (k_mem c)) (m_object (k_mem c)) rank xs Hr Hx c) as (n & W).
  eapply unchanged_fixed; eauto. now split.
Qed.
