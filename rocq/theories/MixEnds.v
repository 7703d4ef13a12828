(** * Lemmas for property C64: a visit of memory that does not change comes to an end. *)
From Verif Require Import Base BaseFacts KeyModel KeyFacts HMap FlameModel BuilderModel BuilderFacts VisitorModel Spec LayoutModel ImplModel
  LockModel LockSpec LockFacts SnapshotModel SnapshotRun DashModel DashSpec MixModel MixSpec MixRun.

#[local] Arguments key_new : simpl never.

Section Ends.
  Variable m : mode.
  Variable content : lock -> xvalue.
  Variable object : ptr -> option (inner * xvalue).
  Variable table : lock -> xtable.
  Variable rank : lock -> nat.
  Variable xs : list ptr.
  Hypothesis Hrank : forall l l', In l' (xlocks (content l)) -> (rank l' < rank l)%nat.
  Hypothesis Htable : forall l l' e w, In e (tb_entries (table l)) -> of_entry w e -> In l' (xlocks w) -> (rank l' < rank l)%nat.
  Hypothesis Hxs : forall x, object x <> None -> In x xs.

  (** How many steps a piece of code takes, apart from what is behind pointers. *)
  Inductive cost : xcode -> nat -> Prop :=
  | co_ret : cost XRet 0
  | co_crash : cost XCrash 1
  | co_inline k s b r i j : cost b i -> cost r j -> cost (XInline k s b r) (2 + i + j)
  | co_unique k s b r i j : cost b i -> cost r j -> cost (XUnique k s b r) (2 + i + j)
  | co_shared k s x r j : cost r j -> cost (XShared k s x r) (3 + j)
  | co_try l a f r i j : cost (xopened f (content l)) i -> cost r j -> cost (XTry l a f r) (2 + i + j)
  | co_upgrade x b r i j : cost b i -> cost r j -> cost (XUpgrade x b r) (2 + i + j)
  | co_visit v r i j : cost (ximplementation m v) i -> cost r j -> cost (XVisit v r) (2 + i + j)
  | co_sum_done w acc k i : cost (k acc) i -> cost (XSum w [] acc k) (1 + i)
  | co_sum w l ls acc k n i : uadd m acc (count w (table l)) = Some n -> cost (XSum w ls n k) i -> cost (XSum w (l :: ls) acc k) (1 + i)
  | co_sum_over w l ls acc k : uadd m acc (count w (table l)) = None -> cost (XSum w (l :: ls) acc k) 1
  | co_iter_done kd r j : cost r j -> cost (XIter kd [] r) (1 + j)
  | co_iter kd l ls r i j : cost (xentries kd (tb_entries (table l))) i -> cost (XIter kd ls r) j -> cost (XIter kd (l :: ls) r) (2 + i + j).

  Lemma cost_calls cs p : Forall (fun c => exists n, cost (ximplementation m c) n) cs -> exists n, cost (xcalls cs p) n.
  Proof.
    intros Hc. induction p as [| |k s b (i & H1) r (j & H2)|k s b (i & H1) r (j & H2)|k s x b _ r (j & H1) r2 _]; cbn [xcalls]; try (eexists; econstructor; eauto; fail).
    destruct (nth_error cs (N.to_nat x)) as [c|] eqn:Ec; [|eauto]. apply nth_error_In in Ec. rewrite Forall_forall in Hc.
    destruct (Hc _ Ec) as (i & H2). eexists; econstructor; eauto.
  Qed.
  Lemma cost_pointers p : exists n, cost (xpointers p) n.
  Proof. induction p as [| |k s b (i & H1) r (j & H2)|k s b (i & H1) r (j & H2)|k s x b _ r (j & H1) r2 _]; cbn [xpointers]; eexists; econstructor; eauto. Qed.
  Lemma cost_opened f l n : cost (ximplementation m (content l)) n -> exists n', cost (xopened f (content l)) n'.
  Proof. intros H. unfold xopened. destruct f; eexists; repeat (econstructor; eauto). Qed.
  Lemma cost_with o f : (forall n, exists i, cost (f n) i) -> exists i, cost (xwith o f) i.
  Proof. intros H. destruct o; cbn; [apply H | eexists; constructor]. Qed.
  Lemma cost_sum w k : (forall n, exists i, cost (k n) i) -> forall ls acc, exists i, cost (XSum w ls acc k) i.
  Proof.
    intros H. induction ls as [|l ls IH]; intros acc.
    - destruct (H acc) as (i & Hi). eexists; econstructor; eauto.
    - destruct (uadd m acc (count w (table l))) as [n|] eqn:E; [|eexists; now apply co_sum_over]. destruct (IH n) as (i & Hi). eexists; eapply co_sum; eauto.
  Qed.
  Lemma cost_entries kd es : (forall e w, In e es -> of_entry w e -> exists n, cost (ximplementation m w) n) -> exists n, cost (xentries kd es) n.
  Proof.
    induction es as [|[k v] es IH]; intros H; [eexists; constructor|]. destruct IH as (j & Hj); [intros e w He; apply H; now right|].
    destruct (H (k, v) k (or_introl eq_refl) (or_introl eq_refl)) as (i1 & H1). destruct (H (k, v) v (or_introl eq_refl) (or_intror eq_refl)) as (i2 & H2).
    destruct kd; cbn; eexists; repeat (econstructor; eauto).
  Qed.
  Lemma cost_iter kd ls r : (forall l, In l ls -> exists n, cost (xentries kd (tb_entries (table l))) n) -> (exists j, cost r j) -> exists n, cost (XIter kd ls r) n.
  Proof.
    intros H (j & Hj). induction ls as [|l ls IH]; [eexists; econstructor; eauto|]. destruct IH as (i & Hi); [intros l' Hl; apply H; now right|].
    destruct (H l (or_introl eq_refl)) as (i1 & H1). eexists; eapply co_iter; eauto.
  Qed.

  Lemma cost_ranked r : forall v, (forall l, In l (xlocks v) -> (rank l < r)%nat) -> exists n, cost (ximplementation m v) n.
  Proof.
    induction r as [r IHr] using (well_founded_induction lt_wf).
    induction v as [s cs IH|t l a|t l|t t' ps x|kd t e ls] using xvalue_induction; cbn [xlocks]; intros Hl.
    - assert (Hc : Forall (fun c => exists n, cost (ximplementation m c) n) cs).
      { rewrite Forall_forall in *. intros c Hin. apply IH; [exact Hin|]. intros l Hlc. apply Hl. apply in_concat. exists (xlocks c). split; [apply in_map, Hin | exact Hlc]. }
      pose proof (cost_calls (visit_shape m unseen s (placeholders 0 (map xsize cs))) Hc) as C. pose proof (cost_pointers (visit_shape m unseen s [])) as P.
      destruct s; first [exact C | exact P].
    - destruct (IHr (rank l) (Hl l (or_introl eq_refl)) (content l)) as (n & Hn); [intros l' Hl'; now apply Hrank|].
      destruct (@cost_opened true l n Hn) as (n' & Hn'). eexists; repeat (econstructor; eauto).
    - destruct (IHr (rank l) (Hl l (or_introl eq_refl)) (content l)) as (n & Hn); [intros l' Hl'; now apply Hrank|].
      destruct (@cost_opened false l n Hn) as (n' & Hn'). eexists; repeat (econstructor; eauto).
    - cbn [ximplementation]. destruct (cost_pointers (impl_shared_ptr unseen t' ps x)) as (n & Hn). eexists; repeat (econstructor; eauto).
    - assert (HI : forall l, In l ls -> exists n, cost (xentries kd (tb_entries (table l))) n).
      { intros l Hin. apply cost_entries. intros en w He Hw. apply (IHr (rank l) (Hl l Hin)). intros l' Hl'. eapply Htable; eauto. }
      cbn [ximplementation]. unfold xdash.
      match goal with |- context [XSum Capacity ls 0 ?k] => destruct (@cost_sum Capacity k) with (ls := ls) (acc := 0) as (i & Hi) end.
      { intros c. apply cost_with. intros tot.
        match goal with |- context [XIter kd ls ?r] => destruct (@cost_iter kd ls r HI) as (i & Hi) end.
        { apply cost_sum. intros c'. apply cost_sum. intros n. apply cost_with. intros sz. eexists; repeat econstructor. }
        eexists. eapply co_inline; [exact Hi | constructor]. }
      eexists. eapply co_inline; [|constructor]. eapply co_unique; [exact Hi | constructor].
  Qed.
  Lemma some_bound (ls : list lock) : exists r, forall l, In l ls -> (rank l < r)%nat.
  Proof.
    induction ls as [|l ls (r & IH)]; [exists 0%nat; intros l []|]. exists (Nat.max (S (rank l)) r). intros l' [<-|H]; [lia|]. specialize (IH _ H). lia.
  Qed.
  Lemma cost_value v : exists n, cost (ximplementation m v) n.
  Proof. destruct (some_bound (xlocks v)) as (r & Hr). eapply cost_ranked, Hr. Qed.
  Lemma cost_shard kd l : exists n, cost (xentries kd (tb_entries (table l))) n.
  Proof. apply cost_entries. intros e w _ _. apply cost_value. Qed.
  Lemma cost_code p : exists n, cost p n.
  Proof.
    induction p as [| |k s b (i & H1) r (j & H2)|k s b (i & H1) r (j & H2)|k s x r (j & H1)|l a f r (j & H1)|x b (i & H1) r (j & H2)|v r (j & H1)|w ls acc k IH|kd ls r IH]; try (eexists; econstructor; eauto; fail).
    - destruct (cost_value (content l)) as (n & Hn). destruct (@cost_opened f l n Hn) as (n' & Hn'). eexists; econstructor; eauto.
    - destruct (cost_value v) as (n & Hn). eexists; econstructor; eauto.
    - now apply cost_sum.
    - apply cost_iter; [|exact IH]. intros l _. apply cost_shard.
  Qed.

  (** What is left to do when a frame is on top: the later shards too. *)
  Definition left_of (f : xframe) : xcode := match f with YScope r | YGuard _ _ r | YArc _ r | YThen r => r | YShard kd _ ls r => XIter kd ls r end.
  Inductive costs : list xframe -> nat -> Prop :=
  | cs_nil : costs [] 0
  | cs_cons f st i j : cost (left_of f) i -> costs st j -> costs (f :: st) (1 + i + j).
  Lemma costs_some st : exists n, costs st n.
  Proof. induction st as [|f st (j & IH)]; [eexists; constructor|]. destruct (cost_code (left_of f)) as (i & Hi). eexists; econstructor; eauto. Qed.
  Definition weighs (c : xconf) (n : nat) : Prop :=
    match xk_control c with
    | XRun p => exists i j, cost p i /\ costs (xk_stack c) j /\ n = (i + j)%nat
    | XUnwinds => costs (xk_stack c) n
    | XLost => n = 0%nat
    end.
  Lemma weighs_some c : exists n, weighs c n.
  Proof.
    unfold weighs. destruct (costs_some (xk_stack c)) as (j & Hj). destruct (xk_control c) as [p| |]; eauto. destruct (cost_code p) as (i & Hi). eauto 10.
  Qed.
  (** The allocations not visited yet. *)
  Definition unseen_yet (b : builder) : nat := length (filter (fun x => negb (ptr_mem x (b_visited b))) xs).
  Lemma unseen_same b b' : b_visited b' = b_visited b -> unseen_yet b' = unseen_yet b.
  Proof. unfold unseen_yet. now intros ->. Qed.
  Lemma filter_le {A} (f g : A -> bool) l : (forall x, f x = true -> g x = true) -> (length (filter f l) <= length (filter g l))%nat.
  Proof. intros H. induction l as [|x l IH]; cbn; [lia|]. specialize (H x). destruct (f x); [rewrite H by reflexivity; cbn; lia|]. destruct (g x); cbn; lia. Qed.
  Lemma filter_lt {A} (f g : A -> bool) l y : (forall x, f x = true -> g x = true) -> In y l -> f y = false -> g y = true -> (length (filter f l) < length (filter g l))%nat.
  Proof.
    intros H Hy F G. induction l as [|x l IH]; [destruct Hy|]. cbn. destruct Hy as [->|Hy].
    - rewrite F, G. cbn. pose proof (@filter_le _ f g l H). lia.
    - specialize (IH Hy). pose proof (H x). destruct (f x); [rewrite H0 by reflexivity; cbn; lia|]. destruct (g x); cbn; lia.
  Qed.
  Lemma unseen_cons b b' x : b_visited b' = x :: b_visited b -> (unseen_yet b' <= unseen_yet b)%nat /\ (In x xs -> ptr_mem x (b_visited b) = false -> (unseen_yet b' < unseen_yet b)%nat).
  Proof.
    intros E. unfold unseen_yet. rewrite E. assert (H : forall y, negb (ptr_mem y (x :: b_visited b)) = true -> negb (ptr_mem y (b_visited b)) = true).
    { intros y. unfold ptr_mem. cbn. destruct (N.eqb y x); cbn; [discriminate | auto]. }
    split; [now apply filter_le|]. intros Hx Hn. eapply filter_lt; [exact H | exact Hx | | now rewrite Hn].
    unfold ptr_mem. cbn. now rewrite N.eqb_refl.
  Qed.

  Definition fixed (g : xmemory) : Prop := x_content g = content /\ x_object g = object /\ x_table g = table.

  Lemma exit_seen b r b' : exit_impl b = (b', r) -> unseen_yet b' = unseen_yet b.
  Proof. intros H. apply unseen_same. rewrite <- (exit_visited b), H. reflexivity. Qed.
  Lemma inline_seen b k s r b' : enter_inline m b k s = (b', r) -> unseen_yet b' = unseen_yet b.
  Proof. intros H. apply unseen_same. rewrite <- (inline_visited m b k s), H. reflexivity. Qed.
  Lemma unique_seen b k s r b' : enter_unique m b k s = (b', r) -> unseen_yet b' = unseen_yet b.
  Proof. intros H. apply unseen_same. rewrite <- (unique_visited m b k s), H. reflexivity. Qed.

  Lemma step_weight std c c' n : fixed (xk_mem c) -> xstep m std c c' -> weighs c n ->
    fixed (xk_mem c') /\ ((unseen_yet (xk_builder c') < unseen_yet (xk_builder c))%nat \/ ((unseen_yet (xk_builder c') <= unseen_yet (xk_builder c))%nat /\ exists n', weighs c' n' /\ (n' < n)%nat)).
  Proof.
    intros F H W. destruct H; unfold weighs in *; cbn [xk_mem xk_builder xk_control xk_stack] in *; (split; [exact F|]);
      try (apply exit_seen in H; rewrite H); try (apply inline_seen in H; rewrite H); try (apply unique_seen in H; rewrite H);
      destruct F as (F1 & F2 & F3); try rewrite F3 in *;
      try (destruct W as (i & j & W1 & W2 & ->); inversion W1; subst); try (match type of W2 with costs (_ :: _) _ => inversion W2; subst; cbn [left_of] in * end);
      try (match type of W with costs (_ :: _) _ => inversion W; subst; cbn [left_of] in * end);
      try congruence;
      try (right; split; [lia|]; eexists; split; [eassumption | lia]);
      try (right; split; [lia|]; eexists; split; [do 2 eexists; split; [eassumption|]; split; [first [eassumption | econstructor; eassumption] | reflexivity] | cbn; lia]);
      try (right; split; [lia|]; exists 0%nat; split; [reflexivity | lia]).
    all: try (match goal with X : cost (XIter _ _ _) _ |- _ => inversion X; subst end;
      right; split; [lia|]; eexists; split; [do 2 eexists; split; [eassumption|]; split; [first [eassumption | econstructor; eassumption] | reflexivity] | cbn; lia]).
    all: try (match goal with X : uadd m ?acc _ = Some _, Y : uadd m ?acc _ = Some _ |- _ => rewrite X in Y; injection Y as -> end;
      right; split; [lia|]; eexists; split; [do 2 eexists; split; [eassumption|]; split; [first [eassumption | econstructor; eassumption] | reflexivity] | cbn; lia]).
    - (* a new pointer *)
      match type of H with enter_shared m ?b ?k ?s ?x = _ => pose proof (shared_visited m b k s x) as V end. rewrite H in V. destruct V as [V1 V2]. destruct (unseen_cons V2) as [U1 U2].
      destruct (x_object g x) as [[o w]|] eqn:Ex.
      + left. apply U2; [apply Hxs; congruence | exact V1].
      + right. split; [exact U1|]. eexists. split; [do 2 eexists; split; [apply co_crash|]; split; [econstructor; eassumption | reflexivity]|]. cbn. lia.
    - match type of H with enter_shared m ?b ?k ?s ?x = _ => pose proof (shared_visited m b k s x) as V end. rewrite H in V. rewrite (@unseen_same b b' V). right. split; [lia|].
      eexists. split; [do 2 eexists; split; [eassumption|]; split; [eassumption | reflexivity] | lia].
    - match type of H with enter_shared m ?b ?k ?s ?x = _ => pose proof (shared_visited m b k s x) as V end. rewrite H in V. right. destruct ret.
      + destruct V as [_ V2]. destruct (unseen_cons V2) as [U1 _]. split; [exact U1|]. eexists. split; [eassumption | lia].
      + rewrite (@unseen_same b b' V). split; [lia|]. eexists. split; [eassumption | lia].
    - rewrite F1. right. split; [lia|]. eexists. split; [do 2 eexists; split; [eassumption|]; split; [econstructor; eassumption | reflexivity] | cbn; lia].
  Qed.

  Lemma unchanged_fixed std u : forall n c, fixed (xk_mem c) -> (unseen_yet (xk_builder c) <= u)%nat -> weighs c n -> Acc (fun c' c => xunchanged_step m std c c') c.
  Proof.
    induction u as [u IHu] using (well_founded_induction lt_wf). induction n as [n IHn] using (well_founded_induction lt_wf).
    intros c F U W. constructor. intros c' (s & H). apply (@step_weight _ _ _ n) in H; [|exact F | exact W]. destruct H as [F' [L|[L (n' & W' & Ln)]]]; cbn [xk_builder] in *.
    - destruct (weighs_some c') as (n' & W'). eapply IHu with (n := n'); [|exact F' | apply le_n | exact W']. lia.
    - eapply IHn; [exact Ln | exact F' | lia | exact W'].
  Qed.
End Ends.

Theorem xunchanged_ends m std c : xfinite (xk_mem c) -> Acc (fun c' c => xunchanged_step m std c c') c.
Proof.
  intros ((xs & Hx) & (rank & Hr & Ht)).
  destruct (@weighs_some m (x_content (xk_mem c)) (x_object (xk_mem c)) (x_table (xk_mem c)) rank xs Hr Ht Hx c) as (n & W).
  eapply unchanged_fixed with (xs := xs); eauto. repeat split.
Qed.
