(** * Straight-line threads, and what they wait for. *)
From Verif Require Import Base KeyModel HMap FlameModel BuilderModel VisitorModel ImplModel LockModel LockSpec LockFacts PoolModel PoolSpec PoolFacts PoolProps WaitModel WaitSpec WaitFacts WaitProps.
Set Implicit Arguments.

Lemma C63_no_deadlock_lemma T m std (prog : program T) polite sp s0 bps us Y rank (D : nat -> Prop) :
  (forall l, lock_ok (locks s0 l)) -> all_idle (length bps) s0 -> executes m std prog polite sp (length bps) (process_start s0 bps us) Y ->
  (forall p, In p (map snd bps) -> ascending rank p) ->
  threads_wait m std prog polite (length bps) s0 us (fun l' _ l => (rank l' < rank l)%nat) ->
  ~ deadlocked polite (length bps) Y D.
Proof.
  intros Hk Hi HE HA HT [[t0 D0] HD]. pose proof (y_in_order Hk Hi HE HA HT) as HO. destruct (@rank_bound T bps Y rank) as [B HB].
  assert (Hl : (length (p_visits (y_pool Y)) <= length bps)%nat) by now rewrite (y_length HE).
  assert (W : forall t, D t -> exists l a, waiting (length bps) Y t l a) by (intros t Dt; destruct (HD t Dt) as (x & _ & l & a & Hw & _); eauto).
  assert (K : forall k t l a, D t -> waiting (length bps) Y t l a -> (B - rank l < k)%nat -> False).
  { induction k as [|k IH]; intros t l a Dt Hw Hr; [lia|].
    assert (X : exists t2 a2, D t2 /\ has Y t2 l a2).
    { destruct (HD t Dt) as (t1 & D1 & l1 & a1 & Hw1 & Ho). destruct (waiting_fun Hl Hw Hw1) as [<- <-].
      destruct Ho as [(a2 & Hh & _)|(-> & _ & _ & Hw2)]; [eauto|].
      destruct (HD t1 D1) as (t2 & D2 & l2 & a2 & Hw3 & Ho2). destruct (waiting_fun Hl Hw2 Hw3) as [<- <-].
      destruct Ho2 as [(a3 & Hh & _)|(C & _)]; [eauto | discriminate]. }
    destruct X as (t2 & a2 & D2 & Hh). destruct (W t2 D2) as (l2 & a3 & Hw2).
    pose proof (HO _ _ _ _ _ Hw2 Hh). pose proof (HB _ _ _ Hw2). pose proof (HB _ _ _ Hw). apply (IH t2 l2 a3 D2 Hw2). lia. }
  destruct (W t0 D0) as (l & a & Hw). apply (K _ _ _ _ D0 Hw (le_n _)).
Qed.

(** ** Guards of one thread *)
Definition is_of (t : nat) (a : access) (g : owner * access) : bool := owner_eqb (Other t) (fst g) && access_eqb a (snd g).
Definition guards_of (s : shared) (t : nat) (l : lock) (a : access) : nat := length (filter (is_of t a) (held (locks s l))).
Lemma has_guards s t l a : In (Other t, a) (held (locks s l)) -> (0 < guards_of s t l a)%nat.
Proof.
  intros H. unfold guards_of. assert (X : In (Other t, a) (filter (is_of t a) (held (locks s l)))).
  { apply filter_In. split; [exact H|]. unfold is_of. cbn. rewrite Nat.eqb_refl. destruct a; reflexivity. }
  destruct (filter (is_of t a) (held (locks s l))); [destruct X | cbn; lia].
Qed.
Lemma guards_of_acquire s t l a l' t' a' : guards_of (acquire s l (Other t) a) t' l' a' =
  ((if Nat.eqb t' t && N.eqb l l' && access_eqb a a' then 1 else 0) + guards_of s t' l' a')%nat.
Proof.
  unfold guards_of. cbn. rewrite N.eqb_sym. destruct (N.eqb_spec l l') as [->|]; cbn; [|now rewrite andb_false_r].
  unfold is_of at 1. cbn. destruct (Nat.eqb t' t); cbn; [|reflexivity]. destruct a, a'; reflexivity.
Qed.
Lemma filter_remove_of t a t' a' h : In (Other t, a) h ->
  length (filter (is_of t' a') (remove_guard (Other t) a h)) =
  (length (filter (is_of t' a') h) - (if Nat.eqb t' t && access_eqb a a' then 1 else 0))%nat.
Proof.
  unfold remove_guard. induction h as [|[o x] h IH]; [intros []|]. intros Hin. cbn [remove_one fst snd filter].
  destruct (owner_eqb (Other t) o && access_eqb a x) eqn:E.
  - apply andb_prop in E as [E1 E2]. destruct (owner_eqb_spec (Other t) o); [subst o|discriminate]. destruct (access_eqb_spec a x); [subst x|discriminate].
    unfold is_of at 2. cbn. destruct (Nat.eqb t' t); cbn; [|now rewrite Nat.sub_0_r]. destruct a, a'; cbn; lia.
  - destruct Hin as [Hin|Hin]; [inversion Hin; subst; cbn in E; rewrite Nat.eqb_refl in E; destruct a; discriminate|].
    specialize (IH Hin). cbn [filter]. destruct (is_of t' a' (o, x)) eqn:F; [|exact IH]. cbn [length]. rewrite IH.
    destruct (Nat.eqb t' t && access_eqb a a') eqn:G; [|lia].
    apply andb_prop in G as [G1 G2]. apply Nat.eqb_eq in G1. subst t'. destruct (access_eqb_spec a a'); [subst a'|discriminate].
    pose proof (@has_guards (mkShared (fun _ => mkLock h false) (fun _ => [])) t 0 a Hin) as P. unfold guards_of in P. cbn in P. lia.
Qed.
Lemma guards_of_release s t l a p l' t' a' : In (Other t, a) (held (locks s l)) -> guards_of (release s l (Other t) a p) t' l' a' =
  (guards_of s t' l' a' - (if Nat.eqb t' t && N.eqb l l' && access_eqb a a' then 1 else 0))%nat.
Proof.
  intros H. unfold guards_of. cbn. rewrite N.eqb_sym. destruct (N.eqb_spec l l') as [->|]; cbn.
  - rewrite filter_remove_of by exact H. now rewrite andb_true_r.
  - rewrite andb_false_r. cbn. lia.
Qed.

(** ** Straight-line threads *)
Definition at_point (base : nat) (s : shared) (us : list (list deed)) (j : nat) (h : thread (list deed)) : Prop :=
  exists past, nth_error us j = Some (rev past ++ h_state h) /\
    match h_wants h with
    | None => forall l a, guards_of s (base + j) l a = still_has past l a
    | Some (l0, a0) => exists past', past = Ask l0 a0 :: past' /\ forall l a, guards_of s (base + j) l a = still_has past' l a
    end.

Lemma at_point_other base s s' us j h : (forall l a, guards_of s' (base + j) l a = guards_of s (base + j) l a) ->
  at_point base s us j h -> at_point base s' us j h.
Proof.
  intros E (past & H1 & H2). exists past. split; [exact H1|]. destruct (h_wants h) as [[l0 a0]|].
  - destruct H2 as (past' & -> & H2). exists past'. split; [reflexivity|]. intros l a. now rewrite E.
  - intros l a. now rewrite E.
Qed.

Lemma points_step m std polite base (Y Y' : process (list deed)) us : moves m std straight polite true base Y Y' -> p_visits (y_pool Y) = [] ->
  (forall j h, nth_error (y_threads Y) j = Some h -> at_point base (p_shared (y_pool Y)) us j h) ->
  p_visits (y_pool Y') = [] /\ (forall j h, nth_error (y_threads Y') j = Some h -> at_point base (p_shared (y_pool Y')) us j h).
Proof.
  intros Hm HV HP. destruct Hm as [i P P' hs H _|j s vs h s' h' hs Hj H|s l vs hs|s x t vs hs Ht Hx|s x t vs hs Ht Hx]; cbn [y_pool p_visits p_shared y_threads] in *.
  - destruct H. cbn [p_visits] in HV. subst vs. rewrite nth_error_nil in H || destruct i; discriminate.
  - split; [exact HV|]. intros j' h1 Hj'.
    assert (O : forall t l a, t <> (base + j)%nat -> guards_of s' t l a = guards_of s t l a).
    { intros t l a Hne. apply Nat.eqb_neq in Hne. inversion H; subst; try reflexivity; rewrite ?guards_of_acquire, ?guards_of_release, Hne by assumption; cbn; lia. }
    destruct (Nat.eq_dec j' j) as [->|Hne].
    + rewrite (nth_upd_eq _ Hj) in Hj'. inversion Hj'; subst h1. clear Hj'.
      destruct (HP j h Hj) as (past & P1 & P2). inversion H; subst; cbn [h_state h_wants] in *; unfold straight in *; subst.
      * exists (Work :: past). cbn [rev h_state h_wants]. rewrite <- app_assoc. split; [exact P1 | exact P2].
      * exists (Ask l a :: past). cbn [rev h_state h_wants]. rewrite <- app_assoc. split; [exact P1|]. exists past. split; [reflexivity | exact P2].
      * exists past. split; [exact P1|]. destruct P2 as (past' & -> & P2). intros l' a'. rewrite guards_of_acquire, Nat.eqb_refl, P2. cbn.
        destruct (N.eqb l l'), a, a'; reflexivity.
      * exists (Attempt l a true :: past). cbn [rev h_state h_wants]. rewrite <- app_assoc. split; [exact P1|]. intros l' a'. rewrite guards_of_acquire, Nat.eqb_refl, P2. cbn.
        destruct (N.eqb l l'), a, a'; reflexivity.
      * exists (Attempt l a false :: past). cbn [rev h_state h_wants]. rewrite <- app_assoc. split; [exact P1 | exact P2].
      * exists (Give l a p :: past). cbn [rev h_state h_wants]. rewrite <- app_assoc. split; [exact P1|]. intros l' a'. rewrite guards_of_release by assumption. rewrite Nat.eqb_refl, P2. cbn.
        destruct (N.eqb l l'), a, a'; reflexivity.
    + rewrite nth_upd_ne in Hj' by auto. eapply at_point_other; [|apply HP, Hj']. intros l a. apply O. lia.
  - split; [exact HV|]. intros j h Hj. eapply at_point_other; [|apply HP, Hj]. intros l0 a. unfold guards_of. cbn. destruct (N.eqb_spec l0 l) as [->|]; reflexivity.
  - split; [exact HV|]. intros j h Hj. eapply at_point_other; [|apply HP, Hj]. reflexivity.
  - split; [exact HV|]. intros j h Hj. eapply at_point_other; [|apply HP, Hj]. reflexivity.
Qed.

Lemma asks_well_at R : forall past0 past u l a l' a', asks_well R past0 (rev (Ask l a :: past) ++ u) ->
  (0 < still_has (past ++ past0) l' a')%nat -> R l' a' l.
Proof.
  intros past0 past u l a l' a'. revert past0. 
  assert (G : forall w past0, asks_well R past0 (w ++ Ask l a :: u) -> (0 < still_has (rev w ++ past0) l' a')%nat -> R l' a' l).
  { induction w as [|d w IH]; intros past0 H.
    - destruct H as [H _]. exact (H l' a').
    - destruct H as [_ H]. cbn [rev]. rewrite <- app_assoc. now apply IH. }
  intros past0 H H0. apply (G (rev past) past0); [|now rewrite rev_involutive]. cbn [rev] in H. now rewrite <- app_assoc in H.
Qed.

Lemma C63_straight_lemma m std polite base s us R :
  (forall l t a, (base <= t)%nat -> ~ In (Other t, a) (held (locks s l))) ->
  Forall (asks_well R []) us -> threads_wait m std straight polite base s us R.
Proof.
  intros H0 HW Y t l a l' a' HE Hw Hh.
  assert (I0 : p_visits (y_pool (process_start s [] us)) = [] /\
               forall j h, nth_error (y_threads (process_start s [] us)) j = Some h -> at_point base (p_shared (y_pool (process_start s [] us))) us j h).
  { split; [reflexivity|]. cbn. intros j h Hj. rewrite nth_error_map in Hj. destruct (nth_error us j) as [u|] eqn:E; [|discriminate]. inversion Hj; subst h.
    exists []. split; [exact E|]. cbn. intros l0 a0. destruct (guards_of s (base + j) l0 a0) eqn:G; [reflexivity|]. exfalso.
    unfold guards_of in G. destruct (filter (is_of (base + j) a0) (held (locks s l0))) as [|[o x] r] eqn:F; [discriminate|].
    assert (X : In (o, x) (filter (is_of (base + j) a0) (held (locks s l0)))) by (rewrite F; now left).
    apply filter_In in X as [X1 X2]. apply andb_prop in X2 as [X2 _]. cbn in X2. destruct o as [|t0]; [discriminate|]. apply Nat.eqb_eq in X2. subst t0.
    eapply (H0 l0 (base + j)%nat); [lia | exact X1]. }
  assert (I1 : p_visits (y_pool Y) = [] /\ forall j h, nth_error (y_threads Y) j = Some h -> at_point base (p_shared (y_pool Y)) us j h).
  { revert I0. clear - HE. induction HE as [Y|Y Y1 Y2 H _ IH]; intros [I1 I2]; [auto|]. apply IH. eapply points_step; eauto. }
  destruct I1 as [I1 I2]. destruct Hw as [(v & b & r & Hv & _)|(j & h & -> & Hj & Hw)].
  - rewrite I1 in Hv. destruct t; discriminate.
  - destruct (I2 j h Hj) as (past & P1 & P2). rewrite Hw in P2. destruct P2 as (past' & -> & P2).
    apply has_guards in Hh. rewrite P2 in Hh.
    rewrite Forall_forall in HW. specialize (HW _ (nth_error_In _ _ P1)). eapply asks_well_at; [exact HW|]. now rewrite app_nil_r.
Qed.

(** ** Steps of a visit in concrete executions: the state stays small *)
Section Stepping.
  Variables (T : Type) (m : mode) (std : lock -> bool) (prog : program T) (polite : lock -> bool) (sp : bool) (base : nat)
            (i : nat) (s : shared) (vs : list visiting) (hs : list (thread T)) (b b' : builder) (st : list frame) (Y : process T).
  Notation ex := (executes m std prog polite sp base).
  Notation at_ s k st := (mkProc (mkPool s k) st).

  Lemma go s1 s' k k' st' b1 : nth_error vs i = Some (mkVis b (Exec k) st) ->
    vstep m std (mkConf (view i s) b (Exec k) st) (mkConf s1 b1 k' st') -> same (view i s') s1 ->
    (forall l a body rest, k = LWait l a body rest -> admitted polite hs l a) ->
    ex (mkProc (mkPool s' (upd vs i (mkVis b1 k' st'))) hs) Y -> ex (mkProc (mkPool s vs) hs) Y.
  Proof.
    intros Hv H Hs Ha HE. eapply ex_step; [|exact HE]. eapply (@y_visit _ _ _ _ _ _ _ i); [eapply turn_visit; [exact Hv | exact H | exact Hs]|].
    intros v l a body rest Hv' Hc. cbn [p_visits] in Hv'. rewrite Hv in Hv'. inversion Hv'; subst v. cbn in Hc. inversion Hc; subst. eapply Ha; reflexivity.
  Qed.
  Lemma go_exit rest st' : nth_error vs i = Some (mkVis b (Exec LRet) (FScope rest :: st')) -> exit_impl b = (b', Fine) ->
    ex (mkProc (mkPool s (upd vs i (mkVis b' (Exec rest) st'))) hs) Y -> ex (mkProc (mkPool s vs) hs) Y.
  Proof.
    intros Hv Hx HE. eapply ex_step; [|exact HE]. eapply (@y_visit _ _ _ _ _ _ _ i); [eapply turn_visit; [exact Hv | cbn; eapply s_exit; exact Hx | apply same_refl]|].
    intros v l a body rest' Hv' Hc. cbn [p_visits] in Hv'. rewrite Hv in Hv'. inversion Hv'; subst v. discriminate.
  Qed.
  Lemma go_unlock l a rest st' : nth_error vs i = Some (mkVis b (Exec LRet) (FGuard l a rest :: st')) ->
    ex (mkProc (mkPool (release s l (Other i) a false) (upd vs i (mkVis b (Exec rest) st'))) hs) Y -> ex (mkProc (mkPool s vs) hs) Y.
  Proof.
    intros Hv HE. eapply ex_step; [|exact HE]. eapply (@y_visit _ _ _ _ _ _ _ i); [eapply turn_visit; [exact Hv | cbn; eapply s_unlock |]|].
    - eapply same_trans; [apply view_release|]. rewrite seat_mine. apply same_refl.
    - intros v l' a' body rest' Hv' Hc. cbn [p_visits] in Hv'. rewrite Hv in Hv'. inversion Hv'; subst v. discriminate.
  Qed.
  Lemma go_inline k n body rest : nth_error vs i = Some (mkVis b (Exec (LInline k n body rest)) st) -> enter_inline m b k n = (b', Fine) ->
    ex (mkProc (mkPool s (upd vs i (mkVis b' (Exec body) (FScope rest :: st)))) hs) Y -> ex (mkProc (mkPool s vs) hs) Y.
  Proof. intros Hv H HE. eapply go; [exact Hv | eapply s_inline; exact H | apply same_refl | discriminate | exact HE]. Qed.
  Lemma go_unique k n body rest : nth_error vs i = Some (mkVis b (Exec (LUnique k n body rest)) st) -> enter_unique m b k n = (b', Fine) ->
    ex (mkProc (mkPool s (upd vs i (mkVis b' (Exec body) (FScope rest :: st)))) hs) Y -> ex (mkProc (mkPool s vs) hs) Y.
  Proof. intros Hv H HE. eapply go; [exact Hv | eapply s_unique; exact H | apply same_refl | discriminate | exact HE]. Qed.
  Lemma go_try l a body rest : nth_error vs i = Some (mkVis b (Exec (LTry l a body rest)) st) ->
    available (locks s l) a -> poisoned (locks s l) = false ->
    ex (mkProc (mkPool (acquire s l (Other i) a) (upd vs i (mkVis b (Exec body) (FGuard l a rest :: st)))) hs) Y -> ex (mkProc (mkPool s vs) hs) Y.
  Proof.
    intros Hv Ha Hp HE. eapply go; [exact Hv | eapply s_try; [now apply view_available | exact Hp] | | discriminate | exact HE].
    eapply same_trans; [apply view_acquire|]. rewrite seat_mine. apply same_refl.
  Qed.
  Lemma go_wait l a body rest : nth_error vs i = Some (mkVis b (Exec (LWait l a body rest)) st) ->
    available (locks s l) a -> admitted polite hs l a ->
    ex (mkProc (mkPool (acquire s l (Other i) a) (upd vs i (mkVis b (Exec body) (FGuard l a rest :: st)))) hs) Y -> ex (mkProc (mkPool s vs) hs) Y.
  Proof.
    intros Hv Ha Hd HE. eapply go; [exact Hv | eapply s_wait; now apply view_available | | intros ? ? ? ? E; inversion E; subst; exact Hd | exact HE].
    eapply same_trans; [apply view_acquire|]. rewrite seat_mine. apply same_refl.
  Qed.
End Stepping.
