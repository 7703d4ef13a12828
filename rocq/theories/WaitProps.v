(** * Proofs for C63. *)
From Verif Require Import Base KeyModel HMap FlameModel BuilderModel VisitorModel ImplModel LockModel LockSpec LockFacts PoolModel PoolSpec PoolFacts PoolProps WaitModel WaitSpec WaitFacts.
Set Implicit Arguments.

(** ** Locks met while inside other locks *)
Definition frame_locks (st : list frame) : list lock :=
  flat_map (fun f => match f with FGuard l _ _ => [l] | _ => [] end) st.
Fixpoint nested_stack (R : lock -> lock -> Prop) (st : list frame) : Prop :=
  match st with
  | [] => True
  | f :: st' => nested R (frame_locks st') (frame_rest f) /\ nested_stack R st'
  end.
Definition nested_conf (R : lock -> lock -> Prop) (c : config) : Prop :=
  (match c_control c with Exec q => nested R (frame_locks (c_stack c)) q | _ => True end) /\ nested_stack R (c_stack c).
Lemma nested_step m std R c c' : vstep m std c c' -> nested_conf R c -> nested_conf R c'.
Proof.
  intros H [H1 H2]. destruct H; unfold nested_conf in *; cbn [c_control c_stack nested_stack frame_rest frame_locks flat_map app nested] in *;
    fold (frame_locks st) in *; tauto.
Qed.
Lemma nested_runs m std R n c c' : runs m std n c c' -> nested_conf R c -> nested_conf R c'.
Proof.
  induction 1 as [c|n c c' c'' H _ IH|n s s' b k st c'' H _ IH]; intros F; [exact F | apply IH; eapply nested_step; eauto | apply IH; exact F].
Qed.

Section Run.
  Variables (T : Type) (m : mode) (std : lock -> bool) (prog : program T) (polite : lock -> bool) (sp : bool) (s0 : shared)
            (bps : list (builder * lprog)) (us : list T) (Y : process T).
  Hypothesis (Hk : forall l, lock_ok (locks s0 l)) (Hi : all_idle (length bps) s0)
             (HE : executes m std prog polite sp (length bps) (process_start s0 bps us) Y).
  Let base := length bps.

  Lemma y_joint : exists n, joint m std true n (pool_start s0 bps) (y_pool Y).
  Proof. eapply C63_profiles_lemma; eauto. Qed.
  Lemma y_length : length (p_visits (y_pool Y)) = base.
  Proof. destruct y_joint as [n J]. apply (reached_length J). Qed.

  Lemma y_nested R i v : nth_error (p_visits (y_pool Y)) i = Some v -> (forall p, In p (map snd bps) -> nested R [] p) ->
    forall l a body rest, v_control v = Exec (LWait l a body rest) -> forall l' a', has Y i l' a' -> R l' l.
  Proof.
    intros Hv HR l a body rest Hc l' a' Hh. destruct y_joint as [n J]. destruct (reached_prog J Hv) as (b & p & Hb).
    destruct (C54_each_lemma Hk Hi J Hb) as (n' & c & HRun & w & Hw & _ & E1 & E2 & _). rewrite Hv in Hw. inversion Hw; subst w.
    assert (F : nested_conf R (start (view i s0) b p)).
    { split; [|exact I]. cbn. apply HR. apply in_map_iff. exists (b, p). split; [reflexivity | eapply nth_error_In; eauto]. }
    apply (nested_runs HRun) in F. destruct F as [F _]. rewrite E1, Hc in F. cbn [nested] in F. destruct F as [F _]. apply F.
    rewrite E2. assert (O : opens (y_pool Y) i l' a').
    { eapply (held_open Hk Hi J); [exact Hv | rewrite Hc; discriminate | exact Hh]. }
    destruct O as (w & r & Hw' & Hin). rewrite Hv in Hw'. inversion Hw'; subst w.
    unfold frame_locks. apply in_flat_map. exists (FGuard l' a' r). split; [exact Hin | now left].
  Qed.

  Lemma y_waits_for i v l a body rest : nth_error (p_visits (y_pool Y)) i = Some v -> v_control v = Exec (LWait l a body rest) ->
    exists p, In p (map snd bps) /\ waits_for l p.
  Proof.
    intros Hv Hc. destruct y_joint as [n J]. destruct (reached_prog J Hv) as (b & p & Hb). exists p.
    split; [apply in_map_iff; exists (b, p); split; [reflexivity | eapply nth_error_In; eauto]|].
    destruct (reached_from Hk Hi J l Hv Hb) as (X & _). rewrite Hc in X. apply X. cbn. auto.
  Qed.
  Lemma y_reads i v l a body rest : nth_error (p_visits (y_pool Y)) i = Some v -> v_control v = Exec (LWait l a body rest) ->
    shards_are_read (map snd bps) -> a = ReadOnly.
  Proof.
    intros Hv Hc Hs. destruct a; [exfalso | reflexivity]. destruct y_joint as [n J]. destruct (reached_prog J Hv) as (b & p & Hb).
    assert (Hin : In p (map snd bps)) by (apply in_map_iff; exists (b, p); split; [reflexivity | eapply nth_error_In; eauto]).
    destruct (reached_from Hk Hi J l Hv Hb) as (X & _). rewrite Hc in X. destruct X as [X1 X2].
    apply (Hs p p l Hin Hin); [apply X1 | apply X2]; cbn; auto.
  Qed.
  Lemma y_visit_shares i v l a : nth_error (p_visits (y_pool Y)) i = Some v -> v_control v <> Gone -> has Y i l a ->
    shard_of (map snd bps) l -> shards_are_read (map snd bps) -> a = ReadOnly.
  Proof.
    intros Hv HG Hh (q & Hq & Hw) Hs. destruct a; [exfalso | reflexivity]. destruct y_joint as [n J]. destruct (reached_prog J Hv) as (b & p & Hb).
    assert (Hin : In p (map snd bps)) by (apply in_map_iff; exists (b, p); split; [reflexivity | eapply nth_error_In; eauto]).
    destruct (held_open Hk Hi J Hv HG Hh) as (w & r & Hw' & Hf). rewrite Hv in Hw'. inversion Hw'; subst w.
    destruct (reached_from Hk Hi J l Hv Hb) as (_ & X & _). apply X in Hf. exact (Hs q p l Hq Hin Hw Hf).
  Qed.

  (** What the threads do on their own, they do here. *)
  Lemma y_threads_wait R : threads_wait m std prog polite base s0 us R ->
    forall t l a l' a', (base <= t)%nat -> waiting base Y t l a -> has Y t l' a' -> R l' a' l.
  Proof.
    intros HR t l a l' a' Hb Hw Hh.
    destruct (C63_application_lemma Hi (or_introl eq_refl : true = true \/ never_tries prog) HE) as (Y0 & E0 & V0 & T0 & L0).
    eapply HR; [exact E0 | |].
    - destruct Hw as [(v & b & r & Hv & _)|(j & h & Ht & Hj & Hw)].
      + assert (t < base)%nat by (rewrite <- y_length; apply nth_error_Some; congruence). lia.
      + right. exists j, h. rewrite T0. split; [exact Ht|]. split; [exact Hj|]. exact Hw.
    - unfold has in *. rewrite L0. apply filter_In. split; [exact Hh|]. cbn. now apply Nat.leb_le.
  Qed.

  (** A deadlock without visits is one of the threads. *)
  Lemma threads_deadlock (D : nat -> Prop) : (forall t, D t -> (base <= t)%nat) -> deadlocked polite base Y D ->
    exists Y0, executes m std prog polite true base (process_start s0 [] us) Y0 /\ without_profiles base Y Y0 /\ deadlocked polite base Y0 D.
  Proof.
    intros HD [HD0 HD1].
    destruct (C63_application_lemma Hi (or_introl eq_refl : true = true \/ never_tries prog) HE) as (Y0 & E0 & W0). exists Y0.
    split; [exact E0|]. split; [exact W0|]. destruct W0 as (V0 & T0 & L0).
    assert (HW : forall t l a, (base <= t)%nat -> waiting base Y t l a -> waiting base Y0 t l a).
    { intros t l a Hb [(v & b & r & Hv & _)|(j & h & Ht & Hj & Hw)].
      - assert (t < base)%nat by (rewrite <- y_length; apply nth_error_Some; congruence). lia.
      - right. exists j, h. rewrite T0. auto. }
    split; [exact HD0|]. intros t Dt. destruct (HD1 t Dt) as (t' & Dt' & l & a & Hw & Ho). exists t'. split; [exact Dt'|].
    exists l, a. split; [apply HW; auto|]. destruct Ho as [(a' & Hh & Hc)|(-> & Hp & Hge & Hw')]; [left | right].
    - exists a'. split; [|exact Hc]. unfold has in *. rewrite L0. apply filter_In. split; [exact Hh|]. cbn. apply Nat.leb_le. auto.
    - repeat split; auto.
  Qed.

  Lemma C63_no_dash_lemma (D : nat -> Prop) : (forall p, In p (map snd bps) -> no_waiting p) -> deadlocked polite base Y D ->
    exists Y0, executes m std prog polite true base (process_start s0 [] us) Y0 /\ without_profiles base Y Y0 /\ deadlocked polite base Y0 D.
  Proof.
    intros HN HD. apply threads_deadlock; [|exact HD]. intros t Dt. destruct (proj2 HD t Dt) as (t' & _ & l & a & Hw & _).
    destruct Hw as [(v & b & r & Hv & Hc)|(j & h & -> & _)]; [exfalso | lia].
    destruct y_joint as [n J]. destruct (reached_prog J Hv) as (b0 & p & Hb).
    destruct (C54_each_lemma Hk Hi J Hb) as (n' & c & HRun & w & Hw & _ & E1 & E2 & _). rewrite Hv in Hw. inversion Hw; subst w.
    assert (C : calm (start (view t s0) b0 p)).
    { split; cbn; [|constructor]. apply HN. apply in_map_iff. exists (b0, p). split; [reflexivity | eapply nth_error_In; eauto]. }
    apply (calm_runs HRun) in C. destruct C as [C _]. rewrite E1, Hc in C. exact C.
  Qed.

  Lemma C63_shards_lemma (D : nat -> Prop) : shards_are_read (map snd bps) -> (forall l, shard_of (map snd bps) l -> polite l = false) ->
    threads_wait m std prog polite base s0 us (fun l' a' _ => a' = Exclusive -> ~ shard_of (map snd bps) l') ->
    deadlocked polite base Y D ->
    exists Y0, executes m std prog polite true base (process_start s0 [] us) Y0 /\ without_profiles base Y Y0 /\ deadlocked polite base Y0 D.
  Proof.
    intros Hs Hp HT HD. apply threads_deadlock; [|exact HD]. intros t Dt. destruct (proj2 HD t Dt) as (t' & Dt' & l & a & Hw & Ho).
    destruct Hw as [(v & b & r & Hv & Hc)|(j & h & -> & _)]; [exfalso | lia].
    pose proof (y_waits_for Hv Hc) as Hsh. pose proof (y_reads Hv Hc Hs) as ->.
    destruct Ho as [(a' & Hh & [C| ->])|(_ & Hpl & _)]; [discriminate | | rewrite (Hp l Hsh) in Hpl; discriminate].
    destruct (proj2 HD t' Dt') as (t'' & _ & l2 & a2 & Hw2 & _). pose proof Hw2 as Hw2'.
    destruct Hw2 as [(v' & b' & r' & Hv' & Hc')|(j & h & E & _)].
    - assert (X : Exclusive = ReadOnly) by (eapply (y_visit_shares Hv'); [rewrite Hc'; discriminate | exact Hh | exact Hsh | exact Hs]). discriminate.
    - refine (y_threads_wait HT _ Hw2' Hh eq_refl Hsh). lia.
  Qed.

  Lemma C63_one_profile_lemma (D : nat -> Prop) : length bps = 1%nat -> shards_are_read (map snd bps) ->
    (forall p, In p (map snd bps) -> nested (fun l' l => l' <> l) [] p) ->
    threads_wait m std prog polite base s0 us (fun l' _ _ => ~ shard_of (map snd bps) l') ->
    deadlocked polite base Y D ->
    exists Y0, executes m std prog polite true base (process_start s0 [] us) Y0 /\ without_profiles base Y Y0 /\ deadlocked polite base Y0 D.
  Proof.
    intros H1 Hs Hne HT HD. apply threads_deadlock; [|exact HD]. intros t Dt. destruct (proj2 HD t Dt) as (t' & Dt' & l & a & Hw & Ho).
    destruct Hw as [(v & b & r & Hv & Hc)|(j & h & -> & _)]; [exfalso | lia].
    assert (Ht : t = 0%nat) by (assert (t < base)%nat by (rewrite <- y_length; apply nth_error_Some; congruence); unfold base in *; lia).
    pose proof (y_waits_for Hv Hc) as Hsh. pose proof (y_reads Hv Hc Hs) as ->.
    (* a member of [D] that has the shard is the visit itself, and reads it *)
    assert (K : forall x a', D x -> has Y x l a' -> x = t /\ a' = ReadOnly).
    { intros x a' Dx Hh. destruct (proj2 HD x Dx) as (y & _ & l2 & a2 & Hw2 & _). pose proof Hw2 as Hw2'.
      destruct Hw2 as [(v' & b' & r' & Hv' & Hc')|(j & h & E & _)].
      - split; [assert (x < base)%nat by (rewrite <- y_length; apply nth_error_Some; congruence); unfold base in *; lia|].
        eapply (y_visit_shares Hv'); [rewrite Hc'; discriminate | exact Hh | exact Hsh | exact Hs].
      - exfalso. refine (y_threads_wait HT _ Hw2' Hh Hsh). lia. }
    destruct Ho as [(a' & Hh & [C| ->])|(_ & Hpl & Hge & Hw')]; [discriminate | |].
    - destruct (K t' Exclusive Dt' Hh) as [_ X]. discriminate.
    - destruct (proj2 HD t' Dt') as (t'' & Dt'' & l2 & a2 & Hw2 & Ho2).
      assert (E : l2 = l /\ a2 = Exclusive) by (eapply waiting_fun; [rewrite y_length; reflexivity | exact Hw2 | exact Hw']).
      destruct E as [-> ->]. destruct Ho2 as [(a3 & Hh3 & _)|(X & _)]; [|discriminate].
      destruct (K t'' a3 Dt'' Hh3) as [-> ->]. refine (y_nested Hv Hne Hc Hh3 eq_refl).
  Qed.

  (** ** Ranks *)
  Definition waited : list lock :=
    flat_map (fun v => match v_control v with Exec (LWait l _ _ _) => [l] | _ => [] end) (p_visits (y_pool Y)) ++
    flat_map (fun h => match h_wants h with Some (l, _) => [l] | None => [] end) (y_threads Y).
  Lemma waiting_waited t l a : waiting base Y t l a -> In l waited.
  Proof.
    intros [(v & b & r & Hv & Hc)|(j & h & _ & Hj & Hw)]; unfold waited; apply in_or_app.
    - left. apply in_flat_map. exists v. split; [eapply nth_error_In; eauto|]. rewrite Hc. now left.
    - right. apply in_flat_map. exists h. split; [eapply nth_error_In; eauto|]. rewrite Hw. now left.
  Qed.
  Lemma rank_bound (rank : lock -> nat) : exists B, forall t l a, waiting base Y t l a -> (rank l <= B)%nat.
  Proof.
    exists (list_max (map rank waited)). intros t l a Hw. apply waiting_waited in Hw.
    pose proof (proj1 (list_max_le (map rank waited) _) (le_n _)) as F. rewrite Forall_forall in F. apply F. now apply in_map.
  Qed.
  Lemma y_in_order rank : (forall p, In p (map snd bps) -> ascending rank p) ->
    threads_wait m std prog polite base s0 us (fun l' _ l => (rank l' < rank l)%nat) ->
    forall t l a l' a', waiting base Y t l a -> has Y t l' a' -> (rank l' < rank l)%nat.
  Proof.
    intros HA HT t l a l' a' Hw Hh. destruct (le_lt_dec base t) as [L|L].
    - exact (y_threads_wait HT L Hw Hh).
    - destruct Hw as [(v & b & r & Hv & Hc)|(j & h & -> & _)]; [|lia]. exact (y_nested Hv HA Hc Hh).
  Qed.

  (** A participant that nobody obstructs gets its lock. *)
  Lemma C63_goes_lemma t l a : waiting base Y t l a -> (forall t', ~ obstructs polite base Y t' t) ->
    gets m std prog polite sp base Y t l a.
  Proof.
    intros Hw Ho. pose proof Hw as Hw0. destruct y_joint as [n J]. pose proof y_length as Hlen.
    assert (NV : forall a', ~ In (Visit, a') (held (locks (p_shared (y_pool Y)) l))) by (intros a'; apply (reached_no_visit Hi J)).
    assert (Ha : available (locks (p_shared (y_pool Y)) l) a).
    { destruct a; cbn.
      - destruct (held (locks (p_shared (y_pool Y)) l)) as [|[o a'] h] eqn:E; [reflexivity|]. exfalso.
        destruct o as [|t']; [apply (NV a'); now left|]. apply (Ho t'). exists l, Exclusive. split; [exact Hw|]. left. exists a'.
        split; [unfold has; rewrite E; now left | now left].
      - intros o Hin. destruct o as [|t']; [now apply NV in Hin|]. apply (Ho t'). exists l, ReadOnly. split; [exact Hw|]. left. exists Exclusive. auto. }
    assert (Hd : admitted polite (y_threads Y) l a).
    { intros -> Hp (h & Hin & Hh). apply In_nth_error in Hin as [j Hj]. apply (Ho (base + j)%nat). exists l, ReadOnly. split; [exact Hw|].
      right. repeat split; auto; [lia|]. right. exists j, h. auto. }
    destruct Y as [[s vs] hs]. unfold has, gets in *. cbn [y_pool p_shared p_visits y_threads] in *.
    destruct Hw as [(v & body & rest & Hv & Hc)|(j & h & -> & Hj & Hw)]; cbn [y_pool p_visits y_threads] in *.
    - assert (Hlt : (t < base)%nat) by (rewrite <- Hlen; apply nth_error_Some; congruence).
      exists (mkProc (mkPool (acquire s l (Other t) a) (upd vs t (mkVis (v_builder v) (Exec body) (FGuard l a rest :: v_stack v)))) hs).
      split.
      + eapply y_visit with (i := t).
        * apply turn_visit with (v := v) (s1 := acquire (view t s) l Visit a); [exact Hv | | ].
          -- rewrite Hc. apply s_wait. now apply view_available.
          -- eapply same_trans; [apply view_acquire|]. rewrite seat_mine. apply same_refl.
        * intros v' l' a' body' rest' Hv' Hc'. cbn in Hv'. rewrite Hv in Hv'. inversion Hv'; subst v'. rewrite Hc in Hc'. inversion Hc'; subst. exact Hd.
      + cbn. now rewrite N.eqb_refl.
    - destruct h as [u w]. cbn in Hw. subst w.
      exists (mkProc (mkPool (acquire s l (Other (base + j)) a) vs) (upd hs j (mkThread u None))). split.
      + eapply y_thread; [exact Hj|]. now apply h_granted.
      + cbn. now rewrite N.eqb_refl.
  Qed.

  (** Somebody in the way, or not. *)
  Lemma obstructed_dec t l a : waiting base Y t l a ->
    (exists t', obstructs polite base Y t' t) \/ (forall t', ~ obstructs polite base Y t' t).
  Proof.
    intros Hw. destruct y_joint as [n J].
    assert (NV : forall a', ~ In (Visit, a') (held (locks (p_shared (y_pool Y)) l))) by (intros a'; apply (reached_no_visit Hi J)).
    destruct (avail_dec (locks (p_shared (y_pool Y)) l) a) as [Ha|Ha].
    - destruct (Exists_dec (fun h => h_wants h = Some (l, Exclusive)) (y_threads Y)) as [W|W].
      { intros h. destruct (h_wants h) as [[l' [|]]|]; [|right; discriminate|right; discriminate].
        destruct (N.eq_dec l' l) as [->|]; [now left | right; congruence]. }
      + apply Exists_exists in W as (h & Hin & Hh). apply In_nth_error in Hin as [j Hj].
        destruct a; [right|destruct (polite l) eqn:Hp; [left|right]].
        * intros t' (l' & a' & Hw' & Ho). destruct (waiting_fun (eq_ind_r (fun x => (x <= base)%nat) (le_n _) y_length) Hw Hw') as [<- <-].
          destruct Ho as [(a2 & Hh2 & _)|(C & _)]; [|discriminate]. unfold has in Hh2. cbn in Ha. rewrite Ha in Hh2. exact Hh2.
        * exists (base + j)%nat, l, ReadOnly. split; [exact Hw|]. right. repeat split; auto; [lia|]. right. exists j, h. auto.
        * intros t' (l' & a' & Hw' & Ho). destruct (waiting_fun (eq_ind_r (fun x => (x <= base)%nat) (le_n _) y_length) Hw Hw') as [<- <-].
          destruct Ho as [(a2 & Hh2 & [C| ->])|(_ & C & _)]; [discriminate | apply (Ha _ Hh2) | congruence].
      + right. intros t' (l' & a' & Hw' & Ho). destruct (waiting_fun (eq_ind_r (fun x => (x <= base)%nat) (le_n _) y_length) Hw Hw') as [<- <-].
        destruct Ho as [(a2 & Hh2 & Hc)|(-> & _ & Hge & [(v & b & r & Hv & _)|(j & h & _ & Hj & Hh)])].
        * destruct a; [cbn in Ha; unfold has in Hh2; rewrite Ha in Hh2; exact Hh2 | destruct Hc as [C| ->]; [discriminate | apply (Ha _ Hh2)]].
        * assert (t' < base)%nat by (rewrite <- y_length; apply nth_error_Some; congruence). lia.
        * apply W, Exists_exists. exists h. split; [eapply nth_error_In; eauto | exact Hh].
    - left. destruct a; cbn in Ha.
      + destruct (held (locks (p_shared (y_pool Y)) l)) as [|[o a'] h] eqn:E; [congruence|]. destruct o as [|t']; [exfalso; apply (NV a'); now left|].
        exists t', l, Exclusive. split; [exact Hw|]. left. exists a'. split; [unfold has; rewrite E; now left | now left].
      + destruct (Exists_dec (fun g => snd g = Exclusive) (held (locks (p_shared (y_pool Y)) l))) as [W|W]; [intros [o [|]]; [now left | now right]| |].
        * apply Exists_exists in W as ([o a'] & Hin & E). cbn in E. subst a'. destruct o as [|t']; [now apply NV in Hin|].
          exists t', l, ReadOnly. split; [exact Hw|]. left. exists Exclusive. auto.
        * exfalso. apply Ha. intros o Hin. apply W, Exists_exists. exists (o, Exclusive). auto.
  Qed.
  Lemma waiting_dec t : (exists l a, waiting base Y t l a) \/ (forall l a, ~ waiting base Y t l a).
  Proof.
    destruct (nth_error (p_visits (y_pool Y)) t) as [v|] eqn:Hv.
    - assert (Hlt : (t < base)%nat) by (rewrite <- y_length; apply nth_error_Some; congruence).
      destruct (v_control v) as [[| | | | | |l a b r|]| |] eqn:Hc;
        try (right; intros lx ax [(v' & b' & r' & Hv' & Hc')|(j & h & -> & _)]; [rewrite Hv in Hv'; inversion Hv'; subst; congruence | lia]).
      left. exists l, a. left. exists v, b, r. auto.
    - destruct (le_lt_dec base t) as [L|L].
      + destruct (nth_error (y_threads Y) (t - base)) as [h|] eqn:Hj.
        * destruct (h_wants h) as [[l a]|] eqn:Hh.
          -- left. exists l, a. right. exists (t - base)%nat, h. repeat split; auto. lia.
          -- right. intros l a [(v & b & r & Hv' & _)|(j & h' & -> & Hj' & Hh')]; [congruence|].
             replace (base + j - base)%nat with j in Hj by lia. congruence.
        * right. intros l a [(v & b & r & Hv' & _)|(j & h' & -> & Hj' & Hh')]; [congruence|].
          replace (base + j - base)%nat with j in Hj by lia. congruence.
      + right. intros l a [(v & b & r & Hv' & _)|(j & h' & -> & _)]; [congruence | lia].
  Qed.

  Lemma C63_ordered_lemma rank : (forall p, In p (map snd bps) -> ascending rank p) ->
    threads_wait m std prog polite base s0 us (fun l' _ l => (rank l' < rank l)%nat) ->
    forall t, exists t', delays polite base Y t' t /\
      ((forall l a, ~ waiting base Y t' l a) \/ exists l a, waiting base Y t' l a /\ gets m std prog polite sp base Y t' l a).
  Proof.
    intros HA HT. pose proof (y_in_order HA HT) as HO. destruct (rank_bound rank) as [B HB].
    assert (K : forall k t l a, waiting base Y t l a -> (B - rank l < k)%nat -> exists t', delays polite base Y t' t /\
      ((forall l a, ~ waiting base Y t' l a) \/ exists l a, waiting base Y t' l a /\ gets m std prog polite sp base Y t' l a)).
    { induction k as [|k IH]; intros t l a Hw Hr; [lia|].
      destruct (obstructed_dec Hw) as [(t1 & Ho)|Ho]; [|exists t; split; [constructor | right; exists l, a; split; [exact Hw | now apply C63_goes_lemma]]].
      (* somebody who has [l], somewhere above *)
      assert (X : (exists t2 a2, has Y t2 l a2 /\ forall t3, delays polite base Y t3 t2 -> delays polite base Y t3 t) \/
                  (obstructs polite base Y t1 t /\ waiting base Y t1 l Exclusive /\ gets m std prog polite sp base Y t1 l Exclusive)).
      { pose proof Ho as (l' & a' & Hw' & Hob). destruct (waiting_fun (eq_ind_r (fun x => (x <= base)%nat) (le_n _) y_length) Hw Hw') as [<- <-].
        destruct Hob as [(a2 & Hh & _)|(-> & Hp & Hge & Hw1)].
        - left. exists t1, a2. split; [exact Hh|]. intros t3. apply delays_more, Ho.
        - destruct (obstructed_dec Hw1) as [(t2 & Ho2)|Ho2].
          + pose proof Ho2 as (l2 & a2 & Hw2 & Hob2). destruct (waiting_fun (eq_ind_r (fun x => (x <= base)%nat) (le_n _) y_length) Hw1 Hw2) as [<- <-].
            destruct Hob2 as [(a3 & Hh & _)|(C & _)]; [|discriminate].
            left. exists t2, a3. split; [exact Hh|]. intros t3 H3. eapply delays_more; [exact Ho|]. eapply delays_more; [exact Ho2 | exact H3].
          + right. split; [exact Ho|]. split; [exact Hw1 | now apply C63_goes_lemma]. }
      destruct X as [(t2 & a2 & Hh & HX)|(X1 & X2 & X3)]; [|exists t1; split; [eapply delays_more; [exact X1 | constructor] | right; eauto]]. destruct (waiting_dec t2) as [(l2 & a3 & Hw2)|Hw2].
      - pose proof (HO _ _ _ _ _ Hw2 Hh). pose proof (HB _ _ _ Hw2). pose proof (HB _ _ _ Hw).
        destruct (IH t2 l2 a3 Hw2) as (t' & Hd & Ht'); [lia|]. exists t'. split; [now apply HX | exact Ht'].
      - exists t2. split; [apply HX; constructor | now left]. }
    intros t. destruct (waiting_dec t) as [(l & a & Hw)|Hw]; [eapply K; [exact Hw | constructor] | exists t; split; [constructor | now left]].
  Qed.
End Run.
