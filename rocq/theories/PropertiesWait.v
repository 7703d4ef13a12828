(** * Property C63: profiling next to threads that wait for each other. *)
From Verif Require Import Base BaseFacts KeyModel KeyFacts HMap FlameModel BuilderModel VisitorModel Spec ImplModel LockModel LockSpec LockFacts PoolModel PoolSpec PoolFacts PoolProps WaitModel WaitSpec WaitFacts WaitProps WaitCases.

#[local] Arguments key_new : simpl never.

(** ** C63: the program goes on as it could without the profiles: whatever its
    threads have done and hold next to the visits, they can do and hold without
    them (if their [try_lock]s may fail, or there are none). *)
Theorem C63_application : forall T m std (prog : program T) polite spurious spurious0 s bps us Y,
  all_idle (length bps) s -> spurious0 = true \/ never_tries prog ->
  executes m std prog polite spurious (length bps) (process_start s bps us) Y ->
  exists Y0, executes m std prog polite spurious0 (length bps) (process_start s [] us) Y0 /\ without_profiles (length bps) Y Y0.
Proof. intros T m std prog polite sp sp0 s bps us Y. exact (@C63_application_lemma T m std prog polite sp sp0 s bps us Y). Qed.
Print Assumptions C63_application.

(** The visits are those of C54 (which therefore says what they report and hold). *)
Theorem C63_profiles : forall T m std (prog : program T) polite spurious s bps us Y,
  executes m std prog polite spurious (length bps) (process_start s bps us) Y ->
  exists n, joint m std true n (pool_start s bps) (y_pool Y).
Proof. exact C63_profiles_lemma. Qed.
Print Assumptions C63_profiles.

(** ** C63: [deadlocked] is a deadlock: its members wait for ever. *)
Theorem C63_for_ever : forall T m std (prog : program T) polite spurious s bps us Y Y' D,
  executes m std prog polite spurious (length bps) (process_start s bps us) Y -> deadlocked polite (length bps) Y D ->
  executes m std prog polite spurious (length bps) Y Y' ->
  forall t l a, D t -> waiting (length bps) Y t l a -> waiting (length bps) Y' t l a.
Proof.
  intros T m std prog polite sp s bps us Y Y' D HE HD HE' t l a. eapply C63_for_ever_lemma; eauto. now rewrite (y_length HE).
Qed.
Print Assumptions C63_for_ever.

(** ** C63: who is obstructed by nobody gets its lock. *)
Theorem C63_goes_on : forall T m std (prog : program T) polite spurious s bps us Y t l a,
  (forall l, lock_ok (locks s l)) -> all_idle (length bps) s ->
  executes m std prog polite spurious (length bps) (process_start s bps us) Y ->
  waiting (length bps) Y t l a -> (forall t', ~ obstructs polite (length bps) Y t' t) ->
  gets m std prog polite spurious (length bps) Y t l a.
Proof. intros T m std prog polite sp s bps us Y t l a Hk Hi HE. exact (@C63_goes_lemma _ _ _ _ _ _ _ _ _ _ Hk Hi HE t l a). Qed.
Print Assumptions C63_goes_on.

(** ** C63: profiles that meet no [DashMap] cause no deadlock: one that arises next
    to them can arise without them. *)
Theorem C63_no_dash_maps : forall T m std (prog : program T) polite spurious s bps us Y D,
  (forall l, lock_ok (locks s l)) -> all_idle (length bps) s ->
  executes m std prog polite spurious (length bps) (process_start s bps us) Y ->
  (forall p, In p (map snd bps) -> no_waiting p) -> deadlocked polite (length bps) Y D ->
  exists Y0, executes m std prog polite true (length bps) (process_start s [] us) Y0 /\
    without_profiles (length bps) Y Y0 /\ deadlocked polite (length bps) Y0 D.
Proof. intros T m std prog polite sp s bps us Y D Hk Hi HE. exact (@C63_no_dash_lemma _ _ _ _ _ _ _ _ _ _ Hk Hi HE D). Qed.
Print Assumptions C63_no_dash_maps.

(** ** C63: with [DashMap]s neither, if threads that have a shard for writing do not
    wait for other locks, and readers of a shard are kept out only by those who have
    it (not by those who wait for it). *)
Theorem C63_dash_maps : forall T m std (prog : program T) polite spurious s bps us Y D,
  (forall l, lock_ok (locks s l)) -> all_idle (length bps) s ->
  executes m std prog polite spurious (length bps) (process_start s bps us) Y ->
  shards_are_read (map snd bps) -> (forall l, shard_of (map snd bps) l -> polite l = false) ->
  threads_wait m std prog polite (length bps) s us (fun l' a' _ => a' = Exclusive -> ~ shard_of (map snd bps) l') ->
  deadlocked polite (length bps) Y D ->
  exists Y0, executes m std prog polite true (length bps) (process_start s [] us) Y0 /\
    without_profiles (length bps) Y Y0 /\ deadlocked polite (length bps) Y0 D.
Proof. intros T m std prog polite sp s bps us Y D Hk Hi HE. exact (@C63_shards_lemma _ _ _ _ _ _ _ _ _ _ Hk Hi HE D). Qed.
Print Assumptions C63_dash_maps.

(** ** C63: if waiting writers keep readers out: for one profile, if threads that have
    a shard do not wait for other locks and no shard is met again inside itself. *)
Theorem C63_one_profile : forall T m std (prog : program T) polite spurious s b p us Y D,
  (forall l, lock_ok (locks s l)) -> all_idle 1 s ->
  executes m std prog polite spurious 1 (process_start s [(b, p)] us) Y ->
  shards_are_read [p] -> nested (fun l' l => l' <> l) [] p ->
  threads_wait m std prog polite 1 s us (fun l' _ _ => ~ shard_of [p] l') ->
  deadlocked polite 1 Y D ->
  exists Y0, executes m std prog polite true 1 (process_start s [] us) Y0 /\ without_profiles 1 Y Y0 /\ deadlocked polite 1 Y0 D.
Proof.
  intros T m std prog polite sp s b p us Y D Hk Hi HE Hs Hn HT HD.
  refine (@C63_one_profile_lemma _ _ _ _ _ _ s [(b, p)] _ _ Hk Hi HE D eq_refl Hs _ HT HD). intros q [<-|[]]. exact Hn.
Qed.
Print Assumptions C63_one_profile.

(** ** C63: any number of profiles, whatever the locks do: if everybody takes locks in
    an order (threads all of them, visits those they wait for), there is no
    deadlock. *)
Theorem C63_ordered : forall T m std (prog : program T) polite spurious s bps us Y rank D,
  (forall l, lock_ok (locks s l)) -> all_idle (length bps) s ->
  executes m std prog polite spurious (length bps) (process_start s bps us) Y ->
  (forall p, In p (map snd bps) -> ascending rank p) ->
  threads_wait m std prog polite (length bps) s us (fun l' _ l => (rank l' < rank l)%nat) ->
  ~ deadlocked polite (length bps) Y D.
Proof. exact C63_no_deadlock_lemma. Qed.
Print Assumptions C63_ordered.

(** Moreover who waits is delayed, in the end, by one that does not wait or can get
    what it waits for now. *)
Theorem C63_delayed : forall T m std (prog : program T) polite spurious s bps us Y rank t,
  (forall l, lock_ok (locks s l)) -> all_idle (length bps) s ->
  executes m std prog polite spurious (length bps) (process_start s bps us) Y ->
  (forall p, In p (map snd bps) -> ascending rank p) ->
  threads_wait m std prog polite (length bps) s us (fun l' _ l => (rank l' < rank l)%nat) ->
  exists t', delays polite (length bps) Y t' t /\
    ((forall l a, ~ waiting (length bps) Y t' l a) \/
     exists l a, waiting (length bps) Y t' l a /\ gets m std prog polite spurious (length bps) Y t' l a).
Proof. intros T m std prog polite sp s bps us Y rank t Hk Hi HE HA HT. exact (C63_ordered_lemma Hk Hi HE HA HT t). Qed.
Print Assumptions C63_delayed.

(** ** C63: when threads with straight-line code wait as required: their code tells. *)
Theorem C63_straight : forall m std polite base s us R,
  (forall l t a, (base <= t)%nat -> ~ In (Other t, a) (held (locks s l))) ->
  Forall (asks_well R []) us -> threads_wait m std straight polite base s us R.
Proof. exact C63_straight_lemma. Qed.
Print Assumptions C63_straight.

(** ** Concrete processes *)
Definition nobody : shared := mkShared (fun _ => mkLock [] false) (fun _ => []).
Definition b_new : builder := fst (root_visitor b_default).
Lemma nobody_ok n : (forall l, lock_ok (locks nobody l)) /\ all_idle n nobody /\ (forall l t a, ~ In (Other t, a) (held (locks nobody l))).
Proof. unfold all_idle, lock_ok, nobody. cbn. intuition. Qed.

(** A [DashMap] with one shard, of lock [l], and one entry with value [v]. *)
Definition t_entry := mkT "(u32, V)" 16 true.
Definition c_u32 : N * lprog := (4, LInline (key_for_type_name "u32") 4 LRet LRet).
Definition a_map (l : lock) (v : N * lprog) : lprog := l_dash_map (mkT "dashmap::DashMap<u32, V>" 40 true) t_entry 1 3 [(l, [(c_u32, v)])].
(** [Mutex<DashMap<u32, u32>>]: the mutex is lock 7, the shard lock 9. *)
Definition guarded_map : lprog := l_cell (mkT "std::sync::Mutex<dashmap::DashMap<u32, V>>" 48 true) 7 Exclusive (40, a_map 9 c_u32).

Ltac is_free := vm_compute; first [reflexivity | intuition discriminate].
Ltac let_in := let h := fresh in let X := fresh in let E := fresh in
  first [intros E; discriminate E | intros _ E; discriminate E | intros _ _ (h & X & E); vm_compute in X; intuition (subst; discriminate)].
Ltac visit_of i := first
  [ eapply (@go_exit _ _ _ _ _ _ _ i); [reflexivity | vm_compute; reflexivity |]
  | eapply (@go_unlock _ _ _ _ _ _ _ i); [reflexivity |]
  | eapply (@go_inline _ _ _ _ _ _ _ i); [reflexivity | vm_compute; reflexivity |]
  | eapply (@go_unique _ _ _ _ _ _ _ i); [reflexivity | vm_compute; reflexivity |]
  | eapply (@go_try _ _ _ _ _ _ _ i); [reflexivity | is_free | vm_compute; reflexivity |]
  | eapply (@go_wait _ _ _ _ _ _ _ i); [reflexivity | is_free | let_in |] ]; cbn [upd].
Ltac thread_of j := eapply ex_step; [eapply (@y_thread _ _ _ _ _ _ _ j); [reflexivity | first
  [ eapply h_work; reflexivity | eapply h_ask; reflexivity | eapply h_granted; [vm_compute; intuition discriminate | intros X; discriminate X]
  | eapply h_give; [reflexivity | vm_compute; tauto] ] ]; cbn [upd]|].

Ltac thread_read j := eapply ex_step; [eapply (@y_thread _ _ _ _ _ _ _ j); [reflexivity |
  eapply h_granted; [vm_compute; intuition discriminate |
    let h := fresh in let X := fresh in let Y := fresh in intros _ _ (h & X & Y); vm_compute in X; intuition (subst; discriminate)]]; cbn [upd]|].
(** A thread that has a shard for writing ([get_mut]) and locks the mutex around
    the map. *)
Definition inside_out : list deed := [Ask 9 Exclusive; Ask 7 Exclusive; Give 7 Exclusive false; Give 9 Exclusive false].
(** Threads that write to one map, or take two locks. *)
Definition writes (l : lock) : list deed := [Ask l Exclusive; Give l Exclusive false].
Definition both (l l' : lock) : list deed := [Ask l Exclusive; Ask l' Exclusive; Give l' Exclusive false; Give l Exclusive false].
Ltac well_asked := unfold inside_out, writes, both; cbn [asks_well still_has]; repeat split;
  let l' := fresh in let a' := fresh in let H := fresh in intros l' a' H;
  repeat match type of H with context [N.eqb ?x l'] => destruct (N.eqb_spec x l'); [subst l'|] end; try (destruct a'; cbn in H; lia); vm_compute; lia.


(** ** C63: in general, profiling can deadlock a program that cannot deadlock on its
    own: the visit has the mutex and waits for the shard, the thread the other way
    round. *)
Theorem C63_refuted : exists m std polite s b p us Y D,
  (forall l, lock_ok (locks s l)) /\ all_idle 1 s /\ shards_are_read [p] /\ (forall l, polite l = false) /\
  executes m std straight polite false 1 (process_start s [(b, p)] us) Y /\ deadlocked polite 1 Y D /\
  forall Y0 D0, executes m std straight polite true 0 (process_start s [] us) Y0 -> ~ deadlocked polite 0 Y0 D0.
Proof.
  exists Debug, (fun _ => true), (fun _ => false), nobody, b_new, guarded_map, [inside_out]. eexists. exists (fun t => t = 0%nat \/ t = 1%nat).
  split; [apply (nobody_ok 1)|]. split; [apply (nobody_ok 1)|]. split; [|split; [reflexivity|]; split; [|split]].
  - intros p q l [<-|[]] [<-|[]] H1 H2. cbn in H1, H2. repeat match goal with H : _ \/ _ |- _ => destruct H | H : _ /\ _ |- _ => destruct H | H : False |- _ => destruct H end; try discriminate; subst; discriminate.
  - unfold process_start, pool_start, guarded_map, l_cell, a_map, l_dash_map, l_count, l_entries, inside_out. cbn [map fst snd lseq lseqs].
    do 3 thread_of 0%nat. do 5 visit_of 0%nat. apply ex_refl.
  - split; [exists 0%nat; auto|]. intros t [-> | ->].
    + exists 1%nat. split; [auto|]. exists 9, ReadOnly. split; [left; eexists _, _, _; split; reflexivity|].
      left. exists Exclusive. split; [vm_compute; tauto | auto].
    + exists 0%nat. split; [auto|]. exists 7, Exclusive. split; [right; exists 0%nat; eexists; repeat split; reflexivity|].
      left. exists Exclusive. split; [vm_compute; tauto | auto].
  - intros Y0 D0 HE HD. revert HD. apply (@C63_ordered _ _ _ _ _ _ _ [] _ _ (fun l => if N.eqb l 9 then 0 else 1)%nat D0 (proj1 (nobody_ok 0)) (proj1 (proj2 (nobody_ok 0))) HE).
    + intros p [].
    + apply C63_straight; [intros; apply (nobody_ok 0)|]. constructor; [|constructor]. well_asked.
Qed.
Print Assumptions C63_refuted.

(** ** C63: and if waiting writers keep readers out, two profiles and two threads that
    only ever write to one map each can deadlock: one profile is in the first map and
    reaches the second, the other is in the second and reaches the first. *)
Definition first_map : lprog := a_map 1 (40, a_map 2 c_u32).
Definition second_map : lprog := a_map 2 (40, a_map 1 c_u32).
Theorem C63_waiting_writers_refuted : exists m std polite s b us Y D,
  (forall l, lock_ok (locks s l)) /\ all_idle 2 s /\ shards_are_read [first_map; second_map] /\
  nested (fun l' l => l' <> l) [] first_map /\ nested (fun l' l => l' <> l) [] second_map /\
  (forall R, threads_wait m std straight polite 2 s us R) /\
  executes m std straight polite false 2 (process_start s [(b, first_map); (b, second_map)] us) Y /\ deadlocked polite 2 Y D.
Proof.
  exists Debug, (fun _ => true), (fun _ => true), nobody, b_new, [writes 1; writes 2]. eexists. exists (fun t => (t < 4)%nat).
  split; [apply (nobody_ok 2)|]. split; [apply (nobody_ok 2)|]. split; [|split; [|split; [|split; [|split]]]].
  - intros p q l [<-|[<-|[]]] [<-|[<-|[]]] _ H; cbn in H; intuition discriminate.
  - cbn. repeat split; auto; intuition (subst; discriminate).
  - cbn. repeat split; auto; intuition (subst; discriminate).
  - intros R. apply C63_straight; [intros; apply (nobody_ok 0)|]. repeat constructor; cbn; intros; lia.
  - unfold process_start, pool_start, first_map, second_map, a_map, l_dash_map, l_count, l_entries, writes. cbn [map fst snd lseq lseqs].
    do 13 visit_of 0%nat. do 13 visit_of 1%nat. thread_of 0%nat. thread_of 1%nat. apply ex_refl.
  - split; [exists 0%nat; lia|]. intros t Ht. destruct t as [|[|[|[|t]]]]; [| | | |lia].
    + exists 3%nat. split; [lia|]. exists 2, ReadOnly. split; [left; eexists _, _, _; split; reflexivity|].
      right. repeat split; try lia. right. exists 1%nat. eexists; repeat split; reflexivity.
    + exists 2%nat. split; [lia|]. exists 1, ReadOnly. split; [left; eexists _, _, _; split; reflexivity|].
      right. repeat split; try lia. right. exists 0%nat. eexists; repeat split; reflexivity.
    + exists 0%nat. split; [lia|]. exists 1, Exclusive. split; [right; exists 0%nat; eexists; repeat split; reflexivity|].
      left. exists ReadOnly. split; [vm_compute; tauto | auto].
    + exists 1%nat. split; [lia|]. exists 2, Exclusive. split; [right; exists 1%nat; eexists; repeat split; reflexivity|].
      left. exists ReadOnly. split; [vm_compute; tauto | auto].
Qed.
Print Assumptions C63_waiting_writers_refuted.

(** ** The hypotheses are met: two threads take locks 3 and 4 in opposite order, a
    third one writes to the first map, which is being profiled.  The visit waits for
    the shard; the two threads deadlock, as they can on their own. *)
Theorem C63_satisfiable : exists Y, let m := Debug in let std := fun _ : lock => true in let us := [both 3 4; both 4 3; writes 1] in
  let ps := map snd [(b_new, first_map)] in
  executes m std straight (fun _ => false) false 1 (process_start nobody [(b_new, first_map)] us) Y /\
  (forall l, lock_ok (locks nobody l)) /\ all_idle 1 nobody /\
  shards_are_read ps /\ shard_of ps 1 /\ nested (fun l' l => l' <> l) [] first_map /\
  threads_wait m std straight (fun _ => false) 1 nobody us (fun l' a' _ => a' = Exclusive -> ~ shard_of ps l') /\
  threads_wait m std straight (fun _ => false) 1 nobody us (fun l' _ _ => ~ shard_of ps l') /\
  deadlocked (fun _ => false) 1 Y (fun t => t = 1%nat \/ t = 2%nat) /\
  waiting 1 Y 0 1 ReadOnly /\ has Y 3 1 Exclusive.
Proof.
  eexists. cbv zeta.
  assert (S : forall l, shard_of (map snd [(b_new, first_map)]) l -> l = 1 \/ l = 2).
  { intros l (p & [<-|[]] & H). cbn in H. repeat match goal with H : _ \/ _ |- _ => destruct H | H : False |- _ => destruct H end; subst; auto. }
  assert (W : forall l' a', (0 < still_has [Ask 3%N Exclusive] l' a')%nat \/ (0 < still_has [Ask 4%N Exclusive] l' a')%nat ->
              ~ shard_of (map snd [(b_new, first_map)]) l').
  { intros l' a' H C. apply S in C as [-> | ->]; destruct H as [H|H]; vm_compute in H; lia. }
  split; [|split; [apply (nobody_ok 1)|split; [apply (nobody_ok 1)|split; [|split; [|split; [|split; [|split; [|split; [|split]]]]]]]]].
  - unfold process_start, pool_start, first_map, a_map, l_dash_map, l_count, l_entries, writes, both. cbn [map fst snd lseq lseqs].
    do 2 visit_of 0%nat. do 2 thread_of 0%nat. do 2 thread_of 1%nat. do 2 thread_of 2%nat. thread_of 0%nat. thread_of 1%nat. apply ex_refl.
  - intros p q l [<-|[]] [<-|[]] _ H; cbn in H; intuition discriminate.
  - exists first_map. split; [now left | cbn; auto].
  - cbn. repeat split; auto; intuition (subst; discriminate).
  - apply C63_straight; [intros; apply (nobody_ok 0)|].
    repeat (apply Forall_cons || apply Forall_nil); unfold both, writes; cbn [asks_well]; repeat split; intros l' a' H _; (cbn in H; lia) || (apply W with (a' := a'); tauto).
  - apply C63_straight; [intros; apply (nobody_ok 0)|].
    repeat (apply Forall_cons || apply Forall_nil); unfold both, writes; cbn [asks_well]; repeat split; intros l' a' H; (cbn in H; lia) || (apply W with (a' := a'); tauto).
  - split; [exists 1%nat; auto|]. intros t [-> | ->].
    + exists 2%nat. split; [auto|]. exists 4, Exclusive. split; [right; exists 0%nat; eexists; repeat split; reflexivity|].
      left. exists Exclusive. split; [vm_compute; tauto | auto].
    + exists 1%nat. split; [auto|]. exists 3, Exclusive. split; [right; exists 1%nat; eexists; repeat split; reflexivity|].
      left. exists Exclusive. split; [vm_compute; tauto | auto].
  - left. eexists _, _, _. split; reflexivity.
  - vm_compute. tauto.
Qed.
Print Assumptions C63_satisfiable.

(** Everybody takes locks in an order (here even with writers that keep readers out):
    the visit of the first map waits, delayed by a writer that is delayed by a reader. *)
Theorem C63_ordered_satisfiable : exists Y, let m := Debug in let std := fun _ : lock => true in
  let us := [both 1 2; writes 1; [Ask 1 ReadOnly; Work; Give 1 ReadOnly false]] in let rank := fun l : lock => N.to_nat l in
  executes m std straight (fun _ => true) false 1 (process_start nobody [(b_new, first_map)] us) Y /\
  (forall p, In p (map snd [(b_new, first_map)]) -> ascending rank p) /\
  threads_wait m std straight (fun _ => true) 1 nobody us (fun l' _ l => (rank l' < rank l)%nat) /\
  waiting 1 Y 0 1 ReadOnly /\ obstructs (fun _ => true) 1 Y 2 0 /\ obstructs (fun _ => true) 1 Y 3 2 /\ forall l a, ~ waiting 1 Y 3 l a.
Proof.
  eexists. cbv zeta. split; [|split; [|split; [|split; [|split; [|split]]]]].
  - unfold process_start, pool_start, first_map, a_map, l_dash_map, l_count, l_entries, writes, both. cbn [map fst snd lseq lseqs].
    do 2 visit_of 0%nat. thread_of 2%nat. thread_read 2%nat. thread_of 1%nat. apply ex_refl.
  - intros p [<-|[]]. cbn. repeat split; auto; intuition (subst; lia).
  - apply C63_straight; [intros; apply (nobody_ok 0)|].
    repeat (apply Forall_cons || apply Forall_nil); well_asked.
  - left. eexists _, _, _. split; reflexivity.
  - exists 1, ReadOnly. split; [left; eexists _, _, _; split; reflexivity|]. right. repeat split; try lia. right. exists 1%nat. eexists; repeat split; reflexivity.
  - exists 1, Exclusive. split; [right; exists 1%nat; eexists; repeat split; reflexivity|]. left. exists ReadOnly. split; [vm_compute; tauto | auto].
  - intros l a [(v & b & r & Hv & _)|(j & h & E & Hj & Hw)]; [discriminate Hv|]. assert (j = 2%nat) by lia. subst j. cbn in Hj. inversion Hj; subst h. discriminate.
Qed.
Print Assumptions C63_ordered_satisfiable.
