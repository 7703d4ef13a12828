(** * Property C64: profiling while [DashMap]s and everything else change. *)
From Verif Require Import Base BaseFacts KeyModel KeyFacts HMap FlameModel BuilderModel VisitorModel Spec LayoutModel ImplModel
  LockModel LockSpec LockFacts SnapshotModel DashModel DashSpec MixModel MixSpec MixRun MixFacts MixSession MixGuard MixLooks MixEnds MixCases.

#[local] Arguments key_new : simpl never.

(** ** C64: whatever other threads do during the root visits of a session, including
    inserting into and removing from [DashMap]s, replacing the contents of locks, freeing
    and reusing memory: the builder ends up as after visiting, with nothing else running,
    values and allocations put together from pieces each of which was there at some
    moment.  Unless a visit panics nothing is left out without a reason: all entries a
    shard had at one moment are there. *)
Theorem C64_snapshot : forall (M : xmemory -> Prop) m std g b roots b' o calm,
  xprofiles M m std g b roots b' o calm ->
  exists qs h n0, Forall2 (shown M m (calm = false)) roots qs /\ shown_objects M m (calm = false) h /\
    forall n, (n0 <= n)%nat -> visit_roots m (map (linked n h) qs) b = (b', o).
Proof.
  intros M m std g b roots b' o calm H. destruct (xsession_state (E := calm = false) H) as (qs & h & n0 & H1 & H2 & H3); [auto|].
  exists qs, h, n0. split; [exact H1|]. split; [exact H2|]. intros n Hn. apply (H3 n Hn).
Qed.
Print Assumptions C64_snapshot.

(** The sizes in it are those of the values. *)
Theorem C64_sizes : forall v, xsize v = bytes_of v.
Proof. intros [s cs|t l a|t l|t t' ps x|[|] t e ls]; try reflexivity. unfold xsize. cbn [xoutline size_of_val]. destruct s; cbn; unfold len; rewrite ?map_length; reflexivity. Qed.
Print Assumptions C64_sizes.

(** ** C64: an entry that is in the same shard of a map at all moments is shown. *)
Theorem C64_stays : forall (M : xmemory -> Prop) m kd t e ls l k v q,
  shown M m False (XDash kd t e ls) q -> In l ls -> (forall g, M g -> In (k, v) (tb_entries (x_table g l))) ->
  exists caps ens caps' lens en, q = visit_told m kd t e caps ens caps' lens /\ In en (concat ens) /\
    fst (en_key en) = xsize k /\ shown M m False k (snd (en_key en)) /\
    (kd = IsMap -> fst (en_val en) = xsize v /\ shown M m False v (snd (en_val en))).
Proof.
  intros M m kd t e ls l k v q H Hl HM. inversion H as [| | | | | | |kd' t' e' ls' caps ens caps' lens H1 H2 H3 H4]; subst.
  assert (T : forall kvs es, these M m False kd kvs es -> In (k, v) kvs ->
    exists en, In en es /\ fst (en_key en) = xsize k /\ shown M m False k (snd (en_key en)) /\
      (kd = IsMap -> fst (en_val en) = xsize v /\ shown M m False v (snd (en_val en)))).
  { induction kvs as [|kv kvs IH]; intros es HT Hin; [destruct Hin|]. inversion HT as [|? k0 v0 ? id qk qv es' S1 S2 S3]; subst. destruct Hin as [E|Hin].
    - injection E as -> ->. eexists. split; [now left|]. cbn. auto.
    - destruct (IH _ S3 Hin) as (en & E1 & E2). exists en. split; [now right | exact E2]. }
  assert (X : exists es en, In es ens /\ In en es /\ fst (en_key en) = xsize k /\ shown M m False k (snd (en_key en)) /\
      (kd = IsMap -> fst (en_val en) = xsize v /\ shown M m False v (snd (en_val en)))).
  { clear - H2 Hl HM T. induction H2 as [|l0 es ls ens Y Ys IH]; [destruct Hl|]. destruct Hl as [->|Hl].
    - inversion Y as [? ? []|? ? g ? Mg Ha Ht]; subst. destruct (T _ _ Ht (HM _ Mg)) as (en & E1 & E2). exists es, en. split; [now left|]. now split.
    - destruct (IH Hl) as (es' & en & E1 & E2). exists es', en. split; [now right | exact E2]. }
  destruct X as (es & en & E1 & E2 & E3). exists caps, ens, caps', lens, en. split; [reflexivity|]. split; [apply in_concat; eauto | exact E3].
Qed.
Print Assumptions C64_stays.

(** ** C64: what is being visited does not change: inside a lock the visit has its
    guard, while it visits the entries of a shard it has the read guard of the shard,
    and no step of other code replaces the content or changes the table. *)
Theorem C64_guarded : forall (M : xmemory -> Prop) m std g b v c,
  (forall l, lock_ok (locks (x_shared g) l)) -> holds_nothing (x_shared g) ->
  xpasses M m std (xbegin g b v) c -> xk_control c <> XLost ->
  (forall l a, xinside c l a -> In (Visit, a) (held (locks (x_shared (xk_mem c)) l)) /\
     forall g', xchange (xk_mem c) g' -> x_content g' l = x_content (xk_mem c) l) /\
  (forall l, iterating c l -> In (Visit, ReadOnly) (held (locks (x_shared (xk_mem c)) l)) /\
     forall g', xchange (xk_mem c) g' -> x_table g' l = x_table (xk_mem c) l).
Proof.
  intros M m std g b v c H1 H2 HP HL. pose proof (xsteady_passes HP (@xbegin_steady g b v H1 H2)) as S. split.
  - intros l a Hin. apply inside_plain in Hin. split; [now apply (xsteady_held S) | intros g' Hg; now apply (held_stable S HL Hin Hg)].
  - intros l Hin. apply iterating_plain in Hin. split; [now apply (xsteady_held S) | intros g' Hg; now apply (held_stable S HL Hin Hg)].
Qed.
Print Assumptions C64_guarded.

(** ** C64: and nothing else is looked at: whatever the visit is about to visit is part
    of the root, or of what a lock now contains whose guard it has, or of a key or value
    now in a shard whose read guard it has, or of an allocation; and a pointer is
    followed only if something like that owns it or the visit itself has a strong
    reference. *)
Theorem C64_looks : forall (M : xmemory -> Prop) m std g b v c,
  (forall l, lock_ok (locks (x_shared g) l)) -> holds_nothing (x_shared g) -> xpasses M m std (xbegin g b v) c ->
  (forall u, xlooks_at c u -> xmay_look M v (xk_mem c) u) /\ (forall x, xfollows c x -> xmay_follow M v (xk_mem c) x).
Proof. intros M m std g b v c H1 H2 HP. split; [intros u; eapply xmay_look_lemma; eauto | intros x; eapply xmay_follow_lemma; eauto]. Qed.
Print Assumptions C64_looks.

(** ** C64: the only thing it ever waits for is the read lock of a shard that someone
    has exclusively: another thread, or the visit itself (which then visits the content
    of that very lock). *)
Theorem C64_waits_for_shards : forall (M : xmemory -> Prop) m std g b v c,
  (forall l, lock_ok (locks (x_shared g) l)) -> holds_nothing (x_shared g) -> xpasses M m std (xbegin g b v) c ->
  xended c \/ (exists c', xstep m std c c') \/
  (exists l, needs c l /\ ((exists t, held (locks (x_shared (xk_mem c)) l) = [(Other t, Exclusive)]) \/ xinside c l Exclusive)).
Proof.
  intros M m std g b v c H1 H2 HP. pose proof (xsteady_passes HP (@xbegin_steady g b v H1 H2)) as S.
  destruct (xprogress m std c) as [E|[E|(l & o & Hn & Ho)]]; [now left | now right; left |]. right; right. exists l. split; [exact Hn|].
  assert (HL : xk_control c <> XLost) by (intros X; unfold needs in Hn; rewrite X in Hn; contradiction).
  destruct (S HL) as [O G _]. destruct o as [|t].
  - right. apply in_guards in Ho. rewrite G in Ho. clear - Ho. unfold xinside. induction (xk_stack c) as [|f st IH]; [cbn in Ho; lia|].
    assert (R : (0 < open_guards (xplain_stack st) l Exclusive)%nat -> exists rest, In (YGuard l Exclusive rest) (f :: st)).
    { intros X. destruct (IH X) as (rest & Hr). exists rest. now right. }
    destruct f as [r|l0 a r|x r|r|kd l0 ls r]; cbn [xplain_stack] in Ho; try (apply R; exact Ho).
    + rewrite open_guards_cons in Ho. destruct (N.eqb_spec l0 l) as [->|]; cbn [andb] in Ho; [|now apply R].
      destruct a; cbn in Ho; [exists r; now left | now apply R].
    + rewrite open_guards_cons in Ho. cbn [access_eqb] in Ho. rewrite andb_false_r in Ho. now apply R.
  - left. exists t. now apply O.
Qed.
Print Assumptions C64_waits_for_shards.

(** ** C64: everything is given back: a visit that returned or was unwound by a panic
    holds no guard, of locks or shards, and no strong reference. *)
Theorem C64_released : forall (M : xmemory -> Prop) m std g b v c,
  (forall l, lock_ok (locks (x_shared g) l)) -> holds_nothing (x_shared g) ->
  xpasses M m std (xbegin g b v) c -> xended c -> xk_control c <> XLost -> holds_nothing (x_shared (xk_mem c)).
Proof.
  intros M m std g b v c H1 H2 HP He HL. pose proof (xsteady_passes HP (@xbegin_steady g b v H1 H2) HL) as [O G R].
  assert (E : xk_stack c = []).
  { unfold xended in He. destruct (xk_control c) as [[]| |]; try contradiction; destruct (xk_stack c); auto; contradiction. }
  rewrite E in *. split.
  - intros l a Hin. apply in_guards in Hin. rewrite G in Hin. cbn in Hin. lia.
  - intros x Hin. apply refs_in in Hin. rewrite R in Hin. cbn in Hin. lia.
Qed.
Print Assumptions C64_released.

(** ** C64: it ends if the others let it: from any point of a visit on, if the memory is
    finite and its contents are no longer changed (locks and reference counts may be),
    no run goes on forever. *)
Theorem C64_ends : forall m std c, xfinite (xk_mem c) -> Acc (fun c' c => xunchanged_step m std c c') c.
Proof. intros m std c. apply xunchanged_ends. Qed.
Print Assumptions C64_ends.

(** What is shown need not have been there at any one moment: a map that always has one
    entry, which another thread moves from one shard to the other during the visit, is
    shown with two (and so with more contents than its capacity). *)
Theorem C64_moved_refuted : exists c b out,
  xpasses map_memory Debug (fun _ => true) (xbegin map_start (set_entered b_default true) xmap) c /\ xended c /\
  x_table map_start 1 = one_entry /\ x_table map_start 2 = no_entry /\ x_table (xk_mem c) 1 = no_entry /\ x_table (xk_mem c) 2 = one_entry /\
  leave_scope (xresult c) = (b, Done) /\ finish Debug b = Some out /\ out_warnings out <> EmptyString /\
  fg_write (out_flamegraph out) =
"ArcInner 20
ArcInner;u32 4
DashMap<u8, Arc<u32>> 32
DashMap<u8, Arc<u32>>;ptr 8
DashMap<u8, Arc<u32>>;ptr;capacity;key;u8 2
DashMap<u8, Arc<u32>>;ptr;capacity;unused_capacity 16
DashMap<u8, Arc<u32>>;ptr;capacity;value;Arc<u32>;ptr 16
"%string.
Proof.
  destruct moved_run as (c & P & E & _ & _ & T1 & T2 & b & out & L & F & T & W). exists c, b, out.
  split; [exact P|]. split; [exact E|]. split; [reflexivity|]. split; [reflexivity|]. split; [exact T1|]. split; [exact T2|].
  split; [exact L|]. split; [exact F|]. split; [exact W | exact T].
Qed.
Print Assumptions C64_moved_refuted.

(** ** The hypotheses can be met: that run. *)
Theorem C64_satisfiable :
  (forall l, lock_ok (locks (x_shared map_start) l)) /\ holds_nothing (x_shared map_start) /\ xfinite map_start /\
  (exists b, xprofiles map_memory Debug (fun _ => true) map_start b_default [xmap] b Done true) /\
  (exists c, xpasses map_memory Debug (fun _ => true) (xbegin map_start (set_entered b_default true) xmap) c /\ xended c /\ xk_control c <> XLost) /\
  (exists c, xpasses map_memory Debug (fun _ => true) (xbegin map_start (set_entered b_default true) xmap) c /\ xk_control c <> XLost /\ iterating c 1 /\ xlooks_at c xkey) /\
  (exists c, xpasses map_memory Debug (fun _ => true) (xbegin map_start (set_entered b_default true) xmap) c /\ needs c 1 /\
     held (locks (x_shared (xk_mem c)) 1) = [(Other 3, Exclusive)]).
Proof.
  split; [intros l o []|]. split; [split; [intros l a [] | intros x [[=]|[]]]|].
  split. { split; [exists [5]; intros x; cbn; destruct (N.eqb_spec x 5) as [->|]; [now left | congruence]|]. exists (fun _ => 0%nat). split; [intros l l' []|].
    intros l l' e w He Hw Hl. cbn in He. destruct (N.eqb l 1); cbn in He; [|contradiction]. destruct He as [<-|[]]. destruct Hw as [->| ->]; destruct Hl. }
  destruct moved_run as (c & P & E & _ & _ & _ & _ & b & out & L & _). assert (HL : xk_control c <> XLost).
  { intros X. unfold xresult in L. rewrite X in L. cbn in L. discriminate. }
  split; [|split; [|split]].
  - exists b. change true with (match Done with Done => true | _ => false end) at 2. eapply xr_visit; [reflexivity | exact P | exact E | exact L | discriminate | apply xr_end].
  - exists c. auto.
  - eexists. split; [|split; [|split]].
    + unfold xbegin, xmap. do 9 xvstep. apply xp_end. xmem.
    + discriminate.
    + do 3 eexists. cbn. right. left. reflexivity.
    + eexists. reflexivity.
  - eexists. split; [|split].
    + unfold xbegin, xmap. do 3 xvstep.
      xother; [apply xc_shared, (@o_acquire _ 1 3%nat Exclusive); vm_compute; reflexivity|]. apply xp_end. xmem.
    + reflexivity.
    + reflexivity.
Qed.
Print Assumptions C64_satisfiable.

Example C64_stays_satisfiable : exists q, shown (fun g => g = map_start) Debug False xmap q /\
  (forall g, g = map_start -> In (xkey, xarc) (tb_entries (x_table g 1))).
Proof.
  assert (A : forall l, available (locks (x_shared map_start) l) ReadOnly) by (intros l o []).
  assert (SK : shown (fun g => g = map_start) Debug False xkey (visit_shape Debug unseen (SLeaf xt_u8) [])) by (apply (@sw_plain _ _ _ (SLeaf xt_u8) [] []); [reflexivity | intros [|i]; discriminate]).
  assert (SV : shown (fun g => g = map_start) Debug False xarc (visit_shape Debug unseen (SShared xt_arc 8 5) [])) by (apply (@sw_plain _ _ _ (SShared xt_arc 8 5) [] []); [reflexivity | intros [|i]; discriminate]).
  eexists. split; [|intros g ->; now left].
  eapply (@sw_dash _ _ _ IsMap xt_map xt_entry [1; 2] [1; 1] [[mkEntry 0 (1, _) (8, _)]; []] [1; 1] [1; 0]).
  - do 2 (constructor; [right; exists map_start; auto|]). constructor.
  - constructor; [|constructor; [|constructor]].
    + eapply yi_all; [reflexivity | apply A|]. apply (th_cons 0 SK (fun _ => SV)). constructor.
    + eapply yi_all; [reflexivity | apply A|]. constructor.
  - do 2 (constructor; [right; exists map_start; auto|]). constructor.
  - do 2 (constructor; [right; exists map_start; auto|]). constructor.
Qed.
