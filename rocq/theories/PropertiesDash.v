(** * C53: profiling a [DashMap] or [DashSet] while other threads use it. *)
From Verif Require Import Base BaseFacts KeyModel KeyFacts HMap FlameModel BuilderModel VisitorModel LayoutModel Spec ConserveFacts
  ImplModel ImplFacts DashModel DashSpec DashFacts DashProps DashAll.

#[local] Arguments key_new : simpl never.

(** Whatever the other threads do, the profile is that of a map giving answers each
    of which was true of its shard at some moment of the visit, in order: all
    capacities, then the entries of each shard, then capacities and lengths. *)
Theorem C53_told : forall m kd t e shs H out, dash_profile m kd t e shs H out ->
  exists caps ens caps' lens, told (length shs) H caps ens caps' lens /\
    out = profile m [visit_told m kd t e caps ens caps' lens].
Proof. intros m kd t e shs H out. apply session_told. Qed.
Print Assumptions C53_told.

(** And each such combination of answers does occur, with the map going through
    the same contents in the same order. *)
Theorem C53_all_answers : forall m kd t e shs H caps ens caps' lens, told (length shs) (shs :: H) caps ens caps' lens ->
  (forall s, In s H -> length s = length shs) ->
  exists H', dash_profile m kd t e shs H' (profile m [visit_told m kd t e caps ens caps' lens]) /\ passes (shs :: H) H'.
Proof. intros m kd t e shs H caps ens caps' lens. apply session_all. Qed.
Print Assumptions C53_all_answers.

(** The same for a visit anywhere inside a profile, also if it panics. *)
Theorem C53_told_anywhere : forall m kd t e shs b H d b' o,
  goes m kd t e (d_start shs b) H d -> finished d b' o ->
  exists caps ens caps' lens, told (length shs) H caps ens caps' lens /\
    (b', o) = run m (visit_told m kd t e caps ens caps' lens) b.
Proof. intros m kd t e shs b H d b' o. apply visit_is_told. Qed.
Print Assumptions C53_told_anywhere.

(** If nobody changes the map, this is the visit of the map as it is. *)
Theorem C53_at_rest : forall m kd t e shs H out, dash_profile m kd t e shs H out ->
  (forall s, In s H -> s = shs) -> dash_capacity shs < two64 -> len (all_entries shs) < two64 ->
  out = profile m [match kd with
                   | IsMap => impl_dash_map m t e (len (all_entries shs)) (dash_capacity shs) (dash_values IsMap shs)
                   | IsSet => impl_dash_set m t e (dash_capacity shs) (dash_values IsSet shs)
                   end].
Proof.
  intros m kd t e shs H out P Hs Hc Hn. destruct (session_told P) as (caps & ens & caps' & lens & T & ->).
  rewrite (@told_rest m kd t e shs H caps ens caps' lens T Hs Hc Hn). destruct kd; reflexivity.
Qed.
Print Assumptions C53_at_rest.

(** No key is visited twice; every entry visited was in the map; a key that is in
    the map throughout is visited. *)
Theorem C53_keys : forall m kd t e shs b H d b' o home,
  goes m kd t e (d_start shs b) H d -> finished d b' o -> (forall s, In s H -> hashed home s) ->
  exists caps ens caps' lens, (b', o) = run m (visit_told m kd t e caps ens caps' lens) b /\
    NoDup (map en_id (concat ens)) /\
    (forall en, In en (concat ens) -> exists s sh, In s H /\ In sh s /\ In en (sh_entries sh)) /\
    (forall id, stays H id -> In id (map en_id (concat ens))).
Proof.
  intros m kd t e shs b H d b' o home G F Hh. destruct (visit_is_told G F) as (caps & ens & caps' & lens & T & E).
  assert (HL : forall s, In s H -> length s = length shs).
  { clear - G. change (length shs) with (length (d_shards (d_start shs b))). revert G. generalize (d_start shs b).
    intros d0 G. induction G as [d0|d0 d1 H d' S G IH|d0 d1 H d' S G IH]; intros s Hs.
    - destruct Hs as [<-|[]]. reflexivity.
    - destruct Hs as [<-|Hs]; [reflexivity|]. rewrite (IH s Hs), (shards_step S). reflexivity.
    - destruct Hs as [<-|Hs]; [reflexivity|]. rewrite (IH s Hs). destruct S as (x & -> & L & _). exact L. }
  assert (Hne : H <> []) by (destruct (goes_head G) as [H' ->]; discriminate).
  destruct (@told_keys home _ _ _ _ _ _ T) as (K1 & K2 & K3); [auto|].
  exists caps, ens, caps', lens. repeat split; auto.
Qed.
Print Assumptions C53_keys.

(** The visit takes finitely many steps, however the other threads interfere: a
    shard being iterated over cannot grow. *)
Theorem C53_ends : forall m kd t e shs b, Acc (next m kd t e) (d_start shs b).
Proof. intros. apply always_ends. Qed.
Print Assumptions C53_ends.

(** And it can always take its next one. *)
Theorem C53_progress : forall m kd t e shs b H d, goes m kd t e (d_start shs b) H d -> d_point d <> PStop ->
  exists d', visit_step m kd t e d = Some d'.
Proof.
  intros m kd t e shs b H d G Hp. apply can_step; [exact Hp|]. revert G.
  assert (Hok : forall i j, d_point (d_start shs b) = PEntry i j -> exists sh, nth_error (d_shards (d_start shs b)) i = Some sh) by discriminate.
  revert Hok. generalize (d_start shs b). intros d0 Hok G. induction G as [d0|d0 d1 H d' S G IH|d0 d1 H d' S G IH]; auto.
  - apply IH; auto. clear IH G Hp. rewrite (shards_step S). intros i j E. revert S. unfold visit_step.
    destruct (d_point d0) as [| |i0 acc|i0|i0 j0|i0 acc|c i0 acc|c n| |] eqn:Ep; intros S;
      repeat (match type of S with context [match ?x with _ => _ end] => destruct x eqn:? end; try discriminate S);
      try discriminate S; injection S as <-; revert E; unfold d_enter, d_calc, d_run, d_goto, d_panic;
      repeat (break_inner; cbn [d_point]); cbn [d_point]; intros E; try discriminate E; try (injection E as <- <-; eauto).
  - apply IH; auto. destruct S as (x & -> & L & Eg). cbn [d_point d_shards] in *. intros i j E. destruct (Hok i j E) as [sh Esh].
    exists sh. rewrite Eg; [exact Esh | unfold guarded; now rewrite E].
Qed.
Print Assumptions C53_progress.

(** While other threads only insert and no shard is resized, the numbers fit
    together and there is no warning. *)
Theorem C53_inserts_clean : forall m kd t e shs H out, dash_profile m kd t e shs H out -> only_inserts H ->
  (forall s, In s H -> slots_ok kd e s /\ entries_fit s) -> ptr_size <= t_size t ->
  dash_capacity shs < two64 -> dash_capacity shs * t_size e < two64 ->
  exists p, out = profile m [p] /\ well_declared p /\
    (keys_in made_by_new p -> total_declared (root_events [p]) < two63 ->
     exists o, out = Some o /\ out_warnings o = EmptyString).
Proof.
  intros m kd t e shs H out P Hi Hok Hp Hc Hm. destruct (session_told P) as (caps & ens & caps' & lens & T & ->).
  assert (EH : exists H', H = shs :: H') by (destruct P as (b0 & d & b & o & _ & G & _); exact (goes_head G)). destruct EH as [H' ->].
  assert (W : well_declared (visit_told m kd t e caps ens caps' lens)) by (eapply told_fits; eauto).
  eexists. split; [reflexivity|]. split; [exact W|]. intros K Ht.
  destruct (@C17_conservation_lemma [visit_told m kd t e caps ens caps' lens]) as (o & n & H1 & H2 & _); auto. exists o. auto.
Qed.
Print Assumptions C53_inserts_clean.

(** ** Examples: a map with two shards of [u64] keys and values. *)
Definition dt := mkT "dashmap::DashMap<u64, u64>" 40 true.
Definition de := mkT "(u64, u64)" 16 false.
Definition du (n : N) : sub := (8, v_simple_sized "u64" 8).
Definition den (id : N) : entry := mkEntry id (du id) (du id).
Definition shard_a := mkShard 2 [den 0; den 2].
Definition shard_b := mkShard 2 [den 1; den 3].
Definition full := [shard_a; shard_b].
Definition emptied := [mkShard 2 []; mkShard 2 []].
Definition d_home (id : N) : nat := N.to_nat (id mod 2).

Definition b_root : builder := fst (root_visitor b_default).

(** A visit during which the map goes through the given contents, [n] steps of the
    visit at each. *)
Fixpoint play (m : mode) (d : dstate) (script : list (nat * list shard)) : dstate :=
  match script with
  | [] => drive m IsMap dt de 100 d
  | (n, s) :: script' =>
      let d1 := drive m IsMap dt de n d in
      play m (mkD s (d_point d1) (d_open d1) (d_builder d1) (d_outcome d1)) script'
  end.

Fixpoint script_ok (m : mode) (d : dstate) (script : list (nat * list shard)) : Prop :=
  match script with
  | [] => True
  | (n, s) :: script' =>
      let d1 := drive m IsMap dt de n d in
      let d2 := mkD s (d_point d1) (d_open d1) (d_builder d1) (d_outcome d1) in
      others d1 d2 /\ script_ok m d2 script'
  end.

Lemma play_goes m script : forall d, script_ok m d script ->
  exists H, goes m IsMap dt de d H (play m d script) /\ forall s, In s H -> s = d_shards d \/ In s (map snd script).
Proof.
  induction script as [|[n s] script IH]; intros d Hok; cbn [play script_ok map snd] in *.
  - destruct (@goes_drive m IsMap dt de 100 d _ _ (@goes_end m IsMap dt de (drive m IsMap dt de 100 d))) as (j & _ & G).
    eexists. split; [exact G|]. intros x Hx. left. apply in_app_or in Hx as [Hx|[<-|[]]].
    + now apply repeat_spec in Hx.
    + clear. generalize 100%nat. intros n. revert d. induction n as [|n IH]; intros d; cbn [drive]; [reflexivity|].
      destruct (visit_step m IsMap dt de d) as [d1|] eqn:E; [|reflexivity]. rewrite IH. now apply shards_step in E.
  - destruct Hok as [Ho Hok]. set (d1 := drive m IsMap dt de n d) in *. set (d2 := mkD s (d_point d1) (d_open d1) (d_builder d1) (d_outcome d1)) in *.
    destruct (IH d2 Hok) as (H & G & Hin).
    assert (Ed1 : d_shards d1 = d_shards d).
    { unfold d1. clear. revert d. induction n as [|n IH]; intros d; cbn [drive]; [reflexivity|].
      destruct (visit_step m IsMap dt de d) as [d1|] eqn:E; [|reflexivity]. rewrite IH. now apply shards_step in E. }
    destruct (@goes_drive m IsMap dt de n d _ _ (goes_others Ho G)) as (j & _ & G').
    eexists. split; [exact G'|]. intros x Hx. apply in_app_or in Hx as [Hx|[<-|Hx]].
    + left. now apply repeat_spec in Hx.
    + left. exact Ed1.
    + destruct (Hin x Hx) as [->|A]; [right; left; reflexivity | right; now right].
Qed.

Definition result_of (m : mode) (d : dstate) : option (option N * string) :=
  match leave_scope (d_builder d, d_outcome d) with
  | (_, Aborted) => None
  | (b, _) => option_map (fun o => (fg_total_size m (out_flamegraph o), out_warnings o)) (finish m b)
  end.

Lemma play_profile m script : script_ok m (d_start full b_root) script -> d_point (play m (d_start full b_root) script) = PStop ->
  exists H out, dash_profile m IsMap dt de full H out /\ (forall s, In s H -> s = full \/ In s (map snd script)) /\
    option_map (fun o => (fg_total_size m (out_flamegraph o), out_warnings o)) out = result_of m (play m (d_start full b_root) script).
Proof.
  intros Hok Hp. destruct (play_goes Hok) as (H & G & Hin). eexists H, _. split; [|split; [exact Hin|]].
  - exists b_root, (play m (d_start full b_root) script), (d_builder (play m (d_start full b_root) script)), (d_outcome (play m (d_start full b_root) script)).
    split; [reflexivity|]. split; [exact G|]. split; [repeat split; auto | reflexivity].
  - unfold result_of. destruct (leave_scope _) as [b []]; reflexivity.
Qed.

(** At rest: 40 bytes for the map itself, 64 for four slots. *)
Example C53_satisfiable : forall m, exists H out, dash_profile m IsMap dt de full H out /\ (forall s, In s H -> s = full) /\
  (forall s, In s H -> hashed d_home s /\ slots_ok IsMap de s /\ entries_fit s) /\ stays H 3 /\
  option_map (fun o => (fg_total_size m (out_flamegraph o), out_warnings o)) out = Some (Some 104, EmptyString).
Proof.
  intros m. destruct (@play_profile m []) as (H & out & P & Hin & R); [exact I | destruct m; vm_compute; reflexivity|].
  exists H, out. split; [exact P|]. assert (Hf : forall s, In s H -> s = full) by (intros s Hs; destruct (Hin s Hs) as [->|[]]; reflexivity).
  split; [exact Hf|]. split; [|split].
  - intros s Hs. rewrite (Hf s Hs). split; [|split].
    + intros [|[|i]] sh E; cbn in E; try (destruct i; discriminate E); injection E as <-; cbn; repeat constructor; cbn; intuition discriminate.
    + unfold slots_ok, full. repeat constructor; cbn; lia.
    + unfold entries_fit, full. repeat constructor; cbn; lia.
  - intros s Hs. rewrite (Hf s Hs). exists shard_b, (den 3). cbn. auto.
  - rewrite R. destruct m; vm_compute; reflexivity.
Qed.

(** Only insertions, two entries more while the visit is under way: 104 bytes, no warning. *)
Definition half := [mkShard 2 [den 0]; mkShard 2 [den 1]].
Example C53_inserts_satisfiable : exists shs H out, dash_profile Debug IsMap dt de shs H out /\ only_inserts H /\ shs = half /\ In full H /\
  option_map (fun o => (fg_total_size Debug (out_flamegraph o), out_warnings o)) out = Some (Some 104, EmptyString).
Proof.
  set (d1 := drive Debug IsMap dt de 8 (d_start half b_root)).
  set (d2 := mkD full (d_point d1) (d_open d1) (d_builder d1) (d_outcome d1)).
  set (d3 := drive Debug IsMap dt de 100 d2).
  assert (Ho : others d1 d2).
  { exists full. split; [reflexivity|]. split; [vm_compute; reflexivity|]. intros i Hi. vm_compute in Hi. discriminate Hi. }
  destruct (@goes_drive Debug IsMap dt de 100 d2 _ _ (@goes_end Debug IsMap dt de d3)) as (j & _ & G2).
  destruct (@goes_drive Debug IsMap dt de 8 (d_start half b_root) _ _ (goes_others Ho G2)) as (i & _ & G1).
  assert (E1 : d_shards d1 = half) by (vm_compute; reflexivity). assert (E2 : d_shards d2 = full) by reflexivity.
  assert (E3 : d_shards d3 = full) by (vm_compute; reflexivity). rewrite E1, E2, E3 in G1. cbn [d_start d_shards] in G1.
  eexists half, _, _. split; [|split; [|split; [reflexivity|split]]].
  - exists b_root, d3, (d_builder d3), (d_outcome d3). split; [reflexivity|]. split; [exact G1|].
    split; [split; [vm_compute; reflexivity | auto] | reflexivity].
  - assert (A : forall n s H, only_inserts (s :: H) -> only_inserts (repeat s n ++ s :: H)).
    { induction n as [|n IHn]; intros s H Hi; [exact Hi|]. cbn [repeat app]. specialize (IHn s H Hi).
      assert (X : exists H', repeat s n ++ s :: H = s :: H') by (destruct n; cbn; eauto). destruct X as [H' X]. rewrite X in *.
      split; [|exact IHn]. apply grows_refl. }
    apply A. assert (X : exists H', repeat full j ++ [full] = full :: H') by (destruct j; cbn; eauto). destruct X as [H' X].
    assert (B : only_inserts (repeat full j ++ [full])) by (apply A; exact I). rewrite X in *. split; [|exact B].
    unfold half, full. repeat constructor; cbn; lia.
  - apply in_or_app. right. right. apply in_or_app. right. now left.
  - vm_compute. reflexivity.
Qed.

(** ** Otherwise the numbers need not fit.  The map is emptied after its entries have
    been visited: four slots were ever allocated, they are reported twice (64 bytes
    of entries and 64 bytes of unused capacity), with a warning. *)
Theorem C53_removal_refuted : forall m, exists H out, dash_profile m IsMap dt de full H out /\
  (forall s, In s H -> s = full \/ s = emptied) /\ (forall s, In s H -> slots_ok IsMap de s /\ entries_fit s /\ dash_capacity s = 4) /\
  exists w, option_map (fun o => (fg_total_size m (out_flamegraph o), out_warnings o)) out = Some (Some (40 + 2 * 64), w) /\ w <> EmptyString.
Proof.
  intros m. destruct (@play_profile m [(13%nat, emptied)]) as (H & out & P & Hin & R).
  - split; [|exact I]. exists emptied. split; [reflexivity|]. split; [destruct m; vm_compute; reflexivity|].
    intros i Hi. destruct m; vm_compute in Hi; discriminate Hi.
  - destruct m; vm_compute; reflexivity.
  - exists H, out. split; [exact P|].
    assert (Hf : forall s, In s H -> s = full \/ s = emptied) by (intros s Hs; destruct (Hin s Hs) as [->|[<-|[]]]; auto).
    split; [exact Hf|]. split.
    + intros s Hs. destruct (Hf s Hs) as [-> | ->]; unfold slots_ok, entries_fit, full, emptied; repeat split; repeat constructor; cbn; lia.
    + rewrite R. destruct m; vm_compute; (eexists; split; [reflexivity | discriminate]).
Qed.
Print Assumptions C53_removal_refuted.

(** The map grows from one slot per shard to two after its capacity was read. *)
Definition small := [mkShard 1 [den 0]; mkShard 1 [den 1]].
Theorem C53_growth_refuted : forall m, exists H out, dash_profile m IsMap dt de small H out /\
  (forall s, In s H -> s = small \/ s = full) /\ (forall s, In s H -> slots_ok IsMap de s /\ entries_fit s) /\
  exists w, option_map (fun o => (fg_total_size m (out_flamegraph o), out_warnings o)) out = Some (Some 104, w) /\ w <> EmptyString.
Proof.
  intros m. assert (Hok : script_ok m (d_start small b_root) [(5%nat, full)]).
  { split; [|exact I]. exists full. split; [reflexivity|]. split; [destruct m; vm_compute; reflexivity|].
    intros i Hi. destruct m; vm_compute in Hi; discriminate Hi. }
  destruct (play_goes Hok) as (H & G & Hin).
  assert (Hf : forall s, In s H -> s = small \/ s = full) by (intros s Hs; destruct (Hin s Hs) as [->|[<-|[]]]; auto).
  eexists H, _. split; [|split; [exact Hf|split]].
  - exists b_root. do 3 eexists. split; [reflexivity|]. split; [exact G|]. split; [split; [destruct m; vm_compute; reflexivity | split; reflexivity] | reflexivity].
  - intros s Hs. destruct (Hf s Hs) as [-> | ->]; unfold slots_ok, entries_fit, full, small; repeat split; repeat constructor; cbn; lia.
  - destruct m; vm_compute; (eexists; split; [reflexivity | discriminate]).
Qed.
Print Assumptions C53_growth_refuted.
