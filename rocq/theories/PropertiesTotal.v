(** * Property C60: what a total consists of; and the totals of changing [DashMap]s (C53). *)
From Coq Require Import Permutation Sorted.
From Verif Require Import Base BaseFacts KeyModel KeyFacts HMap FlameModel BuilderModel VisitorModel LayoutModel Spec ImplModel
  BuilderProps ConserveFacts TotalSpec TotalFacts DashModel DashSpec DashProps DashTotal PropertiesBuilder PropertiesHeap PropertiesDash.

#[local] Arguments key_new : simpl never.

(** ** C60: whatever was declared, by visits that returned or panicked, the total is the
    bytes of the memory blocks, plus what was opened inside inline scopes at stacks also
    entered as unique, plus, for each warning, the difference of the two numbers it quotes. *)
Theorem C60_total : forall l, Forall (keys_in made_by_new) l -> total_declared (root_events l) < two63 ->
  exists o L, (forall m, profile m l = Some o) /\
    out_warnings o = concat_str (map (warning_for (root_events l)) L) /\ NoDup L /\
    (forall p, In p L -> declared_s (root_events l) p < inline_below_s (root_events l) p) /\
    (forall m, fg_total_size m (out_flamegraph o) =
       Some (block_bytes (root_events l) + mixed_bytes (root_events l) +
             sumN (map (fun p => inline_below_s (root_events l) p - declared_s (root_events l) p) L))).
Proof.
  intros l HK Ht. destruct (total_lemma HK Ht) as (o & L & H1 & H2 & H3 & H4 & H5).
  exists o, L. split; [exact H1|]. split; [exact H2|]. split; [exact H3|]. split; [|exact H5].
  intros p Hp. apply H4 in Hp. apply Hp.
Qed.
Print Assumptions C60_total.

(** So no block is ever lost; and if there are no warnings, and no stack was entered both
    as unique and otherwise, every block is counted exactly once. *)
Theorem C60_no_warning : forall l o, Forall (keys_in made_by_new) l -> total_declared (root_events l) < two63 ->
  profile Debug l = Some o ->
  exists n, (forall m, fg_total_size m (out_flamegraph o) = Some n) /\ block_bytes (root_events l) <= n /\
    (unmixed (root_events l) -> (out_warnings o = EmptyString <-> n = block_bytes (root_events l))).
Proof.
  intros l o HK Ht Ho. destruct (total_lemma HK Ht) as (o' & L & H1 & H2 & H3 & H4 & H5).
  assert (o' = o) by (specialize (H1 Debug); congruence). subst o'. eexists. split; [exact H5|]. split; [lia|].
  intros Hm. rewrite (unmixed_zero Hm). split.
  - intros E. destruct L as [|p L]; [cbn [map sumN]; lia|]. exfalso. rewrite H2 in E. cbn in E. discriminate E.
  - intros E. destruct L as [|p L]; [exact H2|]. exfalso. cbn [map sumN] in E.
    destruct (proj1 (H4 p) (or_introl eq_refl)) as [_ Hlt]. unfold exceeds, inline_below_s, declared_s in E. lia.
Qed.
Print Assumptions C60_no_warning.

(** And what the warnings add up to is at most what the scopes themselves overspend. *)
Theorem C60_at_most : forall l o, Forall (keys_in made_by_new) l -> total_declared (root_events l) < two63 ->
  profile Debug l = Some o -> unmixed (root_events l) ->
  exists n, (forall m, fg_total_size m (out_flamegraph o) = Some n) /\
    block_bytes (root_events l) <= n <= block_bytes (root_events l) + sumN (map overspends l).
Proof.
  intros l o HK Ht Ho Hm. destruct (total_lemma HK Ht) as (o' & L & H1 & H2 & H3 & H4 & H5).
  assert (o' = o) by (specialize (H1 Debug); congruence). subst o'. eexists. split; [exact H5|].
  rewrite (unmixed_zero Hm), <- (exceeds_listed H3 H4). pose proof (@exceeds_bounded l). lia.
Qed.
Print Assumptions C60_at_most.

(** A panicking and a misdeclaring root: 16 + 12 bytes of blocks, and a warning that 12
    bytes were found in 8. *)
Definition ex_overdrawn : list vprog :=
  [VInline (key_new "A") 16 (VUnique (key_new "p") 8 (VInline (key_new "T") 4 VRet VCrash) VRet) VRet;
   VInline (key_new "B") 8 (VInline (key_new "x") 4 VRet (VInline (key_new "y") 8 VRet VRet)) VRet].
Example C60_satisfiable : Forall (keys_in made_by_new) ex_overdrawn /\ total_declared (root_events ex_overdrawn) < two63 /\
  unmixed (root_events ex_overdrawn) /\ block_bytes (root_events ex_overdrawn) = 28 /\
  sumN (map overspends ex_overdrawn) = 4 /\
  exists o, profile Debug ex_overdrawn = Some o /\ out_warnings o <> EmptyString /\ fg_total_size Debug (out_flamegraph o) = Some 32.
Proof.
  split; [unfold ex_overdrawn, made_by_new; repeat constructor; cbn; repeat split; eauto|]. split; [vm_compute; reflexivity|].
  split; [|split; [vm_compute; reflexivity|split; [vm_compute; reflexivity|]]].
  - intros e e' He He'.
    assert (H : Forall (fun e => Forall (fun e' => ev_path e = ev_path e' -> is_NKUnique (ev_kind e) = is_NKUnique (ev_kind e'))
       (root_events ex_overdrawn)) (root_events ex_overdrawn)).
    { assert (E : root_events ex_overdrawn = ltac:(let x := eval vm_compute in (root_events ex_overdrawn) in exact x)) by (vm_compute; reflexivity).
      rewrite E. repeat constructor; cbn [ev_path ev_kind is_NKUnique]; try reflexivity; try discriminate. }
    rewrite Forall_forall in H. specialize (H e He). rewrite Forall_forall in H. now apply H.
  - give_profile ex_overdrawn. split; [vm_compute; reflexivity|]. split; [vm_compute; discriminate | vm_compute; reflexivity].
Qed.

(** ** C53: what a visit with these answers is, scope by scope: the map, its slots, the
    key and value of each entry seen, and what is left according to the later answers. *)
Theorem C53_scopes : forall m kd t e caps ens caps' lens,
  sumN caps < two64 -> sumN caps * t_size e < two64 -> sumN caps' < two64 -> sumN lens < two64 -> (sumN caps' - sumN lens) * t_size e < two64 ->
  visit_told m kd t e caps ens caps' lens =
  VInline (key_new (t_name t)) (t_size t)
    (VUnique (key_new "ptr") 8
      (VInline (key_new "capacity") (sumN caps * t_size e)
        (in_turn (flat_map (entry_fields kd) (concat ens))
          (VInline (key_new "unused_capacity") ((sumN caps' - sumN lens) * t_size e) VRet VRet)) VRet) VRet) VRet.
Proof. exact told_scopes. Qed.
Print Assumptions C53_scopes.

(** ** C53: while no shard is resized, the map itself, its slots and what the entries own
    are reported at least once, and the slots at most twice. *)
Theorem C53_at_most_twice : forall m kd t e shs H out, dash_profile m kd t e shs H out ->
  (forall s, In s H -> map sh_cap s = map sh_cap shs) ->
  (forall s, In s H -> slots_ok kd e s /\ entries_fit s) -> ptr_size <= t_size t ->
  (forall s en, In s H -> In en (all_entries s) -> keys_in made_by_new (snd (en_key en)) /\ keys_in made_by_new (snd (en_val en))) ->
  dash_capacity shs < two64 -> dash_capacity shs * t_size e < two64 ->
  exists caps ens caps' lens, told (length shs) H caps ens caps' lens /\
    out = profile m [visit_told m kd t e caps ens caps' lens] /\
    (unmixed (root_events [visit_told m kd t e caps ens caps' lens]) ->
     total_declared (root_events [visit_told m kd t e caps ens caps' lens]) < two63 ->
     exists o n, out = Some o /\ fg_total_size m (out_flamegraph o) = Some n /\
       t_size t + dash_capacity shs * t_size e + entry_blocks kd t (concat ens) <= n <=
       t_size t + 2 * (dash_capacity shs * t_size e) + entry_blocks kd t (concat ens)).
Proof.
  intros m kd t e shs H out Hp HC Hok Hps HK Hc Hc'. destruct (session_told Hp) as (caps & ens & caps' & lens & Ht & E).
  assert (Hs : exists H', H = shs :: H').
  { destruct Hp as (b0 & d & b & o & _ & G & _). inversion G; subst; eexists; reflexivity. }
  destruct Hs as [H' ->]. exists caps, ens, caps', lens. split; [exact Ht|]. split; [exact E|].
  assert (Hk : keys_in made_by_new (visit_told m kd t e caps ens caps' lens)).
  { apply told_keys. intros en Hen. destruct Ht as (H1 & H2 & _ & _ & R1 & R2 & _). destruct (reads_from R1) as (_ & I1 & _). destruct (reads_from R2) as (_ & _ & F2).
    apply in_concat in Hen as (l & Hl & Hen). apply In_nth_error in Hl as [j Ej].
    destruct (F2 j l Ej) as (s & sh & G1 & G2 & ->). apply (HK s en); [auto|]. unfold all_entries. apply in_flat_map. exists sh. split; [eapply nth_error_In; eauto | exact Hen]. }
  intros Hm Hd. destruct (@told_total m kd t e shs H' caps ens caps' lens Ht HC Hok Hps Hc' Hc) as [Hb Ho].
  destruct (@total_lemma [visit_told m kd t e caps ens caps' lens]) as (o & L & H1 & _ & H3 & H4 & H5); [constructor; [exact Hk | constructor] | exact Hd|].
  exists o. eexists. split; [rewrite E; apply H1|]. split; [apply H5|].
  rewrite (unmixed_zero Hm), <- (exceeds_listed H3 H4), Hb. pose proof (@exceeds_bounded [visit_told m kd t e caps ens caps' lens]) as Hx.
  cbn [map sumN] in Hx. lia.
Qed.
Print Assumptions C53_at_most_twice.

(** Both bounds are reached: the map of C53_removal_refuted, at rest, and emptied after
    its entries were visited. *)
Definition told_emptied (m : mode) : vprog := visit_told m IsMap dt de [2; 2] [[den 0; den 2]; [den 1; den 3]] [2; 2] [0; 0].
Definition told_full (m : mode) : vprog := visit_told m IsMap dt de [2; 2] [[den 0; den 2]; [den 1; den 3]] [2; 2] [2; 2].
Example C53_at_most_twice_satisfiable : forall m,
  (exists H, dash_profile m IsMap dt de full H (profile m [told_emptied m]) /\ told 2 (full :: [emptied]) [2; 2] [[den 0; den 2]; [den 1; den 3]] [2; 2] [0; 0] /\
     (forall s, In s H -> map sh_cap s = map sh_cap full /\ slots_ok IsMap de s /\ entries_fit s /\
        forall en, In en (all_entries s) -> keys_in made_by_new (snd (en_key en)) /\ keys_in made_by_new (snd (en_val en)))) /\
  unmixed (root_events [told_emptied m]) /\ total_declared (root_events [told_emptied m]) < two63 /\ unmixed (root_events [told_full m]) /\
  entry_blocks IsMap dt (concat [[den 0; den 2]; [den 1; den 3]]) = 0 /\ t_size dt = 40 /\ dash_capacity full * t_size de = 64 /\
  (exists o, profile m [told_emptied m] = Some o /\ fg_total_size m (out_flamegraph o) = Some (40 + 2 * 64)) /\
  (exists o, profile m [told_full m] = Some o /\ fg_total_size m (out_flamegraph o) = Some (40 + 64)).
Proof.
  intros m.
  assert (U : forall p, p = told_emptied m \/ p = told_full m -> unmixed (root_events [p])).
  { intros p Hp e e' He He'.
    assert (X : Forall (fun e => Forall (fun e' => ev_path e = ev_path e' -> is_NKUnique (ev_kind e) = is_NKUnique (ev_kind e')) (root_events [p])) (root_events [p])).
    { destruct Hp as [->| ->]; destruct m; (match goal with |- Forall _ ?l => let x := eval vm_compute in l in change l with x end); repeat constructor; try reflexivity; try discriminate. }
    rewrite Forall_forall in X. specialize (X e He). rewrite Forall_forall in X. now apply X. }
  assert (T : told 2 (full :: [emptied]) [2; 2] [[den 0; den 2]; [den 1; den 3]] [2; 2] [0; 0]).
  { exists (full :: [emptied]), (full :: [emptied]), [emptied], [emptied]. split; [|split; [|split]].
    - eapply reads_now with (x := shard_a); [reflexivity|]. eapply reads_now with (x := shard_b); [reflexivity|]. apply reads_all.
    - eapply reads_now with (f := sh_entries) (x := shard_a); [reflexivity|]. eapply reads_now with (f := sh_entries) (x := shard_b); [reflexivity|]. apply reads_all.
    - apply reads_later. eapply reads_now with (x := mkShard 2 []); [reflexivity|]. eapply reads_now with (x := mkShard 2 []); [reflexivity|]. apply reads_all.
    - eapply reads_now with (f := sh_len) (x := mkShard 2 []); [reflexivity|]. eapply reads_now with (f := sh_len) (x := mkShard 2 []); [reflexivity|]. apply reads_all. }
  split; [|split; [apply U; auto|split; [destruct m; vm_compute; reflexivity|split; [apply U; auto|split; [vm_compute; reflexivity|split; [reflexivity|split; [reflexivity|split]]]]]]].
  - destruct (@C53_all_answers m IsMap dt de full [emptied] _ _ _ _ T) as (H & P & Q); [intros s [<-|[]]; reflexivity|].
    exists H. split; [exact P|]. split; [exact T|]. intros s Hs.
    assert (X : forall A B, passes A B -> forall s, In s B -> In s A).
    { clear. induction 1 as [A|s A B HP IH|s A B HP IH]; intros x Hx; [destruct Hx | destruct Hx as [<-|Hx]; [now left | now apply IH] | right; now apply IH]. }
    apply (X _ _ Q) in Hs. assert (K : forall n, keys_in made_by_new (snd (du n))) by (intros n; cbn [du snd]; unfold v_simple_sized, v_enter_self; cbn [keys_in]; split; [eexists; reflexivity | auto]).
    destruct Hs as [<-|[<-|[]]]; (split; [reflexivity|]); (split; [unfold slots_ok, full, emptied; repeat constructor; cbn; lia|]); (split; [unfold entries_fit, full, emptied; repeat constructor; cbn; lia|]).
    + intros en [<-|[<-|[<-|[<-|[]]]]]; split; apply K.
    + intros en [].
  - destruct m; (eexists; split; [vm_compute; reflexivity | vm_compute; reflexivity]).
  - destruct m; (eexists; split; [vm_compute; reflexivity | vm_compute; reflexivity]).
Qed.
