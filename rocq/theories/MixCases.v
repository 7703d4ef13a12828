(** * Lemmas for property C64: an entry that moves from one shard to another during a visit. *)
From Verif Require Import Base BaseFacts KeyModel KeyFacts HMap FlameModel BuilderModel BuilderFacts VisitorModel Spec LayoutModel ImplModel
  LockModel LockSpec LockFacts SnapshotModel DashModel DashSpec MixModel MixSpec MixGuard.

(** [DashMap<u8, Arc<u32>>] with two shards (locks 1 and 2). *)
Definition xt_u8 : tinfo := mkT "u8" 1 false.
Definition xt_u32 : tinfo := mkT "u32" 4 false.
Definition xt_arc : tinfo := mkT "Arc<u32>" 8 true.
Definition xt_map : tinfo := mkT "DashMap<u8, Arc<u32>>" 40 true.
Definition xt_entry : tinfo := mkT "(u8, Arc<u32>)" 16 true.
Definition xkey : xvalue := XPlain (SLeaf xt_u8) [].
Definition xarc : xvalue := XPlain (SShared xt_arc 8 5) [].
Definition xnumber : xvalue := XPlain (SLeaf xt_u32) [].
Definition xmap : xvalue := XDash IsMap xt_map xt_entry [1; 2].
Definition one_entry : xtable := mkTable 1 [(xkey, xarc)].
Definition no_entry : xtable := mkTable 1 [].

(** The memories of the run: in one or both shards there is the entry. *)
Definition map_memory (g : xmemory) : Prop :=
  (forall l, x_content g l = xarc) /\
  (forall l, x_table g l = one_entry \/ x_table g l = no_entry) /\
  (forall x, x_object g x = if N.eqb x 5 then Some (InArc 4, xnumber) else None).
Definition map_start : xmemory :=
  mkX (mkShared (fun _ => mkLock [] false) (fun _ => [Other 0])) (fun _ => xarc)
    (fun x => if N.eqb x 5 then Some (InArc 4, xnumber) else None)
    (fun l => if N.eqb l 1 then one_entry else no_entry).

Ltac xmem := split; [intros l; reflexivity | split; [intros l; cbn; repeat (match goal with |- context [N.eqb ?a ?b] => destruct (N.eqb a b) end); auto | intros x; reflexivity]].
Ltac xnorm := lazymatch goal with |- xpasses ?M ?m ?std (mkXC ?g ?b (XRun ?k) ?st) ?c =>
  let k' := eval hnf in k in change (xpasses M m std (mkXC g b (XRun k') st) c) | _ => idtac end.
Ltac xavail := first [vm_compute; reflexivity | cbn; intros o Ho; repeat (destruct Ho as [Ho|Ho]; [discriminate|]); exact Ho].
Ltac xvstep := eapply xp_visit; [xmem | first [
   eapply x_exit; [vm_compute; reflexivity]
 | eapply x_unlock
 | eapply x_return
 | eapply x_next_shard; [xavail]
 | eapply x_last_shard
 | eapply x_inline; [vm_compute; reflexivity]
 | eapply x_unique; [vm_compute; reflexivity]
 | eapply x_shared_new; [vm_compute; reflexivity]
 | eapply x_shared_again; [vm_compute; reflexivity]
 | eapply x_try; [xavail | vm_compute; reflexivity]
 | eapply x_visit
 | eapply x_sum; [xavail | vm_compute; reflexivity]
 | eapply x_sum_done
 | eapply x_first_shard; [xavail]
 | eapply x_no_shard ] | xnorm ].
Ltac xother := eapply xp_other; [xmem | |].

(** Go on until the entries of a shard have been visited. *)
Ltac xshard_done := lazymatch goal with |- xpasses _ _ _ (mkXC _ _ (XRun XRet) (YShard _ _ (_ :: _) _ :: _)) _ => idtac | _ => xvstep; xshard_done end.

Definition moved_text : string :=
"ArcInner 20
ArcInner;u32 4
DashMap<u8, Arc<u32>> 32
DashMap<u8, Arc<u32>>;ptr 8
DashMap<u8, Arc<u32>>;ptr;capacity;key;u8 2
DashMap<u8, Arc<u32>>;ptr;capacity;unused_capacity 16
DashMap<u8, Arc<u32>>;ptr;capacity;value;Arc<u32>;ptr 16
".
(** The first shard is visited, with the entry in it; then another thread puts the entry
    into the second shard, and takes it out of the first as soon as it can. *)
Lemma moved_run : exists c, xpasses map_memory Debug (fun _ => true) (xbegin map_start (set_entered b_default true) xmap) c /\ xended c /\
  held (locks (x_shared (xk_mem c)) 1) = [] /\ held (locks (x_shared (xk_mem c)) 2) = [] /\ x_table (xk_mem c) 1 = no_entry /\ x_table (xk_mem c) 2 = one_entry /\
  exists b out, leave_scope (xresult c) = (b, Done) /\ finish Debug b = Some out /\ fg_write (out_flamegraph out) = moved_text /\ out_warnings out <> EmptyString.
Proof.
  eexists. split; [unfold xbegin, xmap|].
  - do 8 xvstep. xshard_done.
    xother; [apply xc_shared, (@o_acquire _ 2 1%nat Exclusive); vm_compute; reflexivity|].
    xother; [apply (@xc_table _ 2 1%nat one_entry); vm_compute; now left|].
    xother; [apply xc_shared, (@o_release _ 2 1%nat Exclusive false); vm_compute; now left|].
    xvstep.
    xother; [apply xc_shared, (@o_acquire _ 1 1%nat Exclusive); vm_compute; reflexivity|].
    xother; [apply (@xc_table _ 1 1%nat no_entry); vm_compute; now left|].
    xother; [apply xc_shared, (@o_release _ 1 1%nat Exclusive false); vm_compute; now left|].
    repeat xvstep. apply xp_end. xmem.
  - split; [exact I|]. split; [vm_compute; reflexivity|]. split; [vm_compute; reflexivity|].
    split; [reflexivity|]. split; [reflexivity|].
    eexists. eexists. split; [vm_compute; reflexivity|]. split; [vm_compute; reflexivity|]. split; vm_compute; [reflexivity | discriminate].
Qed.
