(** * Lemmas for property C65: vectors in a [DashMap] that are replaced or moved during
    the call. *)
From Verif Require Import Base BaseFacts KeyModel KeyFacts HMap FlameModel BuilderModel BuilderFacts VisitorModel Spec LayoutModel ImplModel SizeOfModel
  LockModel LockSpec LockFacts SnapshotModel DashModel DashSpec MixModel MixSpec MixGuard MixCases SizeMixModel SizeMixSpec.

(** [DashMap<u8, Vec<u8>>] with two shards (locks 1 and 2), one slot each. *)
Definition zt_vec : tinfo := mkT "Vec<u8>" 24 true.
Definition zt_entry : tinfo := mkT "(u8, Vec<u8>)" 32 true.
Definition zt_map : tinfo := mkT "DashMap<u8, Vec<u8>>" 40 true.
(** An empty vector with capacity [n]. *)
Definition zvec (n : N) : xvalue := XPlain (SVec zt_vec xt_u8 n) [].
Definition zmap : xvalue := XDash IsMap zt_map zt_entry [1; 2].
Definition ztable (n : N) : xtable := mkTable 1 [(xkey, zvec n)].
Definition zstart : xmemory :=
  mkX (mkShared (fun _ => mkLock [] false) (fun _ => [])) (fun _ => xkey) (fun _ => None) (fun l => if N.eqb l 1 then ztable 3 else no_entry).

(** In each shard there is the entry with the vector of capacity 3, or nothing. *)
Definition move_memory (g : xmemory) : Prop :=
  (forall l, x_content g l = xkey) /\ (forall l, x_table g l = ztable 3 \/ x_table g l = no_entry) /\ (forall x, x_object g x = None).
(** In shard 1 there is an entry with a vector of capacity 3 or 5. *)
Definition replace_memory (g : xmemory) : Prop :=
  (forall l, x_content g l = xkey) /\ (forall l, l <> 1 -> x_table g l = no_entry) /\ (x_table g 1 = ztable 3 \/ x_table g 1 = ztable 5) /\ (forall x, x_object g x = None).

Ltac zmem := first
  [ split; [intros l; reflexivity | split; [intros l; cbn; repeat (match goal with |- context [N.eqb ?a ?b] => destruct (N.eqb a b) end); auto | intros x; reflexivity]]
  | split; [intros l; reflexivity | split; [intros l Hl; cbn; repeat (match goal with |- context [N.eqb ?a ?b] => destruct (N.eqb_spec a b) end); congruence | split; [cbn; auto | intros x; reflexivity]]]].
Ltac znorm := lazymatch goal with |- zpasses ?M ?m ?std (mkZ ?g ?s ?nk (ZRun ?k) ?st) ?c =>
  let k' := eval hnf in k in change (zpasses M m std (mkZ g s nk (ZRun k') st) c) | _ => idtac end.
Ltac zvstep := eapply zp_visit; [zmem | first [
   eapply z_exit
 | eapply z_return
 | eapply z_next_shard; [xavail]
 | eapply z_last_shard
 | eapply z_inline; [vm_compute; reflexivity]
 | eapply z_unique
 | eapply z_visit
 | eapply z_sum; [xavail | vm_compute; reflexivity]
 | eapply z_sum_done
 | eapply z_first_shard; [xavail]
 | eapply z_no_shard ] | znorm ].
Ltac zother := eapply zp_other; [zmem | |].
Ltac zshard_done := lazymatch goal with |- zpasses _ _ _ (mkZ _ _ _ (ZRun XRet) (ZShard _ _ (_ :: _) _ :: _)) _ => idtac | _ => zvstep; zshard_done end.

(** The first shard is visited, with the entry in it; then another thread puts the entry
    into the second shard, and takes it out of the first as soon as it can. *)
Lemma zmoved_run : exists c, zpasses move_memory Debug (fun _ => true) (zbegin zstart zmap) c /\ zended c /\
  x_table (z_mem c) 1 = no_entry /\ x_table (z_mem c) 2 = ztable 3 /\ zresult c = Some 70.
Proof.
  eexists. split; [unfold zbegin, zmap|].
  - do 8 zvstep. zshard_done.
    zother; [apply xc_shared, (@o_acquire _ 2 1%nat Exclusive); vm_compute; reflexivity|].
    zother; [apply (@xc_table _ 2 1%nat (ztable 3)); vm_compute; now left|].
    zother; [apply xc_shared, (@o_release _ 2 1%nat Exclusive false); vm_compute; now left|].
    zvstep.
    zother; [apply xc_shared, (@o_acquire _ 1 1%nat Exclusive); vm_compute; reflexivity|].
    zother; [apply (@xc_table _ 1 1%nat no_entry); vm_compute; now left|].
    zother; [apply xc_shared, (@o_release _ 1 1%nat Exclusive false); vm_compute; now left|].
    repeat zvstep. apply zp_end. zmem.
  - split; [exact I|]. split; [reflexivity|]. split; [reflexivity|]. vm_compute; reflexivity.
Qed.

(** The vector is replaced before its shard is visited. *)
Lemma zreplaced_run : exists c, zpasses replace_memory Debug (fun _ => true) (zbegin zstart zmap) c /\ zended c /\ zresult c = Some 69.
Proof.
  eexists. split; [unfold zbegin, zmap|].
  - do 4 zvstep.
    zother; [apply xc_shared, (@o_acquire _ 1 1%nat Exclusive); vm_compute; reflexivity|].
    zother; [apply (@xc_table _ 1 1%nat (ztable 5)); vm_compute; now left|].
    zother; [apply xc_shared, (@o_release _ 1 1%nat Exclusive false); vm_compute; now left|].
    repeat zvstep. apply zp_end. zmem.
  - split; [exact I|]. vm_compute; reflexivity.
Qed.
(** In the middle: an entry is visited; someone has the next shard. *)
Lemma zmiddle_run : exists c, zpasses replace_memory Debug (fun _ => true) (zbegin zstart zmap) c /\ ziterating c 1 /\ zlooks_at c (zvec 3) /\ ~ xpart_of (zvec 3) zmap.
Proof.
  eexists. split; [unfold zbegin, zmap|].
  - do 8 zvstep. Ltac zvec_next := lazymatch goal with |- zpasses _ _ _ (mkZ _ _ _ (ZRun (XVisit (zvec 3) _)) _) _ => idtac | _ => zvstep; zvec_next end. zvec_next. apply zp_end. zmem.
  - split; [do 3 eexists; cbn [z_stack In]; right; left; reflexivity|]. split; [eexists; reflexivity|]. intros H. inversion H.
Qed.
Lemma zwaiting_run : exists c, zpasses replace_memory Debug (fun _ => true) (zbegin zstart zmap) c /\ zneeds c 1 /\ held (locks (x_shared (z_mem c)) 1) = [(Other 3, Exclusive)].
Proof.
  eexists. split; [unfold zbegin, zmap|].
  - do 3 zvstep. zother; [apply xc_shared, (@o_acquire _ 1 3%nat Exclusive); vm_compute; reflexivity|]. apply zp_end. zmem.
  - split; [reflexivity | vm_compute; reflexivity].
Qed.
