(** * Lemmas for property C52: an address that is used again during a visit. *)
From Verif Require Import Base BaseFacts KeyModel KeyFacts HMap FlameModel BuilderModel BuilderFacts VisitorModel Spec EventFacts SolidFacts LayoutModel ImplModel ImplSpec
  LockModel LockSpec LockFacts SnapshotModel ChangeModel ChangeSpec.

(** [struct Slots { a: Mutex<Option<Arc<u32>>>, b: Mutex<Option<Arc<[u8; 1000]>>> }]. *)
Definition t_u32 : tinfo := mkT "u32" 4 false.
Definition t_buf : tinfo := mkT "[u8; 1000]" 1000 false.
Definition t_slots : tinfo := mkT "Slots" 32 true.
Definition t_lock (t : tinfo) : tinfo := mkT ("std::sync::poison::mutex::Mutex<core::option::Option<alloc::sync::Arc<" ++ t_name t ++ ">>>") 16 true.
Definition t_option (t : tinfo) : tinfo := mkT ("core::option::Option<alloc::sync::Arc<" ++ t_name t ++ ">>") 8 true.
Definition t_arc_of (t : tinfo) : tinfo := mkT ("alloc::sync::Arc<" ++ t_name t ++ ">") 8 true.
Definition empty_slot (t : tinfo) : mvalue := MPlain (SStruct (t_option t) []) [].
Definition full_slot (t : tinfo) (x : ptr) : mvalue := MPlain (SStruct (t_option t) ["Some"%string]) [MPlain (SShared (t_arc_of t) 8 x) []].
Definition number : mvalue := MPlain (SLeaf t_u32) [].
Definition buffer : mvalue := MPlain (SLeaf t_buf) [].
Definition slots : mvalue := MPlain (SStruct t_slots ["a"%string; "b"%string]) [MLock (t_lock t_u32) 7 Exclusive; MLock (t_lock t_buf) 8 Exclusive].

(** The memories of the run: two locks, one allocation at address 5. *)
Definition slots_content (l : lock) (v : mvalue) : Prop := v = empty_slot t_u32 \/ v = full_slot t_u32 5 \/ v = empty_slot t_buf \/ v = full_slot t_buf 5.
Definition slots_memory (g : memory) : Prop :=
  (forall l, slots_content l (m_content g l)) /\
  (forall x i v, m_object g x = Some (i, v) -> (i, v) = (InArc 4, number) \/ (i, v) = (InArc 1, buffer)).
Definition slots_start : memory :=
  mkMem (mkShared (fun _ => mkLock [] false) (fun _ => [Other 0]))
    (fun l => if N.eqb l 7 then full_slot t_u32 5 else empty_slot t_buf)
    (fun x => if N.eqb x 5 then Some (InArc 4, number) else None).

Ltac mem := split; [intros l; unfold slots_content; cbn; repeat (match goal with |- context [N.eqb ?a ?b] => destruct (N.eqb a b) end); auto
  | intros x i v; cbn; repeat (match goal with |- context [N.eqb ?a ?b] => destruct (N.eqb a b) end); intros HX; inversion HX; auto].
Ltac norm := lazymatch goal with |- passes ?M ?m ?std (mkC ?g ?b ?k ?st) ?c =>
  let k' := eval vm_compute in k in change (passes M m std (mkC g b k' st) c) end.
Ltac vstep := eapply ps_visit; [mem | first [
   eapply k_exit; [vm_compute; reflexivity]
 | eapply k_unlock
 | eapply k_return
 | eapply k_inline; [vm_compute; reflexivity]
 | eapply k_shared; [vm_compute; reflexivity]
 | eapply k_shared_again; [vm_compute; reflexivity]
 | eapply k_try; [vm_compute; reflexivity | vm_compute; reflexivity]
 | eapply k_visit ] | norm ].


Ltac other := eapply ps_other; [mem | |].

(** The text of the finished profile: nothing of the 1000 bytes. *)
Definition reuse_text : string :=
"ArcInner 20
ArcInner;u32 4
Slots;a;std::sync::poison::mutex::Mutex<core::option::Option<alloc::sync::Arc<u32>>> 8
Slots;a;std::sync::poison::mutex::Mutex<core::option::Option<alloc::sync::Arc<u32>>>;data;core::option::Option<alloc::sync::Arc<u32>>;Some;alloc::sync::Arc<u32>;ptr 8
Slots;b;std::sync::poison::mutex::Mutex<core::option::Option<alloc::sync::Arc<[u8; 1000]>>> 8
Slots;b;std::sync::poison::mutex::Mutex<core::option::Option<alloc::sync::Arc<[u8; 1000]>>>;data;core::option::Option<alloc::sync::Arc<[u8; 1000]>>;Some;alloc::sync::Arc<[u8; 1000]>;ptr 8
".
Lemma reuse_run : exists c, passes slots_memory Debug (fun _ => true) (begin slots_start (set_entered b_default true) slots) c /\
  ended c /\ m_content (k_mem c) 8 = full_slot t_buf 5 /\ m_object (k_mem c) 5 = Some (InArc 1, buffer) /\ (forall l, locks (m_shared (k_mem c)) l = mkLock [] false) /\
  exists b out, leave_scope (result c) = (b, Done) /\ finish Debug b = Some out /\ fg_write (out_flamegraph out) = reuse_text /\ out_warnings out = EmptyString.
Proof.
  eexists. split; [unfold begin, slots|].
  - do 27 vstep.
    (* another thread empties lock 7 and frees the [Arc]; the address is used again, for an [Arc] that goes into lock 8 *)
    other; [apply ch_shared, (@o_acquire _ 7 1%nat Exclusive); vm_compute; reflexivity|].
    other; [apply (@ch_write _ 7 1%nat (empty_slot t_u32)); vm_compute; now left|].
    other; [apply ch_shared, (@o_release _ 7 1%nat Exclusive false); vm_compute; now left|].
    other; [apply (ch_object _ 5 None)|].
    other; [apply (ch_object _ 5 (Some (InArc 1, buffer)))|].
    other; [apply ch_shared, (@o_acquire _ 8 1%nat Exclusive); vm_compute; reflexivity|].
    other; [apply (@ch_write _ 8 1%nat (full_slot t_buf 5)); vm_compute; now left|].
    other; [apply ch_shared, (@o_release _ 8 1%nat Exclusive false); vm_compute; now left|].
    repeat vstep. apply ps_end. mem.
  - split; [exact I|]. split; [vm_compute; reflexivity|]. split; [vm_compute; reflexivity|]. split.
    { intros l. cbn. destruct (N.eqb l 8); [reflexivity|]. destruct (N.eqb l 7); reflexivity. }
    eexists. eexists. split; [vm_compute; reflexivity|]. split; [vm_compute; reflexivity|]. split; vm_compute; reflexivity.
Qed.

(** The final memory, profiled with nothing else running. *)
Definition slots_after : value :=
  Node (SStruct t_slots ["a"%string; "b"%string]) [Node (SCell (t_lock t_u32) true) [outline (empty_slot t_u32)]; Node (SCell (t_lock t_buf) true) [outline (full_slot t_buf 5)]].
Lemma after_alone : exists out, profile Debug [visit_in Debug 1 [(5, (InArc 1, outline buffer))] slots_after] = Some out /\
  fg_write (out_flamegraph out) =
"ArcInner 16
ArcInner;[u8; 1000] 1000
Slots;a;std::sync::poison::mutex::Mutex<core::option::Option<alloc::sync::Arc<u32>>> 8
Slots;a;std::sync::poison::mutex::Mutex<core::option::Option<alloc::sync::Arc<u32>>>;data;core::option::Option<alloc::sync::Arc<u32>> 8
Slots;b;std::sync::poison::mutex::Mutex<core::option::Option<alloc::sync::Arc<[u8; 1000]>>> 8
Slots;b;std::sync::poison::mutex::Mutex<core::option::Option<alloc::sync::Arc<[u8; 1000]>>>;data;core::option::Option<alloc::sync::Arc<[u8; 1000]>>;Some;alloc::sync::Arc<[u8; 1000]>;ptr 8
"%string.
Proof. eexists. split; vm_compute; reflexivity. Qed.

(** The memories of the run are well typed. *)
Definition slots_types (l : lock) : N * bool := (8, true).
Lemma slots_typed g : slots_memory g -> mem_typed slots_types g.
Proof.
  intros [H1 H2]. split.
  - intros l. destruct (H1 l) as [->|[->|[->| ->]]]; (split; [|split; [reflexivity | auto]]).
    all: constructor; [exact I | cbn; unfold contained; cbn; repeat split; try (unfold sumN; cbn; lia); repeat constructor | repeat constructor].
    all: cbn; unfold ImplSpec.owner, ptr_size; cbn; repeat split; auto; lia.
  - intros x i v Ho. destruct (H2 _ _ _ Ho) as [[= -> ->]|[= -> ->]].
    + split; [|constructor; [exact I | reflexivity | constructor]]. split; [split; [exists 2; reflexivity | cbn; rewrite two63_val; lia]|]. exists 24. rewrite two63_val. split; [lia|].
      split; [exists 3; reflexivity|]. split; [exists 6; reflexivity|]. exists 16. cbn. repeat split; try lia. exists 4; reflexivity.
    + split; [|constructor; [exact I | reflexivity | constructor]]. split; [split; [exists 0; reflexivity | cbn; rewrite two63_val; lia]|]. exists 1016. rewrite two63_val. split; [lia|].
      split; [exists 127; reflexivity|]. split; [exists 1016; reflexivity|]. exists 16. cbn. repeat split; try lia. exists 16; reflexivity.
Qed.
Lemma slots_manual g : slots_memory g -> mem_all manual_free g.
Proof.
  intros [H1 H2]. split.
  - intros l. destruct (H1 l) as [->|[->|[->| ->]]]; cbn; tauto.
  - intros x i v Ho. destruct (H2 _ _ _ Ho) as [[= -> ->]|[= -> ->]]; cbn; tauto.
Qed.
Lemma slots_map g : slots_memory g -> mem_all map_free g.
Proof.
  intros [H1 H2]. split.
  - intros l. destruct (H1 l) as [->|[->|[->| ->]]]; cbn; tauto.
  - intros x i v Ho. destruct (H2 _ _ _ Ho) as [[= -> ->]|[= -> ->]]; cbn; tauto.
Qed.
Lemma slots_root : mtyped slots_types slots.
Proof.
  constructor; [exact I | cbn; unfold contained; cbn; split; [reflexivity|]; split; [lia | repeat constructor] |].
  repeat constructor; cbn; lia.
Qed.
