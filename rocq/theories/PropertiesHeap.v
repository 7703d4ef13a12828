(** * Properties about object graphs, conservation and size_of: C15-C21, C38. *)
From Coq Require Import Permutation Sorted.
From Verif Require Import Base BaseFacts KeyModel KeyFacts HMap FlameModel BuilderModel VisitorModel SizeOfModel Spec
  FlameFacts TraceFacts BuilderProps ConserveFacts HeapFacts MergeFacts HeapProps.

#[local] Arguments key_new : simpl never.

(** Provide the computed output of a session as witness. *)
Ltac give_profile l :=
  let x := eval vm_compute in (profile Debug l) in match x with Some ?o => exists o end.

(** ** A cyclic example heap: 1 and 2 point to each other, 2 also to 3. *)
Definition ex_node (k : string) (s : N) (l : list item) : list item := [Scope false (key_new k) s l].
Definition ex_heap : heap :=
  [(1, ex_node "Node" 32 [Ref (key_new "next") 8 2; Scope true (key_new "ptr") 8 (ex_node "u8" 5 [])]);
   (2, ex_node "Node" 32 [Ref (key_new "next") 8 1; Ref (key_new "leaf") 8 3]);
   (3, ex_node "Leaf" 4 [])].
Definition ex_items (k : string) (x : ptr) : list item := ex_node k 16 [Ref (key_new "arc") 8 x].
Definition ex_items_roots : list (list item) := [ex_items "A" 1; ex_items "B" 3].

Lemma ex_reach x : reachable ex_heap ex_items_roots x <-> x = 1 \/ x = 2 \/ x = 3.
Proof.
  split.
  - induction 1 as [r x Hr Hx|y o x Hy IH Ho Hx].
    + destruct Hr as [<-|[<-|[]]]; cbn in Hx; intuition auto.
    + destruct IH as [-> | [-> | ->]]; cbn [ex_heap deref N.eqb Pos.eqb] in Ho; inversion Ho; subst; cbn in Hx; intuition auto.
  - assert (H1 : reachable ex_heap ex_items_roots 1) by (eapply reach_root; [left; reflexivity | cbn; auto]).
    assert (H2 : reachable ex_heap ex_items_roots 2) by (eapply reach_step; [exact H1 | reflexivity | cbn; auto]).
    assert (H3 : reachable ex_heap ex_items_roots 3) by (eapply reach_step; [exact H2 | reflexivity | cbn; auto]).
    intros [-> | [-> | ->]]; auto.
Qed.

Lemma ex_closed : closed_heap ex_heap ex_items_roots.
Proof. intros x Hx. apply ex_reach in Hx as [-> | [-> | ->]]; eexists; reflexivity. Qed.

Lemma ex_heap_keys : heap_keys_in made_by_new ex_heap /\ Forall (Forall (item_keys_in made_by_new)) ex_items_roots.
Proof.
  unfold heap_keys_in, ex_heap, ex_items_roots, ex_items, ex_node, made_by_new.
  split; repeat (constructor; cbn [snd item_keys_in]); eauto.
Qed.

(** ** C15: visiting any root of any (possibly cyclic) finite heap terminates.

    [link n h r] is the recursive visit unrolled [n] levels deep, where going
    deeper counts as a failure: [length h] levels always suffice, i.e. the
    visit terminates and nests shared scopes no deeper than the number of
    allocations. *)
Theorem C15_terminates : forall n h roots r,
  closed_heap h (roots ++ [r]) -> (length h <= n)%nat ->
  total_declared (root_events (map (link n h) (roots ++ [r]))) < two63 ->
  exists b b', forall m, visit_roots m (map (link n h) roots) b_default = (b, Done) /\
    visit_root m (link n h r) b = (b', Done).
Proof. exact C15_terminates_lemma. Qed.
Print Assumptions C15_terminates.

(** Each reachable pointer is entered exactly once, and no other. *)
Theorem C15_exactly_once : forall n h roots,
  closed_heap h roots -> (length h <= n)%nat ->
  total_declared (root_events (map (link n h) roots)) < two63 ->
  exists b, (forall m, visit_roots m (map (link n h) roots) b_default = (b, Done)) /\
    NoDup (b_visited b) /\ (forall x, In x (b_visited b) <-> reachable h roots x) /\
    Permutation (root_events (map (link n h) roots))
      (flat_map (fun r => own r [] NKRoot) roots ++ flat_map (pointee_events h) (b_visited b)).
Proof. exact C15_once_lemma. Qed.
Print Assumptions C15_exactly_once.

(** The unrolling depth is not observable. *)
Theorem C15_depth_irrelevant : forall n n' h roots,
  closed_heap h roots -> (length h <= n)%nat -> (length h <= n')%nat ->
  root_events (map (link n h) roots) = root_events (map (link n' h) roots).
Proof. exact root_events_stable. Qed.
Print Assumptions C15_depth_irrelevant.

Example C15_satisfiable : closed_heap ex_heap ex_items_roots /\
  total_declared (root_events (map (link 3 ex_heap) ex_items_roots)) = 153 /\
  reachable ex_heap (map (fun o => o) [ex_node "x" 0 [Ref (key_new "r") 8 1]]) 1.
Proof.
  split; [exact ex_closed|]. split; [vm_compute; reflexivity|]. eapply reach_root; [left; reflexivity | cbn; auto].
Qed.

(** ** C16: the order of roots and of fields does not matter. *)
Theorem C16_order_irrelevant : forall m n n' h h' roots roots',
  heap_keys_in made_by_new h -> heap_keys_in made_by_new h' ->
  Forall (Forall (item_keys_in made_by_new)) roots -> Forall (Forall (item_keys_in made_by_new)) roots' ->
  (length h <= n)%nat -> (length h' <= n')%nat -> closed_heap h roots ->
  same_heap h h' -> same_roots roots roots' ->
  total_declared (root_events (map (link n h) roots)) < two63 ->
  option_map (observe_output m) (profile m (map (link n h) roots)) =
  option_map (observe_output m) (profile m (map (link n' h') roots')).
Proof. exact C16_order_lemma. Qed.
Print Assumptions C16_order_irrelevant.

(** A heap with the fields of object 2 swapped, roots in the other order. *)
Definition ex_heap' : heap :=
  [(2, ex_node "Node" 32 [Ref (key_new "leaf") 8 3; Ref (key_new "next") 8 1]);
   (1, ex_node "Node" 32 [Ref (key_new "next") 8 2; Scope true (key_new "ptr") 8 (ex_node "u8" 5 [])]);
   (3, ex_node "Leaf" 4 [])].

Example C16_satisfiable : same_heap ex_heap ex_heap' /\ same_roots ex_items_roots (rev ex_items_roots) /\
  heap_keys_in made_by_new ex_heap' /\
  root_events (map (link 3 ex_heap) ex_items_roots) <> root_events (map (link 3 ex_heap') (rev ex_items_roots)).
Proof.
  split; [|split; [|split]].
  - intros x. cbn [ex_heap ex_heap' deref]. destruct (N.eqb_spec x 1) as [->|H1]; [cbn; apply same_fields_refl|].
    destruct (N.eqb_spec x 2) as [->|H2]; [|destruct (N.eqb x 3); [apply same_fields_refl | exact I]].
    apply sf_scope; [apply sf_swap | constructor].
  - exists (rev ex_items_roots). split; [apply Permutation_rev|]. repeat constructor; apply same_fields_refl.
  - unfold heap_keys_in, ex_heap', ex_node, made_by_new. repeat (constructor; cbn [snd item_keys_in]); eauto.
  - vm_compute. discriminate.
Qed.

(** ** C17: conservation of bytes. *)
Theorem C17_conservation : forall l,
  Forall (keys_in made_by_new) l -> Forall well_declared l -> unmixed (root_events l) ->
  total_declared (root_events l) < two63 ->
  exists o, forall m, profile m l = Some o /\ out_warnings o = EmptyString /\
    fg_total_size m (out_flamegraph o) = Some (block_bytes (root_events l)).
Proof.
  intros l HK HF Hm Ht. destruct (C17_conservation_lemma HK HF Ht) as (o & n & H1 & H2 & H3 & _ & H5).
  exists o. intros m. rewrite <- (H5 Hm). auto.
Qed.
Print Assumptions C17_conservation.

Definition ex_good : list vprog := map (link 3 ex_heap) ex_items_roots.
Example C17_satisfiable : Forall well_declared ex_good /\ unmixed (root_events ex_good) /\
  Forall (keys_in made_by_new) ex_good /\ total_declared (root_events ex_good) < two63 /\ block_bytes (root_events ex_good) = 105.
Proof.
  split; [|split; [|split; [|split]]].
  - repeat constructor; cbn; repeat split; lia.
  - intros e e' He He'.
    assert (H : Forall (fun e => Forall (fun e' => ev_path e = ev_path e' -> is_NKUnique (ev_kind e) = is_NKUnique (ev_kind e'))
       (root_events ex_good)) (root_events ex_good)).
    { assert (E : root_events ex_good = ltac:(let x := eval vm_compute in (root_events ex_good) in exact x)) by (vm_compute; reflexivity).
      rewrite E. repeat constructor; cbn [ev_path ev_kind is_NKUnique]; try reflexivity; try discriminate. }
    rewrite Forall_forall in H. specialize (H e He). rewrite Forall_forall in H. now apply H.
  - apply link_keys_all; apply ex_heap_keys.
  - vm_compute. reflexivity.
  - vm_compute. reflexivity.
Qed.

(** ** C18: stacks entered both as unique and otherwise.

    Nothing is lost, but everything directly inside the inline scopes at such
    stacks is counted twice: the exact excess. *)
Theorem C18_exact_excess : forall l,
  Forall (keys_in made_by_new) l -> Forall well_declared l -> total_declared (root_events l) < two63 ->
  exists o, (forall m, profile m l = Some o) /\
    forall m, fg_total_size m (out_flamegraph o) = Some (block_bytes (root_events l) + mixed_bytes (root_events l)).
Proof. exact C18_excess_lemma. Qed.
Print Assumptions C18_exact_excess.

Definition ex_mixed : list vprog :=
  [VUnique (key_new "A") 8 (VInline (key_new "T") 10 VRet VRet) VRet; VInline (key_new "A") 20 (VInline (key_new "T") 15 VRet VRet) VRet].

Theorem C18_conservation_refuted : exists l, Forall (keys_in made_by_new) l /\ Forall well_declared l /\
  total_declared (root_events l) < two63 /\ block_bytes (root_events l) = 38 /\
  exists o, forall m, profile m l = Some o /\ fg_total_size m (out_flamegraph o) = Some 53.
Proof.
  exists ex_mixed. split; [repeat constructor; unfold made_by_new; eauto|].
  split; [repeat constructor; cbn; lia|]. split; [vm_compute; reflexivity|]. split; [vm_compute; reflexivity|].
  give_profile ex_mixed. intros m. split; destruct m; vm_compute; reflexivity.
Qed.
Print Assumptions C18_conservation_refuted.

(** ** C19: [size_of_unique_allocated_data]. *)

(** It is the (wrapped) sum of the blocks behind unique pointers; the only
    possible panic is the overflow of that sum in a debug build. *)
Theorem C19_sum : forall m p, crash_free p ->
  size_of_unique_allocated_data m p = wrapped m (unique_bytes p NKRoot).
Proof.
  intros m p Hc. unfold size_of_unique_allocated_data. rewrite run_so_spec by (first [exact Hc | reflexivity]).
  rewrite N.add_0_l. destruct (wrapped m (unique_bytes p NKRoot)); reflexivity.
Qed.
Print Assumptions C19_sum.

(** The same in terms of what the visit declares when no shared pointer is
    descended into (all of them counting as visited): the sum of the inline
    scopes opened directly inside a unique scope. *)
Theorem C19_events : forall m p vis es vis' ok, crash_free p ->
  (forall x, In x (pointers p) -> ptr_mem x vis = true) ->
  trace k_str p vis [] NKRoot = (es, vis', ok) ->
  size_of_unique_allocated_data m p =
  wrapped m (sumN (map (fun e => if is_NKUnique (ev_parent e) && is_NKInline (ev_kind e) then ev_size e else 0) es)).
Proof.
  intros m p vis es vis' ok Hc Hv E. rewrite C19_sum by exact Hc.
  now destruct (@unique_bytes_events p vis [] NKRoot es vis' ok Hc Hv E) as [-> _].
Qed.
Print Assumptions C19_events.

(** Names and pointer identities are irrelevant. *)
Theorem C19_names_irrelevant : forall m f g p,
  size_of_unique_allocated_data m (rename f g p) = size_of_unique_allocated_data m p.
Proof. intros m f g p. unfold size_of_unique_allocated_data. now rewrite run_so_rename. Qed.
Print Assumptions C19_names_irrelevant.

(** What is behind shared pointers is irrelevant. *)
Theorem C19_shared_irrelevant : forall m p,
  size_of_unique_allocated_data m p = size_of_unique_allocated_data m (forget_shared p).
Proof.
  intros m p. unfold size_of_unique_allocated_data.
  assert (H : forall nk size, run_so m p nk size = run_so m (forget_shared p) nk size).
  { induction p as [| |k s body IHb rest IHr|k s body IHb rest IHr|k s x body IHb r1 IH1 r2 IH2];
      intros nk size; cbn [forget_shared run_so so_enter_shared]; auto.
    - destruct (so_enter_inline m size k s nk); [|reflexivity]. cbn [obind]. rewrite IHb.
      destruct (run_so m (forget_shared body) NKInline n); [|reflexivity]. cbn [obind]. apply IHr.
    - rewrite IHb. destruct (run_so m (forget_shared body) NKUnique _); [|reflexivity]. cbn [obind]. apply IHr. }
  now rewrite H.
Qed.
Print Assumptions C19_shared_irrelevant.

(** [size_of_unique] adds the size of the value itself. *)
Theorem C19_with_self : forall m p s, crash_free p -> s < two64 ->
  size_of_unique m s p = wrapped m (s + unique_bytes p NKRoot).
Proof.
  intros m p s Hc Hs. unfold size_of_unique. rewrite C19_sum by exact Hc.
  rewrite (N.add_comm s), <- wrapped_step. destruct (wrapped m (unique_bytes p NKRoot)) as [v|] eqn:E; [|reflexivity].
  cbn [obind]. rewrite uadd_wrapped, N.add_comm. reflexivity.
Qed.
Print Assumptions C19_with_self.

(** A value with nested unique pointers, one of them containing a shared pointer. *)
Definition ex_nested : vprog :=
  VInline (key_new "S") 24
    (VUnique (key_new "ptr") 8
       (VInline (key_new "T") 40 (VUnique (key_new "ptr") 8 (VInline (key_new "U") 7 VRet VRet)
          (VShared (key_new "arc") 8 5 (VUnique (key_new "ptr") 8 (VInline (key_new "V") 1000 VRet VRet) VRet) VRet VRet)) VRet) VRet) VRet.
Example C19_satisfiable : crash_free ex_nested /\ size_of_unique_allocated_data Debug ex_nested = Some 47 /\
  size_of_unique Debug 24 ex_nested = Some 71.
Proof. split; [cbn; tauto|]. split; vm_compute; reflexivity. Qed.

(** ** C20: agreement of [size_of_unique] with the flame graph. *)
Theorem C20_agreement : forall k s body, let p := VInline k s body VRet in
  keys_in made_by_new p -> crash_free p -> pointers p = [] -> well_declared p -> announced p NKRoot ->
  unmixed (root_events [p]) -> total_declared (root_events [p]) < two63 ->
  exists o n, forall m, profile m [p] = Some o /\ fg_total_size m (out_flamegraph o) = Some n /\ size_of_unique m s p = Some n.
Proof. exact C20_agree_lemma. Qed.
Print Assumptions C20_agreement.

Definition ex_boxes : vprog :=
  VInline (key_new "S") 24
    (VUnique (key_new "ptr") 8
       (VInline (key_new "T") 40 (VUnique (key_new "ptr") 8 (VInline (key_new "U") 7 VRet VRet) VRet) VRet) VRet) VRet.
Example C20_satisfiable : keys_in made_by_new ex_boxes /\ crash_free ex_boxes /\ pointers ex_boxes = [] /\ well_declared ex_boxes /\
  announced ex_boxes NKRoot /\ unmixed (root_events [ex_boxes]) /\ total_declared (root_events [ex_boxes]) < two63 /\
  size_of_unique Debug 24 ex_boxes = Some 71.
Proof.
  split; [cbn [keys_in ex_boxes]; unfold made_by_new; repeat split; eauto|]. split; [cbn; tauto|]. split; [reflexivity|].
  split; [cbn; repeat split; lia|]. split; [cbn; repeat split; discriminate|]. split.
  - intros e e' He He'.
    assert (H : Forall (fun e => Forall (fun e' => ev_path e = ev_path e' -> is_NKUnique (ev_kind e) = is_NKUnique (ev_kind e'))
       (root_events [ex_boxes])) (root_events [ex_boxes])).
    { assert (E : root_events [ex_boxes] = ltac:(let x := eval vm_compute in (root_events [ex_boxes]) in exact x)) by (vm_compute; reflexivity).
      rewrite E. repeat constructor; cbn [ev_path ev_kind is_NKUnique]; try reflexivity; try discriminate. }
    rewrite Forall_forall in H. specialize (H e He). rewrite Forall_forall in H. now apply H.
  - split; vm_compute; reflexivity.
Qed.

Definition ex_unannounced : vprog :=
  VUnique (key_new "p") 8 (VUnique (key_new "q") 8 (VInline (key_new "T") 1 VRet VRet) VRet) VRet.

(** The side condition is needed: a pointer directly inside a unique scope is
    counted by the flame graph but not by [size_of_unique]. *)
Theorem C20_unannounced_refuted : exists k s body, let p := VInline k s body VRet in
  keys_in made_by_new p /\ crash_free p /\ pointers p = [] /\ well_declared p /\
  unmixed (root_events [p]) /\ total_declared (root_events [p]) < two63 /\
  exists o, forall m, profile m [p] = Some o /\ fg_total_size m (out_flamegraph o) = Some 17 /\ size_of_unique m s p = Some 9.
Proof.
  exists (key_new "A"), 8, ex_unannounced. cbn zeta. unfold ex_unannounced.
  split; [cbn [keys_in]; unfold made_by_new; repeat split; eauto|]. split; [cbn; tauto|]. split; [reflexivity|].
  split; [cbn; repeat split; lia|]. split.
  - intros e e' He He'. cbn [root_events trace_roots trace fst app] in He, He'.
    repeat (destruct He as [<-|He]; [repeat (destruct He' as [<-|He']; [cbn; auto; discriminate|]); destruct He' |]); destruct He.
  - split; [vm_compute; reflexivity|]. give_profile [VInline (key_new "A") 8 ex_unannounced VRet].
    intros m. split; [|split]; destruct m; vm_compute; reflexivity.
Qed.
Print Assumptions C20_unannounced_refuted.

(** ** C21: profiling together = merging separate profiles. *)
Theorem C21_joint : forall l, Forall (keys_in made_by_new) l -> Forall well_declared l -> disjoint_pointers l ->
  unmixed (root_events l) -> total_declared (root_events l) < two63 ->
  exists o outs g, (forall m, profile m l = Some o) /\
    Forall2 (fun p o' => forall m, profile m [p] = Some o') l outs /\
    (forall m, merge_all m (map out_flamegraph outs) = Some g) /\
    fg_write g = fg_write (out_flamegraph o) /\
    (forall m, fg_total_size m g = fg_total_size m (out_flamegraph o)).
Proof. exact C21_joint_lemma. Qed.
Print Assumptions C21_joint.

(** Two roots with disjoint pointers and overlapping stacks. *)
Definition ex_joint : list vprog :=
  [VInline (key_new "A") 24 (VShared (key_new "arc") 8 1 (VInline (key_new "N") 3 VRet VRet) VRet VRet) VRet;
   VInline (key_new "A") 24 (VShared (key_new "arc") 8 2 (VInline (key_new "N") 4 VRet VRet) VRet VRet) VRet].
Example C21_satisfiable : Forall (keys_in made_by_new) ex_joint /\ Forall well_declared ex_joint /\ disjoint_pointers ex_joint /\
  unmixed (root_events ex_joint) /\ total_declared (root_events ex_joint) < two63.
Proof.
  split; [repeat constructor; unfold made_by_new; eauto|]. split; [repeat constructor; cbn; lia|]. split.
  - repeat constructor. cbn. intros x [<-|[]] [H|[]]. discriminate.
  - split; [|vm_compute; reflexivity]. intros e e' He He'. cbn [root_events ex_joint trace_roots trace fst app ptr_mem existsb N.eqb Pos.eqb orb] in He, He'.
    repeat (destruct He as [<-|He]; [repeat (destruct He' as [<-|He']; [reflexivity|]); destruct He' |]); destruct He.
Qed.

(** Roots that share a pointer: the merge counts the pointee twice. *)
Theorem C21_shared_refuted : exists l, Forall (keys_in made_by_new) l /\ Forall well_declared l /\
  unmixed (root_events l) /\ total_declared (root_events l) < two63 /\
  exists o outs g, (forall m, profile m l = Some o) /\
    Forall2 (fun p o' => forall m, profile m [p] = Some o') l outs /\
    (forall m, merge_all m (map out_flamegraph outs) = Some g) /\
    fg_write g <> fg_write (out_flamegraph o).
Proof.
  exists [VShared (key_new "arc") 8 1 (VInline (key_new "N") 3 VRet VRet) VRet VRet; VShared (key_new "arc") 8 1 (VInline (key_new "N") 3 VRet VRet) VRet VRet].
  split; [repeat constructor; unfold made_by_new; eauto|]. split; [repeat constructor; cbn; lia|]. split.
  - intros e e' He He'. cbn [root_events trace_roots trace fst app ptr_mem existsb N.eqb Pos.eqb orb] in He, He'.
    repeat (destruct He as [<-|He]; [repeat (destruct He' as [<-|He']; [reflexivity|]); destruct He' |]); destruct He.
  - split; [vm_compute; reflexivity|].
    eexists. exists [ltac:(let x := eval vm_compute in (profile Debug [VShared (key_new "arc") 8 1 (VInline (key_new "N") 3 VRet VRet) VRet VRet]) in
       match x with Some ?y => exact y end); ltac:(let x := eval vm_compute in (profile Debug [VShared (key_new "arc") 8 1 (VInline (key_new "N") 3 VRet VRet) VRet VRet]) in
       match x with Some ?y => exact y end)]. eexists.
    split; [intros m; destruct m; vm_compute; reflexivity|].
    split; [repeat constructor; intros m; destruct m; vm_compute; reflexivity|].
    split; [intros m; destruct m; vm_compute; reflexivity|]. vm_compute. discriminate.
Qed.
Print Assumptions C21_shared_refuted.

(** A stack that one root enters as a unique pointer and another one otherwise: what is
    below it is no longer subtracted once they are together. *)
Definition mixed_joint : list vprog :=
  [VUnique (key_new "X") 8 (VInline (key_new "c") 5 VRet VRet) VRet; VInline (key_new "X") 8 (VInline (key_new "c") 5 VRet VRet) VRet].
Theorem C21_mixed_refuted : Forall (keys_in made_by_new) mixed_joint /\ Forall well_declared mixed_joint /\ disjoint_pointers mixed_joint /\
  total_declared (root_events mixed_joint) < two63 /\
  exists o outs g, (forall m, profile m mixed_joint = Some o) /\
    Forall2 (fun p o' => forall m, profile m [p] = Some o') mixed_joint outs /\
    (forall m, merge_all m (map out_flamegraph outs) = Some g) /\
    (forall m, fg_total_size m g = Some 21) /\ (forall m, fg_total_size m (out_flamegraph o) = Some 26).
Proof.
  split; [repeat constructor; unfold made_by_new; eauto|]. split; [repeat constructor; cbn; lia|]. split; [repeat constructor; intros x []|]. split; [vm_compute; reflexivity|].
  eexists. exists [ltac:(let x := eval vm_compute in (profile Debug [nth 0 mixed_joint VRet]) in match x with Some ?y => exact y end);
                   ltac:(let x := eval vm_compute in (profile Debug [nth 1 mixed_joint VRet]) in match x with Some ?y => exact y end)]. eexists.
  split; [intros m; destruct m; vm_compute; reflexivity|].
  split; [repeat constructor; intros m; destruct m; vm_compute; reflexivity|].
  split; [intros m; destruct m; vm_compute; reflexivity|]. split; intros m; destruct m; vm_compute; reflexivity.
Qed.
Print Assumptions C21_mixed_refuted.

(** A root that declares too little for what is in it: together with one that declares
    too much there is no warning, and less is shown. *)
Definition misdeclared_joint : list vprog :=
  [VInline (key_new "X") 8 (VInline (key_new "c") 10 VRet VRet) VRet; VInline (key_new "X") 8 VRet VRet].
Theorem C21_misdeclared_refuted : Forall (keys_in made_by_new) misdeclared_joint /\ disjoint_pointers misdeclared_joint /\
  unmixed (root_events misdeclared_joint) /\ total_declared (root_events misdeclared_joint) < two63 /\
  exists o outs g, (forall m, profile m misdeclared_joint = Some o) /\
    Forall2 (fun p o' => forall m, profile m [p] = Some o') misdeclared_joint outs /\
    (forall m, merge_all m (map out_flamegraph outs) = Some g) /\
    (forall m, fg_total_size m g = Some 18) /\ (forall m, fg_total_size m (out_flamegraph o) = Some 16).
Proof.
  split; [repeat constructor; unfold made_by_new; eauto|]. split; [repeat constructor; intros x []|]. split.
  - intros e e' He He' _. cbn [root_events misdeclared_joint trace_roots trace fst app] in He, He'.
    repeat (destruct He as [<-|He]; [repeat (destruct He' as [<-|He']; [reflexivity|]); destruct He' |]); destruct He.
  - split; [vm_compute; reflexivity|].
    eexists. exists [ltac:(let x := eval vm_compute in (profile Debug [nth 0 misdeclared_joint VRet]) in match x with Some ?y => exact y end);
                     ltac:(let x := eval vm_compute in (profile Debug [nth 1 misdeclared_joint VRet]) in match x with Some ?y => exact y end)]. eexists.
    split; [intros m; destruct m; vm_compute; reflexivity|].
    split; [repeat constructor; intros m; destruct m; vm_compute; reflexivity|].
    split; [intros m; destruct m; vm_compute; reflexivity|]. split; intros m; destruct m; vm_compute; reflexivity.
Qed.
Print Assumptions C21_misdeclared_refuted.

(** ** C38: the same root visited [n] times (n >= 1): stacks that only uniquely
    owned data touches are multiplied by [n], stacks that only shared contents
    touch are unchanged. *)
Theorem C38_repeated_roots : forall d h r n, closed_heap h [r] -> (length h <= d)%nat ->
  heap_keys_in made_by_new h -> Forall (item_keys_in made_by_new) r ->
  total_declared (root_events (repeat (link d h r) (S n))) < two63 ->
  exists o1 o, (forall m, profile m [link d h r] = Some o1) /\ (forall m, profile m (repeat (link d h r) (S n)) = Some o) /\
    (forall p, (forall x, reachable h [r] x -> ~ touches (pointee_events h x) p) ->
       size_at (out_flamegraph o) p = N.of_nat (S n) * size_at (out_flamegraph o1) p) /\
    (forall p, ~ touches (own r [] NKRoot) p -> size_at (out_flamegraph o) p = size_at (out_flamegraph o1) p).
Proof. exact C38_repeat_lemma. Qed.
Print Assumptions C38_repeated_roots.

Example C38_satisfiable : closed_heap ex_heap [ex_items "A" 1] /\
  option_map (fun o => fg_write (out_flamegraph o)) (profile Debug (repeat (link 3 ex_heap (ex_items "A" 1)) 3)) =
  Some (concat_str (map (fun s => (s ++ newline)%string)
    ["A 24"; "A;arc 24"; "Leaf 4"; "Node 32"; "Node;leaf 8"; "Node;next 16"; "Node;ptr 8"; "Node;ptr;u8 5"]%string)).
Proof.
  split; [|vm_compute; reflexivity]. intros x Hx. apply ex_closed.
  induction Hx as [r x Hr Hx|y o x Hy IH Ho Hx]; [|eapply reach_step; eauto].
  destruct Hr as [<-|[]]. eapply reach_root; [left; reflexivity | exact Hx].
Qed.
