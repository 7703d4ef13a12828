(** * Property C47: pointer identities. *)
From Verif Require Import Base BaseFacts KeyModel HMap FlameModel BuilderModel VisitorModel LayoutModel LayoutSpec LayoutFacts
  ImplModel ImplSpec IdentityModel IdentitySpec Spec IdentityFacts.

(** ** C47: two different live allocations have the same identity exactly when one
    holds a zero-sized value behind a std pointer (or a [futures::Shared]) and the
    other is a triomphe allocation that starts right behind it. *)
Theorem C47_collision_iff : forall a b, alloc_ok a -> alloc_ok b -> disjoint a b ->
  (identity a = identity b <-> behind a b \/ behind b a).
Proof. exact C47_collision_iff_lemma. Qed.
Print Assumptions C47_collision_iff.

(** Without such neighbours -- in particular if no triomphe pointer is used, or
    no std pointer leads to a zero-sized value -- every pointer is resolved to its
    own allocation, so that the theorems on stores (C43, C44, C46) apply. *)
Theorem C47_resolves : forall mem, memory_ok mem -> (forall a b, In a mem -> In b mem -> ~ behind a b) ->
  NoDup (map fst (store_of mem)) /\
  forall a, In a mem -> find_obj (store_of mem) (identity a) = Some (a_inner a, a_value a).
Proof. exact C47_resolves_lemma. Qed.
Print Assumptions C47_resolves.

Theorem C47_no_triomphe : forall mem, memory_ok mem -> Forall (fun a => triomphe_alloc a = false) mem ->
  forall a, In a mem -> find_obj (store_of mem) (identity a) = Some (a_inner a, a_value a).
Proof. exact C47_no_triomphe_lemma. Qed.
Print Assumptions C47_no_triomphe.

Theorem C47_no_zero_sized : forall mem, memory_ok mem ->
  Forall (fun a => triomphe_alloc a = true \/ size_of_val (a_value a) <> 0) mem ->
  forall a, In a mem -> find_obj (store_of mem) (identity a) = Some (a_inner a, a_value a).
Proof. exact C47_no_zero_sized_lemma. Qed.
Print Assumptions C47_no_zero_sized.

(** The claim without that side condition is refuted: an [Arc<()>] at address
    1000 and, right behind it, a [triomphe::Arc<u64>].  Visiting both in one
    builder reports nothing of the second allocation. *)
Definition unit_arc : allocation := mkAlloc 1000 (InArc 1) (Node (SLeaf (mkT "()" 0 false)) []) 0 0.
Definition next_arc : allocation := mkAlloc 1016 (InTriomphe 8) (Node (SLeaf (mkT "u64" 8 false)) []) 0 0.
Definition ptr_to (name : string) (a : allocation) : value := Node (SShared (mkT name 8 true) 8 (identity a)) [].
Definition visit_ptr (name : string) (a : allocation) : vprog :=
  visit Debug (fun _ => visit_inner (a_inner a) (size_of_val (a_value a), visit Debug (fun _ => VCrash) (a_value a))) (ptr_to name a).

Theorem C47_any_neighbours_refuted : memory_ok [unit_arc; next_arc] /\ block_size next_arc = 16 /\
  identity unit_arc = identity next_arc /\
  exists together alone,
    profile Debug [visit_ptr "Arc" unit_arc; visit_ptr "triomphe::Arc" next_arc] = Some together /\
    profile Debug [visit_ptr "triomphe::Arc" next_arc] = Some alone /\
    (forall p, size_at (out_flamegraph together) ("allocative::impls::triomphe::ArcInnerRepr" :: p)%string = 0) /\
    fg_total_size Debug (out_flamegraph alone) = Some (8 + 16) /\
    fg_total_size Debug (out_flamegraph together) = Some (8 + 16 + 8).
Proof.
  split; [|split; [reflexivity | split; [reflexivity|]]].
  - split; [repeat constructor; [exists 0; reflexivity | exists 3; reflexivity]|].
    apply FOP_cons; [constructor; [left; vm_compute; discriminate | constructor] | apply FOP_cons; constructor].
  - eexists. eexists. split; [vm_compute; reflexivity|]. split; [vm_compute; reflexivity|].
    split; [|split; vm_compute; reflexivity]. intros p. cbn [out_flamegraph]. vm_compute. reflexivity.
Qed.
Print Assumptions C47_any_neighbours_refuted.

(** A memory with both kinds of pointers that meets the hypotheses. *)
Example C47_satisfiable :
  let mem := [mkAlloc 1000 (InArc 1) (Node (SLeaf (mkT "u8" 1 false)) []) 0 0; mkAlloc 1024 (InTriomphe 8) (Node (SLeaf (mkT "u64" 8 false)) []) 0 0;
              mkAlloc 1040 (InArc 1) (Node (SLeaf (mkT "()" 0 false)) []) 0 0; mkAlloc 2000 InBare (Node (SLeaf (mkT "u32" 4 false)) []) 40 24] in
  memory_ok mem /\ (forall a b, In a mem -> In b mem -> ~ behind a b) /\ map identity mem = [1016; 1024; 1056; 2024].
Proof.
  split; [|split].
  - split; [repeat constructor; try (exists 0; reflexivity); try (exists 3; reflexivity); vm_compute; discriminate|].
    repeat first [apply FOP_nil | apply FOP_cons | apply Forall_nil | apply Forall_cons]; left; vm_compute; discriminate.
  - intros a b Ha Hb (_ & T & Z & _ & E). cbn [In] in Ha, Hb.
    destruct Ha as [<-|[<-|[<-|[<-|[]]]]]; destruct Hb as [<-|[<-|[<-|[<-|[]]]]]; vm_compute in T, Z, E; discriminate.
  - reflexivity.
Qed.
