(** * An object graph with exponentially many routes, of any depth. *)
From Coq Require Import Permutation Lia.
From Verif Require Import Base BaseFacts KeyModel KeyFacts HMap FlameModel BuilderModel VisitorModel Spec
  RunFacts HeapFacts HeapProps LayoutModel LayoutSpec ImplModel ImplSpec ImplFacts StoreFacts StoreProps PropertiesHeap PropertiesImpl NestModel NestSpec NestFacts.

#[local] Arguments key_new : simpl never.

(** [struct Pair { left: Option<Arc<Pair>>, right: Option<Arc<Pair>> }] *)
Definition t_pair := mkT "demo::Pair" 16 true.
Definition t_arc_pair := mkT "alloc::sync::Arc<demo::Pair>" 8 true.
Definition t_opt_pair := mkT "core::option::Option<alloc::sync::Arc<demo::Pair>>" 8 true.
Definition arc_pair (x : ptr) : value := Node (SShared t_arc_pair 8 x) [].
Definition opt_pair (o : option ptr) : value :=
  match o with
  | Some x => Node (SStruct t_opt_pair ["Some"%string]) [arc_pair x]
  | None => Node (SStruct t_opt_pair []) []
  end.
Definition pair_of (o : option ptr) : value := Node (SStruct t_pair ["left"; "right"]%string) [opt_pair o; opt_pair o].

(** Pairs 0, ..., k, both pointers of each leading to the next. *)
Definition dag_at (k i : nat) : value := pair_of (if (i <? k)%nat then Some (N.of_nat (S i)) else None).
Definition dag (k : nat) : store := map (fun i => (N.of_nat i, (InArc 8, dag_at k i))) (seq 0 (S k)).

(** The number of ways to follow [S n] pointers, starting at a value. *)
Fixpoint routes (h : store) (n : nat) (v : value) : nat :=
  match n with
  | O => length (value_refs v)
  | S n' => list_sum (map (fun x => match find_obj h x with Some (_, w) => routes h n' w | None => 0 end) (value_refs v))
  end%nat.

Lemma opt_pair_typed o : typed (opt_pair o).
Proof.
  destruct o as [x|]; constructor; try constructor; cbn; unfold contained, ptr_size; cbn; repeat split; try lia; repeat constructor.
  all: cbn; unfold owner, ptr_size; cbn; repeat split; lia.
Qed.
Lemma pair_typed o : typed (pair_of o).
Proof.
  constructor; [|repeat constructor; apply opt_pair_typed]. cbn. unfold contained. cbn. split; [reflexivity|]. split; [destruct o; cbn; lia | destruct o; repeat constructor].
Qed.
Lemma arc_pair_typed x : typed (arc_pair x).
Proof. constructor; [|constructor]. cbn. unfold ptr_size. repeat split; lia. Qed.
Lemma pair_inner o : inner_ok (InArc 8) (pair_of o).
Proof.
  cbn. split; [split; [apply (@pow2_is 8 3); reflexivity | cbn; rewrite two63_val; lia]|].
  exists 32. rewrite two63_val. split; [lia|]. split; [exists 4; reflexivity|]. split; [exists 4; reflexivity|].
  exists 16; cbn; repeat split; try lia; exists 2; reflexivity.
Qed.
Lemma dag_typed k : typed_store (dag k).
Proof. unfold typed_store, dag. apply Forall_map, Forall_forall. intros i _. cbn [fst snd]. split; [apply pair_inner | apply pair_typed]. Qed.
Lemma pair_manual o : manual_free (pair_of o).
Proof. destruct o; cbn; tauto. Qed.
Lemma dag_plain k : plain_store (dag k).
Proof. unfold plain_store, dag. apply Forall_map, Forall_forall. intros i _. apply pair_manual. Qed.
Lemma dag_length k : length (dag k) = S k.
Proof. unfold dag. now rewrite map_length, seq_length. Qed.

Lemma find_seq (f : nat -> inner * value) n : forall s x,
  find_obj (map (fun i => (N.of_nat i, f i)) (seq s n)) x =
  if ((N.of_nat s <=? x) && (x <? N.of_nat (s + n)))%N then Some (f (N.to_nat x)) else None.
Proof.
  induction n as [|n IH]; intros s x; cbn [seq map find_obj].
  - destruct (N.leb_spec (N.of_nat s) x), (N.ltb_spec x (N.of_nat (s + 0))); cbn; try reflexivity; lia.
  - destruct (N.eqb_spec x (N.of_nat s)) as [->|Hne].
    + destruct (N.leb_spec (N.of_nat s) (N.of_nat s)), (N.ltb_spec (N.of_nat s) (N.of_nat (s + S n))); cbn; try lia. now rewrite Nat2N.id.
    + rewrite IH. destruct (N.leb_spec (N.of_nat s) x), (N.leb_spec (N.of_nat (S s)) x), (N.ltb_spec x (N.of_nat (S s + n))), (N.ltb_spec x (N.of_nat (s + S n))); cbn; try lia; reflexivity.
Qed.
Lemma dag_find k i : (i <= k)%nat -> find_obj (dag k) (N.of_nat i) = Some (InArc 8, dag_at k i).
Proof.
  intros H. unfold dag. rewrite (find_seq (fun i => (InArc 8, dag_at k i))). rewrite Nat2N.id.
  destruct (N.leb_spec (N.of_nat 0) (N.of_nat i)), (N.ltb_spec (N.of_nat i) (N.of_nat (0 + S k))); cbn; try lia. reflexivity.
Qed.
Lemma dag_refs k i : value_refs (dag_at k i) = if (i <? k)%nat then [N.of_nat (S i); N.of_nat (S i)] else [].
Proof. unfold dag_at. destruct (i <? k)%nat; reflexivity. Qed.

Definition dag_list (k : nat) : list ptr := map N.of_nat (seq 0 (S k)).
Lemma dag_nodup k : NoDup (dag_list k).
Proof. unfold dag_list. apply FinFun.Injective_map_NoDup; [intros a b; apply Nat2N.inj | apply seq_NoDup]. Qed.
Lemma dag_in k x : In x (dag_list k) <-> exists i, (i <= k)%nat /\ x = N.of_nat i.
Proof.
  unfold dag_list. rewrite in_map_iff. split.
  - intros (i & <- & H). apply in_seq in H. exists i. split; [lia | reflexivity].
  - intros (i & H & ->). exists i. split; [reflexivity | apply in_seq; lia].
Qed.
Lemma dag_reachable k x : In x (dag_list k) <-> store_reachable (dag k) [arc_pair 0] x.
Proof.
  rewrite dag_in. split.
  - intros (i & H & ->). induction i as [|i IH].
    + eapply sr_root; [now left|]. now left.
    + eapply sr_step; [apply IH; lia | apply dag_find; lia |]. rewrite dag_refs. destruct (Nat.ltb_spec i k); [now left | lia].
  - induction 1 as [r x Hr Hx|y i w x Hy IH Ho Hx].
    + destruct Hr as [<-|[]]. cbn in Hx. destruct Hx as [<-|[]]. exists 0%nat. split; [lia | reflexivity].
    + destruct IH as (j & Hj & ->). rewrite dag_find in Ho by exact Hj. inversion Ho; subst. rewrite dag_refs in Hx.
      destruct (Nat.ltb_spec j k); [|destruct Hx]. exists (S j). split; [lia|]. destruct Hx as [<-|[<-|[]]]; reflexivity.
Qed.
Lemma dag_dangling k : no_dangling (dag k) [arc_pair 0].
Proof. intros x H. apply dag_reachable, dag_in in H as (i & Hi & ->). rewrite dag_find by exact Hi. eauto. Qed.

(** Scopes and levels. *)
Lemma dag_held k i : (i <= k)%nat -> scopes (held_by (dag k) (N.of_nat i)) = (if (i <? k)%nat then 12 else 6)%nat /\
  levels (held_by (dag k) (N.of_nat i)) = (if (i <? k)%nat then 7 else 4)%nat.
Proof. intros H. unfold held_by. rewrite dag_find by exact H. unfold dag_at. destruct (i <? k)%nat; split; reflexivity. Qed.
Lemma sum_seq (f : nat -> nat) a z k : (forall i, (i <= k)%nat -> f i = if (i <? k)%nat then a else z) -> list_sum (map f (seq 0 (S k))) = (a * k + z)%nat.
Proof.
  intros H. rewrite seq_S, map_app, list_sum_app. cbn [map Nat.add]. change (list_sum [?x]) with (x + 0)%nat. rewrite (H k) by lia.
  destruct (Nat.ltb_spec k k); [lia|].
  assert (E : list_sum (map f (seq 0 k)) = (a * k)%nat).
  { assert (G : forall n s, (s + n <= k)%nat -> list_sum (map f (seq s n)) = (a * n)%nat).
    { induction n as [|n IH]; intros s Hs; [cbn; lia|]. cbn [seq map]. change (list_sum (?x :: ?y)) with (x + list_sum y)%nat.
      rewrite IH, (H s) by lia. destruct (Nat.ltb_spec s k); lia. }
    apply G. lia. }
  rewrite E. lia.
Qed.
Lemma dag_scopes k : list_sum (map (fun x => scopes (held_by (dag k) x)) (dag_list k)) = (12 * k + 6)%nat.
Proof. unfold dag_list. rewrite map_map. apply sum_seq. intros i Hi. apply dag_held, Hi. Qed.
Lemma dag_levels k : list_sum (map (fun x => levels (held_by (dag k) x)) (dag_list k)) = (7 * k + 4)%nat.
Proof. unfold dag_list. rewrite map_map. apply sum_seq. intros i Hi. apply dag_held, Hi. Qed.

(** The routes. *)
Lemma dag_routes k n i : (i + n < k)%nat -> routes (dag k) n (dag_at k i) = (2 ^ S n)%nat.
Proof.
  revert i. induction n as [|n IH]; intros i H; cbn [routes]; rewrite dag_refs; destruct (Nat.ltb_spec i k); try lia; [reflexivity|].
  cbn [map]. rewrite dag_find by lia. rewrite IH by lia. change (list_sum [?a; ?b]) with (a + (b + 0))%nat. cbn [Nat.pow]. lia.
Qed.
Lemma dag_all_routes k : routes (dag k) k (arc_pair 0) = (2 ^ k)%nat.
Proof.
  destruct k as [|k]; [reflexivity|]. cbn [routes]. change (value_refs (arc_pair 0)) with [N.of_nat 0]. cbn [map]. rewrite dag_find by lia.
  rewrite dag_routes by lia. change (list_sum [?a]) with (a + 0)%nat. lia.
Qed.

(** The bytes. *)
Lemma dag_bytes k n : (S k <= n)%nat -> N.of_nat k < 2 ^ 50 ->
  total_declared (root_events (map (visit_in Debug n (dag k)) [arc_pair 0])) < two63.
Proof.
  intros Hn Hk.
  assert (Ht : Forall typed [arc_pair 0]) by (constructor; [apply arc_pair_typed | constructor]).
  assert (Hm : Forall manual_free [arc_pair 0]) by (repeat constructor).
  rewrite map_visit_in by (auto; apply dag_typed). unfold root_events.
  destruct (@link_roots n (heap_of Debug (dag k)) (map (items_in Debug) [arc_pair 0])) as (es & vis & E & NV & HV & HP).
  { rewrite heap_of_length, dag_length. exact Hn. }
  { apply closed_store; auto using dag_typed, dag_plain, dag_dangling. }
  rewrite E. cbn [fst]. unfold total_declared.
  assert (S1 : forall a b : list (ev string), Permutation a b -> sumN (map (@ev_size string) a) = sumN (map (@ev_size string) b)).
  { intros a b H. induction H; cbn [map sumN]; lia. }
  rewrite (S1 _ _ HP), map_app, sumN_app.
  assert (HX : Permutation vis (dag_list k)).
  { apply NoDup_Permutation; [exact NV | apply dag_nodup |]. intros x. rewrite HV, dag_reachable. apply reachable_store; auto using dag_typed, dag_plain. }
  assert (B : forall xs, (forall x, In x xs -> In x (dag_list k)) -> sumN (map (@ev_size string) (flat_map (pointee_events (heap_of Debug (dag k))) xs)) <= 200 * len xs).
  { induction xs as [|x xs IH]; intros Hx; [cbn; lia|]. cbn [flat_map]. rewrite map_app, sumN_app.
    assert (Hx1 : In x (dag_list k)) by (apply Hx; now left). apply dag_in in Hx1 as (i & Hi & ->).
    assert (O : sumN (map (@ev_size string) (pointee_events (heap_of Debug (dag k)) (N.of_nat i))) <= 200).
    { unfold pointee_events. rewrite deref_heap_of, dag_find by exact Hi. cbn [option_map fst snd]. unfold dag_at. destruct (i <? k)%nat; vm_compute; discriminate. }
    specialize (IH (fun y Hy => Hx y (or_intror Hy))). unfold len in *. cbn [length]. rewrite Nat2N.inj_succ. lia. }
  specialize (B vis). assert (L : len vis = N.of_nat (S k)).
  { unfold len. rewrite (Permutation_length HX). unfold dag_list. now rewrite map_length, seq_length. }
  rewrite L in B. rewrite two63_val.
  assert (R0 : sumN (map (@ev_size string) (flat_map (fun r => own r [] NKRoot) (map (items_in Debug) [arc_pair 0]))) <= 200) by (vm_compute; discriminate).
  assert (B' := B (fun x Hx => Permutation_in x HX Hx)). change (2 ^ 50) with 1125899906842624 in Hk. lia.
Qed.

(** The depth. *)
Lemma visit_arc m n h x : visit_in m n h (arc_pair x) =
  VInline (key_for_type_name (t_name t_arc_pair)) 8 (VShared PTR_NAME 8 x
    (match n with O => VCrash | S n' => match find_obj h x with Some (i, w) => visit_inner i (size_of_val w, visit_in m n' h w) | None => VCrash end end) VRet VRet) VRet.
Proof. destruct n; reflexivity. Qed.
Lemma visit_opt m n h x : visit_in m n h (opt_pair (Some x)) =
  VInline (key_for_type_name (t_name t_opt_pair)) 8 (VInline (key_new "Some") 8 (visit_in m n h (arc_pair x)) VRet) VRet.
Proof. destruct n; reflexivity. Qed.
Lemma visit_pair m n h o : visit_in m n h (pair_of o) =
  VInline (key_for_type_name (t_name t_pair)) 16
    (VInline (key_new "left") 8 (visit_in m n h (opt_pair o)) (VInline (key_new "right") 8 (visit_in m n h (opt_pair o)) VRet)) VRet.
Proof. destruct n, o; reflexivity. Qed.
Lemma inner_pair p : visit_inner (InArc 8) (16, p) = VInline (key_new "ArcInner") 32 p VRet.
Proof.
  assert (E : rcbox_layout_size (mkLayout 16 8) = Some 32) by (vm_compute; reflexivity). cbn [visit_inner fst snd]. now rewrite E.
Qed.

Lemma chain_depth m k : forall j i n vis, (i + j = k)%nat -> (j < n)%nat -> (forall l, (i <= l)%nat -> ptr_mem (N.of_nat l) vis = false) ->
  (7 * j + 6 <= fst (pk (visit_in m n (dag k) (arc_pair (N.of_nat i))) vis))%nat.
Proof.
  induction j as [|j IH]; intros i n vis Hi Hn Hv; (destruct n as [|n]; [lia|]); rewrite visit_arc, dag_find by lia;
    change (size_of_val (dag_at k i)) with 16; rewrite inner_pair; unfold dag_at; rewrite visit_pair.
  - eapply Nat.le_trans; [|apply pk_inline]. eapply Nat.le_trans; [|apply le_n_S, pk_shared, Hv; lia].
    destruct (Nat.ltb_spec i k); [lia|].
    eapply Nat.le_trans; [|do 2 apply le_n_S; apply pk_inline]. eapply Nat.le_trans; [|do 3 apply le_n_S; apply pk_inline].
    eapply Nat.le_trans; [|do 4 apply le_n_S; apply pk_inline].
    assert (E : forall v, fst (pk (visit_in m n (dag k) (opt_pair None)) v) = 1%nat) by (intros v; destruct n; reflexivity). rewrite E. lia.
  - eapply Nat.le_trans; [|apply pk_inline]. eapply Nat.le_trans; [|apply le_n_S, pk_shared, Hv; lia].
    destruct (Nat.ltb_spec i k); [|lia]. rewrite visit_opt.
    eapply Nat.le_trans; [|do 2 apply le_n_S; apply pk_inline]. eapply Nat.le_trans; [|do 3 apply le_n_S; apply pk_inline].
    eapply Nat.le_trans; [|do 4 apply le_n_S; apply pk_inline]. eapply Nat.le_trans; [|do 5 apply le_n_S; apply pk_inline].
    eapply Nat.le_trans; [|do 6 apply le_n_S; apply pk_inline].
    pose proof (IH (S i) n (N.of_nat i :: vis)) as H1. specialize (H1 ltac:(lia) ltac:(lia)).
    eapply Nat.le_trans; [|do 7 apply le_n_S; apply H1]; [lia|].
    intros l Hl. unfold ptr_mem in *. cbn [existsb]. rewrite Hv by lia. destruct (N.eqb_spec (N.of_nat l) (N.of_nat i)); [lia | reflexivity].
Qed.
