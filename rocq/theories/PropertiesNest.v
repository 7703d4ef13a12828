(** * Property C59: how deep a visit nests and how much it does. *)
From Coq Require Import Permutation Lia.
From Verif Require Import Base BaseFacts KeyModel KeyFacts HMap FlameModel BuilderModel VisitorModel Spec
  ImplModel ImplSpec ImplFacts StoreFacts StoreProps PropertiesImpl PropertiesHeap HeapFacts NestModel NestSpec NestFacts NestExample.

#[local] Arguments key_new : simpl never.

(** ** C59: depth: a root visit needs room for some number of nested visitors, does the
    same with more and overflows with less; and that number is at most the levels of the
    value itself plus those of the allocations reachable from it, each counted once. *)
Theorem C59_depth : forall m n h v b xs, typed_store h -> plain_store h -> typed v -> manual_free v ->
  (forall x, store_reachable h [v] x -> In x xs) ->
  exists D, (forall d, visit_root_in d m (visit_in m n h v) b = if (D <=? d)%nat then Some (visit_root m (visit_in m n h v) b) else None) /\
    (D <= 1 + levels (itself v) + list_sum (map (fun x => levels (held_by h x)) xs))%nat.
Proof.
  intros m n h v b xs Hh Hp Ht Hm Hx. exists (root_peak m (visit_in m n h v) b). split; [apply visit_root_in_exact|].
  exact (@depth_of_root m n h v b xs Hh Hp Ht Hm Hx).
Qed.
Print Assumptions C59_depth.

(** The same for any visit whatsoever: the room needed is at most its own nesting. *)
Theorem C59_any : forall m p b,
  exists D, (forall d, visit_root_in d m p b = if (D <=? d)%nat then Some (visit_root m p b) else None) /\ (D <= S (height p))%nat.
Proof. intros m p b. exists (root_peak m p b). split; [apply visit_root_in_exact | apply root_peak_height]. Qed.
Print Assumptions C59_any.

(** ** C59: work: the number of [enter*] calls of a session is at most the scopes of
    the roots plus those of the reachable allocations, each counted once, however many
    pointers lead to them; *)
Theorem C59_work : forall m n h roots xs, typed_store h -> plain_store h -> Forall typed roots -> Forall manual_free roots ->
  (forall x, store_reachable h roots x -> In x xs) ->
  (session_calls m (map (visit_in m n h) roots) b_default <=
   list_sum (map (fun v => scopes (itself v)) roots) + list_sum (map (fun x => scopes (held_by h x)) xs))%nat.
Proof. intros. now apply work_of_session. Qed.
Print Assumptions C59_work.

(** and exactly that if nothing overflows or dangles. *)
Theorem C59_work_exact : forall m n h roots xs, typed_store h -> plain_store h -> Forall typed roots -> Forall manual_free roots ->
  no_dangling h roots -> (length h <= n)%nat -> total_declared (root_events (map (visit_in Debug n h) roots)) < two63 ->
  NoDup xs -> (forall x, In x xs <-> store_reachable h roots x) ->
  session_calls m (map (visit_in m n h) roots) b_default =
  (list_sum (map (fun v => scopes (itself v)) roots) + list_sum (map (fun x => scopes (held_by h x)) xs))%nat.
Proof. intros. now apply work_exact. Qed.
Print Assumptions C59_work_exact.

(** ** The bounds are reached, and the hypotheses met, by this family: pairs 0, ..., k of
    pointers, both of pair i leading to pair i+1.  Although 2^k routes lead from the root
    to the last pair, the visit makes 12 k + 8 calls; it needs room for exactly 7 k + 7
    visitors. *)
Theorem C59_satisfiable : forall m k n, N.of_nat k < 2 ^ 50 -> (S k <= n)%nat ->
  typed_store (dag k) /\ plain_store (dag k) /\ typed (arc_pair 0) /\ manual_free (arc_pair 0) /\ no_dangling (dag k) [arc_pair 0] /\
  total_declared (root_events (map (visit_in Debug n (dag k)) [arc_pair 0])) < two63 /\
  NoDup (dag_list k) /\ (forall x, In x (dag_list k) <-> store_reachable (dag k) [arc_pair 0] x) /\
  routes (dag k) k (arc_pair 0) = (2 ^ k)%nat /\
  session_calls m (map (visit_in m n (dag k)) [arc_pair 0]) b_default = (12 * k + 8)%nat /\
  (exists b, visit_root m (visit_in m n (dag k) (arc_pair 0)) b_default = (b, Done) /\
     forall d, visit_root_in d m (visit_in m n (dag k) (arc_pair 0)) b_default = if (7 * k + 7 <=? d)%nat then Some (b, Done) else None).
Proof.
  intros m k n Hk Hn. pose proof (@dag_bytes k n Hn Hk) as HB.
  assert (Ht : Forall typed [arc_pair 0]) by (constructor; [apply arc_pair_typed | constructor]).
  assert (Hm : Forall manual_free [arc_pair 0]) by (repeat constructor).
  assert (HL : (length (dag k) <= n)%nat) by (rewrite dag_length; exact Hn).
  split; [apply dag_typed|]. split; [apply dag_plain|]. split; [apply arc_pair_typed|]. split; [cbn; auto|]. split; [apply dag_dangling|].
  split; [exact HB|]. split; [apply dag_nodup|]. split; [apply dag_reachable|]. split; [apply dag_all_routes|]. split.
  - rewrite (@C59_work_exact m n (dag k) [arc_pair 0] (dag_list k)); auto using dag_typed, dag_plain, dag_dangling, dag_nodup, dag_reachable.
    rewrite dag_scopes. change (list_sum (map (fun v => scopes (itself v)) [arc_pair 0])) with 2%nat. lia.
  - destruct (@C15_terminates n (heap_of Debug (dag k)) [] (items_in Debug (arc_pair 0%N))) as (b0 & b & Hb).
    + change ([] ++ [items_in Debug (arc_pair 0%N)]) with (map (items_in Debug) [arc_pair 0]). apply closed_store; auto using dag_typed, dag_plain, dag_dangling.
    + now rewrite heap_of_length.
    + change ([] ++ [items_in Debug (arc_pair 0%N)]) with (map (items_in Debug) [arc_pair 0]). rewrite <- map_visit_in; auto using dag_typed.
    + exists b. destruct (Hb m) as [H1 H2]. cbn [map visit_roots] in H1. inversion H1; subst b0.
      rewrite <- visit_in_link in H2 by auto using dag_typed, arc_pair_typed.
      rewrite (@visit_in_mode Debug m) in H2 by auto using dag_typed, arc_pair_typed. split; [exact H2|].
      intros d. rewrite visit_root_in_exact, H2.
      assert (U : (root_peak m (visit_in m n (dag k) (arc_pair 0%N)) b_default <= 7 * k + 7)%nat).
      { eapply Nat.le_trans; [apply (@depth_of_root m n (dag k) (arc_pair 0%N) b_default (dag_list k))|];
          auto using dag_typed, dag_plain, arc_pair_typed. { cbn; auto. } { intros x. apply dag_reachable. }
        unfold tally. rewrite dag_levels. change (levels (itself (arc_pair 0%N))) with 2%nat. lia. }
      assert (L : (7 * k + 7 <= root_peak m (visit_in m n (dag k) (arc_pair 0%N)) b_default)%nat).
      { rewrite (root_peak_pk H2). change (b_visited b_default) with (@nil ptr).
        pose proof (@chain_depth m k k 0 n [] ltac:(lia) ltac:(lia) (fun _ _ => eq_refl)) as H. change (N.of_nat 0) with 0 in H. lia. }
      now replace (root_peak m (visit_in m n (dag k) (arc_pair 0)) b_default) with (7 * k + 7)%nat by lia.
Qed.
Print Assumptions C59_satisfiable.

(** "There is a stack size with which every visit returns" is refuted. *)
Theorem C59_unbounded_refuted : forall m d, N.of_nat d < 2 ^ 50 -> exists n h v b,
  typed_store h /\ plain_store h /\ typed v /\ manual_free v /\ no_dangling h [v] /\
  visit_root m (visit_in m n h v) b_default = (b, Done) /\ visit_root_in d m (visit_in m n h v) b_default = None.
Proof.
  intros m d Hd. destruct (@C59_satisfiable m d (S d) Hd (le_n _)) as (H1 & H2 & H3 & H4 & H5 & _ & _ & _ & _ & _ & b & Hb & Hn).
  exists (S d), (dag d), (arc_pair 0), b. repeat (split; [assumption|]). rewrite Hn. destruct (Nat.leb_spec (7 * d + 7) d); [lia | reflexivity].
Qed.
Print Assumptions C59_unbounded_refuted.
