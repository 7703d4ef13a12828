(** * Property C50: what one more visit changes. *)
From Coq Require Import Permutation Sorted.
From Verif Require Import Base BaseFacts KeyModel KeyFacts HMap FlameModel BuilderModel VisitorModel Spec
  LayoutModel ImplModel ImplSpec StoreProps PropertiesHeap PropertiesImpl GrowthSpec GrowthFacts.

#[local] Arguments key_new : simpl never.

(** ** C50: a stack at which, and directly below which, the further roots declare
    nothing keeps its bytes and its warning (or its not having one). *)
Theorem C50_frame : forall l l', Forall (keys_in made_by_new) (l ++ l') ->
  total_declared (root_events (l ++ l')) < two63 ->
  exists o o', (forall m, profile m l = Some o) /\ (forall m, profile m (l ++ l') = Some o') /\
    (exists W W', out_warnings o = concat_str (map (warning_for (root_events l)) W) /\
       out_warnings o' = concat_str (map (warning_for (root_events (l ++ l'))) W') /\
       forall p, ~ touches (later_events l l') p ->
         size_at (out_flamegraph o') p = size_at (out_flamegraph o) p /\
         (In p W' <-> In p W) /\
         warning_for (root_events (l ++ l')) p = warning_for (root_events l) p).
Proof. exact C50_frame_lemma. Qed.
Print Assumptions C50_frame.

(** ** C50: if sizes are declared consistently, visiting more roots decreases the
    number at no stack, nor the total. *)
Theorem C50_monotone : forall l l', Forall (keys_in made_by_new) (l ++ l') -> Forall well_declared (l ++ l') ->
  total_declared (root_events (l ++ l')) < two63 ->
  exists o o' n n', (forall m, profile m l = Some o /\ fg_total_size m (out_flamegraph o) = Some n) /\
    (forall m, profile m (l ++ l') = Some o' /\ fg_total_size m (out_flamegraph o') = Some n') /\
    (forall p, size_at (out_flamegraph o) p <= size_at (out_flamegraph o') p) /\ n <= n'.
Proof. exact C50_monotone_lemma. Qed.
Print Assumptions C50_monotone.

(** In particular for all values without std maps and sets with entries. *)
Theorem C50_values : forall n h roots more, typed_store h -> Forall typed (roots ++ more) ->
  Forall (fun xo => map_free (snd (snd xo))) h -> Forall map_free (roots ++ more) ->
  total_declared (root_events (map (visit_in Debug n h) (roots ++ more))) < two63 ->
  exists o o' t t',
    (forall m, profile m (map (visit_in m n h) roots) = Some o /\ fg_total_size m (out_flamegraph o) = Some t) /\
    (forall m, profile m (map (visit_in m n h) (roots ++ more)) = Some o' /\ fg_total_size m (out_flamegraph o') = Some t') /\
    (forall p, size_at (out_flamegraph o) p <= size_at (out_flamegraph o') p) /\ t <= t'.
Proof. exact C50_values_lemma. Qed.
Print Assumptions C50_values.

(** With std maps that is refuted: visiting a map with one entry after an empty map
    of the same type makes the bytes shown at [...;data] disappear. *)
Theorem C50_maps_refuted : exists v w p o o', typed v /\ typed w /\
  (forall m, profile m [visit_in m 0 [] v] = Some o) /\ (forall m, profile m [visit_in m 0 [] v; visit_in m 0 [] w] = Some o') /\
  size_at (out_flamegraph o) p = 8 /\ size_at (out_flamegraph o') p = 0 /\ out_warnings o' = EmptyString.
Proof.
  exists (x_map 0), (x_map 1), ["std::collections::hash::map::HashMap<u64, u64>"; "data"]%string.
  destruct (profile Debug [visit_in Debug 0 [] (x_map 0)]) as [o|] eqn:E; [|vm_compute in E; discriminate].
  destruct (profile Debug [visit_in Debug 0 [] (x_map 0); visit_in Debug 0 [] (x_map 1)]) as [o'|] eqn:E'; [|vm_compute in E'; discriminate].
  exists o, o'. split; [apply x_map_typed|]. split; [apply x_map_typed|].
  vm_compute in E. inversion E; subst o. vm_compute in E'. inversion E'; subst o'.
  split; [intros []; vm_compute; reflexivity|]. split; [intros []; vm_compute; reflexivity|].
  split; [vm_compute; reflexivity|]. split; vm_compute; reflexivity.
Qed.
Print Assumptions C50_maps_refuted.

(** With inconsistent declarations even the total can fall. *)
Definition scope_of (n : string) (s : N) (b : vprog) : vprog := VInline (key_new n) s b VRet.
Theorem C50_total_refuted : exists l r o o', Forall (keys_in made_by_new) (l ++ [r]) /\
  (forall m, profile m l = Some o /\ fg_total_size m (out_flamegraph o) = Some 110) /\
  (forall m, profile m (l ++ [r]) = Some o' /\ fg_total_size m (out_flamegraph o') = Some 100).
Proof.
  set (l := [scope_of "q" 10 VRet; scope_of "q" 0 (scope_of "p" 0 (scope_of "c" 100 VRet))]).
  set (r := scope_of "q" 0 (scope_of "p" 10 VRet)). exists l, r.
  destruct (profile Debug l) as [o|] eqn:E; [|vm_compute in E; discriminate].
  destruct (profile Debug (l ++ [r])) as [o'|] eqn:E'; [|vm_compute in E'; discriminate].
  exists o, o'. vm_compute in E. inversion E; subst o. vm_compute in E'. inversion E'; subst o'.
  split; [repeat constructor; unfold made_by_new; eauto|].
  split; intros []; split; vm_compute; reflexivity.
Qed.
Print Assumptions C50_total_refuted.

Example C50_satisfiable : let l := [scope_of "A" 10 (scope_of "x" 4 VRet)] in
  let l' := [scope_of "B" 8 VRet; scope_of "A" 10 (scope_of "x" 4 (scope_of "y" 1 VRet))] in
  Forall (keys_in made_by_new) (l ++ l') /\ Forall well_declared (l ++ l') /\
  total_declared (root_events (l ++ l')) < two63 /\
  ~ touches (later_events l l') ["C"]%string /\ touches (later_events l l') ["A"]%string /\ touches (later_events l l') ["A"; "x"]%string.
Proof.
  cbv zeta. split; [repeat constructor; unfold made_by_new; eauto|]. split; [repeat constructor; cbn; lia|].
  split; [vm_compute; reflexivity|]. unfold touches. split; [|split].
  - intros (e & He & H). vm_compute in He. repeat (destruct He as [<-|He]; [destruct H as [H|[a H]]; discriminate|]). destruct He.
  - eexists. split; [vm_compute; right; left; reflexivity|]. left. reflexivity.
  - eexists. split; [vm_compute; right; right; left; reflexivity|]. left. reflexivity.
Qed.
