(** * Property C57: what a profile takes. *)
From Coq Require Import Lia.
From Verif Require Import Base BaseFacts KeyModel KeyFacts HMap FlameModel BuilderModel VisitorModel Spec RunFacts BuilderFacts LayoutModel ImplModel ImplSpec StoreProps PropertiesBuilder PropertiesImpl
  ExtentModel ExtentSpec ExtentFacts ExtentProps.

#[local] Arguments key_new : simpl never.

(** ** C57: memory: the builder keeps one node per different stack (and the root),
    and one entry per different shared pointer, however often they are entered. *)
Theorem C57_memory : forall m l b o, Forall (keys_in made_by_new) l -> total_declared (root_events l) < two64 ->
  visit_roots m l b_default = (b, o) ->
  length (b_trees b) = S (length (stacks (root_events l))) /\
  NoDup (b_visited b) /\ (forall x, In x (b_visited b) <-> visited_by l x).
Proof.
  intros m l b o HK Ht R. destruct (session_of HK Ht) as (b1 & ps & Q & Hb & Hv & _). rewrite Q in R. inversion R; subst b1 o.
  rewrite (nodes Hb), Hv. split; [reflexivity|]. split.
  - destruct (trace_roots k_str l []) as [es v] eqn:E. eapply trace_roots_vis; [exact E | constructor].
  - intros x. unfold visited_by, ptr_mem. rewrite existsb_exists. split; [intros H; exists x; split; [exact H | apply N.eqb_refl] | intros (y & H & E); apply N.eqb_eq in E; now subst].
Qed.
Print Assumptions C57_memory.

(** ** C57: output: lines and warnings together are at most as many as different
    stacks (so at most as many as calls to [enter_*]), and no line is longer than
    scopes were nested. *)
Theorem C57_output : forall l, Forall (keys_in made_by_new) l -> total_declared (root_events l) < two63 ->
  exists o L W, (forall m, profile m l = Some o) /\
    fg_write (out_flamegraph o) = concat_str (map folded_line L) /\ out_warnings o = concat_str (map (warning_for (root_events l)) W) /\
    (length L + length W <= length (stacks (root_events l)))%nat /\ (length (stacks (root_events l)) <= length (root_events l))%nat /\
    (forall p, In p (map fst L ++ W) -> In p (stacks (root_events l)) /\ (length p <= list_max (map nesting l))%nat).
Proof. exact C57_output_lemma. Qed.
Print Assumptions C57_output.

(** ** C57: stack: [finish] recurses exactly as deep as the longest stack has frames
    (and the root): it does with one call more, and not with less. *)
Theorem C57_depth : forall m l b o d, Forall (keys_in made_by_new) l -> total_declared (root_events l) < two63 ->
  visit_roots m l b_default = (b, o) ->
  finish_in d m b = (if (longest (root_events l) <? d)%nat then finish m b else None) /\
  finish m b <> None /\ (longest (root_events l) <= list_max (map nesting l))%nat.
Proof.
  intros m l b o d HK Ht R. pose proof two63_lt_two64 as H64.
  destruct (@session_of l HK) as (b1 & ps & Q & Hb & _ & Hi); [lia|]. rewrite Q in R. inversion R; subst b1 o.
  split; [exact (finish_in_exact d m Hb Hi Ht)|]. split.
  - destruct (session HK Ht) as (f & w & Hp & _). specialize (Hp m). unfold profile in Hp. rewrite Q in Hp. congruence.
  - apply longest_le. intros e He. unfold root_events in He. destruct (trace_roots k_str l []) as [es v] eqn:E. eapply trace_roots_nesting; eauto.
Qed.
Print Assumptions C57_depth.

(** ** C57: profiling the same roots again, any number of times, takes no more memory
    (provided nothing panics). *)
Theorem C57_again : forall m n l b b', Forall (keys_in made_by_new) l -> Forall indifferent l -> calm m l ->
  total_declared (root_events (again n l)) < two64 ->
  visit_roots m l b_default = (b, Done) -> visit_roots m (again n l) b_default = (b', Done) ->
  length (b_trees b') = length (b_trees b) /\ b_visited b' = b_visited b.
Proof. exact C57_again_lemma. Qed.
Print Assumptions C57_again.

(** The same for Rust values, whose implementations meet these conditions. *)
Theorem C57_values : forall m n k h roots b, typed_store h -> plain_store h -> Forall typed roots -> Forall manual_free roots ->
  no_dangling h roots -> (length h <= n)%nat ->
  total_declared (root_events (again k (map (visit_in Debug n h) roots))) < two64 ->
  visit_roots m (again k (map (visit_in m n h) roots)) b_default = (b, Done) ->
  length (b_trees b) = S (length (stacks (root_events (map (visit_in m n h) roots)))) /\
  NoDup (b_visited b) /\ (forall x, In x (b_visited b) <-> visited_by (map (visit_in m n h) roots) x).
Proof. exact C57_values_lemma. Qed.
Print Assumptions C57_values.

(** If a visit panics inside a shared pointer the next one goes past it, and there is more. *)
Definition half : vprog := VShared PTR_NAME 8 5 (VInline (key_new "A") 8 VCrash VRet) (VInline (key_new "B") 4 VRet VRet) (VInline (key_new "B") 4 VRet VRet).
Theorem C57_again_panics_refuted : exists b b', indifferent half /\ keys_in made_by_new half /\
  visit_roots Debug [half] b_default = (b, Done) /\ visit_roots Debug (again 1 [half]) b_default = (b', Done) /\
  length (b_trees b) = 3%nat /\ length (b_trees b') = 4%nat.
Proof.
  eexists _, _. split; [cbn; tauto|]. split; [cbn; repeat split; eexists; reflexivity|].
  split; [vm_compute; reflexivity|]. split; [vm_compute; reflexivity|]. split; reflexivity.
Qed.
Print Assumptions C57_again_panics_refuted.

Example C57_satisfiable : Forall (keys_in made_by_new) ex_roots /\ total_declared (root_events ex_roots) < two63 /\
  typed_store x_store /\ plain_store x_store /\ Forall typed x_roots /\ Forall manual_free x_roots /\ no_dangling x_store x_roots /\
  let l := map (visit_in Debug 3 x_store) x_roots in
  total_declared (root_events (again 4 l)) < two64 /\
  (exists b b', visit_roots Debug l b_default = (b, Done) /\ visit_roots Debug (again 4 l) b_default = (b', Done) /\
     length (b_trees b) = length (b_trees b') /\ length (b_trees b) = S (length (stacks (root_events l))) /\
     finish_in (longest (root_events l)) Debug b = None /\ finish_in (S (longest (root_events l))) Debug b = finish Debug b /\ finish Debug b <> None /\
     (length (stacks (root_events l)) < length (root_events l))%nat).
Proof.
  split; [apply ex_roots_keys|]. split; [rewrite ex_roots_total; reflexivity|]. split; [apply x_store_typed|]. split; [apply x_plain|].
  split; [apply x_roots_typed|]. split; [apply x_plain|]. split; [apply x_no_dangling|]. cbv zeta. split; [vm_compute; reflexivity|].
  eexists _, _. split; [vm_compute; reflexivity|]. split; [vm_compute; reflexivity|]. split; [vm_compute; reflexivity|]. split; [vm_compute; reflexivity|].
  split; [vm_compute; reflexivity|]. split; [vm_compute; reflexivity|]. split; [vm_compute; discriminate | apply Nat.ltb_lt; vm_compute; reflexivity].
Qed.

(** [calm] can be met. *)
Example C57_again_satisfiable : Forall indifferent [ex_root1] /\ calm Debug [ex_root1].
Proof.
  split; [repeat constructor; cbn; tauto|]. intros l1 p l2 E. destruct l1 as [|q l1]; [|destruct l1; discriminate]. cbn in E. inversion E; subst.
  eexists _, _. split; [reflexivity|]. vm_compute. reflexivity.
Qed.
