(** * C44 and C20 from the names of types and fields alone.

    [unmixed], the hypothesis of C44 and C20 on traces, follows from a condition
    on values ([names_apart], NameSpec.v): the name of a type that owns memory is
    the name of nothing else.  The condition cannot be dropped. *)
From Verif Require Import Base BaseFacts KeyModel KeyFacts HMap FlameModel BuilderModel VisitorModel SizeOfModel LayoutModel Spec
  ImplModel ImplSpec ImplFacts StoreFacts StoreProps NameSpec NameFacts PropertiesHeap PropertiesImpl.

#[local] Arguments key_new : simpl never.

(** ** C44: every byte once, for well-named values. *)
Theorem C44_by_names : forall n h roots (alloc : ptr -> N),
  typed_store h -> plain_store h -> Forall (fun xo => counted (snd (snd xo)) /\ inner_exact (fst (snd xo)) (snd (snd xo))) h ->
  Forall typed roots -> Forall manual_free roots -> Forall counted roots -> Forall (fun r => silent r = false) roots ->
  no_dangling h roots -> (length h <= n)%nat ->
  (forall x i w, find_obj h x = Some (i, w) -> alloc_size i w (alloc x)) ->
  names_apart h roots ->
  total_declared (root_events (map (visit_in Debug n h) roots)) < two63 ->
  exists o xs, NoDup xs /\ (forall x, In x xs <-> store_reachable h roots x) /\
    forall m, profile m (map (visit_in m n h) roots) = Some o /\ out_warnings o = EmptyString /\
      fg_total_size m (out_flamegraph o) =
      Some (sumN (map (fun r => size_of_val r + owned_bytes r) roots) +
            sumN (map (fun x => alloc x + match find_obj h x with Some (_, w) => owned_bytes w | None => 0 end) xs)).
Proof. intros. apply C44_total_bytes; auto. now apply apart_unmixed. Qed.
Print Assumptions C44_by_names.

(** The example program's table: [String], [Vec] and [Box] own memory. *)
Definition x_owns : table := fun n k =>
  (n = t_name t_string \/ n = t_name t_vec_string \/ n = t_name t_box) /\ k = "ptr"%string.

Ltac not_owner := let k := fresh in let H := fresh in intros k [H _]; repeat (destruct H as [H|H]); discriminate H.

Lemma x_owns_yes t s : shape_info s = Some t -> owned_labels s = ["ptr"%string] ->
  t_name t = t_name t_string \/ t_name t = t_name t_vec_string \/ t_name t = t_name t_box ->
  forall k, x_owns (t_name t) k <-> In k (owned_labels s).
Proof. intros _ -> H k. unfold x_owns. cbn. split; [intros [_ ->]; auto | intros [<-|[]]; auto]. Qed.
Lemma x_owns_no n (l : list string) : l = [] -> plain_name x_owns n -> forall k, x_owns n k <-> In k l.
Proof. intros -> H k. split; [intros Hk; destruct (H k Hk) | intros []]. Qed.

Lemma x_string_named n cap : named x_owns (x_string n cap).
Proof. constructor; [|constructor]. split; [|exact I]. cbn [shape_info]. apply x_owns_yes; cbn; auto. Qed.
Lemma x_vec_string_named : named x_owns x_vec_string.
Proof.
  constructor; [split; [|exact I]; cbn [shape_info]; apply x_owns_yes; cbn; auto|]. each; apply x_string_named.
Qed.
Lemma x_arc_named x : named x_owns (x_arc x).
Proof. constructor; [|constructor]. split; [|exact I]. cbn [shape_info]. apply x_owns_no; [reflexivity | not_owner]. Qed.
Lemma x_weak_named l x : named x_owns (x_weak l x).
Proof.
  constructor; [|constructor]. split; [cbn [shape_info]; apply x_owns_no; [reflexivity | not_owner]|].
  destruct l; [cbn [x_weak]; not_owner | exact I].
Qed.
Lemma x_node_named f a b c : named x_owns (x_node f a b c).
Proof.
  constructor.
  - split; [cbn [shape_info]; apply x_owns_no; [reflexivity | not_owner]|]. each; not_owner.
  - each.
    + apply x_vec_string_named.
    + constructor; [split; [|exact I]; cbn [shape_info]; apply x_owns_no; [reflexivity | not_owner]|]. each.
      constructor; [split; [cbn [shape_info]; apply x_owns_no; [reflexivity | not_owner]|]; each; not_owner|]. each. apply x_arc_named.
    + constructor; [|constructor]. split; [|exact I]. cbn [shape_info]. apply x_owns_no; [reflexivity | not_owner].
    + apply x_weak_named.
    + constructor; [split; [|exact I]; cbn [shape_info]; apply x_owns_yes; cbn; auto|]. each.
      constructor; [|constructor]. split; [|exact I]. cbn [shape_info]. apply x_owns_no; [reflexivity | not_owner].
Qed.

(** Two nodes pointing to each other (C44_satisfiable has the other hypotheses). *)
Example C44_named_satisfiable : names_apart x_store x_roots.
Proof.
  exists x_owns. split; [unfold fixed_labels; each; not_owner|]. split.
  - unfold named_store, x_store. each; (split; [exact I|]); cbn [fst snd]; try apply x_node_named.
    constructor; [split; exact I | constructor].
  - unfold x_roots. each; [apply x_arc_named | apply x_weak_named | apply x_weak_named | apply x_vec_string_named].
Qed.

(** ** C20: the two ways of measuring agree, for well-named values. *)
Theorem C20_by_names : forall v, typed v -> counted v -> manual_free v -> silent v = false -> value_refs v = [] ->
  names_apart [] [v] -> total_declared (root_events [visit Debug nowhere v]) < two63 ->
  size_of_val v + owned_bytes v < two64 ->
  exists o, forall m, profile m [visit m nowhere v] = Some o /\
    fg_total_size m (out_flamegraph o) = size_of_unique m (size_of_val v) (visit m nowhere v).
Proof. intros. apply C20_values_agree; auto. now apply apart_unmixed_nowhere. Qed.
Print Assumptions C20_by_names.

Example C20_named_satisfiable : names_apart [] [x_vec_string] /\ typed x_vec_string /\ value_refs x_vec_string = [].
Proof.
  split; [|split; [apply x_vec_string_typed | reflexivity]].
  exists x_owns. split; [unfold fixed_labels; each; not_owner|]. split; [constructor|]. each. apply x_vec_string_named.
Qed.

(** ** The condition is needed: an [IndexSet] and an array of [IndexSet]s.

    [[T]::visit] records itself under the name of [T] (std/unsorted.rs 220-229),
    so [[IndexSet<u32>; 1]] opens the inline stack [IndexSet<u32>;data] which an
    [IndexSet<u32>] opens as a unique pointer.  Profiled separately both are
    accounted exactly; profiled together the array's 56 bytes are counted twice,
    without a warning. *)
Definition t_iset := mkT "indexmap::set::IndexSet<u32>" 56 true.
Definition t_u32 := mkT "u32" 4 false.
Definition x_iset : value := Node (SIndexSet t_iset t_u32 8) [Node (SLeaf t_u32) []].
Definition x_iset_array : value := Node (SSlice t_iset) [x_iset].

Lemma x_iset_typed : typed x_iset.
Proof.
  constructor; [|each; constructor; [reflexivity | constructor]].
  cbn [shape_ok]. unfold elems, buffer, ptr_size. rewrite two64_val, two63_val. cbn.
  repeat (split; [repeat constructor; cbn; auto; try lia; discriminate|]).
  exists 4. split; [exists 2; reflexivity|]. rewrite two64_val. cbn. lia.
Qed.

Definition total_of (m : mode) (roots : list value) : option (option N) :=
  option_map (fun o => fg_total_size m (out_flamegraph o)) (profile m (map (visit_in m 0 []) roots)).
Definition warnings_of (m : mode) (roots : list value) : option string :=
  option_map out_warnings (profile m (map (visit_in m 0 []) roots)).

Theorem C44_names_needed : forall m,
  let roots := [x_iset; x_iset_array] in
  Forall typed roots /\ Forall counted roots /\ Forall manual_free roots /\ Forall (fun r => value_refs r = []) roots /\
  (forall r, In r roots -> total_of m [r] = Some (Some (size_of_val r + owned_bytes r))) /\
  total_of m roots = Some (Some (sumN (map (fun r => size_of_val r + owned_bytes r) roots) + 56)) /\
  warnings_of m roots = Some EmptyString /\ ~ names_apart [] roots.
Proof.
  intros m roots. assert (Ha : typed x_iset_array).
  { constructor; [|each; apply x_iset_typed]. cbn. unfold elems. each. cbn. auto. }
  split; [unfold roots; each; auto; apply x_iset_typed|]. split; [unfold roots; each; cbn; tauto|].
  split; [unfold roots; each; cbn; tauto|]. split; [unfold roots; each; reflexivity|].
  split; [intros r [<-|[<-|[]]]; destruct m; vm_compute; reflexivity|].
  split; [destruct m; vm_compute; reflexivity|]. split; [destruct m; vm_compute; reflexivity|].
  intros (owns & _ & _ & Hr). unfold roots in Hr. inversion Hr as [|? ? H1 Hr']; subst. inversion Hr' as [|? ? H2 _]; subst.
  inversion H1 as [? ? [A _] _]; subst. inversion H2 as [? ? [_ B] _]; subst. apply B. apply A. cbn. auto.
Qed.
Print Assumptions C44_names_needed.
