(** * Property C58: flame graphs after an overflow panic. *)
From Coq Require Import Permutation Sorted Lia.
From Verif Require Import Base BaseFacts KeyModel KeyFacts HMap FlameModel BuilderModel VisitorModel Spec FlameFacts WriteFacts FlameExtra PropertiesFlame
  InterruptModel InterruptSpec InterruptFacts.

#[local] Arguments key_new : simpl never.

(** ** C58: the calls return and panic as those of C01-C04 do. *)
Theorem C58_calls : forall m a b k n,
  returned (add_left m a b) = fg_add m a b /\ returned (add_child_left m a k b) = fg_add_child m a k b /\
  returned (add_self_left m a n) = fg_add_self m a n.
Proof. intros m a b k n. split; [apply add_returned|]. split; [apply add_child_returned, add_returned | apply add_self_returned]. Qed.
Print Assumptions C58_calls.

(** ** C58: whatever panics are caught, a graph stays one that can be obtained without
    any panic; so all that holds for such graphs (C01-C06) holds for it. *)
Theorem C58_usable : forall m K f, fg_used m K f <-> fg_api m K f.
Proof. exact used_api. Qed.
Print Assumptions C58_usable.

(** In particular [total_size] of it and everything in it is exact, and [write] lists
    exactly its non-zero stacks. *)
Theorem C58_total_size : forall m f g, fg_used m any_key f -> within g f -> fg_total_size m g = wrapped m (node_sum g).
Proof. intros m f g H W. exact (C01_total_size_exact (proj1 (used_api m any_key f) H) W). Qed.
Print Assumptions C58_total_size.

Theorem C58_write : forall m f, fg_used m made_by_new f -> exists L,
  listing (size_at f) L /\ fg_write f = concat_str (map folded_line L) /\ sumN (map snd L) + size_at f [] = node_sum f.
Proof. intros m f H. exact (C04_write_is_listing (proj1 (used_api m made_by_new f) H)). Qed.
Print Assumptions C58_write.

(** ** C58: an [add] that panics has done nothing, or has added the own bytes of the
    other graph and some of its children, each completely. *)
Theorem C58_all_or_nothing : forall a b, fg_used Debug made_by_new a -> fg_used Debug made_by_new b -> snd (add_left Debug a b) = false ->
  let c := fst (add_left Debug a b) in
  c = a \/
  ((forall s, (forall p, size_at c (s :: p) = size_at a (s :: p) + size_at b (s :: p)) \/ (forall p, size_at c (s :: p) = size_at a (s :: p))) /\
   size_at c [] = size_at a [] + size_at b []).
Proof. intros a b Ha Hb E. exact (stopped_sizes (fun k H => H) (proj1 (used_api _ _ _) Ha) (proj1 (used_api _ _ _) Hb) E). Qed.
Print Assumptions C58_all_or_nothing.

(** ** C58: [add_child] and [add_self] that panic have done nothing. *)
Theorem C58_child_or_self : forall a b k n, fg_used Debug any_key a -> fg_used Debug any_key b ->
  (snd (add_child_left Debug a k b) = false -> fst (add_child_left Debug a k b) = a) /\
  (snd (add_self_left Debug a n) = false -> fst (add_self_left Debug a n) = a).
Proof.
  intros a b k n Ha Hb. split.
  - exact (@add_child_stops any_key a k b (fg_api_ok (proj1 (used_api _ _ _) Ha)) (fg_api_ok (proj1 (used_api _ _ _) Hb))).
  - unfold add_self_left. destruct (uadd Debug (fg_node_size a) n); [discriminate | reflexivity].
Qed.
Print Assumptions C58_child_or_self.

(** That an [add] that panics has never done anything is false: here it has added the
    root's own byte and child [x], but not child [y]. *)
Definition leaf (n : N) : fg := fst (add_self_left Debug fg_default n).
Definition int_a : fg := fst (add_child_left Debug fg_default (key_new "y") (leaf 10)).
Definition int_b : fg := fst (add_child_left Debug (fst (add_child_left Debug (leaf 1) (key_new "x") (leaf 5))) (key_new "y") (leaf (two64 - 11))).

Theorem C58_unchanged_refuted : exists a b, fg_used Debug made_by_new a /\ fg_used Debug made_by_new b /\
  snd (add_left Debug a b) = false /\
  size_at a [] = 0 /\ size_at (fst (add_left Debug a b)) [] = 1 /\
  size_at a ["x"%string] = 0 /\ size_at (fst (add_left Debug a b)) ["x"%string] = 5 /\
  size_at a ["y"%string] = 10 /\ size_at (fst (add_left Debug a b)) ["y"%string] = 10 /\
  fg_total_size Debug (fst (add_left Debug a b)) = Some 16.
Proof.
  assert (L : forall n, n < two64 -> fg_used Debug made_by_new (leaf n)) by (intros n Hn; unfold leaf; constructor; [constructor | exact Hn]).
  exists int_a, int_b. split; [unfold int_a; constructor; [constructor | eexists; reflexivity | apply L; reflexivity]|].
  split; [unfold int_b; constructor; [constructor; [apply L; reflexivity | eexists; reflexivity | apply L; reflexivity] | eexists; reflexivity | apply L; reflexivity]|].
  repeat split; vm_compute; reflexivity.
Qed.
Print Assumptions C58_unchanged_refuted.
