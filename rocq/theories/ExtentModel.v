(** * How deep [finish] recurses. *)
From Verif Require Import Base KeyModel HMap FlameModel BuilderModel.

(** [finish] with at most [depth] nested calls of [update_sizes], and of
    [write_flame_graph]; [None]: it panics, or needs more (the stack overflows).
    Models: flamegraph.rs 373-392, 399-417 [update_sizes], 142-175 [write_flame_graph]. *)
Definition finish_in (depth : nat) (m : mode) (b : builder) : option output :=
  match b_shared b, ts_stack (b_current b), b_entered b with
  | [], [], false =>
      do t <- update_sizes m depth (b_root b) (b_trees b);
      do (f, w) <- tree_write m depth t (b_root b) [];
      Some (mkOut f w)
  | _, _, _ => None
  end.
