(** * Specification vocabulary for flame graphs after panics. *)
From Verif Require Import Base KeyModel HMap FlameModel BuilderModel VisitorModel Spec InterruptModel.

(** Graphs obtainable with the public API, panics being caught and the graphs they
    leave behind used like others. *)
Inductive fg_used (m : mode) (K : key -> Prop) : fg -> Prop :=
| used_default : fg_used m K fg_default
| used_add_self f n : fg_used m K f -> n < two64 -> fg_used m K (fst (add_self_left m f n))
| used_add_child f k c : fg_used m K f -> K k -> fg_used m K c -> fg_used m K (fst (add_child_left m f k c))
| used_add f c : fg_used m K f -> fg_used m K c -> fg_used m K (fst (add_left m f c)).

(** What a call says, and what it leaves if it returns. *)
Definition returned (r : fg * bool) : option fg := if snd r then Some (fst r) else None.

