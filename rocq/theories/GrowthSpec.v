(** * Specification vocabulary: what one more visit changes. *)
From Verif Require Import Base KeyModel HMap FlameModel BuilderModel VisitorModel Spec.

(** What the roots [l'] declare when they are visited after the roots [l]
    (contents of shared pointers already visited are left out). *)
Definition later_events (l l' : list vprog) : list (ev string) :=
  fst (trace_roots k_str l' (snd (trace_roots k_str l []))).

(** Something is declared at stack [p] or directly below it. *)
Definition touches (es : list (ev string)) (p : path) : Prop :=
  exists e, In e es /\ (ev_path e = p \/ exists a, ev_path e = p ++ [a]).
