(** * Release builds and sizes of any magnitude: what is reported.

    Without overflow checks sizes are added modulo 2^64, and the difference of
    two sizes is taken between the two's complement readings of the 64 bits,
    cut off at the ends of the [isize] range.  Nothing here mentions the code:
    only the stream of declared sizes. *)
From Verif Require Import Base KeyModel FlameModel BuilderModel VisitorModel Spec.

(** The low 64 bits of a number. *)
Definition low64 (n : N) : N := n mod 2 ^ 64.

(** Their two's complement reading. *)
Definition signed64 (n : N) : Z :=
  if low64 n <? 2 ^ 63 then Z.of_N (low64 n) else (Z.of_N (low64 n) - 2 ^ 64)%Z.

(** The nearest number representable in 64 signed bits. *)
Definition clamp64 (z : Z) : Z :=
  if (z <? - 2 ^ 63)%Z then (- 2 ^ 63)%Z else if (2 ^ 63 <=? z)%Z then (2 ^ 63 - 1)%Z else z.

Section Wrapped.
  Variable A : Type.
  Variable A_dec : forall x y : A, {x = y} + {x <> y}.

  (** Own bytes of a stack, as a release build computes them: what was declared
      at it less what was declared directly inside it. *)
  Definition own_wrapped (es : list (ev A)) (p : list A) : Z :=
    clamp64 (signed64 (declared A_dec es p) - signed64 (inline_below A_dec es p)).

  (** Shown in the graph: the positive ones (nothing at the root). *)
  Definition shown_wrapped (es : list (ev A)) (p : list A) : N :=
    match p with [] => 0 | _ :: _ => Z.to_N (own_wrapped es p) end.

  (** Warned about: the negative ones. *)
  Definition flagged_wrapped (es : list (ev A)) (p : list A) : Prop :=
    p <> [] /\ (own_wrapped es p < 0)%Z.
End Wrapped.

Definition own_wrapped_s := own_wrapped string_dec.
Definition shown_wrapped_s := shown_wrapped string_dec.
Definition flagged_wrapped_s := flagged_wrapped string_dec.

(** The warning: the low 64 bits of the declared size, and what the own bytes
    fall short of their signed reading. *)
Definition warning_wrapped (es : list (ev string)) (p : path) : string :=
  ("Incorrect size declaration for node `" ++ join ";" p ++
   "`, size of self: " ++ show_N (low64 (declared_s es p)) ++
   ", size of inline children: " ++ show_Z (signed64 (declared_s es p) - own_wrapped_s es p) ++ newline)%string.
