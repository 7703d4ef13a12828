(** * Specification vocabulary for the resources a profile takes. *)
From Verif Require Import Base KeyModel HMap FlameModel BuilderModel VisitorModel Spec.

(** The different stacks at which something was entered. *)
Definition stacks (es : list (ev string)) : list path := nodup (list_eq_dec string_dec) (map (@ev_path string) es).

(** Frames of the longest stack. *)
Definition longest (es : list (ev string)) : nat := list_max (map (fun e => length (ev_path e)) es).

(** How deep scopes are nested in a visit; the content of a shared pointer starts
    again at the root. *)
Fixpoint nesting (p : vprog) : nat :=
  match p with
  | VRet | VCrash => 0
  | VInline _ _ b r | VUnique _ _ b r => Nat.max (S (nesting b)) (nesting r)
  | VShared _ _ _ b r1 r2 => Nat.max (Nat.max 1 (nesting b)) (Nat.max (nesting r1) (nesting r2))
  end.

(** The visit goes on in the same way whether or not it was the first to enter a
    shared pointer (as all implementations do). *)
Fixpoint indifferent (p : vprog) : Prop :=
  match p with
  | VRet | VCrash => True
  | VInline _ _ b r | VUnique _ _ b r => indifferent b /\ indifferent r
  | VShared _ _ _ b r1 r2 => r1 = r2 /\ indifferent b /\ indifferent r1
  end.

(** The same roots, [n] times more. *)
Definition again (n : nat) (l : list vprog) : list vprog := concat (repeat l (S n)).

(** No root visit panics. *)
Definition calm (m : mode) (l : list vprog) : Prop := forall l1 p l2, l = l1 ++ p :: l2 ->
  exists b b', visit_roots m l1 b_default = (b, Done) /\ visit_root m p b = (b', Done).
