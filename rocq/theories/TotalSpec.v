(** * What a flame graph shows beyond the memory blocks. *)
From Verif Require Import Base KeyModel FlameModel BuilderModel VisitorModel Spec.

(** By how much the inline children of stack [p] exceed what was declared at it (both
    numbers are quoted in the warning for [p]). *)
Definition exceeds (es : list (ev string)) (p : path) : N := inline_below_s es p - declared_s es p.

(** Bytes declared directly by a visit, whatever [enter_shared] answers: at most. *)
Fixpoint spends (p : vprog) : N :=
  match p with
  | VRet | VCrash => 0
  | VInline _ s _ r | VUnique _ s _ r => s + spends r
  | VShared _ s _ _ r1 r2 => s + N.max (spends r1) (spends r2)
  end.

(** By how much the scopes opened directly inside inline scopes exceed these scopes'
    own declarations, in total: at most. *)
Fixpoint overspends (p : vprog) : N :=
  match p with
  | VRet | VCrash => 0
  | VInline _ s b r => (spends b - s) + overspends b + overspends r
  | VUnique _ _ b r => overspends b + overspends r
  | VShared _ _ _ b r1 r2 => overspends b + N.max (overspends r1) (overspends r2)
  end.
