(** * Specification vocabulary for depth and work of visits. *)
From Verif Require Import Base KeyModel HMap FlameModel BuilderModel VisitorModel Spec ImplModel ImplSpec.

(** Scopes opened by a value itself: what is behind shared pointers not counted (but
    the pointers are). *)
Fixpoint scopes (p : vprog) : nat :=
  match p with
  | VRet | VCrash => 0
  | VInline _ _ b r | VUnique _ _ b r => S (scopes b + scopes r)
  | VShared _ _ _ _ _ r => S (scopes r)
  end.

(** How deep these are nested. *)
Fixpoint levels (p : vprog) : nat :=
  match p with
  | VRet | VCrash => 0
  | VInline _ _ b r | VUnique _ _ b r => Nat.max (S (levels b)) (levels r)
  | VShared _ _ _ _ _ r => Nat.max 1 (levels r)
  end.

(** The visit of what allocation [x] holds, up to shared pointers. *)
Definition held_by (h : store) (x : ptr) : vprog :=
  match find_obj h x with
  | Some (i, w) => visit_inner i (size_of_val w, visit Debug (fun _ => VRet) w)
  | None => VRet
  end.
(** And of a value. *)
Definition itself (v : value) : vprog := visit Debug (fun _ => VRet) v.

(** How deep the scopes of an arbitrary visit are nested, what is behind shared pointers
    included. *)
Fixpoint height (p : vprog) : nat :=
  match p with
  | VRet | VCrash => 0
  | VInline _ _ b r | VUnique _ _ b r => Nat.max (S (height b)) (height r)
  | VShared _ _ _ b r1 r2 => Nat.max (S (height b)) (Nat.max (height r1) (height r2))
  end.
