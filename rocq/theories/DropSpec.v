(** * Specification vocabulary for destructors run by a visit. *)
From Verif Require Import Base KeyModel HMap FlameModel BuilderModel VisitorModel ImplModel LockModel LockSpec PoolModel DropModel.

(** The visit and the destructors it ran are over. *)
Definition d_over (d : dstate) : Prop := d_todo d = [] /\ over (d_conf d).

(** A destructor run by the visit is about to wait for [l]. *)
Definition wants (d : dstate) (l : lock) (a : access) : Prop := exists body rest todo, d_todo d = Code (DLock l a body rest) :: todo.

(** A destructor waits for [l] somewhere. *)
Fixpoint d_takes (l : lock) (p : dprog) : Prop :=
  match p with
  | DRet => False
  | DLock l' _ b r => l' = l \/ d_takes l b \/ d_takes l r
  | DDrop _ _ r => d_takes l r
  end.

(** There is a [Weak] in what is visited; in what is visited inside [l]. *)
Fixpoint has_weak (p : lprog) : Prop :=
  match p with
  | LRet | LCrash => False
  | LInline _ _ b r | LUnique _ _ b r | LTry _ _ b r | LWait _ _ b r => has_weak b \/ has_weak r
  | LShared _ _ _ b r1 r2 => has_weak b \/ has_weak r1 \/ has_weak r2
  | LUpgrade _ _ _ => True
  end.
Fixpoint weak_inside (l : lock) (p : lprog) : Prop :=
  match p with
  | LRet | LCrash => False
  | LInline _ _ b r | LUnique _ _ b r | LUpgrade _ b r => weak_inside l b \/ weak_inside l r
  | LShared _ _ _ b r1 r2 => weak_inside l b \/ weak_inside l r1 \/ weak_inside l r2
  | LTry l' _ b r | LWait l' _ b r => (l' = l /\ has_weak b) \/ weak_inside l b \/ weak_inside l r
  end.
