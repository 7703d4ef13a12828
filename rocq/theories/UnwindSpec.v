(** * Specification vocabulary for destructors that panic. *)
From Verif Require Import Base KeyModel HMap FlameModel BuilderModel VisitorModel ImplModel LockModel LockSpec PoolModel DropModel DropSpec UnwindModel.

(** A visit starts; it and the destructors it ran are over. *)
Definition u_start (s : shared) (b : builder) (p : lprog) : ustate := mkU (start s b p) [] false.
Definition u_over (d : ustate) : Prop := u_todo d = [] /\ u_raised d = false /\ over (u_conf d).

(** The visit with the contents of the locks it got and the targets of the [Weak]s it
    could upgrade (as [resolves]), where the visit may in addition panic when it leaves
    such a target. *)
Inductive resolves_or_panics : lprog -> vprog -> Prop :=
| rp_ret : resolves_or_panics LRet VRet
| rp_crash : resolves_or_panics LCrash VCrash
| rp_inline k s b b' r r' : resolves_or_panics b b' -> resolves_or_panics r r' -> resolves_or_panics (LInline k s b r) (VInline k s b' r')
| rp_unique k s b b' r r' : resolves_or_panics b b' -> resolves_or_panics r r' -> resolves_or_panics (LUnique k s b r) (VUnique k s b' r')
| rp_shared k s x b b' r1 r1' r2 r2' : resolves_or_panics b b' -> resolves_or_panics r1 r1' -> resolves_or_panics r2 r2' ->
    resolves_or_panics (LShared k s x b r1 r2) (VShared k s x b' r1' r2')
| rp_try_ok l a b b' r r' : resolves_or_panics b b' -> resolves_or_panics r r' -> resolves_or_panics (LTry l a b r) (vseq b' r')
| rp_try_not l a b r r' : resolves_or_panics r r' -> resolves_or_panics (LTry l a b r) r'
| rp_wait l a b b' r r' : resolves_or_panics b b' -> resolves_or_panics r r' -> resolves_or_panics (LWait l a b r) (vseq b' r')
| rp_upgrade_ok x b b' r r' : resolves_or_panics b b' -> resolves_or_panics r r' -> resolves_or_panics (LUpgrade x b r) (vseq b' r')
| rp_upgrade_not x b r r' : resolves_or_panics r r' -> resolves_or_panics (LUpgrade x b r) r'
| rp_upgrade_panics x b b' r : resolves_or_panics b b' -> resolves_or_panics (LUpgrade x b r) (vseq b' VCrash).

(** A destructor run by the visit is about to wait for [l]. *)
Definition u_wants (d : ustate) (l : lock) (a : access) : Prop :=
  u_raised d = false /\ exists ok bad rest todo, u_todo d = Do (ULock l a ok bad rest) :: todo.
(** A destructor run by the visit is about to panic. *)
Definition about_to_panic (d : ustate) : Prop := u_raised d = false /\ exists todo, u_todo d = Do UPanic :: todo.
(** A destructor run by the visit has locked [l]. *)
Definition u_holds (d : ustate) (l : lock) (a : access) : Prop := In (Unlock l a) (u_todo d).

(** A destructor never panics. *)
Fixpoint never_panics (p : uprog) : Prop :=
  match p with
  | URet => True
  | UPanic => False
  | ULock _ _ ok bad r => never_panics ok /\ never_panics bad /\ never_panics r
  | UTry _ _ b r => never_panics b /\ never_panics r
  | UDrop _ _ r => never_panics r
  | UFinally b c r => never_panics b /\ never_panics c /\ never_panics r
  end.
(** A destructor waits for [l] somewhere. *)
Fixpoint u_takes (l : lock) (p : uprog) : Prop :=
  match p with
  | URet | UPanic => False
  | ULock l' _ ok bad r => l' = l \/ u_takes l ok \/ u_takes l bad \/ u_takes l r
  | UTry _ _ b r => u_takes l b \/ u_takes l r
  | UDrop _ _ r => u_takes l r
  | UFinally b c r => u_takes l b \/ u_takes l c \/ u_takes l r
  end.

(** The profiling thread runs alone. *)
Inductive u_alone (m : mode) (std : lock -> bool) (dtor : ptr -> uprog) : ustate -> ustate -> Prop :=
| ua_refl d : u_alone m std dtor d d
| ua_step d d' d'' : ustep m std dtor d d' -> u_alone m std dtor d' d'' -> u_alone m std dtor d d''.

(** A destructor of DropModel (which does not panic) here. *)
Fixpoint quietly (p : dprog) : uprog :=
  match p with
  | DRet => URet
  | DLock l a b r => ULock l a (quietly b) (quietly b) (quietly r)
  | DDrop x t r => UDrop x t (quietly r)
  end.
Definition quietly_item (i : ditem) : uitem := match i with Code p => Do (quietly p) | Release l a => Unlock l a end.
Definition quietly_state (d : dstate) : ustate := mkU (d_conf d) (map quietly_item (d_todo d)) false.
