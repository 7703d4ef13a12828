(** * Specification vocabulary for the global registry. *)
From Verif Require Import Base KeyModel HMap FlameModel BuilderModel VisitorModel GlobalModel.

(** ** Linearizability (Herlihy and Wing), for one history [H] of calls and returns. *)

(** The registry as a sequential object: registering appends, a snapshot
    returns the current list. *)
Definition seq_apply (v : list groot) (o : gop) : list groot * gres :=
  match o with Register r => (v ++ [r], RUnit) | Snapshot => (v, RList v) end.

(** A completed operation instance: the [n]-th operation of thread [t]. *)
Record inst := mkInst { i_tid : tid; i_num : nat; i_op : gop; i_res : gres }.

(** A sequence of instances is a legal sequential execution from [v] to [v']. *)
Fixpoint sequential (v : list groot) (S : list inst) (v' : list groot) : Prop :=
  match S with
  | [] => v' = v
  | i :: S' => i_res i = snd (seq_apply v (i_op i)) /\ sequential (fst (seq_apply v (i_op i))) S' v'
  end.

Definition invoked (H : list gevent) (i : inst) : Prop := In (Inv (i_tid i) (i_num i) (i_op i)) H.
Definition returned (H : list gevent) (i : inst) : Prop := In (Ret (i_tid i) (i_num i) (i_op i) (i_res i)) H.

(** [x] occurs before [y] in [l]. *)
Definition before {A} (l : list A) (x y : A) : Prop := exists l1 l2 l3, l = l1 ++ x :: l2 ++ y :: l3.

Record linearization (H : list gevent) (S : list inst) : Prop := {
  lin_nodup : NoDup (map (fun i => (i_tid i, i_num i)) S);
  lin_complete : forall i, returned H i -> In i S;
  lin_invoked : forall i, In i S -> invoked H i;
  lin_realtime : forall i j, In j S ->
    before H (Ret (i_tid i) (i_num i) (i_op i) (i_res i)) (Inv (i_tid j) (i_num j) (i_op j)) -> before S i j;
}.

(** The registrations of a thread's program, in program order. *)
Definition registrations (l : list gop) : list groot :=
  flat_map (fun o => match o with Register r => [r] | Snapshot => [] end) l.

(** All operations of all threads have returned. *)
Definition quiescent (s : gstate) : Prop :=
  forall t, th_pc (g_threads s t) = Idle /\ th_todo (g_threads s t) = [].

(** ** Visiting *)

(** The visit without its registrations. *)
Fixpoint erase (p : gprog) : vprog :=
  match p with
  | GRet => VRet
  | GCrash => VCrash
  | GRegister _ rest => erase rest
  | GInline k s b r => VInline k s (erase b) (erase r)
  | GUnique k s b r => VUnique k s (erase b) (erase r)
  | GShared k s x b r1 r2 => VShared k s x (erase b) (erase r1) (erase r2)
  end.

(** [visit_root] over a list, in order, stopping at the first panic. *)
Fixpoint visit_in_order (m : mode) (l : list vprog) (b : builder) : builder * outcome :=
  match l with
  | [] => (b, Done)
  | p :: l' => and_then (visit_root m p b) (visit_in_order m l')
  end.

(** The visit programs of a snapshot. *)
Fixpoint programs (code : nat -> groot -> gprog) (i : nat) (l : list groot) : list vprog :=
  match l with
  | [] => []
  | r :: l' => erase (code i r) :: programs code (S i) l'
  end.

(** The roots a visit may register. *)
Fixpoint registers (p : gprog) : list groot :=
  match p with
  | GRet | GCrash => []
  | GRegister r rest => r :: registers rest
  | GInline _ _ b r | GUnique _ _ b r => registers b ++ registers r
  | GShared _ _ _ b r1 r2 => registers b ++ registers r1 ++ registers r2
  end.
