(** * Specification vocabulary: the locks of the shards of [DashMap]s are private to them. *)
From Verif Require Import Base KeyModel VisitorModel LayoutModel ImplModel LockModel SnapshotModel DashModel MixModel MixSpec MixPoolModel.

Section Apart.
  (** Which locks are those of shards. *)
  Variable shard : lock -> Prop.

  (** No lock in the value that can be reached by itself (a [Mutex], [RwLock], [OnceCell]...)
      is that of a shard, and the shards of each [DashMap] in it are. *)
  Inductive apart : xvalue -> Prop :=
  | ap_plain s cs : (forall c, In c cs -> apart c) -> apart (XPlain s cs)
  | ap_lock t l a : ~ shard l -> apart (XLock t l a)
  | ap_once t l : ~ shard l -> apart (XOnce t l)
  | ap_weak t t' ps x : apart (XWeak t t' ps x)
  | ap_dash kd t e ls : (forall l, In l ls -> shard l) -> apart (XDash kd t e ls).
  (** So it is for all values in the memory: in locks, in allocations, keys and values. *)
  Definition mem_apart (g : xmemory) : Prop :=
    (forall l, apart (x_content g l)) /\
    (forall x i v, x_object g x = Some (i, v) -> apart v) /\
    (forall l e w, In e (tb_entries (x_table g l)) -> of_entry w e -> apart w).
  (** And for what a participant is to visit. *)
  Definition job_apart (j : job) : Prop :=
    match j with Session _ roots => forall v, In v roots -> apart v | SizeOf v => apart v end.
End Apart.

(** Some participant takes a turn, after other code has used locks and reference counts
    in any way but has not changed any contents. *)
Definition unchanged_turn (m : mode) (std : lock -> bool) (P P' : xpool) : Prop :=
  exists s i, xturn m std i (mkXP (xset (q_mem P) s) (q_all P)) P'.
(** The participants take turns, other code does nothing. *)
Inductive only_turns (m : mode) (std : lock -> bool) : xpool -> xpool -> Prop :=
| ot_end P : only_turns m std P P
| ot_turn i P P' P'' : xturn m std i P P' -> only_turns m std P' P'' -> only_turns m std P P''.
