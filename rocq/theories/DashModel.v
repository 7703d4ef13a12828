(** * Visiting a [DashMap] or [DashSet] that other threads modify (impls/dashmap.rs).

    A [DashMap] is a fixed number of shards, each a hash table behind its own
    read-write lock.  The visit reads it piecemeal: [capacity()] locks one shard
    after the other, [iter()] holds the read guard of the shard whose entries it
    yields and of no other, then [capacity()] and [len()] lock one shard after the
    other again.  Between these steps other threads may change every shard that is
    not guarded.

    Simplifications: waiting for a shard is not taking a step (who may be waited
    for is LockModel); [iter()] releases a guard when it takes the next one, here
    these are two steps; what the visit of one entry does is one step (nothing of
    the entry's shard can change meanwhile, and entries' own locks are C49-C52). *)
From Verif Require Import Base KeyModel HMap FlameModel BuilderModel VisitorModel LayoutModel ImplModel.

(** An entry as yielded by [iter()]: the identity of its key (what [Eq] and
    [Hash] see), and how its key and its value are visited ([DashSet]: the value
    is [()] and never looked at).  Models: dashmap.rs 37-40, 60-62. *)
Record entry := mkEntry { en_id : N; en_key : sub; en_val : sub }.

(** A shard: what its [capacity()] and iteration give.
    Models: dashmap.rs 36-37, 44. *)
Record shard := mkShard { sh_cap : N; sh_entries : list entry }.

(** Which of the two implementations: dashmap.rs 29-51 or 53-70. *)
Inductive dash := IsMap | IsSet.

(** The body of the loop over the entries: dashmap.rs 38-39, 61. *)
Definition visit_entry (kd : dash) (en : entry) : vprog :=
  match kd with
  | IsMap => vseq (field KEY_NAME (en_key en)) (field VALUE_NAME (en_val en))
  | IsSet => field DATA_NAME (en_key en)
  end.

(** Where the visit is.  [PCap1]/[PCap2]/[PLen]: the next shard to ask and the
    sum so far (dashmap.rs 36 and 59, 44 and 65); [PNext]: about to lock a shard
    for iteration; [PEntry i j]: shard [i] is guarded, [j] of its entries are done
    (dashmap.rs 37-40, 60-62); [PLeave]: dropping the open visitors, after the
    last statement or because of a panic; [PStop]: returned. *)
Inductive point :=
| PSelf
| PPtr
| PCap1 (i : nat) (acc : N)
| PNext (i : nat)
| PEntry (i j : nat)
| PCap2 (i : nat) (acc : N)
| PLen (c : N) (i : nat) (acc : N)
| PUnused (c n : N)
| PLeave
| PStop.

(** The shards, the point reached, the number of open visitors, the builder, and
    whether the visit is unwinding.  Models: dashmap.rs 32-49, 55-68. *)
Record dstate := mkD { d_shards : list shard; d_point : point; d_open : nat; d_builder : builder; d_outcome : outcome }.

(** A panic in the visit: dashmap.rs 36, 44, 59, 65 (arithmetic), 38-39, 61 (entries). *)
Definition d_panic (d : dstate) (b : builder) (o : outcome) : dstate :=
  mkD (d_shards d) PLeave (d_open d) b o.

(** Going on at another point: dashmap.rs 32-49. *)
Definition d_goto (d : dstate) (p : point) : dstate :=
  mkD (d_shards d) p (d_open d) (d_builder d) (d_outcome d).

(** [enter], [enter_unique]: dashmap.rs 33-36, 56-59. *)
Definition d_enter (d : dstate) (r : builder * status) (next : point) : dstate :=
  match r with
  | (b, Fine) => mkD (d_shards d) next (S (d_open d)) b (d_outcome d)
  | (b, Panicked) => d_panic d b Unwinding
  end.

(** Visiting something inside the innermost visitor: dashmap.rs 38-39, 42-45, 61, 63-66. *)
Definition d_run (d : dstate) (r : builder * outcome) (next : point) : dstate :=
  match r with
  | (b, Done) => mkD (d_shards d) next (d_open d) b (d_outcome d)
  | (b, o) => d_panic d b o
  end.

(** Checked arithmetic: dashmap.rs 36, 44, 59, 65. *)
Definition d_calc (d : dstate) (x : option N) (next : N -> dstate) : dstate :=
  match x with Some n => next n | None => d_panic d (d_builder d) Unwinding end.

(** One step of the visit of a map or set of type [t] with entries of type [e]
    (dashmap.rs 32-49, 55-68). *)
Definition visit_step (m : mode) (kd : dash) (t e : tinfo) (d : dstate) : option dstate :=
  match d_point d with
  | PSelf => Some (d_enter d (enter_inline m (d_builder d) (key_for_type_name (t_name t)) (t_size t)) PPtr)
  | PPtr => Some (d_enter d (enter_unique m (d_builder d) PTR_NAME ptr_size) (PCap1 0 0))
  | PCap1 i acc =>
      match nth_error (d_shards d) i with
      | Some sh => Some (d_calc d (uadd m acc (sh_cap sh)) (fun a => d_goto d (PCap1 (S i) a)))
      | None => Some (d_calc d (umul m acc (t_size e)) (fun total =>
                  d_enter d (enter_inline m (d_builder d) CAPACITY_NAME total) (PNext 0)))
      end
  | PNext i =>
      match nth_error (d_shards d) i with
      | Some _ => Some (d_goto d (PEntry i 0))
      | None => Some (d_goto d (PCap2 0 0))
      end
  | PEntry i j =>
      match nth_error (d_shards d) i with
      | Some sh =>
          match nth_error (sh_entries sh) j with
          | Some en => Some (d_run d (run m (visit_entry kd en) (d_builder d)) (PEntry i (S j)))
          | None => Some (d_goto d (PNext (S i)))
          end
      | None => None
      end
  | PCap2 i acc =>
      match nth_error (d_shards d) i with
      | Some sh => Some (d_calc d (uadd m acc (sh_cap sh)) (fun a => d_goto d (PCap2 (S i) a)))
      | None => Some (d_goto d (PLen acc 0 0))
      end
  | PLen c i acc =>
      match nth_error (d_shards d) i with
      | Some sh => Some (d_calc d (uadd m acc (len (sh_entries sh))) (fun a => d_goto d (PLen c (S i) a)))
      | None => Some (d_goto d (PUnused c acc))
      end
  | PUnused c n =>
      Some (d_calc d (umul m (usaturating_sub c n) (t_size e)) (fun s =>
        d_run d (run m (v_simple UNUSED_CAPACITY_NAME s) (d_builder d)) PLeave))
  | PLeave =>
      match d_open d with
      | O => Some (d_goto d PStop)
      | S k => let '(b, o) := leave_scope (d_builder d, d_outcome d) in
               Some (mkD (d_shards d) PLeave k b o)
      end
  | PStop => None
  end.

(** The shard whose read guard the visit holds: dashmap.rs 37, 60. *)
Definition guarded (d : dstate) : option nat :=
  match d_point d with PEntry i _ => Some i | _ => None end.

(** Other threads: any shard that is not guarded may become any other; the number
    of shards is fixed.  Models: what may happen between the reads of dashmap.rs 36-44. *)
Definition others (d d' : dstate) : Prop :=
  exists shs, d' = mkD shs (d_point d) (d_open d) (d_builder d) (d_outcome d) /\
    length shs = length (d_shards d) /\
    forall i, guarded d = Some i -> nth_error shs i = nth_error (d_shards d) i.

(** The start of [visit] with visitor [b] (dashmap.rs 32, 54). *)
Definition d_start (shs : list shard) (b : builder) : dstate := mkD shs PSelf 0 b Done.
