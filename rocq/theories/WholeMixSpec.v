(** * Specification vocabulary for C67. *)
From Verif Require Import Base KeyModel BuilderModel VisitorModel LockModel LockSpec SnapshotModel DashModel MixModel MixSpec GlobalModel WholeMixModel.

(** The profiling thread takes a step, after others have used locks and reference counts
    in any way but have not changed any contents (and used the registry). *)
Definition unchanged_own (m : mode) (std : lock -> bool) (statics : groot -> xvalue) (w w' : xprocess) : Prop :=
  exists r s, xown m std statics (mkPX r (xset (o_mem w) s) (o_phase w)) w'.
(** The loop is over: all statics have been visited, or it was left by a panic (or the
    process is gone). *)
Definition loop_over (w : xprocess) : Prop :=
  match o_phase w with XNext [] _ | XStopped _ _ => True | _ => False end.
(** Only the profiling thread takes steps. *)
Inductive only_own (m : mode) (std : lock -> bool) (statics : groot -> xvalue) : xprocess -> xprocess -> Prop :=
| oo_end w : only_own m std statics w w
| oo_step w w' w'' : xown m std statics w w' -> only_own m std statics w' w'' -> only_own m std statics w w''.
(** The profiling thread is about to take the read lock of the shard [l]. *)
Definition asks_shard (w : xprocess) (l : lock) : Prop :=
  match o_phase w with XWithin _ b k st => needs (mkXC (o_mem w) b k st) l | _ => False end.
