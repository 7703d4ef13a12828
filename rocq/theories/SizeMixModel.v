(** * [size_of_unique_allocated_data] while everything changes.

    MixModel runs the visits of a [FlameGraphBuilder] next to other code that changes
    locks, [DashMap]s, allocations and reference counts.  Here the same visits (the
    same code of the implementations) are made by the visitor of size_of.rs. *)
From Verif Require Import Base KeyModel HMap FlameModel BuilderModel VisitorModel LayoutModel ImplModel SizeOfModel LockModel LockSpec SnapshotModel DashModel MixModel.

(** What is open, as [xframe] of MixModel.  [ZScope nk rest]: the scope of an [enter_*];
    [nk] is the kind of the visitor outside it (visitor.rs 65-118).  The others: as
    there (sync.rs 36-44, 93-103; visitor.rs 154-161; dashmap.rs 37, 60). *)
Inductive zframe :=
| ZScope (nk : node_kind) (rest : xcode)
| ZGuard (l : lock) (a : access) (rest : xcode)
| ZArc (x : ptr) (rest : xcode)
| ZThen (rest : xcode)
| ZShard (kd : dash) (l : lock) (ls : list lock) (rest : xcode).
(** What the thread does next (visitor.rs 65-118). *)
Inductive zcontrol := ZRun (p : xcode) | ZUnwinds.
(** The thread: memory, [size] of the visitor (size_of.rs 41-43), [node_kind] of the
    [Visitor] in use (size_of.rs 77-80, visitor.rs 71-118), what it does, what is open. *)
Record zconf := mkZ { z_mem : xmemory; z_size : N; z_kind : node_kind; z_control : zcontrol; z_stack : list zframe }.

(** One step of the visit, as [xstep] of MixModel with the [enter_*] and [exit_*] of
    size_of.rs 45-73.  There is no step for an [enter_shared_impl] that returns [true]
    (it never does, size_of.rs 54-62), so [exit_shared_impl] is not called.
    Models: size_of.rs 39-83, sync.rs 36-44, 93-103, 209-217, cell.rs 19-47, lock_api.rs 22-40, tokio.rs 20-38, visitor.rs 65-118, dashmap.rs 29-70. *)
Inductive zstep (m : mode) (std : lock -> bool) : zconf -> zconf -> Prop :=
(* leaving a block *)
| z_exit g s nk nk' rest st :
    zstep m std (mkZ g s nk (ZRun XRet) (ZScope nk' rest :: st)) (mkZ g (so_exit s) nk' (ZRun rest) st)
| z_unlock g s nk l a rest st :
    zstep m std (mkZ g s nk (ZRun XRet) (ZGuard l a rest :: st))
      (mkZ (xset g (release (x_shared g) l Visit a false)) s nk (ZRun rest) st)
| z_drop_arc g s nk x rest st :
    zstep m std (mkZ g s nk (ZRun XRet) (ZArc x rest :: st))
      (mkZ (xset g (set_strong (x_shared g) x (remove_one owner_eqb Visit (strong (x_shared g) x)))) s nk (ZRun rest) st)
| z_return g s nk rest st :
    zstep m std (mkZ g s nk (ZRun XRet) (ZThen rest :: st)) (mkZ g s nk (ZRun rest) st)
| z_next_shard g s nk kd l l2 ls rest st : available (locks (x_shared g) l2) ReadOnly ->
    zstep m std (mkZ g s nk (ZRun XRet) (ZShard kd l (l2 :: ls) rest :: st))
      (mkZ (xset g (release (acquire (x_shared g) l2 Visit ReadOnly) l Visit ReadOnly false)) s nk
         (ZRun (xentries kd (tb_entries (x_table g l2)))) (ZShard kd l2 ls rest :: st))
| z_last_shard g s nk kd l rest st :
    zstep m std (mkZ g s nk (ZRun XRet) (ZShard kd l [] rest :: st))
      (mkZ (xset g (release (x_shared g) l Visit ReadOnly false)) s nk (ZRun rest) st)
(* a panic, and unwinding *)
| z_crash g s nk st : zstep m std (mkZ g s nk (ZRun XCrash) st) (mkZ g s nk ZUnwinds st)
| z_unwind_exit g s nk nk' rest st :
    zstep m std (mkZ g s nk ZUnwinds (ZScope nk' rest :: st)) (mkZ g (so_exit s) nk' ZUnwinds st)
| z_unwind_unlock g s nk l a rest st :
    zstep m std (mkZ g s nk ZUnwinds (ZGuard l a rest :: st))
      (mkZ (xset g (release (x_shared g) l Visit a (std l && access_eqb a Exclusive))) s nk ZUnwinds st)
| z_unwind_arc g s nk x rest st :
    zstep m std (mkZ g s nk ZUnwinds (ZArc x rest :: st))
      (mkZ (xset g (set_strong (x_shared g) x (remove_one owner_eqb Visit (strong (x_shared g) x)))) s nk ZUnwinds st)
| z_unwind_then g s nk rest st :
    zstep m std (mkZ g s nk ZUnwinds (ZThen rest :: st)) (mkZ g s nk ZUnwinds st)
| z_unwind_shard g s nk kd l ls rest st :
    zstep m std (mkZ g s nk ZUnwinds (ZShard kd l ls rest :: st))
      (mkZ (xset g (release (x_shared g) l Visit ReadOnly false)) s nk ZUnwinds st)
(* entering a scope *)
| z_inline g s s' nk k n body rest st : so_enter_inline m s k n nk = Some s' ->
    zstep m std (mkZ g s nk (ZRun (XInline k n body rest)) st) (mkZ g s' NKInline (ZRun body) (ZScope nk rest :: st))
| z_inline_panic g s nk k n body rest st : so_enter_inline m s k n nk = None ->
    zstep m std (mkZ g s nk (ZRun (XInline k n body rest)) st) (mkZ g s nk ZUnwinds st)
| z_unique g s nk k n body rest st :
    zstep m std (mkZ g s nk (ZRun (XUnique k n body rest)) st) (mkZ g (so_enter_unique s k n nk) NKUnique (ZRun body) (ZScope nk rest :: st))
| z_shared g s s' nk k n x rest st : so_enter_shared s k n x nk = (s', false) ->
    zstep m std (mkZ g s nk (ZRun (XShared k n x rest)) st) (mkZ g s' nk (ZRun rest) st)
(* locks *)
| z_try g s nk l a field rest st : available (locks (x_shared g) l) a -> poisoned (locks (x_shared g) l) = false ->
    zstep m std (mkZ g s nk (ZRun (XTry l a field rest)) st)
      (mkZ (xset g (acquire (x_shared g) l Visit a)) s nk (ZRun (xopened field (x_content g l))) (ZGuard l a rest :: st))
| z_try_fails g s nk l a field rest st : held (locks (x_shared g) l) <> [] \/ poisoned (locks (x_shared g) l) = true ->
    zstep m std (mkZ g s nk (ZRun (XTry l a field rest)) st) (mkZ g s nk (ZRun rest) st)
(* [upgrade] *)
| z_upgrade g s nk x body rest st : strong (x_shared g) x <> [] ->
    zstep m std (mkZ g s nk (ZRun (XUpgrade x body rest)) st)
      (mkZ (xset g (set_strong (x_shared g) x (Visit :: strong (x_shared g) x))) s nk (ZRun body) (ZArc x rest :: st))
| z_upgrade_dead g s nk x body rest st : strong (x_shared g) x = [] ->
    zstep m std (mkZ g s nk (ZRun (XUpgrade x body rest)) st) (mkZ g s nk (ZRun rest) st)
(* visiting a contained value *)
| z_visit g s nk v rest st :
    zstep m std (mkZ g s nk (ZRun (XVisit v rest)) st) (mkZ g s nk (ZRun (ximplementation m v)) (ZThen rest :: st))
(* a [DashMap] *)
| z_sum g s nk w l ls acc k n st : available (locks (x_shared g) l) ReadOnly -> uadd m acc (count w (x_table g l)) = Some n ->
    zstep m std (mkZ g s nk (ZRun (XSum w (l :: ls) acc k)) st) (mkZ g s nk (ZRun (XSum w ls n k)) st)
| z_sum_overflow g s nk w l ls acc k st : available (locks (x_shared g) l) ReadOnly -> uadd m acc (count w (x_table g l)) = None ->
    zstep m std (mkZ g s nk (ZRun (XSum w (l :: ls) acc k)) st) (mkZ g s nk ZUnwinds st)
| z_sum_done g s nk w acc k st : zstep m std (mkZ g s nk (ZRun (XSum w [] acc k)) st) (mkZ g s nk (ZRun (k acc)) st)
| z_first_shard g s nk kd l ls rest st : available (locks (x_shared g) l) ReadOnly ->
    zstep m std (mkZ g s nk (ZRun (XIter kd (l :: ls) rest)) st)
      (mkZ (xset g (acquire (x_shared g) l Visit ReadOnly)) s nk (ZRun (xentries kd (tb_entries (x_table g l)))) (ZShard kd l ls rest :: st))
| z_no_shard g s nk kd rest st : zstep m std (mkZ g s nk (ZRun (XIter kd [] rest)) st) (mkZ g s nk (ZRun rest) st).

(** [zpasses M m std c c']: some interleaving of the visit with other code (as [xpasses]
    of MixModel; size_of.rs 39-83) leads from [c] to [c'], and at every moment of it the
    memory is one of [M]. *)
Inductive zpasses (M : xmemory -> Prop) (m : mode) (std : lock -> bool) : zconf -> zconf -> Prop :=
| zp_end c : M (z_mem c) -> zpasses M m std c c
| zp_visit c c' c'' : M (z_mem c) -> zstep m std c c' -> zpasses M m std c' c'' -> zpasses M m std c c''
| zp_other g g' s nk k st c'' : M g -> xchange g g' -> zpasses M m std (mkZ g' s nk k st) c'' ->
    zpasses M m std (mkZ g s nk k st) c''.

(** The call starts: size_of.rs 76-81. *)
Definition zbegin (g : xmemory) (v : xvalue) : zconf := mkZ g 0 NKRoot (ZRun (XVisit v XRet)) [].
(** Returned, or unwound (a panic): size_of.rs 81-83. *)
Definition zended (c : zconf) : Prop :=
  match z_control c, z_stack c with ZRun XRet, [] | ZUnwinds, [] => True | _, _ => False end.
(** What the call returns, [None] if it panics: size_of.rs 82-83. *)
Definition zresult (c : zconf) : option N := match z_control c with ZRun _ => Some (so_exit (z_size c)) | ZUnwinds => None end.
