(** * Visiting memory with [DashMap]s, all of which changes.

    ChangeModel lets the contents of locks and allocations change during a visit but
    has no [DashMap]s; DashModel has one [DashMap] whose entries are visited in one
    step.  Here both are together: the shards of a [DashMap] or [DashSet] are locks of
    the same memory, their tables change like the contents of other locks, keys and
    values are arbitrary values (with locks, shared pointers and further [DashMap]s in
    them), and the visit of an entry is as interleaved with other code as everything
    else.  Waiting for a shard is not taking a step. *)
From Verif Require Import Base KeyModel HMap FlameModel BuilderModel VisitorModel LayoutModel ImplModel LockModel LockSpec SnapshotModel DashModel.

(** A value, as [mvalue] of ChangeModel, and: [XDash kd t e ls] is a [DashMap] or
    [DashSet] (dashmap.rs 29-51, 53-70) of type [t] whose shards are the locks [ls]
    (their number is fixed); [e]: the type of an entry. *)
Inductive xvalue :=
| XPlain (s : shape) (cs : list xvalue)
| XLock (t : tinfo) (l : lock) (a : access)
| XOnce (t : tinfo) (l : lock)
| XWeak (t t' : tinfo) (ps : N) (x : ptr)
| XDash (kd : dash) (t e : tinfo) (ls : list lock).

(** The table of a shard: what its [capacity()] and iteration give (dashmap.rs 36-37,
    44); an entry is a key and a value ([DashSet]: the value is not looked at). *)
Record xtable := mkTable { tb_cap : N; tb_entries : list (xvalue * xvalue) }.

(** The memory, as in ChangeModel, and the tables of the shards.
    Models: sync.rs 36-44, 66-141, 209-217, dashmap.rs 29-70. *)
Record xmemory := mkX {
  x_shared : shared;
  x_content : lock -> xvalue;
  x_object : ptr -> option (inner * xvalue);
  x_table : lock -> xtable }.

(** What the size of a value depends on, as [outline] of ChangeModel.
    Models: [size_of_val], visitor.rs 131-136, 154-161. *)
Fixpoint xoutline (v : xvalue) : value :=
  match v with
  | XPlain s cs => Node s (map xoutline cs)
  | XLock t _ _ => Node (SCell t false) []
  | XOnce t _ => Node (SOnce t false) []
  | XWeak t _ _ _ => Node (SWeak t None) []
  | XDash IsMap t e _ => Node (SDashMap t e 0) []
  | XDash IsSet t e _ => Node (SDashSet t e 0) []
  end.
(** [size_of_val] (visitor.rs 131-136, 154-161). *)
Definition xsize (v : xvalue) : N := size_of_val (xoutline v).

(** What a shard is asked for: [capacity()] (dashmap.rs 36, 44, 59, 65) or [len()] (44, 65). *)
Inductive asked := Capacity | Length.
(** The answer (dashmap.rs 36, 44, 59, 65). *)
Definition count (w : asked) (tb : xtable) : N :=
  match w with Capacity => tb_cap tb | Length => len (tb_entries tb) end.

(** ** The code of a visit, as [code] of ChangeModel (cited there), and:

    - [XSum w ls acc k]: ask one shard after the other, add up, go on with [k] of the
      sum ([capacity()], [len()]: dashmap.rs 36, 44, 59, 65);
    - [XIter kd ls rest]: the loop over the entries of the shards (dashmap.rs 37-40,
      60-62). *)
Inductive xcode :=
| XRet
| XCrash
| XInline (k : key) (s : N) (body rest : xcode)
| XUnique (k : key) (s : N) (body rest : xcode)
| XShared (k : key) (s : N) (x : ptr) (rest : xcode)
| XTry (l : lock) (a : access) (field : bool) (rest : xcode)
| XUpgrade (x : ptr) (body rest : xcode)
| XVisit (v : xvalue) (rest : xcode)
| XSum (w : asked) (ls : list lock) (acc : N) (k : N -> xcode)
| XIter (kd : dash) (ls : list lock) (rest : xcode).

(** As [calls] of ChangeModel (visitor.rs 154-161). *)
Fixpoint xcalls (cs : list xvalue) (p : vprog) : xcode :=
  match p with
  | VRet => XRet
  | VCrash => XCrash
  | VInline k s b r => XInline k s (xcalls cs b) (xcalls cs r)
  | VUnique k s b r => XUnique k s (xcalls cs b) (xcalls cs r)
  | VShared _ _ i _ r _ =>
      match nth_error cs (N.to_nat i) with
      | Some c => XVisit c (xcalls cs r)
      | None => xcalls cs r
      end
  end.
(** As [pointer_calls] of ChangeModel (sync.rs 66-141, triomphe.rs 52-111, futures.rs 23-41). *)
Fixpoint xpointers (p : vprog) : xcode :=
  match p with
  | VRet => XRet
  | VCrash => XCrash
  | VInline k s b r => XInline k s (xpointers b) (xpointers r)
  | VUnique k s b r => XUnique k s (xpointers b) (xpointers r)
  | VShared k s x _ r _ => XShared k s x (xpointers r)
  end.

(** The loop over the entries of one shard (dashmap.rs 37-40, 60-62). *)
Fixpoint xentries (kd : dash) (es : list (xvalue * xvalue)) : xcode :=
  match es with
  | [] => XRet
  | (k, v) :: es' =>
      match kd with
      | IsMap => XInline KEY_NAME (xsize k) (XVisit k XRet) (XInline VALUE_NAME (xsize v) (XVisit v XRet) (xentries kd es'))
      | IsSet => XInline DATA_NAME (xsize k) (XVisit k XRet) (xentries kd es')
      end
  end.

(** A computation that may overflow (dashmap.rs 36, 44, 59, 65). *)
Definition xwith (x : option N) (f : N -> xcode) : xcode := match x with Some n => f n | None => XCrash end.

(** [DashMap::visit], [DashSet::visit] (dashmap.rs 32-49, 55-68). *)
Definition xdash (m : mode) (kd : dash) (t e : tinfo) (ls : list lock) : xcode :=
  XInline (key_for_type_name (t_name t)) (t_size t)
    (XUnique PTR_NAME ptr_size
       (XSum Capacity ls 0 (fun c =>
          xwith (umul m c (t_size e)) (fun total =>
            XInline CAPACITY_NAME total
              (XIter kd ls
                 (XSum Capacity ls 0 (fun c' => XSum Length ls 0 (fun n =>
                    xwith (umul m (usaturating_sub c' n) (t_size e)) (fun s =>
                      XInline UNUSED_CAPACITY_NAME s XRet XRet))))) XRet))) XRet) XRet.

(** [<T as Allocative>::visit], as [implementation] of ChangeModel (cited there), and dashmap.rs 29-70. *)
Definition ximplementation (m : mode) (v : xvalue) : xcode :=
  match v with
  | XPlain s cs =>
      match s with
      | SShared _ _ _ | SWeak _ _ => xpointers (visit_shape m unseen s [])
      | _ => xcalls cs (visit_shape m unseen s (placeholders 0 (map xsize cs)))
      end
  | XLock t l a => XInline (key_for_type_name (t_name t)) (t_size t) (XTry l a true XRet) XRet
  | XOnce t l => XInline (key_for_type_name (t_name t)) (t_size t) (XTry l ReadOnly false XRet) XRet
  | XWeak t t' ps x =>
      XInline (key_for_type_name (t_name t)) (t_size t) (XUpgrade x (xpointers (impl_shared_ptr unseen t' ps x)) XRet) XRet
  | XDash kd t e ls => xdash m kd t e ls
  end.
(** What is visited inside a lock (sync.rs 38-41; once_cell.rs 18-21). *)
Definition xopened (field : bool) (c : xvalue) : xcode :=
  if field then XInline DATA_NAME (xsize c) (XVisit c XRet) XRet else XVisit c XRet.
(** What is visited behind a shared pointer, as [behind] of ChangeModel (sync.rs 79-88,
    117-126; triomphe.rs 68-79, 102-108; futures.rs 36-38). *)
Definition xbehind (o : option (inner * xvalue)) : xcode :=
  match o with
  | Some (i, v) => xcalls [v] (visit_inner i (xsize v, VShared DATA_NAME 0 0 VRet VRet VRet))
  | None => XCrash
  end.

(** ** Steps *)

(** What is open, as [cframe] of ChangeModel; [YShard kd l ls rest]: the entries of
    shard [l] are visited, the shards [ls] are still to come.
    Models: visitor.rs 65-69, dashmap.rs 37, 60. *)
Inductive xframe :=
| YScope (rest : xcode)
| YGuard (l : lock) (a : access) (rest : xcode)
| YArc (x : ptr) (rest : xcode)
| YThen (rest : xcode)
| YShard (kd : dash) (l : lock) (ls : list lock) (rest : xcode).
(** What the profiling thread does next, as [control] of LockModel (visitor.rs 65-118). *)
Inductive xcontrol := XRun (p : xcode) | XUnwinds | XLost.
(** The profiling thread, its builder (flamegraph.rs 310-323) and the memory. *)
Record xconf := mkXC { xk_mem : xmemory; xk_builder : builder; xk_control : xcontrol; xk_stack : list xframe }.

(** Locks and counts change (helper for the steps of sync.rs 36-44, 93-103, dashmap.rs 37). *)
Definition xset (g : xmemory) (s : shared) : xmemory := mkX s (x_content g) (x_object g) (x_table g).

(** One step of the visit, as [cstep] of ChangeModel, and the steps of a [DashMap]: the
    iterator takes the read guard of the next shard before it drops that of the last
    one; [capacity()] and [len()] have a read guard for a moment.
    Models: sync.rs 36-44, 93-103, 209-217, cell.rs 19-47, lock_api.rs 22-40, tokio.rs 20-38, visitor.rs 65-118, dashmap.rs 29-70. *)
Inductive xstep (m : mode) (std : lock -> bool) : xconf -> xconf -> Prop :=
(* leaving a block *)
| x_exit g b b' rest st : exit_impl b = (b', Fine) ->
    xstep m std (mkXC g b (XRun XRet) (YScope rest :: st)) (mkXC g b' (XRun rest) st)
| x_exit_abort g b b' rest st : exit_impl b = (b', Panicked) ->
    xstep m std (mkXC g b (XRun XRet) (YScope rest :: st)) (mkXC g b' XLost [])
| x_unlock g b l a rest st :
    xstep m std (mkXC g b (XRun XRet) (YGuard l a rest :: st))
      (mkXC (xset g (release (x_shared g) l Visit a false)) b (XRun rest) st)
| x_drop_arc g b x rest st :
    xstep m std (mkXC g b (XRun XRet) (YArc x rest :: st))
      (mkXC (xset g (set_strong (x_shared g) x (remove_one owner_eqb Visit (strong (x_shared g) x)))) b (XRun rest) st)
| x_return g b rest st :
    xstep m std (mkXC g b (XRun XRet) (YThen rest :: st)) (mkXC g b (XRun rest) st)
| x_next_shard g b kd l l2 ls rest st : available (locks (x_shared g) l2) ReadOnly ->
    xstep m std (mkXC g b (XRun XRet) (YShard kd l (l2 :: ls) rest :: st))
      (mkXC (xset g (release (acquire (x_shared g) l2 Visit ReadOnly) l Visit ReadOnly false)) b
         (XRun (xentries kd (tb_entries (x_table g l2)))) (YShard kd l2 ls rest :: st))
| x_last_shard g b kd l rest st :
    xstep m std (mkXC g b (XRun XRet) (YShard kd l [] rest :: st))
      (mkXC (xset g (release (x_shared g) l Visit ReadOnly false)) b (XRun rest) st)
(* a panic, and unwinding *)
| x_crash g b st : xstep m std (mkXC g b (XRun XCrash) st) (mkXC g b XUnwinds st)
| x_unwind_exit g b b' rest st : exit_impl b = (b', Fine) ->
    xstep m std (mkXC g b XUnwinds (YScope rest :: st)) (mkXC g b' XUnwinds st)
| x_unwind_abort g b b' rest st : exit_impl b = (b', Panicked) ->
    xstep m std (mkXC g b XUnwinds (YScope rest :: st)) (mkXC g b' XLost [])
| x_unwind_unlock g b l a rest st :
    xstep m std (mkXC g b XUnwinds (YGuard l a rest :: st))
      (mkXC (xset g (release (x_shared g) l Visit a (std l && access_eqb a Exclusive))) b XUnwinds st)
| x_unwind_arc g b x rest st :
    xstep m std (mkXC g b XUnwinds (YArc x rest :: st))
      (mkXC (xset g (set_strong (x_shared g) x (remove_one owner_eqb Visit (strong (x_shared g) x)))) b XUnwinds st)
| x_unwind_then g b rest st :
    xstep m std (mkXC g b XUnwinds (YThen rest :: st)) (mkXC g b XUnwinds st)
| x_unwind_shard g b kd l ls rest st :
    xstep m std (mkXC g b XUnwinds (YShard kd l ls rest :: st))
      (mkXC (xset g (release (x_shared g) l Visit ReadOnly false)) b XUnwinds st)
(* entering a scope *)
| x_inline g b b' k n body rest st : enter_inline m b k n = (b', Fine) ->
    xstep m std (mkXC g b (XRun (XInline k n body rest)) st) (mkXC g b' (XRun body) (YScope rest :: st))
| x_inline_panic g b b' k n body rest st : enter_inline m b k n = (b', Panicked) ->
    xstep m std (mkXC g b (XRun (XInline k n body rest)) st) (mkXC g b' XUnwinds st)
| x_unique g b b' k n body rest st : enter_unique m b k n = (b', Fine) ->
    xstep m std (mkXC g b (XRun (XUnique k n body rest)) st) (mkXC g b' (XRun body) (YScope rest :: st))
| x_unique_panic g b b' k n body rest st : enter_unique m b k n = (b', Panicked) ->
    xstep m std (mkXC g b (XRun (XUnique k n body rest)) st) (mkXC g b' XUnwinds st)
| x_shared_new g b b' k n x rest st : enter_shared m b k n x = (b', Fine, true) ->
    xstep m std (mkXC g b (XRun (XShared k n x rest)) st) (mkXC g b' (XRun (xbehind (x_object g x))) (YScope rest :: st))
| x_shared_again g b b' k n x rest st : enter_shared m b k n x = (b', Fine, false) ->
    xstep m std (mkXC g b (XRun (XShared k n x rest)) st) (mkXC g b' (XRun rest) st)
| x_shared_panic g b b' k n x ret rest st : enter_shared m b k n x = (b', Panicked, ret) ->
    xstep m std (mkXC g b (XRun (XShared k n x rest)) st) (mkXC g b' XUnwinds st)
(* locks *)
| x_try g b l a field rest st : available (locks (x_shared g) l) a -> poisoned (locks (x_shared g) l) = false ->
    xstep m std (mkXC g b (XRun (XTry l a field rest)) st)
      (mkXC (xset g (acquire (x_shared g) l Visit a)) b (XRun (xopened field (x_content g l))) (YGuard l a rest :: st))
| x_try_fails g b l a field rest st : held (locks (x_shared g) l) <> [] \/ poisoned (locks (x_shared g) l) = true ->
    xstep m std (mkXC g b (XRun (XTry l a field rest)) st) (mkXC g b (XRun rest) st)
(* [upgrade] *)
| x_upgrade g b x body rest st : strong (x_shared g) x <> [] ->
    xstep m std (mkXC g b (XRun (XUpgrade x body rest)) st)
      (mkXC (xset g (set_strong (x_shared g) x (Visit :: strong (x_shared g) x))) b (XRun body) (YArc x rest :: st))
| x_upgrade_dead g b x body rest st : strong (x_shared g) x = [] ->
    xstep m std (mkXC g b (XRun (XUpgrade x body rest)) st) (mkXC g b (XRun rest) st)
(* visiting a contained value *)
| x_visit g b v rest st :
    xstep m std (mkXC g b (XRun (XVisit v rest)) st) (mkXC g b (XRun (ximplementation m v)) (YThen rest :: st))
(* a [DashMap] *)
| x_sum g b w l ls acc k n st : available (locks (x_shared g) l) ReadOnly -> uadd m acc (count w (x_table g l)) = Some n ->
    xstep m std (mkXC g b (XRun (XSum w (l :: ls) acc k)) st) (mkXC g b (XRun (XSum w ls n k)) st)
| x_sum_overflow g b w l ls acc k st : available (locks (x_shared g) l) ReadOnly -> uadd m acc (count w (x_table g l)) = None ->
    xstep m std (mkXC g b (XRun (XSum w (l :: ls) acc k)) st) (mkXC g b XUnwinds st)
| x_sum_done g b w acc k st : xstep m std (mkXC g b (XRun (XSum w [] acc k)) st) (mkXC g b (XRun (k acc)) st)
| x_first_shard g b kd l ls rest st : available (locks (x_shared g) l) ReadOnly ->
    xstep m std (mkXC g b (XRun (XIter kd (l :: ls) rest)) st)
      (mkXC (xset g (acquire (x_shared g) l Visit ReadOnly)) b (XRun (xentries kd (tb_entries (x_table g l)))) (YShard kd l ls rest :: st))
| x_no_shard g b kd rest st : xstep m std (mkXC g b (XRun (XIter kd [] rest)) st) (mkXC g b (XRun rest) st).

(** One step of other code, as [change] of ChangeModel; the table of a shard is changed
    by who has its write guard.
    Models: users of the types at sync.rs 36-44, 66-141, 209-217, cell.rs 19-47, lock_api.rs 22-40, tokio.rs 20-38, dashmap.rs 29-70. *)
Inductive xchange : xmemory -> xmemory -> Prop :=
| xc_shared g s : ostep (x_shared g) s -> xchange g (xset g s)
| xc_write g l t v : In (Other t, Exclusive) (held (locks (x_shared g) l)) ->
    xchange g (mkX (x_shared g) (fun l' => if N.eqb l' l then v else x_content g l') (x_object g) (x_table g))
| xc_object g x o : xchange g (mkX (x_shared g) (x_content g) (fun y => if N.eqb y x then o else x_object g y) (x_table g))
| xc_table g l t tb : In (Other t, Exclusive) (held (locks (x_shared g) l)) ->
    xchange g (mkX (x_shared g) (x_content g) (x_object g) (fun l' => if N.eqb l' l then tb else x_table g l'))
(* an iteration of another thread goes on to the next shard, as [x_next_shard] *)
| xc_next g l l2 t : available (locks (x_shared g) l2) ReadOnly -> In (Other t, ReadOnly) (held (locks (x_shared g) l)) ->
    xchange g (xset g (release (acquire (x_shared g) l2 (Other t) ReadOnly) l (Other t) ReadOnly false)).

(** [xpasses M m std c c']: as [passes] of ChangeModel (sync.rs 36-44, visitor.rs
    65-118, dashmap.rs 29-70). *)
Inductive xpasses (M : xmemory -> Prop) (m : mode) (std : lock -> bool) : xconf -> xconf -> Prop :=
| xp_end c : M (xk_mem c) -> xpasses M m std c c
| xp_visit c c' c'' : M (xk_mem c) -> xstep m std c c' -> xpasses M m std c' c'' -> xpasses M m std c c''
| xp_other g g' b k st c'' : M g -> xchange g g' -> xpasses M m std (mkXC g' b k st) c'' ->
    xpasses M m std (mkXC g b k st) c''.

(** A visit starts (flamegraph.rs 359-363). *)
Definition xbegin (g : xmemory) (b : builder) (v : xvalue) : xconf := mkXC g b (XRun (XVisit v XRet)) [].
(** Returned, unwound (a panic), or the process is gone (visitor.rs 65-69). *)
Definition xended (c : xconf) : Prop :=
  match xk_control c, xk_stack c with XRun XRet, [] | XUnwinds, [] | XLost, _ => True | _, _ => False end.
(** The builder and how the visit ended (visitor.rs 65-69). *)
Definition xresult (c : xconf) : builder * outcome :=
  (xk_builder c, match xk_control c with XRun _ => Done | XUnwinds => Unwinding | XLost => Aborted end).

(** The root visits of one builder, as [profiles] of ChangeModel (flamegraph.rs 359-363). *)
Inductive xprofiles (M : xmemory -> Prop) (m : mode) (std : lock -> bool) : xmemory -> builder -> list xvalue -> builder -> outcome -> bool -> Prop :=
| xr_end g b : xprofiles M m std g b [] b Done true
| xr_change g g' b vs b' o calm : M g -> xchange g g' -> xprofiles M m std g' b vs b' o calm -> xprofiles M m std g b vs b' o calm
| xr_refused g b v vs b1 b' o calm : root_visitor b = (b1, Panicked) ->
    xprofiles M m std g b1 vs b' o calm -> xprofiles M m std g b (v :: vs) b' o false
| xr_visit g b v vs b1 c b2 o2 b' o calm : root_visitor b = (b1, Fine) ->
    xpasses M m std (xbegin g b1 v) c -> xended c -> leave_scope (xresult c) = (b2, o2) -> o2 <> Aborted ->
    xprofiles M m std (xk_mem c) b2 vs b' o calm ->
    xprofiles M m std g b (v :: vs) b' o (match o2 with Done => calm | _ => false end)
| xr_abort g b v vs b1 c b2 : root_visitor b = (b1, Fine) ->
    xpasses M m std (xbegin g b1 v) c -> xended c -> leave_scope (xresult c) = (b2, Aborted) ->
    xprofiles M m std g b (v :: vs) b2 Aborted false.
