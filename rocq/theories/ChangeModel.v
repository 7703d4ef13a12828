(** * Visiting values whose contents change.

    In SnapshotModel other code uses the locks and reference counts while a profile
    is taken, but the contents of the locks stay.  Here they do not: code that has
    exclusive access to a lock may replace its content, allocations are made, freed
    and changed, and addresses are used again, all while the visit runs.  The visit
    reads the content of a lock when it has taken the lock, and an allocation when
    [enter_shared] says that it is new. *)
From Verif Require Import Base KeyModel HMap FlameModel BuilderModel VisitorModel LayoutModel ImplModel LockModel LockSpec SnapshotModel.

(** A value.  As [lvalue] of SnapshotModel, except that a lock does not contain its
    content: [MLock t l a] is a lock (sync.rs 36-44, 209-217, cell.rs 19-47,
    lock_api.rs 22-40, tokio.rs 20-38) at address [l]; [MOnce t l] (once_cell.rs
    16-54) likewise.  What is not behind a lock
    or a shared pointer cannot change while the visit has a reference to it. *)
Inductive mvalue :=
| MPlain (s : shape) (cs : list mvalue)
| MLock (t : tinfo) (l : lock) (a : access)
| MOnce (t : tinfo) (l : lock)
| MWeak (t t' : tinfo) (ps : N) (x : ptr).

(** The memory: locks and reference counts (LockModel), what the locks contain, what
    the shared pointers point to (sync.rs 36-44, 66-141, 209-217). *)
Record memory := mkMem {
  m_shared : shared;
  m_content : lock -> mvalue;
  m_object : ptr -> option (inner * mvalue) }.

(** The value with all locks shut and all [Weak]s dead: what its size depends on.
    Models: [size_of_val], visitor.rs 131-136, 154-161. *)
Fixpoint outline (v : mvalue) : value :=
  match v with
  | MPlain s cs => Node s (map outline cs)
  | MLock t _ _ => Node (SCell t false) []
  | MOnce t _ => Node (SOnce t false) []
  | MWeak t _ _ _ => Node (SWeak t None) []
  end.
(** [size_of_val] (visitor.rs 131-136, 154-161). *)
Definition msize (v : mvalue) : N := size_of_val (outline v).

(** ** The code of a visit

    - [CInline], [CUnique], [CShared]: the calls of visitor.rs 71-118; the code after
      [enter_shared] is the same whether it returned a visitor or not, and what is
      visited if it did is read from memory (sync.rs 79-88, 117-126; triomphe.rs
      68-79, 102-108; futures.rs 36-38);
    - [CTry l a field rest]: [if let Ok(data) = l.try_lock() { ... } rest], where [...]
      is [visitor.visit_field(DATA_NAME, &*data)] if [field] (sync.rs 36-44), and
      [data.visit(visitor)] otherwise (once_cell.rs 16-24);
    - [CUpgrade x body rest]: [if let Some(arc) = weak.upgrade() { body } rest]
      (sync.rs 93-103);
    - [CVisit v rest]: [v.visit(visitor); rest] (allocative_trait.rs 139-142). *)
Inductive code :=
| CRet
| CCrash
| CInline (k : key) (s : N) (body rest : code)
| CUnique (k : key) (s : N) (body rest : code)
| CShared (k : key) (s : N) (x : ptr) (rest : code)
| CTry (l : lock) (a : access) (field : bool) (rest : code)
| CUpgrade (x : ptr) (body rest : code)
| CVisit (v : mvalue) (rest : code).

(** The implementations are those of ImplModel, applied to [placeholders] (see
    SnapshotModel): the [i]-th mark is a call of the [visit] of the [i]-th contained
    value (visitor.rs 154-161). *)
Fixpoint calls (cs : list mvalue) (p : vprog) : code :=
  match p with
  | VRet => CRet
  | VCrash => CCrash
  | VInline k s b r => CInline k s (calls cs b) (calls cs r)
  | VUnique k s b r => CUnique k s (calls cs b) (calls cs r)
  | VShared _ _ i _ r _ =>
      match nth_error cs (N.to_nat i) with
      | Some c => CVisit c (calls cs r)
      | None => calls cs r
      end
  end.
(** Code with shared pointers and without contained values (sync.rs 66-141,
    triomphe.rs 52-111, futures.rs 23-41). *)
Fixpoint pointer_calls (p : vprog) : code :=
  match p with
  | VRet => CRet
  | VCrash => CCrash
  | VInline k s b r => CInline k s (pointer_calls b) (pointer_calls r)
  | VUnique k s b r => CUnique k s (pointer_calls b) (pointer_calls r)
  | VShared k s x _ r _ => CShared k s x (pointer_calls r)
  end.

(** [<T as Allocative>::visit]: the implementations of ImplModel and, for locks and
    [Weak]s, those of LockModel (sync.rs 36-44, 93-103, 131-141, 209-217, cell.rs
    19-47, lock_api.rs 22-40, tokio.rs 20-38) and SnapshotModel (once_cell.rs 16-54). *)
Definition implementation (m : mode) (v : mvalue) : code :=
  match v with
  | MPlain s cs =>
      match s with
      | SShared _ _ _ | SWeak _ _ => pointer_calls (visit_shape m unseen s [])
      | _ => calls cs (visit_shape m unseen s (placeholders 0 (map msize cs)))
      end
  | MLock t l a => CInline (key_for_type_name (t_name t)) (t_size t) (CTry l a true CRet) CRet
  | MOnce t l => CInline (key_for_type_name (t_name t)) (t_size t) (CTry l ReadOnly false CRet) CRet
  | MWeak t t' ps x =>
      CInline (key_for_type_name (t_name t)) (t_size t) (CUpgrade x (pointer_calls (impl_shared_ptr unseen t' ps x)) CRet) CRet
  end.
(** What is visited inside a lock (sync.rs 38-41; once_cell.rs 18-21). *)
Definition opened (field : bool) (c : mvalue) : code :=
  if field then CInline DATA_NAME (msize c) (CVisit c CRet) CRet else CVisit c CRet.
(** What is visited behind a shared pointer, as [visit_inner] (sync.rs 79-88, 117-126;
    triomphe.rs 68-79, 102-108; futures.rs 36-38).  A dangling pointer is a panic (it
    does not happen). *)
Definition behind (o : option (inner * mvalue)) : code :=
  match o with
  | Some (i, v) => calls [v] (visit_inner i (msize v, VShared DATA_NAME 0 0 VRet VRet VRet))
  | None => CCrash
  end.

(** ** Steps *)

(** What is open, as [frame] of LockModel; [KThen]: the visit of a contained value.
    Models: visitor.rs 65-69. *)
Inductive cframe :=
| KScope (rest : code)
| KGuard (l : lock) (a : access) (rest : code)
| KArc (x : ptr) (rest : code)
| KThen (rest : code).
(** What the profiling thread does next, as [control] of LockModel (visitor.rs 65-118). *)
Inductive ccontrol := Run (p : code) | Unwinds | Lost.
(** The profiling thread, its builder (flamegraph.rs 310-323) and the memory. *)
Record cconf := mkC { k_mem : memory; k_builder : builder; k_control : ccontrol; k_stack : list cframe }.

(** Locks and counts change, contents do not (helper for the steps of sync.rs 36-44, 93-103). *)
Definition set_shared_state (g : memory) (s : shared) : memory := mkMem s (m_content g) (m_object g).

(** One step of the visit, as [vstep] of LockModel.
    Models: sync.rs 36-44, 93-103, 209-217, cell.rs 19-47, lock_api.rs 22-40, tokio.rs 20-38, visitor.rs 65-118. *)
Inductive cstep (m : mode) (std : lock -> bool) : cconf -> cconf -> Prop :=
(* leaving a block *)
| k_exit g b b' rest st : exit_impl b = (b', Fine) ->
    cstep m std (mkC g b (Run CRet) (KScope rest :: st)) (mkC g b' (Run rest) st)
| k_exit_abort g b b' rest st : exit_impl b = (b', Panicked) ->
    cstep m std (mkC g b (Run CRet) (KScope rest :: st)) (mkC g b' Lost [])
| k_unlock g b l a rest st :
    cstep m std (mkC g b (Run CRet) (KGuard l a rest :: st))
      (mkC (set_shared_state g (release (m_shared g) l Visit a false)) b (Run rest) st)
| k_drop_arc g b x rest st :
    cstep m std (mkC g b (Run CRet) (KArc x rest :: st))
      (mkC (set_shared_state g (set_strong (m_shared g) x (remove_one owner_eqb Visit (strong (m_shared g) x)))) b (Run rest) st)
| k_return g b rest st :
    cstep m std (mkC g b (Run CRet) (KThen rest :: st)) (mkC g b (Run rest) st)
(* a panic, and unwinding *)
| k_crash g b st : cstep m std (mkC g b (Run CCrash) st) (mkC g b Unwinds st)
| k_unwind_exit g b b' rest st : exit_impl b = (b', Fine) ->
    cstep m std (mkC g b Unwinds (KScope rest :: st)) (mkC g b' Unwinds st)
| k_unwind_abort g b b' rest st : exit_impl b = (b', Panicked) ->
    cstep m std (mkC g b Unwinds (KScope rest :: st)) (mkC g b' Lost [])
| k_unwind_unlock g b l a rest st :
    cstep m std (mkC g b Unwinds (KGuard l a rest :: st))
      (mkC (set_shared_state g (release (m_shared g) l Visit a (std l && access_eqb a Exclusive))) b Unwinds st)
| k_unwind_arc g b x rest st :
    cstep m std (mkC g b Unwinds (KArc x rest :: st))
      (mkC (set_shared_state g (set_strong (m_shared g) x (remove_one owner_eqb Visit (strong (m_shared g) x)))) b Unwinds st)
| k_unwind_then g b rest st :
    cstep m std (mkC g b Unwinds (KThen rest :: st)) (mkC g b Unwinds st)
(* entering a scope *)
| k_inline g b b' k n body rest st : enter_inline m b k n = (b', Fine) ->
    cstep m std (mkC g b (Run (CInline k n body rest)) st) (mkC g b' (Run body) (KScope rest :: st))
| k_inline_panic g b b' k n body rest st : enter_inline m b k n = (b', Panicked) ->
    cstep m std (mkC g b (Run (CInline k n body rest)) st) (mkC g b' Unwinds st)
| k_unique g b b' k n body rest st : enter_unique m b k n = (b', Fine) ->
    cstep m std (mkC g b (Run (CUnique k n body rest)) st) (mkC g b' (Run body) (KScope rest :: st))
| k_unique_panic g b b' k n body rest st : enter_unique m b k n = (b', Panicked) ->
    cstep m std (mkC g b (Run (CUnique k n body rest)) st) (mkC g b' Unwinds st)
| k_shared g b b' k n x rest st : enter_shared m b k n x = (b', Fine, true) ->
    cstep m std (mkC g b (Run (CShared k n x rest)) st) (mkC g b' (Run (behind (m_object g x))) (KScope rest :: st))
| k_shared_again g b b' k n x rest st : enter_shared m b k n x = (b', Fine, false) ->
    cstep m std (mkC g b (Run (CShared k n x rest)) st) (mkC g b' (Run rest) st)
| k_shared_panic g b b' k n x ret rest st : enter_shared m b k n x = (b', Panicked, ret) ->
    cstep m std (mkC g b (Run (CShared k n x rest)) st) (mkC g b' Unwinds st)
(* locks *)
| k_try g b l a field rest st : available (locks (m_shared g) l) a -> poisoned (locks (m_shared g) l) = false ->
    cstep m std (mkC g b (Run (CTry l a field rest)) st)
      (mkC (set_shared_state g (acquire (m_shared g) l Visit a)) b (Run (opened field (m_content g l))) (KGuard l a rest :: st))
| k_try_fails g b l a field rest st : held (locks (m_shared g) l) <> [] \/ poisoned (locks (m_shared g) l) = true ->
    cstep m std (mkC g b (Run (CTry l a field rest)) st) (mkC g b (Run rest) st)
(* [upgrade] *)
| k_upgrade g b x body rest st : strong (m_shared g) x <> [] ->
    cstep m std (mkC g b (Run (CUpgrade x body rest)) st)
      (mkC (set_shared_state g (set_strong (m_shared g) x (Visit :: strong (m_shared g) x))) b (Run body) (KArc x rest :: st))
| k_upgrade_dead g b x body rest st : strong (m_shared g) x = [] ->
    cstep m std (mkC g b (Run (CUpgrade x body rest)) st) (mkC g b (Run rest) st)
(* visiting a contained value *)
| k_visit g b v rest st :
    cstep m std (mkC g b (Run (CVisit v rest)) st) (mkC g b (Run (implementation m v)) (KThen rest :: st)).

(** One step of other code: it uses the locks and counts (as [ostep] of LockModel),
    changes the content of a lock it has exclusive access to, or makes, frees or
    changes an allocation (over-approximated: any allocation may change at any time).
    Models: users of the types at sync.rs 36-44, 66-141, 209-217, cell.rs 19-47, lock_api.rs 22-40, tokio.rs 20-38. *)
Inductive change : memory -> memory -> Prop :=
| ch_shared g s : ostep (m_shared g) s -> change g (set_shared_state g s)
| ch_write g l t v : In (Other t, Exclusive) (held (locks (m_shared g) l)) ->
    change g (mkMem (m_shared g) (fun l' => if N.eqb l' l then v else m_content g l') (m_object g))
| ch_object g x o : change g (mkMem (m_shared g) (m_content g) (fun y => if N.eqb y x then o else m_object g y)).

(** [passes M m std c c']: some interleaving of the visit (sync.rs 36-44, visitor.rs
    65-118) with other code leads from [c] to [c'], and at every moment of it the
    memory is one of [M]. *)
Inductive passes (M : memory -> Prop) (m : mode) (std : lock -> bool) : cconf -> cconf -> Prop :=
| ps_end c : M (k_mem c) -> passes M m std c c
| ps_visit c c' c'' : M (k_mem c) -> cstep m std c c' -> passes M m std c' c'' -> passes M m std c c''
| ps_other g g' b k st c'' : M g -> change g g' -> passes M m std (mkC g' b k st) c'' ->
    passes M m std (mkC g b k st) c''.

(** A visit starts (flamegraph.rs 359-363); it is over; its result (as in LockSpec). *)
Definition begin (g : memory) (b : builder) (v : mvalue) : cconf := mkC g b (Run (CVisit v CRet)) [].
(** Returned, unwound (a panic), or the process is gone (visitor.rs 65-69). *)
Definition ended (c : cconf) : Prop :=
  match k_control c, k_stack c with Run CRet, [] | Unwinds, [] | Lost, _ => True | _, _ => False end.
(** The builder and how the visit ended (visitor.rs 65-69). *)
Definition result (c : cconf) : builder * outcome :=
  (k_builder c, match k_control c with Run _ => Done | Unwinds => Unwinding | Lost => Aborted end).

(** The root visits of one builder, one after the other, as [visit_roots]
    (VisitorModel; flamegraph.rs 359-363).  A root is visited as it is when its turn
    comes: between two root visits memory changes too.  [calm]: no panic so far. *)
Inductive profiles (M : memory -> Prop) (m : mode) (std : lock -> bool) : memory -> builder -> list mvalue -> builder -> outcome -> bool -> Prop :=
| pr_end g b : profiles M m std g b [] b Done true
| pr_change g g' b vs b' o calm : M g -> change g g' -> profiles M m std g' b vs b' o calm -> profiles M m std g b vs b' o calm
| pr_refused g b v vs b1 b' o calm : root_visitor b = (b1, Panicked) ->
    profiles M m std g b1 vs b' o calm -> profiles M m std g b (v :: vs) b' o false
| pr_visit g b v vs b1 c b2 o2 b' o calm : root_visitor b = (b1, Fine) ->
    passes M m std (begin g b1 v) c -> ended c -> leave_scope (result c) = (b2, o2) -> o2 <> Aborted ->
    profiles M m std (k_mem c) b2 vs b' o calm ->
    profiles M m std g b (v :: vs) b' o (match o2 with Done => calm | _ => false end)
| pr_abort g b v vs b1 c b2 : root_visitor b = (b1, Fine) ->
    passes M m std (begin g b1 v) c -> ended c -> leave_scope (result c) = (b2, Aborted) ->
    profiles M m std g b (v :: vs) b2 Aborted false.
