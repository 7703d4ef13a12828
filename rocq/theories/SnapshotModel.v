(** * Visiting values with locks while other threads run.

    ImplModel describes the visit of a value in one fixed state; LockModel the
    steps of a visit of which the lock and [Weak] implementations are part.  Here
    the second is built for whole values: the same implementations, except that
    the contents of locks and the targets of [Weak]s are asked for at the moment
    the visit gets there. *)
From Verif Require Import Base KeyModel HMap FlameModel BuilderModel VisitorModel LayoutModel ImplModel LockModel LockSpec.

(** A value with its locks.
    - [LPlain s cs]: a value with any implementation of ImplModel.
      Simplification: a [DashMap] is a plain value, i.e. its shards are read at
      once ([l_dash_map] and C49 have the shards one by one).
    - [LLock t l a c]: [Mutex], [RwLock], [RefCell] and the locks of lock_api and
      tokio (see [l_cell]) with content [c]; std's [OnceLock] and [OnceCell]
      (std/cell.rs 29-47), where the lock is "held" until the cell is set.
    - [LOnce t l c]: once_cell.rs 16-54, held until the cell is set.
    - [LWeak t t' ps x]: a [Weak] of type [t] to the allocation [x]; [t'] is the
      type of the upgraded pointer, [ps] the size of the raw pointer.
    The types, lengths and contents do not change during the profile, the status
    of the locks and reference counts does. *)
Inductive lvalue :=
| LPlain (s : shape) (cs : list lvalue)
| LLock (t : tinfo) (l : lock) (a : access) (c : lvalue)
| LOnce (t : tinfo) (l : lock) (c : lvalue)
| LWeak (t t' : tinfo) (ps : N) (x : ptr).

(** The value when every lock is available and every [Weak] alive.
    Models: the implementations of sync.rs 36-44, 209-217, cell.rs 19-27, lock_api.rs 22-40, tokio.rs 20-38, dashmap.rs 29-51, sync.rs 93-103. *)
Fixpoint quiet (v : lvalue) : value :=
  match v with
  | LPlain s cs => Node s (map quiet cs)
  | LLock t _ _ c => Node (SCell t true) [quiet c]
  | LOnce t _ c => Node (SOnce t true) [quiet c]
  | LWeak t t' ps x => Node (SWeak t (Some (t', ps, x))) []
  end.
(** [size_of_val] (does not look at the locks).
    Models: visitor.rs 131-136, 154-161. *)
Definition lsize (v : lvalue) : N := size_of_val (quiet v).

(** ** From implementations to steps

    An implementation calls the visits of the contained values but does not look
    into them.  [placeholders]: contained values whose visit is the mark [i];
    [plug ls p]: the code [p] with the [i]-th of [ls] in place of the mark [i].
    Models: the [visit_field] calls of visitor.rs 154-161. *)
Fixpoint placeholders (i : N) (sizes : list N) : list sub :=
  match sizes with
  | [] => []
  | n :: sizes' => (n, VShared DATA_NAME 0 i VRet VRet VRet) :: placeholders (N.succ i) sizes'
  end.
(** See above (the [visit_field] calls of visitor.rs 154-161). *)
Fixpoint plug (ls : list lprog) (p : vprog) : lprog :=
  match p with
  | VRet => LRet
  | VCrash => LCrash
  | VInline k s b r => LInline k s (plug ls b) (plug ls r)
  | VUnique k s b r => LUnique k s (plug ls b) (plug ls r)
  | VShared _ _ i _ r _ => lseq (nth (N.to_nat i) ls LRet) (plug ls r)
  end.
(** Code that has shared pointers and no contained values; [pointee] is what
    happens behind them.
    Models: sync.rs 66-129, triomphe.rs 52-111, futures.rs 23-41. *)
Fixpoint embed (pointee : ptr -> lprog) (p : vprog) : lprog :=
  match p with
  | VRet => LRet
  | VCrash => LCrash
  | VInline k s b r => LInline k s (embed pointee b) (embed pointee r)
  | VUnique k s b r => LUnique k s (embed pointee b) (embed pointee r)
  | VShared k s x _ r1 r2 => LShared k s x (pointee x) (embed pointee r1) (embed pointee r2)
  end.
(** Nothing behind the pointers (they are followed by [embed]; sync.rs 66-129). *)
Definition unseen : ptr -> vprog := fun _ => VRet.

(** The implementations of ImplModel (cited there).
    Models: allocative_trait.rs 139-142. *)
Definition l_shape (m : mode) (pointee : ptr -> lprog) (s : shape) (cs : list (N * lprog)) : lprog :=
  match s with
  | SShared _ _ _ | SWeak _ _ => embed pointee (visit_shape m unseen s [])
  | _ => plug (map snd cs) (visit_shape m unseen s (placeholders 0 (map fst cs)))
  end.
(** What is behind a shared pointer, as [visit_inner]: sync.rs 79-88, 117-126; triomphe.rs 68-79, 102-108; futures.rs 36-38. *)
Definition l_inner (i : inner) (c : N * lprog) : lprog :=
  match placeholders 0 [fst c] with
  | p :: _ => plug [snd c] (visit_inner i p)
  | [] => LRet
  end.
(** once_cell.rs 16-54. *)
Definition l_once (t : tinfo) (l : lock) (content : lprog) : lprog :=
  LInline (key_for_type_name (t_name t)) (t_size t) (LTry l ReadOnly content LRet) LRet.

(** [<T as Allocative>::visit]; [pointee] says what happens behind shared pointers.
    Models: sync.rs 36-44, 209-217, cell.rs 19-27, lock_api.rs 22-40, tokio.rs 20-38, dashmap.rs 29-51, sync.rs 93-103; the others as in ImplModel. *)
Fixpoint l_visit (m : mode) (pointee : ptr -> lprog) (v : lvalue) : lprog :=
  match v with
  | LPlain s cs => l_shape m pointee s (map (fun c => (lsize c, l_visit m pointee c)) cs)
  | LLock t l a c => l_cell t l a (lsize c, l_visit m pointee c)
  | LOnce t l c => l_once t l (l_visit m pointee c)
  | LWeak t t' ps x => l_weak t x (embed pointee (impl_shared_ptr unseen t' ps x))
  end.

(** The allocations behind shared pointers, as in ImplModel.
    Models: sync.rs 66-129, triomphe.rs 52-111, futures.rs 23-41. *)
Definition lstore := list (ptr * (inner * lvalue)).
(** Following a pointer (sync.rs 86, 124; triomphe.rs 76, 105; futures.rs 37). *)
Fixpoint find_lobj (h : lstore) (x : ptr) : option (inner * lvalue) :=
  match h with
  | [] => None
  | (y, o) :: h' => if N.eqb x y then Some o else find_lobj h' x
  end.
(** As [visit_in] of ImplModel (allocative_trait.rs 139-142). *)
Fixpoint l_visit_in (m : mode) (n : nat) (h : lstore) (v : lvalue) : lprog :=
  l_visit m (fun x =>
    match n with
    | O => LCrash
    | S n' =>
        match find_lobj h x with
        | Some (i, w) => l_inner i (lsize w, l_visit_in m n' h w)
        | None => LCrash
        end
    end) v.

(** ** A profiling session next to other threads

    As [visit_roots] (VisitorModel; flamegraph.rs 359-363), every root visit being
    some interleaving with steps of other code.  From shared state [s] and
    builder [b] to a builder and an outcome. *)
Inductive session (m : mode) (std : lock -> bool) : shared -> builder -> list lprog -> builder -> outcome -> Prop :=
| ses_end s b : session m std s b [] b Done
| ses_refused s b p ps b1 b' o : root_visitor b = (b1, Panicked) ->
    session m std s b1 ps b' o -> session m std s b (p :: ps) b' o
| ses_visit s b p ps b1 n c b2 o2 b' o : root_visitor b = (b1, Fine) ->
    runs m std n (start s b1 p) c -> over c -> leave_scope (result_of c) = (b2, o2) -> o2 <> Aborted ->
    session m std (c_shared c) b2 ps b' o -> session m std s b (p :: ps) b' o
| ses_abort s b p ps b1 n c b2 : root_visitor b = (b1, Fine) ->
    runs m std n (start s b1 p) c -> over c -> leave_scope (result_of c) = (b2, Aborted) ->
    session m std s b (p :: ps) b2 Aborted.
