(** * Specification vocabulary: what can be seen of memory that changes. *)
From Verif Require Import Base KeyModel HMap FlameModel BuilderModel VisitorModel ImplModel ImplSpec LockModel ChangeModel.

(** [appears M panic v w]: [w] is the value [v] put together from pieces of memory,
    each as it was at some moment of [M]: the content of a lock is that of a moment at
    which the lock could be taken; a lock is shut only if at some moment it was held or
    poisoned; [Weak]s are alive or dead, whichever they were at some moment.  What need
    not be looked at may be shut without a reason: types without drop glue or of size 0
    (such elements of a [Vec] are not visited, visitor.rs 186-203) and, after a [panic],
    everything. *)
Inductive appears (M : memory -> Prop) (panic : Prop) : mvalue -> value -> Prop :=
| ap_plain s cs ws : Forall2 (appears M panic) cs ws -> appears M panic (MPlain s cs) (Node s ws)
| ap_open t l a g w : M g -> LockModel.available (locks (m_shared g) l) a -> poisoned (locks (m_shared g) l) = false ->
    appears M panic (m_content g l) w -> appears M panic (MLock t l a) (Node (SCell t true) [w])
| ap_shut t l a : panic \/ t_drop t = false \/ t_size t = 0 \/ (exists g, M g /\ (held (locks (m_shared g) l) <> [] \/ poisoned (locks (m_shared g) l) = true)) ->
    appears M panic (MLock t l a) (Node (SCell t false) [])
| ap_set t l g w : M g -> LockModel.available (locks (m_shared g) l) ReadOnly -> poisoned (locks (m_shared g) l) = false ->
    appears M panic (m_content g l) w -> appears M panic (MOnce t l) (Node (SOnce t true) [w])
| ap_unset t l : panic \/ t_drop t = false \/ t_size t = 0 \/ (exists g, M g /\ (held (locks (m_shared g) l) <> [] \/ poisoned (locks (m_shared g) l) = true)) ->
    appears M panic (MOnce t l) (Node (SOnce t false) [])
| ap_alive t t' ps x g : M g -> strong (m_shared g) x <> [] ->
    appears M panic (MWeak t t' ps x) (Node (SWeak t (Some (t', ps, x))) [])
| ap_dead t t' ps x : panic \/ t_drop t = false \/ t_size t = 0 \/ (exists g, M g /\ strong (m_shared g) x = []) ->
    appears M panic (MWeak t t' ps x) (Node (SWeak t None) []).

(** Allocations that were all there, at some moment each. *)
Definition appeared (M : memory -> Prop) (panic : Prop) (h : store) : Prop :=
  Forall (fun xo => exists g v, M g /\ m_object g (fst xo) = Some (fst (snd xo), v) /\ appears M panic v (snd (snd xo))) h.

(** ** What Rust's types guarantee at every moment

    [tyl l]: size of the type of the content of [l] and whether it needs dropping. *)
Section Typed.
  Variable tyl : lock -> N * bool.
  Definition fits_lock (t : tinfo) (l : lock) : Prop :=
    fst (tyl l) <= t_size t /\ (snd (tyl l) = true -> t_drop t = true).
  Inductive mtyped : mvalue -> Prop :=
  | mt_plain s cs : match s with SCell _ _ | SOnce _ _ | SWeak _ _ => False | _ => True end ->
      shape_ok s (map outline cs) -> Forall mtyped cs -> mtyped (MPlain s cs)
  | mt_lock t l a : fits_lock t l -> mtyped (MLock t l a)
  | mt_once t l : fits_lock t l -> mtyped (MOnce t l)
  | mt_weak t t' ps x : shape_ok (SWeak t (Some (t', ps, x))) [] -> mtyped (MWeak t t' ps x).
  Definition mem_typed (g : memory) : Prop :=
    (forall l, mtyped (m_content g l) /\ msize (m_content g l) = fst (tyl l) /\
       (drop_of (outline (m_content g l)) = true -> snd (tyl l) = true)) /\
    (forall x i v, m_object g x = Some (i, v) -> inner_ok i (outline v) /\ mtyped v).
End Typed.

(** No [ManuallyDrop], no hash or B-tree map with entries. *)
Definition mem_all (P : value -> Prop) (g : memory) : Prop :=
  (forall l, P (outline (m_content g l))) /\ (forall x i v, m_object g x = Some (i, v) -> P (outline v)).

(** The guards the visit has. *)
Definition inside (c : cconf) (l : lock) (a : access) : Prop := exists rest, In (KGuard l a rest) (k_stack c).

(** The locks inside a value (those behind shared pointers or inside other locks are
    not). *)
Fixpoint inline_locks (v : mvalue) : list lock :=
  match v with
  | MPlain _ cs => concat (map inline_locks cs)
  | MLock _ l _ | MOnce _ l => [l]
  | MWeak _ _ _ _ => []
  end.
(** The memory is finite: there are finitely many allocations, and locks are nested
    finitely deep (other than through shared pointers). *)
Definition finite_memory (g : memory) : Prop :=
  (exists xs : list ptr, forall x, m_object g x <> None -> In x xs) /\
  (exists rank : lock -> nat, forall l l', In l' (inline_locks (m_content g l)) -> (rank l' < rank l)%nat).
(** The visit takes a step, after others have used locks and reference counts in any
    way but have not changed any contents. *)
Definition unchanged_step (m : mode) (std : lock -> bool) (c c' : cconf) : Prop :=
  exists s, cstep m std (mkC (set_shared_state (k_mem c) s) (k_builder c) (k_control c) (k_stack c)) c'.

(** [u] is [v] or inside it (not behind a lock or a shared pointer). *)
Inductive part_of (u : mvalue) : mvalue -> Prop :=
| part_self : part_of u u
| part_child s cs v : In v cs -> part_of u v -> part_of u (MPlain s cs).
(** An [Arc], [Rc] or other owning pointer to [x]. *)
Definition owns (u : mvalue) (x : ptr) : Prop :=
  match u with
  | MPlain (SShared _ _ y) _ | MPlain (SWeak _ (Some (_, _, y))) _ => y = x
  | _ => False
  end.
(** [u] may be looked at: it is part of the root [v]; or of what a lock now contains
    whose guard the visit has; or of an allocation (at some moment). *)
Definition may_look (M : memory -> Prop) (v : mvalue) (g : memory) (u : mvalue) : Prop :=
  part_of u v \/
  (exists l a, In (Visit, a) (held (locks (m_shared g) l)) /\ part_of u (m_content g l)) \/
  (exists g' x i w, M g' /\ m_object g' x = Some (i, w) /\ part_of u w).
(** [x] may be followed: an owning pointer to it may be looked at, or the visit has
    itself a strong reference to it. *)
Definition may_follow (M : memory -> Prop) (v : mvalue) (g : memory) (x : ptr) : Prop :=
  (exists u, may_look M v g u /\ owns u x) \/ In Visit (strong (m_shared g) x).
(** What the visit is about to do: visit [u]; follow [x]. *)
Definition looks_at (c : cconf) (u : mvalue) : Prop := exists rest, k_control c = Run (CVisit u rest).
Definition follows (c : cconf) (x : ptr) : Prop := exists k n rest, k_control c = Run (CShared k n x rest).
