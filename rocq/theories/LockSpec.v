(** * Specification vocabulary for profiling next to other threads. *)
From Verif Require Import Base KeyModel HMap FlameModel BuilderModel VisitorModel ImplModel LockModel.

(** A possible outcome of the [try_*] and [upgrade] calls of a visit: the visit
    without them, the content present where the call succeeded. *)
Inductive resolves : lprog -> vprog -> Prop :=
| r_ret : resolves LRet VRet
| r_crash : resolves LCrash VCrash
| r_inline k s b b' r r' : resolves b b' -> resolves r r' -> resolves (LInline k s b r) (VInline k s b' r')
| r_unique k s b b' r r' : resolves b b' -> resolves r r' -> resolves (LUnique k s b r) (VUnique k s b' r')
| r_shared k s x b b' r1 r1' r2 r2' : resolves b b' -> resolves r1 r1' -> resolves r2 r2' ->
    resolves (LShared k s x b r1 r2) (VShared k s x b' r1' r2')
| r_try_ok l a b b' r r' : resolves b b' -> resolves r r' -> resolves (LTry l a b r) (vseq b' r')
| r_try_not l a b r r' : resolves r r' -> resolves (LTry l a b r) r'
| r_wait l a b b' r r' : resolves b b' -> resolves r r' -> resolves (LWait l a b r) (vseq b' r')
| r_upgrade_ok x b b' r r' : resolves b b' -> resolves r r' -> resolves (LUpgrade x b r) (vseq b' r')
| r_upgrade_not x b r r' : resolves r r' -> resolves (LUpgrade x b r) r'.

(** No [DashMap]/[DashSet]. *)
Fixpoint no_waiting (p : lprog) : Prop :=
  match p with
  | LRet | LCrash => True
  | LInline _ _ b r | LUnique _ _ b r | LTry _ _ b r | LUpgrade _ b r => no_waiting b /\ no_waiting r
  | LShared _ _ _ b r1 r2 => no_waiting b /\ no_waiting r1 /\ no_waiting r2
  | LWait _ _ _ _ => False
  end.

(** The number of steps a visit can take. *)
Fixpoint steps (p : lprog) : nat :=
  match p with
  | LRet => 0
  | LCrash => 1
  | LInline _ _ b r | LUnique _ _ b r | LTry _ _ b r | LWait _ _ b r | LUpgrade _ b r => 2 + steps b + steps r
  | LShared _ _ _ b r1 r2 => 2 + steps b + steps r1 + steps r2
  end.

(** The visit is over: returned, unwound (a panic), or the process is gone. *)
Definition over (c : config) : Prop :=
  match c_control c, c_stack c with
  | Exec LRet, [] | Unwind, [] | Gone, _ => True
  | _, _ => False
  end.
Definition result_of (c : config) : builder * outcome :=
  (c_builder c, match c_control c with Exec _ => Done | Unwind => Unwinding | Gone => Aborted end).

(** Guards are exclusive where they should be: what lock implementations guarantee. *)
Definition lock_ok (s : lock_state) : Prop :=
  forall o, In (o, Exclusive) (held s) -> held s = [(o, Exclusive)].

(** The visit holds nothing. *)
Definition holds_nothing (s : shared) : Prop :=
  (forall l a, ~ In (Visit, a) (held (locks s l))) /\ (forall x, ~ In Visit (strong s x)).

(** A visit starts. *)
Definition start (s : shared) (b : builder) (p : lprog) : config := mkConf s b (Exec p) [].

(** The content being visited is that of a lock [l], or was reached through an
    upgraded [Weak] to [x]. *)
Definition inside_lock (c : config) (l : lock) (a : access) : Prop := exists rest, In (FGuard l a rest) (c_stack c).
Definition inside_weak (c : config) (x : ptr) : Prop := exists rest, In (FArc x rest) (c_stack c).

(** Number of guards and references the visit holds. *)
Definition guards_held (s : shared) (l : lock) (a : access) : nat :=
  length (filter (fun x => owner_eqb (fst x) Visit && access_eqb (snd x) a) (held (locks s l))).
Definition refs_held (s : shared) (x : ptr) : nat := length (filter (owner_eqb Visit) (strong s x)).

(** The visit runs alone. *)
Inductive alone (m : mode) (std : lock -> bool) : config -> config -> Prop :=
| alone_refl c : alone m std c c
| alone_step c c' c'' : vstep m std c c' -> alone m std c' c'' -> alone m std c c''.

(** No lock is tried again inside its own content ([mine]: the locks around). *)
Fixpoint no_reentry (mine : list lock) (p : lprog) : Prop :=
  match p with
  | LRet | LCrash => True
  | LInline _ _ b r | LUnique _ _ b r | LUpgrade _ b r => no_reentry mine b /\ no_reentry mine r
  | LShared _ _ _ b r1 r2 => no_reentry mine b /\ no_reentry mine r1 /\ no_reentry mine r2
  | LTry l _ b r | LWait l _ b r => ~ In l mine /\ no_reentry (l :: mine) b /\ no_reentry mine r
  end.

(** The visit with the content of every lock that is not poisoned and the target
    of every [Weak] that is alive. *)
Fixpoint everything (s : shared) (p : lprog) : vprog :=
  match p with
  | LRet => VRet
  | LCrash => VCrash
  | LInline k n b r => VInline k n (everything s b) (everything s r)
  | LUnique k n b r => VUnique k n (everything s b) (everything s r)
  | LShared k n x b r1 r2 => VShared k n x (everything s b) (everything s r1) (everything s r2)
  | LTry l _ b r => if poisoned (locks s l) then everything s r else vseq (everything s b) (everything s r)
  | LWait _ _ b r => vseq (everything s b) (everything s r)
  | LUpgrade x b r => match strong s x with [] => everything s r | _ => vseq (everything s b) (everything s r) end
  end.

(** What other code holds. *)
Definition others (l : list (owner * access)) : list (owner * access) := filter (fun x => negb (owner_eqb (fst x) Visit)) l.
Definition other_refs (l : list owner) : list owner := filter (fun o => negb (owner_eqb o Visit)) l.

(** The entries of the shards, keys and values alternating. *)
Definition flat_entries (es : list ((N * lprog) * (N * lprog))) : list (N * lprog) := flat_map (fun kv => [fst kv; snd kv]) es.
Definition shard_entries (shards : list shard) : list (N * lprog) := flat_map (fun s => flat_entries (snd s)) shards.
Definition resolved_sub (a : N * lprog) (c : sub) : Prop := fst a = fst c /\ resolves (snd a) (snd c).

(** What the next step enters: [enter], [enter_unique] or [enter_shared] with key [k]. *)
Definition entering (c : config) (k : key) : Prop :=
  match c_control c with
  | Exec (LInline k' _ _ _) | Exec (LUnique k' _ _ _) | Exec (LShared k' _ _ _ _ _) => k' = k
  | _ => False
  end.
(** [k] is entered only while visiting the content of [l]. *)
Fixpoint only_in_lock (l : lock) (k : key) (p : lprog) : Prop :=
  match p with
  | LRet | LCrash => True
  | LInline k' _ b r | LUnique k' _ b r => k' <> k /\ only_in_lock l k b /\ only_in_lock l k r
  | LShared k' _ _ b r1 r2 => k' <> k /\ only_in_lock l k b /\ only_in_lock l k r1 /\ only_in_lock l k r2
  | LTry l' _ b r | LWait l' _ b r => (l' = l \/ only_in_lock l k b) /\ only_in_lock l k r
  | LUpgrade _ b r => only_in_lock l k b /\ only_in_lock l k r
  end.
(** [k] is entered only through a [Weak] to [x]. *)
Fixpoint only_through (x : ptr) (k : key) (p : lprog) : Prop :=
  match p with
  | LRet | LCrash => True
  | LInline k' _ b r | LUnique k' _ b r => k' <> k /\ only_through x k b /\ only_through x k r
  | LShared k' _ _ b r1 r2 => k' <> k /\ only_through x k b /\ only_through x k r1 /\ only_through x k r2
  | LTry _ _ b r | LWait _ _ b r => only_through x k b /\ only_through x k r
  | LUpgrade x' b r => (x' = x \/ only_through x k b) /\ only_through x k r
  end.
