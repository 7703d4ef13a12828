(** * Specification vocabulary: states a value with locks can be in. *)
From Verif Require Import Base KeyModel HMap FlameModel BuilderModel VisitorModel ImplModel LockModel SnapshotModel.

(** [could_be v w]: [w] is the value [v] in a state where each of its locks is
    available or not and each of its [Weak]s is alive or not. *)
Inductive could_be : lvalue -> value -> Prop :=
| cb_plain s cs ws : Forall2 could_be cs ws -> could_be (LPlain s cs) (Node s ws)
| cb_lock t l a c w available : could_be c w -> could_be (LLock t l a c) (Node (SCell t available) [w])
| cb_once t l c w set : could_be c w -> could_be (LOnce t l c) (Node (SOnce t set) [w])
| cb_alive t t' ps x : could_be (LWeak t t' ps x) (Node (SWeak t (Some (t', ps, x))) [])
| cb_dead t t' ps x : could_be (LWeak t t' ps x) (Node (SWeak t None) []).

(** The same for all allocations: same pointers, same kinds. *)
Definition object_could_be (a : ptr * (inner * lvalue)) (b : ptr * (inner * value)) : Prop :=
  fst a = fst b /\ fst (snd a) = fst (snd b) /\ could_be (snd (snd a)) (snd (snd b)).
Definition store_could_be (h : lstore) (h' : store) : Prop := Forall2 object_could_be h h'.

(** All available: the state when nobody uses a lock. *)
Definition quiet_store (h : lstore) : store := map (fun o => (fst o, (fst (snd o), quiet (snd (snd o))))) h.

(** An execution at every moment of which [P] holds of the locks. *)
Inductive runs_through (P : shared -> Prop) (m : mode) (std : lock -> bool) : config -> config -> Prop :=
| rt_refl c : P (c_shared c) -> runs_through P m std c c
| rt_visit c c' c'' : P (c_shared c) -> vstep m std c c' -> runs_through P m std c' c'' -> runs_through P m std c c''
| rt_other s s' b k st c'' : P s -> ostep s s' -> runs_through P m std (mkConf s' b k st) c'' ->
    runs_through P m std (mkConf s b k st) c''.

(** Other code holds the lock. *)
Definition taken (s : shared) (l : lock) : Prop := exists t a, In (Other t, a) (held (locks s l)).

(** ** The state at a given moment *)

(** Every lock is free or held exclusively by other code. *)
Definition settled (s : shared) : Prop :=
  forall l, held (locks s l) = [] \/ exists t, held (locks s l) = [(Other t, Exclusive)].
Definition free (s : shared) (l : lock) : bool :=
  match held (locks s l) with [] => negb (poisoned (locks s l)) | _ => false end.
Definition alive (s : shared) (x : ptr) : bool := match strong s x with [] => false | _ => true end.

(** A value as it is: contents of free locks are available. *)
Fixpoint now (s : shared) (v : lvalue) : value :=
  match v with
  | LPlain sh cs => Node sh (map (now s) cs)
  | LLock t l _ c => Node (SCell t (free s l)) [now s c]
  | LOnce t l c => Node (SOnce t (free s l)) [now s c]
  | LWeak t t' ps x => Node (SWeak t (if alive s x then Some (t', ps, x) else None)) []
  end.
Definition now_store (s : shared) (h : lstore) : store := map (fun o => (fst o, (fst (snd o), now s (snd (snd o))))) h.

(** The locks in a value (not behind shared pointers). *)
Fixpoint locks_in (v : lvalue) : list lock :=
  match v with
  | LPlain _ cs => flat_map locks_in cs
  | LLock _ l _ c | LOnce _ l c => l :: locks_in c
  | LWeak _ _ _ _ => []
  end.
Definition locks_in_store (h : lstore) : list lock := flat_map (fun o => locks_in (snd (snd o))) h.
