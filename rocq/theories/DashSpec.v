(** * What a visit of a changing [DashMap] may see. *)
From Verif Require Import Base KeyModel HMap FlameModel BuilderModel VisitorModel LayoutModel Spec ImplModel DashModel.

(** A run of the visit among other threads, with the contents of the map at each
    moment; the last moment is that of [d']. *)
Inductive goes (m : mode) (kd : dash) (t e : tinfo) : dstate -> list (list shard) -> dstate -> Prop :=
| goes_end d : goes m kd t e d [d_shards d] d
| goes_visit d d1 H d' : visit_step m kd t e d = Some d1 -> goes m kd t e d1 H d' -> goes m kd t e d (d_shards d :: H) d'
| goes_others d d1 H d' : others d d1 -> goes m kd t e d1 H d' -> goes m kd t e d (d_shards d :: H) d'.

(** [next d' d]: one step of the visit, after any number of steps of other threads,
    leads from [d] to [d']. *)
Inductive next (m : mode) (kd : dash) (t e : tinfo) : dstate -> dstate -> Prop :=
| next_now d d' : visit_step m kd t e d = Some d' -> next m kd t e d' d
| next_later d d1 d' : others d d1 -> next m kd t e d' d1 -> next m kd t e d' d.

(** The visit has returned with this builder and outcome. *)
Definition finished (d : dstate) (b : builder) (o : outcome) : Prop :=
  d_point d = PStop /\ d_builder d = b /\ d_outcome d = o.

(** [reads f k i H l H']: asking [k] shards, from the [i]-th on, one after the
    other during [H], for [f], gives [l]; [H'] is what of [H] is left.  Each
    answer is right at some moment, later ones at the same or later moments. *)
Inductive reads {A} (f : shard -> A) : nat -> nat -> list (list shard) -> list A -> list (list shard) -> Prop :=
| reads_all i H : reads f 0 i H [] H
| reads_later k i s H l H' : reads f k i H l H' -> reads f k i (s :: H) l H'
| reads_now k i s H x l H' : nth_error s i = Some x -> reads f k (S i) (s :: H) l H' -> reads f (S k) i (s :: H) (f x :: l) H'.

Definition sh_len (s : shard) : N := len (sh_entries s).

(** What the visit of a map with [k] shards is told during [H]: capacities, the
    entries of each shard, then capacities and lengths again. *)
Definition told (k : nat) (H : list (list shard)) (caps : list N) (ens : list (list entry)) (caps' lens : list N) : Prop :=
  exists H1 H2 H3 H4, reads sh_cap k 0 H caps H1 /\ reads sh_entries k 0 H1 ens H2 /\
    reads sh_cap k 0 H2 caps' H3 /\ reads sh_len k 0 H3 lens H4.

(** A sum of [usize]s. *)
Fixpoint usum (m : mode) (acc : N) (l : list N) : option N :=
  match l with [] => Some acc | a :: l' => do s <- uadd m acc a; usum m s l' end.

(** The visit of a map that gave these answers. *)
Definition visit_told (m : mode) (kd : dash) (t e : tinfo) (caps : list N) (ens : list (list entry)) (caps' lens : list N) : vprog :=
  enter_self t
    (VUnique PTR_NAME ptr_size
       (with_val (do c <- usum m 0 caps; umul m c (t_size e)) (fun total =>
          VInline CAPACITY_NAME total
            (vseq (vseqs (map (visit_entry kd) (concat ens)))
                  (with_val (do c <- usum m 0 caps'; do n <- usum m 0 lens; umul m (usaturating_sub c n) (t_size e))
                     (v_simple UNUSED_CAPACITY_NAME))) VRet)) VRet).

(** The fields an entry is shown as, and a visit of fields one after the other. *)
Definition entry_fields (kd : dash) (en : entry) : list (string * sub) :=
  match kd with IsMap => [("key"%string, en_key en); ("value"%string, en_val en)] | IsSet => [("data"%string, en_key en)] end.
Definition in_turn (l : list (string * sub)) (then_ : vprog) : vprog :=
  fold_right (fun x q => VInline (key_new (fst x)) (fst (snd x)) (snd (snd x)) q) then_ l.

(** Keys live in the shard their hash says, once. *)
Definition hashed (home : N -> nat) (s : list shard) : Prop :=
  forall i sh, nth_error s i = Some sh ->
    NoDup (map en_id (sh_entries sh)) /\ Forall (fun en => home (en_id en) = i) (sh_entries sh).

(** The map has an entry for this key. *)
Definition has_key (s : list shard) (id : N) : Prop :=
  exists sh en, In sh s /\ In en (sh_entries sh) /\ en_id en = id.

(** A profile of one such map: [visit_root], and [finish] when the visit is over. *)
Definition dash_profile (m : mode) (kd : dash) (t e : tinfo) (shs : list shard) (H : list (list shard)) (out : option output) : Prop :=
  exists b0 d b o, root_visitor b_default = (b0, Fine) /\ goes m kd t e (d_start shs b0) H d /\ finished d b o /\
    out = match leave_scope (b, o) with (_, Aborted) => None | (b', _) => finish m b' end.

(** Number of entries, capacity and contained values of a map at rest. *)
Definition all_entries (s : list shard) : list entry := flat_map sh_entries s.
Definition dash_capacity (s : list shard) : N := sumN (map sh_cap s).
Definition dash_values (kd : dash) (s : list shard) : list sub :=
  match kd with
  | IsMap => flat_map (fun en => [en_key en; en_val en]) (all_entries s)
  | IsSet => map en_key (all_entries s)
  end.

(** Every entry fits into its slot, and every slot in use is within the capacity. *)
Definition slots_ok (kd : dash) (e : tinfo) (s : list shard) : Prop :=
  Forall (fun sh => sh_len sh <= sh_cap sh /\
    Forall (fun en => fst (en_key en) + match kd with IsMap => fst (en_val en) | IsSet => 0 end <= t_size e) (sh_entries sh)) s.

(** Entries whose own visits are consistent: declared within their size. *)
Definition entries_fit (s : list shard) : Prop :=
  Forall (fun en => fits (snd (en_key en)) (Some (fst (en_key en))) /\ fits (snd (en_val en)) (Some (fst (en_val en)))) (all_entries s).

(** From each moment to the next only insertions that need no resizing happen. *)
Fixpoint only_inserts (H : list (list shard)) : Prop :=
  match H with
  | s :: ((s' :: _) as H') =>
      Forall2 (fun sh sh' => sh_cap sh' = sh_cap sh /\ sh_len sh <= sh_len sh') s s' /\ only_inserts H'
  | _ => True
  end.

(** An entry of this key stays in the map. *)
Definition stays (H : list (list shard)) (id : N) : Prop := forall s, In s H -> has_key s id.

(** [H'] is [H] with moments repeated and some left out at the end or in between. *)
Inductive passes : list (list shard) -> list (list shard) -> Prop :=
| passes_end H : passes H []
| passes_stay s H H' : passes (s :: H) H' -> passes (s :: H) (s :: H')
| passes_on s H H' : passes H H' -> passes (s :: H) H'.
