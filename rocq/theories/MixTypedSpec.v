(** * Specification vocabulary: well-typed memory with [DashMap]s that are updated in
    place. *)
From Verif Require Import Base VisitorModel LayoutModel ImplModel ImplSpec LockModel SnapshotModel DashModel MixModel MixSpec.

Section Typed.
  (** [content_type l]: size of the type of the content of lock [l] and whether it needs
      dropping; [slot_type l]: shard [l] is of a [DashMap] or [DashSet] with this type
      of entries; [capacity_of], [entries_of]: how many slots it has and how many are
      in use. *)
  Variable content_type : lock -> N * bool.
  Variable slot_type : lock -> dash * tinfo.
  Variable capacity_of entries_of : lock -> N.

  (** What Rust's types guarantee of a value, as [mtyped] of ChangeSpec. *)
  Inductive xtyped : xvalue -> Prop :=
  | xt_plain s cs : match s with SCell _ _ | SOnce _ _ | SWeak _ _ => False | _ => True end ->
      shape_ok s (map xoutline cs) -> Forall xtyped cs -> xtyped (XPlain s cs)
  | xt_lock t l a : fst (content_type l) <= t_size t -> (snd (content_type l) = true -> t_drop t = true) -> xtyped (XLock t l a)
  | xt_once t l : fst (content_type l) <= t_size t -> (snd (content_type l) = true -> t_drop t = true) -> xtyped (XOnce t l)
  | xt_weak t t' ps x : shape_ok (SWeak t (Some (t', ps, x))) [] -> xtyped (XWeak t t' ps x)
  | xt_dash kd t e ls : ptr_size <= t_size t -> t_drop t = true -> (forall l, In l ls -> slot_type l = (kd, e)) ->
      sumN (map capacity_of ls) < two64 -> sumN (map capacity_of ls) * t_size e < two63 -> xtyped (XDash kd t e ls).

  (** An entry fits into a slot. *)
  Definition slot_fits (kd : dash) (e : tinfo) (k v : xvalue) : Prop :=
    match kd with
    | IsMap => xtyped k /\ xtyped v /\ xsize k + xsize v <= t_size e
    | IsSet => xtyped k /\ xsize k = t_size e /\ (drop_of (xoutline k) = true -> t_drop e = true)
    end.

  (** What is guaranteed of the memory; and as long as nothing is inserted into or
      removed from [DashMap]s (entries may be replaced by others), the numbers of slots
      and entries are these. *)
  Definition xmem_typed (g : xmemory) : Prop :=
    (forall l, xtyped (x_content g l) /\ xsize (x_content g l) = fst (content_type l) /\
       (drop_of (xoutline (x_content g l)) = true -> snd (content_type l) = true)) /\
    (forall x i v, x_object g x = Some (i, v) -> inner_ok i (xoutline v) /\ xtyped v) /\
    (forall l k v, In (k, v) (tb_entries (x_table g l)) -> slot_fits (fst (slot_type l)) (snd (slot_type l)) k v) /\
    (forall l, tb_cap (x_table g l) = capacity_of l /\ N.of_nat (length (tb_entries (x_table g l))) = entries_of l /\ entries_of l <= capacity_of l).
End Typed.

(** All values in memory are such. *)
Definition xmem_all (P : value -> Prop) (g : xmemory) : Prop :=
  (forall l, P (xoutline (x_content g l))) /\ (forall x i v, x_object g x = Some (i, v) -> P (xoutline v)) /\
  (forall l k v, In (k, v) (tb_entries (x_table g l)) -> P (xoutline k) /\ P (xoutline v)).

(** ** What is seen are values

    [ws] are values whose visits are those put together of what was there of [roots]. *)
Definition seen_as (M : xmemory -> Prop) (m : mode) (roots : list xvalue) (ws : list value) : Prop :=
  Forall2 (fun v w => shown M m False v (visit m unseen w) /\ size_of_val w = bytes_of v) roots ws.
(** Allocations that were all there, at some moment each. *)
Definition seen_store (M : xmemory -> Prop) (m : mode) (h : store) : Prop :=
  Forall (fun xo => exists g v, M g /\ x_object g (fst xo) = Some (fst (snd xo), v) /\
    shown M m False v (visit m unseen (snd (snd xo))) /\ size_of_val (snd (snd xo)) = bytes_of v) h.
