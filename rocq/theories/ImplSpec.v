(** * Specification vocabulary for values: well-typedness and owned bytes.

    Nothing here looks at visit programs. *)
From Verif Require Import Base KeyModel BuilderModel VisitorModel LayoutModel LayoutSpec ImplModel.

(** [mem::needs_drop] of the type of a value. *)
Definition drop_of (v : value) : bool :=
  match v with
  | Node s _ =>
      match s with
      | SStr _ | SOsStr _ => false
      | SSlice e => t_drop e
      | _ => match shape_info s with Some t => t_drop t | None => false end
      end
  end.

(** ** Well-typed values: what rustc and the library types guarantee *)

(** Elements of type [e]. *)
Definition elems (e : tinfo) (cs : list value) : Prop :=
  Forall (fun c => size_of_val c = t_size e /\ (drop_of c = true -> t_drop e = true)) cs.

(** Values stored inline, side by side, in a value of type [t]. *)
Definition contained (t : tinfo) (cs : list value) : Prop :=
  sumN (map size_of_val cs) <= t_size t /\ Forall (fun c => drop_of c = true -> t_drop t = true) cs.

(** A type with a pointer in it that it frees. *)
Definition owner (t : tinfo) : Prop := ptr_size <= t_size t /\ t_drop t = true.

(** Keys and values alternate, each pair fits in the pair type [e]. *)
Fixpoint entries (e : tinfo) (cs : list value) : Prop :=
  match cs with
  | [] => True
  | k :: v :: cs' => size_of_val k + size_of_val v <= t_size e /\ entries e cs'
  | _ => False
  end.

Fixpoint even_length {A} (l : list A) : Prop :=
  match l with [] => True | _ :: _ :: l' => even_length l' | _ => False end.

(** A hash table for [n] entries of [sz] bytes (and a control byte) fits in memory. *)
Definition table_fits (sz n : N) : Prop :=
  exists p, pow2 p /\ N.max 4 n <= p /\ (sz + 1) * p < two64.

(** A buffer of [cap] elements of type [e], [n] of them in use, fits in memory. *)
Definition buffer (e : tinfo) (n cap : N) : Prop :=
  n <= cap /\ cap < two64 /\ cap * t_size e < two63.

Definition shape_ok (s : shape) (cs : list value) : Prop :=
  match s with
  | SLeaf _ | SSilent _ => cs = []
  | SStr n | SOsStr n => cs = [] /\ n < two63
  | SSlice e => elems e cs
  | SStruct t names => length names = length cs /\ contained t cs
  | SEnum t None => cs = []
  | SEnum t (Some (_, names)) => length names = length cs /\ contained t cs
  | SManuallyDrop t => sumN (map size_of_val cs) <= t_size t
  | SCell t _ | SOnce t _ => contained t cs
  | SBox t ps => (exists c, cs = [c]) /\ ptr_size <= ps <= t_size t /\ t_drop t = true
  | SVec t e cap | SVecDeque t e _ cap | SSlab t e cap => owner t /\ elems e cs /\ buffer e (len cs) cap
  | SString t n cap => cs = [] /\ owner t /\ N.of_nat n <= cap < two63
  | SPathBuf t n cap => cs = [] /\ owner t /\ n <= cap < two63
  | SCompactString t h =>
      cs = [] /\ owner t /\ match h with Some (n, cap) => n <= cap < two63 | None => True end
  | SSmallVec t e spilled => owner t /\ elems e cs /\ (spilled = false -> contained t cs)
  | SBigInt t digits => cs = [] /\ owner t /\ digits * 8 < two63
  | SIndexSet t e cap =>
      ptr_size + 8 <= t_size t /\ t_drop t = true /\ elems e cs /\ buffer e (len cs) cap /\ table_fits 8 (len cs)
  | SIndexMap t e cap =>
      ptr_size + 8 <= t_size t /\ t_drop t = true /\ entries e cs /\ buffer e (len cs / 2) cap /\
      table_fits 8 (len cs / 2)
  | SJsonMap t => owner t /\ even_length cs
  | SDashMap t e cap => owner t /\ entries e cs /\ buffer e (len cs / 2) cap
  | SDashSet t e cap => owner t /\ elems e cs /\ buffer e (len cs) cap
  | SHashTable t e cap => owner t /\ elems e cs /\ len cs <= cap /\ table_fits (t_size e) cap
  | SMap t => owner t /\ even_length cs
  | SSet t => owner t
  | SBump t allocated chunks => cs = [] /\ owner t /\ sumN chunks <= allocated < two63
  | SShared t ps _ => cs = [] /\ ptr_size <= ps <= t_size t /\ t_drop t = true
  | SWeak t target =>
      cs = [] /\ owner t /\
      match target with Some (t', ps, _) => ptr_size <= ps <= t_size t' /\ t_size t' <= t_size t | None => True end
  end.

Inductive typed : value -> Prop :=
| typed_node s cs : shape_ok s cs -> Forall typed cs -> typed (Node s cs).

(** Allocations behind shared pointers: the pointee is well typed and its
    allocation fits in memory. *)
Definition inner_ok (i : inner) (w : value) : Prop :=
  match i with
  | InArc a | InRc a => valid_layout (mkLayout (size_of_val w) a) /\ exists S, S < two63 /\ holds 16 (mkLayout (size_of_val w) a) S
  | InTriomphe a => valid_layout (mkLayout (size_of_val w) a) /\ exists S, S < two63 /\ holds 8 (mkLayout (size_of_val w) a) S
  | InThin _ h sz al n =>
      sized h /\ valid_layout (thin_arc_inner_repr_layout h) /\ pow2 al /\ al <= two63 /\
      size_of_val w = l_size (header_slice_layout h sz al n) /\ l_size (thin_arc_real h sz al n) < two63
  | InBare => True
  end.
Definition typed_store (h : store) : Prop :=
  Forall (fun xo => inner_ok (fst (snd xo)) (snd (snd xo)) /\ typed (snd (snd xo))) h.

(** ** Bytes of the heap blocks a value owns uniquely *)

Definition buckets_for (n : N) : N := if n =? 0 then 0 else 2 ^ N.log2_up (N.max 4 n).

(** The block(s) allocated by the node itself.  [Box], [Vec], [VecDeque],
    [String], [PathBuf], [CompactString], [Bump]: exact.  [Slab], [DashMap],
    [DashSet], [SmallVec], [BigInt], [IndexSet], [IndexMap], serde_json [Map],
    [HashTable]: the crate's documented approximations (no slot headers, hashes,
    spare capacity or group padding).  Hash and B-tree maps and sets: at least
    their entries. *)
Definition own_block (s : shape) (cs : list value) : N :=
  match s with
  | SBox _ _ => sumN (map size_of_val cs)
  | SVec _ e cap | SVecDeque _ e _ cap | SSlab _ e cap => cap * t_size e
  | SString _ _ cap | SPathBuf _ _ cap => cap
  | SCompactString _ (Some (_, cap)) => cap
  | SSmallVec _ _ true => sumN (map size_of_val cs)
  | SBigInt _ digits => digits * 8
  | SIndexSet _ e cap => cap * t_size e + 9 * buckets_for (len cs)
  | SIndexMap _ e cap => sumN (map size_of_val cs) + (cap - len cs / 2) * t_size e + 9 * buckets_for (len cs / 2)
  | SJsonMap _ | SMap _ | SSet _ => sumN (map size_of_val cs)
  | SDashMap _ e cap | SDashSet _ e cap => cap * t_size e
  | SHashTable _ e cap => (t_size e + 1) * buckets_for cap
  | SBump _ allocated _ => allocated
  | _ => 0
  end.

(** Whether the contents of a node can be looked at. *)
Definition available (s : shape) : bool :=
  match s with SCell _ a | SOnce _ a => a | _ => true end.

Fixpoint owned_bytes (v : value) : N :=
  match v with
  | Node s cs => own_block s cs + (if available s then sumN (map owned_bytes cs) else 0)
  end.

(** Containers with one buffer of [cap] elements of type [e]. *)
Inductive vec_like (e : tinfo) (cap : N) : shape -> Prop :=
| vl_vec t : vec_like e cap (SVec t e cap)
| vl_deque t front : vec_like e cap (SVecDeque t e front cap)
| vl_slab t : vec_like e cap (SSlab t e cap).

(** ** Side conditions *)

(** [&'static T], [PhantomData], [anyhow::Error]. *)
Definition silent (v : value) : bool := match v with Node (SSilent _) _ => true | _ => false end.

(** No [ManuallyDrop] anywhere inside. *)
Fixpoint manual_free (v : value) : Prop :=
  match v with
  | Node s cs => match s with SManuallyDrop _ => False | _ => True end /\ fold_right and True (map manual_free cs)
  end.

(** Values whose owned blocks are all counted: no hash or B-tree map or set with
    entries; nothing silent directly in a box or as element of a buffer that is
    visited element by element; no [ManuallyDrop] in elements that are not. *)
Definition counted_elems (e : tinfo) (cs : list value) : Prop :=
  (t_drop e = true -> t_size e <> 0 -> Forall (fun c => silent c = false) cs) /\
  (t_drop e = false -> Forall manual_free cs).

Definition counted_node (s : shape) (cs : list value) : Prop :=
  match s with
  | SMap _ | SSet _ => cs = []
  | SBox _ _ => Forall (fun c => silent c = false) cs
  | SVec _ e _ | SVecDeque _ e _ _ | SSlab _ e _ => counted_elems e cs
  | SHashTable _ e _ => t_drop e = false -> Forall manual_free cs
  | _ => True
  end.

Fixpoint counted (v : value) : Prop :=
  match v with
  | Node s cs => counted_node s cs /\ fold_right and True (map counted cs)
  end.

(** No hash or B-tree map or set with entries inside. *)
Fixpoint map_free (v : value) : Prop :=
  match v with
  | Node s cs => match s with SMap _ | SSet _ => cs = [] | _ => True end /\ fold_right and True (map map_free cs)
  end.

(** ** Sharing *)

(** Shared pointers a value holds in its available parts (strong or live weak). *)
Definition node_refs (s : shape) : list ptr :=
  match s with SShared _ _ x | SWeak _ (Some (_, _, x)) => [x] | _ => [] end.

(** All shared pointers in the available parts of a value, in order. *)
Fixpoint value_refs (v : value) : list ptr :=
  match v with
  | Node s cs => node_refs s ++ (if available s then flat_map value_refs cs else [])
  end.

(** Allocations reachable from some values through shared pointers. *)
Inductive store_reachable (h : store) (roots : list value) : ptr -> Prop :=
| sr_root r x : In r roots -> In x (value_refs r) -> store_reachable h roots x
| sr_step y i w x : store_reachable h roots y -> find_obj h y = Some (i, w) -> In x (value_refs w) ->
    store_reachable h roots x.

Definition no_dangling (h : store) (roots : list value) : Prop :=
  forall x, store_reachable h roots x -> exists o, find_obj h x = Some o.

(** [S] is the size of the allocation behind a shared pointer: the least block
    with room for the counters and the value ([futures::Shared]: only the
    result is known to the crate). *)
Definition alloc_size (i : inner) (w : value) (S : N) : Prop :=
  match i with
  | InArc a | InRc a =>
      holds 16 (mkLayout (size_of_val w) a) S /\ forall S', holds 16 (mkLayout (size_of_val w) a) S' -> S <= S'
  | InTriomphe a =>
      holds 8 (mkLayout (size_of_val w) a) S /\ forall S', holds 8 (mkLayout (size_of_val w) a) S' -> S <= S'
  | InThin _ h sz al n => S = l_size (thin_arc_real h sz al n)
  | InBare => S = size_of_val w
  end.

(** Allocations whose size is recorded exactly (C30): all, except a [ThinArc]
    whose elements are aligned more strictly than its header, or a bare value
    that is silent. *)
Definition inner_exact (i : inner) (w : value) : Prop :=
  match i with
  | InThin _ h _ al _ => al <= N.max (l_align h) 8
  | InBare => silent w = false
  | _ => True
  end.

(** No [ManuallyDrop] in any allocation. *)
Definition plain_store (h : store) : Prop := Forall (fun xo => manual_free (snd (snd xo))) h.

(** The same value, up to the contents of unavailable cells and locks. *)
Inductive same_visible : value -> value -> Prop :=
| sv_hidden s cs cs' : available s = false -> same_visible (Node s cs) (Node s cs')
| sv_node s cs cs' : Forall2 same_visible cs cs' -> same_visible (Node s cs) (Node s cs').

(** Custom induction principle: values contain lists of values. *)
Lemma value_induction (P : value -> Prop) :
  (forall s cs, Forall P cs -> P (Node s cs)) -> forall v, P v.
Proof.
  intros H. fix go 1. intros [s cs]. apply H. induction cs as [|c cs IH]; constructor; [apply go | exact IH].
Qed.
