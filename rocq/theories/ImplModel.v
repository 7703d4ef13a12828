(** * The [Allocative] implementations of the crate (allocative/src/impls).

    Every [impl Allocative for ...] is one function below.  What the compiler
    or the standard library tells an implementation ([any::type_name],
    [mem::size_of], [mem::needs_drop], lengths, capacities, pointer identities,
    whether a lock is free) is passed in. *)
From Verif Require Import Base KeyModel HMap FlameModel BuilderModel VisitorModel LayoutModel.

(** [any::type_name::<T>()], [mem::size_of::<T>()] (for a value of unsized type:
    [size_of_val]), [mem::needs_drop::<T>()].
    Models: visitor.rs 122-152. *)
Record tinfo := mkT { t_name : string; t_size : N; t_drop : bool }.

(** A value contained in another one: [(size_of_val(x), x.visit)].
    Models: visitor.rs 154-161. *)
Definition sub : Type := N * vprog.

(** Length as a [usize] (the [len()] calls of visitor.rs 205-217 and of the implementations below). *)
Definition len {A} (l : list A) : N := N.of_nat (length l).

(** [visitor.visit_field(k, x)] (visitor.rs 154-161). *)
Definition field (k : key) (c : sub) : vprog := v_field k (fst c) (snd c).

(** [for x in xs { visitor.visit_field(k, x) }].
    Models: visitor.rs 154-161. *)
Definition fields_named (k : key) (cs : list sub) : vprog := vseqs (map (field k) cs).

(** Successive [visit_field] calls with the given names.
    Models: visitor.rs 154-161. *)
Fixpoint fields (names : list string) (cs : list sub) : vprog :=
  match names, cs with
  | n :: names', c :: cs' => vseq (field (key_new n) c) (fields names' cs')
  | _, _ => VRet
  end.

(** Key/value iteration: entries are listed as [k1; v1; k2; v2; ...].
    Models: visitor.rs 219-241. *)
Fixpoint fields_kv (kk kv : key) (cs : list sub) : vprog :=
  match cs with
  | k :: v :: cs' => vseq (field kk k) (vseq (field kv v) (fields_kv kk kv cs'))
  | _ => VRet
  end.

(** [enter_self_sized::<Self>()] (or [enter_self]) ... exit.
    Models: visitor.rs 122-136. *)
Definition enter_self (t : tinfo) (body : vprog) : vprog := v_enter_self (t_name t) (t_size t) body.

(** [visit_simple_sized::<Self>()] / [enter_self_sized::<Self>().exit()]:
    std/primitive.rs 14-102, std/any.rs 14-18, std/function.rs 14-46,
    std/net.rs 18-34, std/time.rs 18-34, std/thread.rs 16-20, std/tuple.rs
    15-19 (unit), std/unsorted.rs 141-199 (NonZero), std/sync.rs 143-207
    (atomics), parking_lot.rs 19-29, futures.rs 43-47 (AtomicWaker),
    prost_types.rs 19-29, serde_json.rs 19-25 (Number). *)
Definition impl_leaf (t : tinfo) : vprog := v_simple_sized (t_name t) (t_size t).

(** Implementations that do nothing: std/unsorted.rs 35-39 ([&'static T]),
    201-205 ([PhantomData]), anyhow.rs 16-21 ([anyhow::Error]). *)
Definition impl_silent : vprog := VRet.

(** std/unsorted.rs 41-45 ([str]) and 47-51 ([OsStr]). *)
Definition impl_str (n : N) : vprog := v_simple (key_new "str") n.
(** std/unsorted.rs 47-51 ([OsStr]). *)
Definition impl_os_str (n : N) : vprog := v_simple (key_new "OsStr") n.

(** std/unsorted.rs 220-229 ([[T]]) and 231-235 ([[T; N]]); [e] describes [T],
    [size_of_val] of the slice is computed by the compiler. *)
Definition impl_slice (e : tinfo) (items : list sub) : vprog :=
  VInline (key_for_type_name (t_name e)) (t_size e * len items)
    (fields_named DATA_NAME items) VRet.

(** enter_self, one [visit_field] per named field, exit: std/tuple.rs 21-66,
    std/unsorted.rs 64-72 (Result), 74-81 (Option), either.rs 19-27,
    triomphe.rs 27-34 (HeaderSlice), 36-43 (HeaderWithLength), serde_json.rs
    42-55 (Value), and derived structs (DeriveModel). *)
Definition impl_struct (t : tinfo) (names : list string) (cs : list sub) : vprog :=
  enter_self t (fields names cs).

(** Derived enums: unit variants open nothing, other variants one scope of the
    size of the enum named after the variant (derive_allocative.rs 129-218;
    see DeriveModel for the generated code). *)
Definition impl_enum (t : tinfo) (variant : option (string * list string)) (cs : list sub) : vprog :=
  enter_self t
    match variant with
    | None => VRet
    | Some (v, names) => VInline (key_new v) (t_size t) (fields names cs) VRet
    end.

(** std/mem.rs 17-23 ([ManuallyDrop]). *)
Definition impl_manually_drop (t : tinfo) (cs : list sub) : vprog :=
  enter_self t (fields_named (key_new "inner") cs).

(** Cells and locks: the content is visited if it is available
    ([try_borrow]/[get]/[try_lock]/[try_read] succeeds): std/cell.rs 19-27
    (RefCell), 29-37 (OnceCell), 39-47 (OnceLock), std/sync.rs 36-44 (RwLock),
    209-217 (Mutex), lock_api.rs 22-40, tokio.rs 20-38.  All of them use the
    name "data". *)
Definition impl_cell (t : tinfo) (available : bool) (cs : list sub) : vprog :=
  enter_self t (if available then fields_named DATA_NAME cs else VRet).

(** once_cell.rs 16-54: the content's [visit] is called directly. *)
Definition impl_once (t : tinfo) (available : bool) (cs : list sub) : vprog :=
  enter_self t (if available then vseqs (map snd cs) else VRet).

(** std/unsorted.rs 53-62 ([Box<T>]); [ps = size_of::<*const T>()]. *)
Definition impl_box (t : tinfo) (ps : N) (cs : list sub) : vprog :=
  enter_self t (VUnique PTR_NAME ps (vseqs (map snd cs)) VRet).

(** [(capacity - len) * size_of::<T>()] and recording it.
    Models: std/unsorted.rs 89-92. *)
Definition unused_capacity (m : mode) (cap n sz : N) : vprog :=
  with_val (do d <- usub m cap n; umul m d sz) (v_simple UNUSED_CAPACITY_NAME).

(** std/unsorted.rs 83-96 ([Vec<T>]). *)
Definition impl_vec (m : mode) (t e : tinfo) (cap : N) (cs : list sub) : vprog :=
  enter_self t
    (if negb (cap =? 0) && negb (t_size e =? 0) then
       VUnique PTR_NAME ptr_size
         (vseq (v_slice m (t_name e) (t_size e) (t_drop e) (map snd cs))
               (unused_capacity m cap (len cs) (t_size e))) VRet
     else VRet).

(** std/unsorted.rs 98-112 ([VecDeque<T>]); the first slice has [front] elements. *)
Definition impl_vec_deque (m : mode) (t e : tinfo) (front : nat) (cap : N) (cs : list sub) : vprog :=
  enter_self t
    (if negb (cap =? 0) && negb (t_size e =? 0) then
       VUnique PTR_NAME ptr_size
         (vseq (v_slice m (t_name e) (t_size e) (t_drop e) (map snd (firstn front cs)))
         (vseq (v_slice m (t_name e) (t_size e) (t_drop e) (map snd (skipn front cs)))
               (unused_capacity m cap (len cs) (t_size e)))) VRet
     else VRet).

(** std/unsorted.rs 114-124 ([String]): a vec-like body of [u8] (size 1, no
    drop, so its elements' own [visit] is never called). *)
Definition impl_string (m : mode) (t : tinfo) (n : nat) (cap : N) : vprog :=
  enter_self t
    (VUnique PTR_NAME ptr_size
       (v_vec_like_body m "u8" 1 false (repeat (v_simple_sized "u8" 1) n) cap) VRet).

(** std/unsorted.rs 126-139 ([PathBuf]). *)
Definition impl_path_buf (m : mode) (t : tinfo) (n cap : N) : vprog :=
  enter_self t
    (if negb (cap =? 0) then
       VUnique PTR_NAME ptr_size
         (vseq (v_simple (key_new "path") n)
               (with_val (usub m cap n) (v_simple UNUSED_CAPACITY_NAME))) VRet
     else VRet).

(** compact_str.rs 21-32; [heap = Some (len, capacity)] iff heap allocated. *)
Definition impl_compact_string (m : mode) (t : tinfo) (heap : option (N * N)) : vprog :=
  enter_self t
    match heap with
    | Some (n, cap) =>
        VUnique PTR_NAME ptr_size
          (vseq (v_simple (key_new "str") n)
                (with_val (usub m cap n) (v_simple UNUSED_CAPACITY_NAME))) VRet
    | None => VRet
    end.

(** slab.rs 22-41. *)
Definition impl_slab (m : mode) (t e : tinfo) (cap : N) (cs : list sub) : vprog :=
  enter_self t
    (if negb (cap =? 0) && negb (t_size e =? 0) then
       VUnique PTR_NAME ptr_size
         (vseq (v_iter m (t_name e) (t_size e) (t_drop e) (map snd cs))
               (unused_capacity m cap (len cs) (t_size e))) VRet
     else VRet).

(** smallvec.rs 21-42. *)
Definition impl_small_vec (t : tinfo) (spilled : bool) (cs : list sub) : vprog :=
  enter_self t
    (if spilled then VUnique PTR_NAME ptr_size (fields_named (key_new "data") cs) VRet
     else fields_named (key_new "data") cs).

(** num_bigint.rs 23-37 ([BigInt]), 39-53 ([BigUint]). *)
Definition impl_big_int (m : mode) (t : tinfo) (digits : N) : vprog :=
  enter_self t
    (VUnique PTR_NAME ptr_size (with_val (umul m digits 8) (v_simple DATA_NAME)) VRet).

(** indexmap.rs 25-33 [add_raw_table_for_len::<usize>]. *)
Definition add_raw_table_for_len (m : mode) (n : N) : vprog :=
  if n =? 0 then VRet
  else VUnique (key_new "raw_table") 8
         (with_val (raw_table_alloc_size_for_len m 8 n) (v_simple (key_new "alloc"))) VRet.

(** indexmap.rs 35-49 ([IndexSet]). *)
Definition impl_index_set (m : mode) (t e : tinfo) (cap : N) (cs : list sub) : vprog :=
  enter_self t
    (VUnique (key_new "data") ptr_size
       (vseq (fields_named (key_new "value") cs)
             (unused_capacity m cap (len cs) (t_size e)))
       (add_raw_table_for_len m (len cs))).

(** indexmap.rs 51-69 ([IndexMap]); [e] describes [(K, V)], [n] is the number of
    entries, [cs] the keys and values. *)
Definition impl_index_map (m : mode) (t e : tinfo) (n cap : N) (cs : list sub) : vprog :=
  enter_self t
    (VUnique (key_new "data") ptr_size
       (vseq (fields_kv (key_new "key") (key_new "value") cs)
             (unused_capacity m cap n (t_size e)))
       (add_raw_table_for_len m n)).

(** serde_json.rs 27-40 ([Map<String, Value>]). *)
Definition impl_json_map (t : tinfo) (cs : list sub) : vprog :=
  enter_self t
    (VUnique (key_new "data") ptr_size (fields_kv (key_new "key") (key_new "value") cs) VRet).

(** dashmap.rs 29-51 ([DashMap]), seen as one consistent snapshot.  Simplification:
    the shard locks ([capacity], [iter] and [len] block on them) are in LockModel, and
    the map changing between these reads is in DashModel (C53). *)
Definition impl_dash_map (m : mode) (t e : tinfo) (n cap : N) (cs : list sub) : vprog :=
  enter_self t
    (VUnique PTR_NAME ptr_size
       (with_val (umul m cap (t_size e)) (fun total =>
          VInline CAPACITY_NAME total
            (vseq (fields_kv KEY_NAME VALUE_NAME cs)
                  (with_val (umul m (usaturating_sub cap n) (t_size e)) (v_simple UNUSED_CAPACITY_NAME))) VRet)) VRet).

(** dashmap.rs 53-70 ([DashSet]), same simplification. *)
Definition impl_dash_set (m : mode) (t e : tinfo) (cap : N) (cs : list sub) : vprog :=
  enter_self t
    (VUnique PTR_NAME ptr_size
       (with_val (umul m cap (t_size e)) (fun total =>
          VInline CAPACITY_NAME total
            (vseq (fields_named DATA_NAME cs)
                  (with_val (umul m (usaturating_sub cap (len cs)) (t_size e)) (v_simple UNUSED_CAPACITY_NAME))) VRet)) VRet).

(** hashbrown.rs 23-43 ([HashTable]). *)
Definition impl_hash_table (m : mode) (t e : tinfo) (cap : N) (cs : list sub) : vprog :=
  enter_self t
    (VUnique DATA_NAME ptr_size
       (with_val (raw_table_alloc_size_for_len m (t_size e) cap) (fun total =>
          VInline CAPACITY_NAME total (v_iter m (t_name e) (t_size e) (t_drop e) (map snd cs)) VRet)) VRet).

(** Pairs of consecutive elements.
    Models: for the maps of visitor.rs 219-231. *)
Fixpoint pair_up {A} (l : list A) : list (A * A) :=
  match l with k :: v :: l' => (k, v) :: pair_up l' | _ => [] end.

(** std/collections.rs 19-25 (BTreeMap), 35-42 (HashMap), sorted_vector_map.rs
    19-26: [visit_generic_map_fields] over keys and values [cs]. *)
Definition impl_map (t : tinfo) (cs : list sub) : vprog :=
  enter_self t (v_generic_map_fields (pair_up cs)).

(** std/collections.rs 27-33 (BTreeSet), 44-51 (HashSet), sorted_vector_map.rs
    28-35. *)
Definition impl_set (t : tinfo) (cs : list sub) : vprog :=
  enter_self t (v_generic_set_fields cs).

(** bumpalo.rs 37-52 ([Bump]). *)
Definition impl_bump (m : mode) (t : tinfo) (allocated : N) (chunks : list N) : vprog :=
  enter_self t
    (VUnique PTR_NAME ptr_size
       match bump_counters m allocated chunks with
       | Some (used, unused) => vseq (v_simple DATA_NAME used) (v_simple UNUSED_CAPACITY_NAME unused)
       | None => VCrash
       end VRet).

(** Shared pointers: std/sync.rs 66-91 (Arc), 105-129 (Rc), triomphe.rs 52-80
    (ThinArc), 86-111 (Arc), futures.rs 23-41 (Shared with a result).  [ps] is
    the size of the raw pointer type, [x] the identity passed to
    [enter_shared], [pointee x] what is done with the visitor it returns. *)
Definition impl_shared_ptr (pointee : ptr -> vprog) (t : tinfo) (ps : N) (x : ptr) : vprog :=
  enter_self t (VShared PTR_NAME ps x (pointee x) VRet VRet).

(** std/sync.rs 93-103, 131-141 ([Weak]): [target] is what [upgrade()] returns.
    Simplification: dropping the upgraded pointer never frees the pointee. *)
Definition impl_weak (pointee : ptr -> vprog) (t : tinfo) (target : option (tinfo * N * ptr)) : vprog :=
  enter_self t
    match target with
    | Some (t', ps, x) => impl_shared_ptr pointee t' ps x
    | None => VRet
    end.

(** What is done inside the scope of a shared pointer, i.e. how the pointee is
    presented; [c] is the pointee.
    - [InArc]/[InRc]: sync.rs 78-87 / 117-125;
    - [InTriomphe]: triomphe.rs 95-107;
    - [InThin]: triomphe.rs 61-76, [h] the header's layout, [n] elements of size
      [sz] and alignment [al], [tn] the type name of [ThinArcInnerRepr<H>];
    - [InBare]: futures.rs 35. *)
Inductive inner :=
| InArc (align : N)
| InRc (align : N)
| InTriomphe (align : N)
| InThin (tn : string) (h : layout) (sz al n : N)
| InBare.

(** What is behind a shared pointer: sync.rs 79-88, 117-126; triomphe.rs 68-79, 102-108; futures.rs 36-38. *)
Definition visit_inner (i : inner) (c : sub) : vprog :=
  match i with
  | InArc a => with_val (rcbox_layout_size (mkLayout (fst c) a))
                 (fun s => VInline (key_new "ArcInner") s (snd c) VRet)
  | InRc a => with_val (rcbox_layout_size (mkLayout (fst c) a))
                 (fun s => VInline (key_new "RcInner") s (snd c) VRet)
  | InTriomphe a => with_val (triomphe_arc_size (mkLayout (fst c) a))
                 (fun s => VInline (key_for_type_name "allocative::impls::triomphe::ArcInnerRepr") s
                             (field (key_new "data") c) VRet)
  | InThin tn h sz al n => with_val (thin_arc_size h sz al n)
                 (fun s => VInline (key_for_type_name tn) s (field (key_new "data") c) VRet)
  | InBare => snd c
  end.

(** ** Values

    A value is a node with the implementation that visits it (with what that
    implementation can ask about it) and its contained values, in the order
    in which the implementation meets them.
    Models: the implementors of allocative_trait.rs 139-142 (lines: at the [impl_...] functions). *)
Inductive shape :=
| SLeaf (t : tinfo)
| SSilent (t : tinfo)
| SStr (n : N)
| SOsStr (n : N)
| SSlice (e : tinfo)
| SStruct (t : tinfo) (names : list string)
| SEnum (t : tinfo) (variant : option (string * list string))
| SManuallyDrop (t : tinfo)
| SCell (t : tinfo) (avail : bool)
| SOnce (t : tinfo) (avail : bool)
| SBox (t : tinfo) (ps : N)
| SVec (t e : tinfo) (cap : N)
| SVecDeque (t e : tinfo) (front : nat) (cap : N)
| SString (t : tinfo) (n : nat) (cap : N)
| SPathBuf (t : tinfo) (n cap : N)
| SCompactString (t : tinfo) (heap : option (N * N))
| SSlab (t e : tinfo) (cap : N)
| SSmallVec (t e : tinfo) (spilled : bool)
| SBigInt (t : tinfo) (digits : N)
| SIndexSet (t e : tinfo) (cap : N)
| SIndexMap (t e : tinfo) (cap : N)
| SJsonMap (t : tinfo)
| SDashMap (t e : tinfo) (cap : N)
| SDashSet (t e : tinfo) (cap : N)
| SHashTable (t e : tinfo) (cap : N)
| SMap (t : tinfo)
| SSet (t : tinfo)
| SBump (t : tinfo) (allocated : N) (chunks : list N)
| SShared (t : tinfo) (ps : N) (x : ptr)
| SWeak (t : tinfo) (target : option (tinfo * N * ptr)).

(** Values: an implementation of the trait (allocative_trait.rs 139-142) and the contained values. *)
Inductive value := Node (s : shape) (cs : list value).

(** The type's facts, for the sized shapes.
    Models: [mem::size_of], [any::type_name] as used at visitor.rs 122-152. *)
Definition shape_info (s : shape) : option tinfo :=
  match s with
  | SLeaf t | SSilent t | SStruct t _ | SEnum t _ | SManuallyDrop t | SCell t _ | SOnce t _ | SBox t _
  | SVec t _ _ | SVecDeque t _ _ _ | SString t _ _ | SPathBuf t _ _ | SCompactString t _ | SSlab t _ _
  | SSmallVec t _ _ | SBigInt t _ | SIndexSet t _ _ | SIndexMap t _ _ | SJsonMap t | SDashMap t _ _
  | SDashSet t _ _ | SHashTable t _ _ | SMap t | SSet t | SBump t _ _ | SShared t _ _ | SWeak t _ => Some t
  | SStr _ | SOsStr _ | SSlice _ => None
  end.

(** [mem::size_of_val].
    Models: visitor.rs 131-136, 154-161. *)
Definition size_of_val (v : value) : N :=
  match v with
  | Node s cs =>
      match s with
      | SStr n | SOsStr n => n
      | SSlice e => t_size e * len cs
      | _ => match shape_info s with Some t => t_size t | None => 0 end
      end
  end.

(** Dispatch to the implementation.
    Models: allocative_trait.rs 139-142. *)
Definition visit_shape (m : mode) (pointee : ptr -> vprog) (s : shape) (cs : list sub) : vprog :=
  match s with
  | SLeaf t => impl_leaf t
  | SSilent _ => impl_silent
  | SStr n => impl_str n
  | SOsStr n => impl_os_str n
  | SSlice e => impl_slice e cs
  | SStruct t names => impl_struct t names cs
  | SEnum t variant => impl_enum t variant cs
  | SManuallyDrop t => impl_manually_drop t cs
  | SCell t a => impl_cell t a cs
  | SOnce t a => impl_once t a cs
  | SBox t ps => impl_box t ps cs
  | SVec t e cap => impl_vec m t e cap cs
  | SVecDeque t e front cap => impl_vec_deque m t e front cap cs
  | SString t n cap => impl_string m t n cap
  | SPathBuf t n cap => impl_path_buf m t n cap
  | SCompactString t h => impl_compact_string m t h
  | SSlab t e cap => impl_slab m t e cap cs
  | SSmallVec t _ sp => impl_small_vec t sp cs
  | SBigInt t d => impl_big_int m t d
  | SIndexSet t e cap => impl_index_set m t e cap cs
  | SIndexMap t e cap => impl_index_map m t e (len cs / 2) cap cs
  | SJsonMap t => impl_json_map t cs
  | SDashMap t e cap => impl_dash_map m t e (len cs / 2) cap cs
  | SDashSet t e cap => impl_dash_set m t e cap cs
  | SHashTable t e cap => impl_hash_table m t e cap cs
  | SMap t => impl_map t cs
  | SSet t => impl_set t cs
  | SBump t a chunks => impl_bump m t a chunks
  | SShared t ps x => impl_shared_ptr pointee t ps x
  | SWeak t target => impl_weak pointee t target
  end.

(** [<T as Allocative>::visit] for a value; [pointee] says what happens behind
    shared pointers.
    Models: allocative_trait.rs 139-142. *)
Fixpoint visit (m : mode) (pointee : ptr -> vprog) (v : value) : vprog :=
  match v with
  | Node s cs => visit_shape m pointee s (map (fun c => (size_of_val c, visit m pointee c)) cs)
  end.

(** ** Values with shared parts

    The allocations behind shared pointers.
    Models: sync.rs 66-129, triomphe.rs 52-111, futures.rs 23-41. *)
Definition store := list (ptr * (inner * value)).

(** Following a pointer (sync.rs 86, 124; triomphe.rs 76, 105; futures.rs 37). *)
Fixpoint find_obj (h : store) (x : ptr) : option (inner * value) :=
  match h with
  | [] => None
  | (y, o) :: h' => if N.eqb x y then Some o else find_obj h' x
  end.

(** Visiting a value whose shared pointers lead into [h]; the recursion through
    shared pointers is unrolled [n] levels, going deeper or following a dangling
    pointer is a panic (neither happens, see C15/C44).
    Models: allocative_trait.rs 139-142. *)
Fixpoint visit_in (m : mode) (n : nat) (h : store) (v : value) : vprog :=
  visit m (fun x =>
    match n with
    | O => VCrash
    | S n' =>
        match find_obj h x with
        | Some (i, w) => visit_inner i (size_of_val w, visit_in m n' h w)
        | None => VCrash
        end
    end) v.
