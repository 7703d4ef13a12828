(** * Properties of the built-in implementations: C32-C37, C43, C44 (and C40). *)
From Coq Require Import Permutation.
From Verif Require Import Base BaseFacts KeyModel KeyFacts HMap FlameModel BuilderModel VisitorModel SizeOfModel Spec
  ConserveFacts MergeFacts HeapFacts HeapProps LayoutModel LayoutFacts PropertiesLayout
  ImplModel ImplSpec ImplFacts OwnedFacts StoreFacts StoreProps PropertiesHeap.

#[local] Arguments key_new : simpl never.

(** ** Example types and values *)
Definition t_u8 := mkT "u8" 1 false.
Definition t_u64 := mkT "u64" 8 false.
Definition t_string := mkT "alloc::string::String" 24 true.
Definition t_vec_string := mkT "alloc::vec::Vec<alloc::string::String>" 24 true.
Definition t_vec_u64 := mkT "alloc::vec::Vec<u64>" 24 true.
Definition t_box := mkT "alloc::boxed::Box<u64>" 8 true.
Definition t_arc := mkT "alloc::sync::Arc<demo::Node>" 8 true.
Definition t_weak := mkT "alloc::sync::Weak<demo::Node>" 8 true.
Definition t_arc_str := mkT "alloc::sync::Arc<str>" 16 true.
Definition t_mutex := mkT "std::sync::mutex::Mutex<core::option::Option<alloc::sync::Arc<demo::Node>>>" 16 true.
Definition t_option := mkT "core::option::Option<alloc::sync::Arc<demo::Node>>" 8 true.
Definition t_node := mkT "demo::Node" 72 true.

Definition x_u64 : value := Node (SLeaf t_u64) [].
Definition x_string (n : nat) (cap : N) : value := Node (SString t_string n cap) [].
Definition x_vec_string : value := Node (SVec t_vec_string t_string 4) [x_string 3 8; x_string 0 0; x_string 5 5].
Definition x_box : value := Node (SBox t_box 8) [x_u64].
Definition x_arc (x : ptr) : value := Node (SShared t_arc 8 x) [].
Definition x_next (free : bool) (x : ptr) : value :=
  Node (SCell t_mutex free) [Node (SStruct t_option ["Some"%string]) [x_arc x]].
Definition x_weak (live : bool) (x : ptr) : value := Node (SWeak t_weak (if live then Some (t_arc, 8, x) else None)) [].
(** [struct Node { names: Vec<String>, next: Mutex<Option<Arc<Node>>>, name: Arc<str>, parent: Weak<Node>, id: Box<u64> }] *)
Definition x_node (free : bool) (next parent name : ptr) : value :=
  Node (SStruct t_node ["names"; "next"; "name"; "parent"; "id"]%string)
    [x_vec_string; x_next free next; Node (SShared t_arc_str 16 name) []; x_weak true parent; x_box].

(** Two nodes pointing to each other, sharing a name. *)
Definition x_store : store :=
  [(1, (InArc 8, x_node true 2 2 3)); (2, (InArc 8, x_node true 1 1 3)); (3, (InArc 1, Node (SStr 5) []))].
Definition x_roots : list value := [x_arc 1; x_weak true 2; x_weak false 7; x_vec_string].

Ltac each := repeat (apply Forall_cons; [|]); try apply Forall_nil.

Lemma x_string_typed n cap : N.of_nat n <= cap < two63 -> typed (x_string n cap).
Proof. intros H. constructor; [|constructor]. cbn. unfold owner, ptr_size. cbn. repeat split; auto; lia. Qed.
Lemma x_vec_string_typed : typed x_vec_string.
Proof.
  constructor.
  - cbn [shape_ok]. unfold owner, elems, buffer, ptr_size. cbn. rewrite two64_val, two63_val. repeat (constructor; cbn; auto); lia.
  - each; apply x_string_typed; rewrite two63_val; cbn; lia.
Qed.
Lemma x_next_typed f x : typed (x_next f x).
Proof.
  constructor.
  - cbn. unfold contained. cbn. split; [lia | repeat constructor].
  - constructor; [|constructor]. constructor.
    + cbn. unfold contained. cbn. repeat (constructor; cbn; auto); lia.
    + constructor; [|constructor]. constructor; [|constructor]. cbn. unfold ptr_size. repeat split; lia.
Qed.
Lemma x_weak_typed l x : typed (x_weak l x).
Proof. constructor; [|constructor]. cbn. unfold owner, ptr_size. destruct l; cbn; repeat split; lia. Qed.
Lemma x_node_typed f a b c : typed (x_node f a b c).
Proof.
  constructor.
  - cbn. unfold contained. cbn. split; [reflexivity|]. split; [lia | repeat constructor].
  - constructor; [apply x_vec_string_typed|]. constructor; [apply x_next_typed|]. constructor.
    { constructor; [|constructor]. cbn. unfold ptr_size. repeat split; lia. }
    constructor; [apply x_weak_typed|]. constructor; [|constructor]. constructor.
    + cbn. unfold ptr_size. split; [eauto|]. repeat split; lia.
    + repeat constructor.
Qed.
Lemma x_arc_typed x : typed (x_arc x).
Proof. constructor; [|constructor]. cbn. unfold ptr_size. repeat split; lia. Qed.
Lemma x_roots_typed : Forall typed x_roots.
Proof. unfold x_roots. each; first [apply x_arc_typed | apply x_weak_typed | apply x_vec_string_typed]. Qed.

Lemma pow2_is a k : a = 2 ^ k -> pow2 a. Proof. intros ->. now exists k. Qed.
Lemma x_store_typed : typed_store x_store.
Proof.
  unfold typed_store, x_store. each; cbn [fst snd]; (split; [|try apply x_node_typed]).
  1,2: cbn; split; [split; [apply (@pow2_is 8 3); reflexivity | cbn; rewrite two63_val; lia]|];
       exists 88; rewrite two63_val; split; [lia|]; split; [exists 11; reflexivity|]; split; [exists 11; reflexivity|];
       exists 16; cbn; repeat split; try lia; exists 2; reflexivity.
  - cbn; split; [split; [apply (@pow2_is 1 0); reflexivity | cbn; rewrite two63_val; lia]|];
       exists 24; rewrite two63_val; split; [lia|]; split; [exists 3; reflexivity|]; split; [exists 24; reflexivity|];
       exists 16; cbn; repeat split; try lia; exists 16; reflexivity.
  - constructor; [|constructor]. cbn. rewrite two63_val. split; [reflexivity | lia].
Qed.

Lemma x_plain : plain_store x_store /\ Forall manual_free x_roots /\ Forall counted x_roots /\
  Forall (fun xo => counted (snd (snd xo))) x_store.
Proof.
  unfold plain_store, x_store, x_roots. repeat split; each; cbn [fst snd]; cbn; unfold counted_elems; cbn;
    repeat split; auto; each; auto; try discriminate; intros; each; auto.
Qed.

Lemma x_reachable x : store_reachable x_store x_roots x -> x = 1 \/ x = 2 \/ x = 3.
Proof.
  induction 1 as [r x Hr Hx|y i w x Hy IH Ho Hx].
  - destruct Hr as [<-|[<-|[<-|[<-|[]]]]]; cbn in Hx; intuition auto.
  - destruct IH as [-> | [-> | ->]]; cbn [x_store find_obj N.eqb Pos.eqb] in Ho; inversion Ho; subst; cbn in Hx; intuition auto.
Qed.
Lemma x_no_dangling : no_dangling x_store x_roots.
Proof. intros x Hx. apply x_reachable in Hx as [-> | [-> | ->]]; eexists; reflexivity. Qed.

Lemma counted_map_free v : counted v -> map_free v.
Proof.
  induction v as [s cs IH] using value_induction. intros H. apply counted_inv in H as [H1 H2].
  cbn [map_free]. split; [destruct s; auto|]. clear H1. revert IH H2. induction cs as [|c cs IHcs]; cbn; [auto|].
  intros IH H2. inversion IH; inversion H2; subst. auto.
Qed.

Lemma visit_in_mode m m' n h v : typed_store h -> typed v -> visit_in m n h v = visit_in m' n h v.
Proof. intros Hh Hv. rewrite !visit_in_link by auto. now rewrite (items_in_mode m m' Hv), (heap_of_mode m m' Hh). Qed.

Lemma map_visit_in_mode m m' n h roots : typed_store h -> Forall typed roots ->
  map (visit_in m n h) roots = map (visit_in m' n h) roots.
Proof. intros Hh Hr. apply map_ext_in. intros v Hv. rewrite Forall_forall in Hr. apply visit_in_mode; auto. Qed.

Lemma visit_in_keys m n h roots : typed_store h -> Forall typed roots ->
  Forall (keys_in made_by_new) (map (visit_in m n h) roots).
Proof.
  intros Hh Hr. rewrite map_visit_in by auto. apply link_keys_all; [now apply heap_of_keys|].
  rewrite Forall_map. eapply Forall_impl; [|exact Hr]. intros v. apply items_in_keys.
Qed.

Lemma vseq_assoc p q r : vseq (vseq p q) r = vseq p (vseq q r).
Proof. induction p; cbn; congruence. Qed.

Lemma pairs_fields (cs : list sub) : v_generic_map_fields (pair_up cs) =
  VInline DATA_NAME ptr_size (fields_kv KEY_NAME VALUE_NAME cs) VRet.
Proof.
  unfold v_generic_map_fields, v_field_with. f_equal.
  induction cs as [|c|k v cs IH] using pair_ind; try reflexivity.
  cbn [pair_up map vseqs fields_kv fst snd]. rewrite IH, vseq_assoc. reflexivity.
Qed.

Lemma size_of_tame m pt p : tame pt p -> size_of_unique_allocated_data m p = wrapped m (unique_bytes p NKRoot).
Proof.
  assert (Hcf : tame pt p -> crash_free (forget_shared p) /\ forall nk, unique_bytes (forget_shared p) nk = unique_bytes p nk).
  { induction p as [| |k s b IHb r IHr|k s b IHb r IHr|k s x b IHb r1 IH1 r2 IH2]; cbn [tame forget_shared crash_free unique_bytes]; intros H.
    - auto.
    - destruct H.
    - destruct IHb as [B1 B2]; [tauto|]. destruct IHr as [R1 R2]; [tauto|]. split; [auto|]. intros nk. now rewrite B2, R2.
    - destruct IHb as [B1 B2]; [tauto|]. destruct IHr as [R1 R2]; [tauto|]. split; [auto|]. intros nk. now rewrite B2, R2.
    - destruct H as (_ & _ & <- & H). apply IH2, H. }
  intros Ht. destruct (Hcf Ht) as [H1 H2]. rewrite C19_shared_irrelevant, C19_sum by exact H1. now rewrite H2.
Qed.

Lemma size_of_value m pt v : typed v -> counted v -> owned_bytes v < two64 ->
  size_of_unique_allocated_data m (visit m pt v) = Some (owned_bytes v).
Proof.
  intros Ht Hc Hb. rewrite (@size_of_tame m pt) by now apply tame_visit. rewrite (@ub_visit m pt v Ht Hc).
  unfold shown_size. cbn [is_NKUnique andb]. rewrite N.add_0_l. now apply wrapped_small.
Qed.

(** ** C33: [size_of_unique_allocated_data] of any value.

    [owned_bytes] (ImplSpec) is the number of bytes in the heap blocks the value
    owns, computed from lengths, capacities and sizes only.  [pt] is arbitrary:
    what is behind shared pointers does not matter. *)
Theorem C33_owned_bytes : forall m pt v, typed v -> counted v -> owned_bytes v < two64 ->
  size_of_unique_allocated_data m (visit m pt v) = Some (owned_bytes v).
Proof. exact size_of_value. Qed.
Print Assumptions C33_owned_bytes.

Theorem C33_with_self : forall m pt v, typed v -> counted v -> size_of_val v + owned_bytes v < two64 ->
  size_of_unique m (size_of_val v) (visit m pt v) = Some (size_of_val v + owned_bytes v).
Proof.
  intros m pt v Ht Hc Hb. unfold size_of_unique. rewrite C33_owned_bytes by (auto; lia). cbn [obind].
  now apply uadd_exact.
Qed.
Print Assumptions C33_with_self.

Example C33_satisfiable : typed (x_node true 2 2 3) /\ counted (x_node true 2 2 3) /\
  owned_bytes (x_node true 2 2 3) = 4 * 24 + (8 + 0 + 5) + 8.
Proof.
  split; [apply x_node_typed|]. split; [|reflexivity].
  cbn; unfold counted_elems; cbn; repeat split; auto; each; auto; try discriminate; intros; each; auto.
Qed.

(** The side condition [counted] is needed.  [Box<&'static u64>]: the 8-byte
    block is not seen. *)
Definition t_static := mkT "&u64" 8 false.
Definition x_box_static : value := Node (SBox (mkT "alloc::boxed::Box<&u64>" 8 true) 8) [Node (SSilent t_static) []].
Theorem C33_silent_refuted : exists v, typed v /\ map_free v /\ manual_free v /\ owned_bytes v = 8 /\
  forall m pt, size_of_unique_allocated_data m (visit m pt v) = Some 0.
Proof.
  exists x_box_static. split; [|cbn; repeat split].
  - constructor; [|repeat constructor]. cbn. unfold ptr_size. split; [eauto|]. repeat split; lia.
Qed.
Print Assumptions C33_silent_refuted.

(** [Vec<ManuallyDrop<Box<u64>>>]: elements without drop glue are not looked
    into, while the same element outside a vector is. *)
Definition x_manual : value := Node (SManuallyDrop (mkT "core::mem::ManuallyDrop<Box<u64>>" 8 false)) [x_box].
Definition x_vec_manual : value :=
  Node (SVec (mkT "alloc::vec::Vec<ManuallyDrop<Box<u64>>>" 24 true) (mkT "core::mem::ManuallyDrop<Box<u64>>" 8 false) 1) [x_manual].
Theorem C33_manual_refuted : exists v w, typed v /\ typed w /\ map_free v /\ owned_bytes v = 16 /\ owned_bytes w = 8 /\
  (forall m pt, size_of_unique_allocated_data m (visit m pt v) = Some 8) /\
  (forall m pt, size_of_unique_allocated_data m (visit m pt w) = Some 8) /\ exists t e, v = Node (SVec t e 1) [w].
Proof.
  assert (Hb : typed x_box).
  { constructor; [|repeat constructor]. cbn. unfold ptr_size. split; [eauto|]. repeat split; lia. }
  assert (Hw : typed x_manual) by (constructor; [cbn; lia | each; exact Hb]).
  exists x_vec_manual, x_manual. split; [|split; [exact Hw|]].
  - constructor; [|each; exact Hw]. cbn [shape_ok]. unfold owner, elems, buffer, ptr_size. cbn. rewrite two64_val, two63_val.
    repeat split; try lia. each. cbn. split; [reflexivity | discriminate].
  - split; [cbn; tauto|]. split; [reflexivity|]. split; [reflexivity|]. split; [|split].
    + intros m pt. destruct m; vm_compute; reflexivity.
    + intros m pt. destruct m; vm_compute; reflexivity.
    + do 2 eexists. reflexivity.
Qed.
Print Assumptions C33_manual_refuted.

(** ** C32: capacity accounting of vector-like containers. *)
Theorem C32_capacity : forall m pt s e cap cs, vec_like e cap s -> typed (Node s cs) -> counted (Node s cs) ->
  cap * t_size e + sumN (map owned_bytes cs) < two64 ->
  size_of_unique_allocated_data m (visit m pt (Node s cs)) = Some (cap * t_size e + sumN (map owned_bytes cs)).
Proof. intros m pt s e cap cs Hv Ht Hc Hb. rewrite C33_owned_bytes; auto; destruct Hv; cbn [owned_bytes own_block available] in *; auto. Qed.
Print Assumptions C32_capacity.

Theorem C32_text_capacity : forall m pt s cap,
  (exists t n, s = SString t n cap) \/ (exists t n, s = SPathBuf t n cap) \/ (exists t n, s = SCompactString t (Some (n, cap))) ->
  typed (Node s []) -> size_of_unique_allocated_data m (visit m pt (Node s [])) = Some cap.
Proof.
  intros m pt s cap Hs Ht.
  assert (Hb : owned_bytes (Node s []) = cap /\ cap < two64 /\ counted (Node s [])).
  { pose proof two63_lt_two64. apply typed_inv in Ht as [Hok _].
    destruct Hs as [(t & n & ->)|[(t & n & ->)|(t & n & ->)]]; cbn in *; (split; [lia|]; split; [lia | auto]). }
  destruct Hb as (H1 & H2 & H3). rewrite C33_owned_bytes; auto; now rewrite H1.
Qed.
Print Assumptions C32_text_capacity.

(** Everything a [Vec] or [Slab] of elements without drop glue records: itself, the
    pointer, the elements in use and the unused capacity; only itself when it
    has no buffer. *)
Theorem C32_events : forall m pt s t e cap cs, s = SVec t e cap \/ s = SSlab t e cap -> typed (Node s cs) ->
  (t_drop e = false -> cap <> 0 -> t_size e <> 0 ->
   let here := [t_name t] in
   root_events [visit m pt (Node s cs)] =
   [mkEv here NKInline NKRoot (t_size t);
    mkEv (here ++ ["ptr"%string]) NKUnique NKInline 8;
    mkEv (here ++ ["ptr"%string; t_name e]) NKInline NKUnique (t_size e * len cs);
    mkEv (here ++ ["ptr"%string; "unused_capacity"%string]) NKInline NKUnique ((cap - len cs) * t_size e)]) /\
  (cap = 0 \/ t_size e = 0 ->
   root_events [visit m pt (Node s cs)] = [mkEv [t_name t] NKInline NKRoot (t_size t)]).
Proof.
  intros m pt s t e cap cs Hs Ht. apply typed_inv in Ht as [Hok Hcs].
  assert (Hb : buffer e (len cs) cap /\ t_size e * len cs < two64).
  { destruct Hs as [-> | ->]; cbn [shape_ok] in Hok; split; try tauto; eapply buffer_len; apply Hok. }
  destruct Hb as [Hb Hl].
  assert (Ev : visit m pt (Node s cs) =
    enter_self t (if negb (cap =? 0) && negb (t_size e =? 0) then
       VUnique PTR_NAME ptr_size
         (vseq (v_iter m (t_name e) (t_size e) (t_drop e) (map snd (subs_of m pt cs)))
               (v_simple UNUSED_CAPACITY_NAME ((cap - len cs) * t_size e))) VRet else VRet)).
  { rewrite visit_node, <- (unused_resolved m Hb), <- (len_subs m pt cs). destruct Hs as [-> | ->]; reflexivity. }
  rewrite Ev, v_iter_resolved, len_subs by (now rewrite len_subs). split.
  - intros Hd Hc Hz here. rewrite (proj2 (N.eqb_neq _ _) Hc), (proj2 (N.eqb_neq _ _) Hz), Hd. cbn [negb andb orb vseq v_simple].
    unfold root_events. cbn [trace_roots trace enter_self v_enter_self v_simple fst app ev_path].
    unfold key_for_type_name, PTR_NAME, UNUSED_CAPACITY_NAME. rewrite !key_str_new. reflexivity.
  - intros Hz. assert (E : negb (cap =? 0) && negb (t_size e =? 0) = false).
    { destruct Hz as [-> | Hz]; [reflexivity|]. rewrite Hz, andb_comm. reflexivity. }
    rewrite E. unfold root_events. cbn [trace_roots trace enter_self v_enter_self fst app].
    unfold key_for_type_name. rewrite key_str_new. reflexivity.
Qed.
Print Assumptions C32_events.

(** The whole flame graph of a [Vec] of elements without drop glue, as text. *)
Example C32_satisfiable : typed (Node (SVec t_vec_u64 t_u64 4) [x_u64; x_u64; x_u64]) /\
  option_map (fun o => fg_write (out_flamegraph o)) (profile Debug [visit Debug nowhere (Node (SVec t_vec_u64 t_u64 4) [x_u64; x_u64; x_u64])]) =
  Some (concat_str (map (fun s => (s ++ newline)%string)
    ["alloc::vec::Vec<u64> 16"; "alloc::vec::Vec<u64>;ptr 8"; "alloc::vec::Vec<u64>;ptr;u64 24"; "alloc::vec::Vec<u64>;ptr;unused_capacity 8"]%string)).
Proof.
  split; [|vm_compute; reflexivity]. constructor.
  - cbn [shape_ok]. unfold owner, elems, buffer, ptr_size. cbn. rewrite two64_val, two63_val. repeat split; try lia. each; cbn; auto.
  - each; repeat constructor.
Qed.

(** ** C34: map and set entries.

    The claim "entries of hash and B-tree maps and sets are counted" is false:
    only what the entries own is. *)
Theorem C34_entries_ignored : forall m pt s t cs, s = SMap t \/ s = SSet t -> typed (Node s cs) -> Forall counted cs ->
  sumN (map owned_bytes cs) < two64 ->
  size_of_unique_allocated_data m (visit m pt (Node s cs)) = Some (sumN (map owned_bytes cs)).
Proof.
  intros m pt s t cs Hs Ht Hc Hb. rewrite (@size_of_tame m pt) by now apply tame_visit.
  apply typed_inv in Ht as [Hok Hcs].
  assert (Hg : Forall (good m pt) cs).
  { rewrite Forall_forall in *. intros c Hin. split; [auto | apply ub_visit; auto]. }
  rewrite visit_node.
  assert (E : unique_bytes (visit_shape m pt s (subs_of m pt cs)) NKRoot = sumN (map owned_bytes cs)).
  { destruct Hs as [-> | ->]; cbn [visit_shape shape_ok] in *.
    - unfold impl_map. rewrite pairs_fields, ub_self, ub_inline, (ub_fields_kv (m:=m) (pt:=pt)) by (auto with tame; tauto). reflexivity.
    - unfold impl_set. change (v_generic_set_fields (subs_of m pt cs)) with (VInline DATA_NAME ptr_size (fields_named KEY_NAME (subs_of m pt cs)) VRet).
      rewrite ub_self, ub_inline, (ub_fields_named (m:=m) (pt:=pt)) by auto with tame. reflexivity. }
  rewrite E. now apply wrapped_small.
Qed.
Print Assumptions C34_entries_ignored.

Definition x_map_string : value := Node (SMap (mkT "std::collections::hash::map::HashMap<u64, alloc::string::String>" 48 true)) [x_u64; x_string 3 8; x_u64; x_string 0 0].
Example C34_satisfiable : typed x_map_string /\ Forall counted [x_u64; x_string 3 8; x_u64; x_string 0 0] /\
  sumN (map owned_bytes [x_u64; x_string 3 8; x_u64; x_string 0 0]) = 8.
Proof.
  split; [|split; [repeat constructor | vm_compute; reflexivity]]. constructor.
  - cbn [shape_ok]. unfold owner, ptr_size. cbn [t_size t_drop]. split; [split; [lia | reflexivity]|]. cbn. auto.
  - assert (two63 = 2 ^ 63) by reflexivity. apply Forall_cons; [repeat constructor|]. apply Forall_cons; [apply x_string_typed; lia|].
    apply Forall_cons; [repeat constructor|]. apply Forall_cons; [apply x_string_typed; lia | constructor].
Qed.

Definition t_hash_map := mkT "std::collections::hash::map::HashMap<u64, u64>" 48 true.
Fixpoint u64s (n : nat) : list value := match n with O => [] | S n' => x_u64 :: x_u64 :: u64s n' end.
Definition x_map (n : nat) : value := Node (SMap t_hash_map) (u64s n).
Lemma x_map_typed n : typed (x_map n).
Proof.
  constructor.
  - cbn [shape_ok]. unfold owner, ptr_size. cbn [t_size t_drop t_hash_map]. split; [split; [lia | reflexivity]|].
    induction n; cbn; auto.
  - induction n; cbn [u64s]; [constructor|]. constructor; [|constructor; [|exact IHn]]; repeat constructor.
Qed.

(** A [HashMap<u64, u64>] of any size is reported to own nothing, and from one entry
    on its flame graph comes with a warning. *)
Theorem C34_counted_refuted : forall n, exists v, v = x_map n /\ typed v /\ manual_free v /\ owned_bytes v = 16 * N.of_nat n /\
  (forall m pt, size_of_unique_allocated_data m (visit m pt v) = Some 0).
Proof.
  intros n. exists (x_map n). split; [reflexivity|]. split; [apply x_map_typed|].
  assert (Hz : sumN (map owned_bytes (u64s n)) = 0) by (induction n; cbn; auto).
  assert (Hm : fold_right and True (map manual_free (u64s n)) /\ Forall counted (u64s n)).
  { induction n as [|n IH]; cbn [u64s map fold_right]; [split; [exact I | constructor]|].
    destruct IH as [IH1 IH2]; [cbn in Hz; lia|]. split; [cbn; tauto|]. constructor; [cbn; auto|]. constructor; [cbn; auto | exact IH2]. }
  split; [split; [exact I | apply Hm]|]. split.
  - unfold x_map. rewrite owned_node. cbn [own_block available]. rewrite Hz, N.add_0_r. clear.
    induction n as [|n IH]; [reflexivity|]. cbn [u64s map sumN]. rewrite IH. change (size_of_val x_u64) with 8. lia.
  - intros m pt. unfold x_map. rewrite (@C34_entries_ignored m pt _ t_hash_map); [now rewrite Hz | now left | apply x_map_typed | apply Hm|].
    rewrite Hz. apply two64_pos.
Qed.
Print Assumptions C34_counted_refuted.

Theorem C34_warning_refuted : exists v o, typed v /\ (forall m, profile m [visit m nowhere v] = Some o) /\
  out_warnings o = ("Incorrect size declaration for node `std::collections::hash::map::HashMap<u64, u64>;data`, " ++
    "size of self: 8, size of inline children: 16" ++ newline)%string.
Proof.
  exists (x_map 1). give_profile [visit Debug nowhere (x_map 1)]. split; [apply x_map_typed|].
  split; [intros m; destruct m; vm_compute; reflexivity | vm_compute; reflexivity].
Qed.
Print Assumptions C34_warning_refuted.

(** ** C35: no warnings for well-typed values without map entries. *)
Theorem C35_no_warnings : forall n h roots, typed_store h -> Forall typed roots ->
  Forall (fun xo => map_free (snd (snd xo))) h -> Forall map_free roots ->
  total_declared (root_events (map (visit_in Debug n h) roots)) < two63 ->
  exists o, forall m, profile m (map (visit_in m n h) roots) = Some o /\ out_warnings o = EmptyString.
Proof.
  intros n h roots Hh Hr Hmh Hmr Ht.
  assert (Hd : Forall well_declared (map (visit_in Debug n h) roots)).
  { rewrite Forall_map. rewrite Forall_forall in *. intros v Hv. apply visit_in_declared; auto. now rewrite Forall_forall. }
  destruct (C17_conservation_lemma (@visit_in_keys Debug n h roots Hh Hr) Hd Ht) as (o & k & H1 & H2 & _).
  exists o. intros m. rewrite (@map_visit_in_mode m Debug) by auto. auto.
Qed.
Print Assumptions C35_no_warnings.

Example C35_satisfiable : typed_store x_store /\ Forall typed x_roots /\
  Forall (fun xo => map_free (snd (snd xo))) x_store /\ Forall map_free x_roots /\
  total_declared (root_events (map (visit_in Debug 3 x_store) x_roots)) < two63.
Proof.
  split; [apply x_store_typed|]. split; [apply x_roots_typed|]. destruct x_plain as (_ & _ & H1 & H2).
  split; [eapply Forall_impl; [|exact H2]; intros a; apply counted_map_free|].
  split; [eapply Forall_impl; [|exact H1]; intros a; apply counted_map_free | vm_compute; reflexivity].
Qed.

(** ** C36: contents that are not available. *)

(** A locked, borrowed or empty cell records its own size and nothing else. *)
Theorem C36_own_size_only : forall m pt s t cs, s = SCell t false \/ s = SOnce t false ->
  root_events [visit m pt (Node s cs)] = [mkEv [t_name t] NKInline NKRoot (t_size t)] /\
  size_of_unique_allocated_data m (visit m pt (Node s cs)) = Some 0.
Proof.
  intros m pt s t cs Hs. destruct Hs as [-> | ->]; (split; [|reflexivity]);
    unfold root_events; cbn [trace_roots trace visit visit_shape impl_cell impl_once enter_self v_enter_self fst app];
    unfold key_for_type_name; rewrite key_str_new; reflexivity.
Qed.
Print Assumptions C36_own_size_only.

(** At any depth: what is visited does not depend on unavailable contents. *)
Theorem C36_contents_irrelevant : forall m n h v v', same_visible v v' ->
  visit_in m n h v = visit_in m n h v' /\ owned_bytes v = owned_bytes v' /\ size_of_val v = size_of_val v'.
Proof.
  intros m n h.
  assert (H : forall v v', same_visible v v' -> (forall pt, visit m pt v = visit m pt v') /\ owned_bytes v = owned_bytes v' /\ size_of_val v = size_of_val v').
  { fix go 3. intros v v' [s cs cs' Hs|s cs cs' Hcs].
    - destruct s; try discriminate; cbn in Hs; subst; repeat split; reflexivity.
    - assert (Hl : Forall2 (fun v v' => (forall pt, visit m pt v = visit m pt v') /\ owned_bytes v = owned_bytes v' /\ size_of_val v = size_of_val v') cs cs').
      { clear - go Hcs. induction Hcs as [|a b l l' Hab Hl IH]; constructor; [apply go, Hab | exact IH]. }
      clear go Hcs.
      assert (E : (forall pt, subs_of m pt cs = subs_of m pt cs') /\ map owned_bytes cs = map owned_bytes cs' /\
        map size_of_val cs = map size_of_val cs' /\ len cs = len cs').
      { induction Hl as [|a b l l' (H1 & H2 & H3) _ (IH0 & IH1 & IH2 & IH3)]; [auto|]. unfold subs_of in *. cbn [map].
        repeat split; try congruence.
        - intros pt. now rewrite H1, H3, IH0.
        - unfold len in *. cbn [length]. rewrite !Nat2N.inj_succ. congruence. }
      destruct E as (E0 & E1 & E2 & E3). repeat split.
      + intros pt. now rewrite !visit_node, E0.
      + rewrite !owned_node, E1. f_equal. destruct s; cbn [own_block]; now rewrite ?E2, ?E3.
      + destruct s; cbn [size_of_val]; now rewrite ?E3. }
  intros v v' Hv. destruct (H v v' Hv) as (H1 & H2 & H3). split; [|auto]. destruct n; cbn [visit_in]; apply H1.
Qed.
Print Assumptions C36_contents_irrelevant.

Example C36_satisfiable : same_visible (x_node false 1 2 3) (x_node false 9 2 3) /\
  ~ same_visible (x_node true 1 2 3) (x_node true 9 2 3).
Proof.
  assert (Hr : forall v, same_visible v v).
  { induction v as [s cs IH] using value_induction. apply sv_node. induction IH; constructor; auto. }
  split.
  - apply sv_node. repeat (apply Forall2_cons; [first [apply sv_hidden; reflexivity | apply Hr]|]). constructor.
  - intros H. destruct (@C36_contents_irrelevant Debug 0%nat [] _ _ H) as [E _].
    apply (f_equal pointers) in E. vm_compute in E. discriminate.
Qed.

(** ** C37: weak pointers. *)
Theorem C37_dead : forall m pt t, root_events [visit m pt (Node (SWeak t None) [])] = [mkEv [t_name t] NKInline NKRoot (t_size t)].
Proof.
  intros m pt t. unfold root_events. cbn [trace_roots trace visit visit_shape impl_weak enter_self v_enter_self fst app].
  unfold key_for_type_name. rewrite key_str_new. reflexivity.
Qed.
Print Assumptions C37_dead.

(** A live weak pointer: its own size, then what visiting the strong pointer records. *)
Theorem C37_live : forall m pt t t' ps x,
  visit m pt (Node (SWeak t (Some (t', ps, x))) []) =
  VInline (key_for_type_name (t_name t)) (t_size t) (visit m pt (Node (SShared t' ps x) [])) VRet.
Proof. reflexivity. Qed.
Print Assumptions C37_live.

(** Whichever pointer to an allocation is met first, weak or strong, the output is the same. *)
Theorem C37_order_irrelevant : forall m n h roots roots', typed_store h -> plain_store h -> Forall typed roots -> Forall manual_free roots ->
  no_dangling h roots -> (length h <= n)%nat -> Permutation roots roots' ->
  total_declared (root_events (map (visit_in Debug n h) roots)) < two63 ->
  option_map (observe_output m) (profile m (map (visit_in m n h) roots)) =
  option_map (observe_output m) (profile m (map (visit_in m n h) roots')).
Proof.
  intros m n h roots roots' Hh Hp Hr Hm Hd Hn Hperm Ht.
  assert (Hr' : Forall typed roots') by (eapply Permutation_Forall; eauto).
  rewrite !(@map_visit_in_mode m Debug) by auto. rewrite !map_visit_in in * by auto.
  assert (K : forall l, Forall typed l -> Forall (Forall (item_keys_in made_by_new)) (map (items_in Debug) l)).
  { intros l Hl. rewrite Forall_map. eapply Forall_impl; [|exact Hl]. intros v. apply items_in_keys. }
  apply C16_order_irrelevant; auto using heap_of_keys; try (rewrite heap_of_length; exact Hn).
  - apply closed_store; auto.
  - intros x. destruct (deref (heap_of Debug h) x); [apply same_fields_refl | exact I].
  - exists (map (items_in Debug) roots'). split; [now apply Permutation_map|].
    clear. induction roots'; cbn; constructor; auto. apply same_fields_refl.
Qed.
Print Assumptions C37_order_irrelevant.

Example C37_satisfiable : typed_store x_store /\ plain_store x_store /\ Forall typed x_roots /\ Forall manual_free x_roots /\
  no_dangling x_store x_roots /\ Permutation x_roots [x_weak true 2; x_vec_string; x_arc 1; x_weak false 7] /\
  total_declared (root_events (map (visit_in Debug 3 x_store) x_roots)) < two63.
Proof.
  split; [apply x_store_typed|]. destruct x_plain as (H1 & H2 & _). split; [exact H1|]. split; [apply x_roots_typed|].
  split; [exact H2|]. split; [apply x_no_dangling|]. split; [|vm_compute; reflexivity].
  unfold x_roots. etransitivity; [apply perm_swap|]. apply perm_skip.
  etransitivity; [|apply perm_swap]. apply perm_skip. apply perm_swap.
Qed.

(** ** C43: visiting Rust values with shared parts terminates and visits every
    reachable allocation exactly once. *)
Theorem C43_each_allocation_once : forall n h roots, typed_store h -> plain_store h -> Forall typed roots -> Forall manual_free roots ->
  no_dangling h roots -> (length h <= n)%nat ->
  total_declared (root_events (map (visit_in Debug n h) roots)) < two63 ->
  exists b, (forall m, visit_roots m (map (visit_in m n h) roots) b_default = (b, Done)) /\
    NoDup (b_visited b) /\ forall x, In x (b_visited b) <-> store_reachable h roots x.
Proof.
  intros n h roots Hh Hp Hr Hm Hd Hn Ht. rewrite map_visit_in in Ht by auto.
  destruct (@C15_exactly_once n (heap_of Debug h) (map (items_in Debug) roots)) as (b & H1 & H2 & H3 & _).
  - now apply closed_store.
  - now rewrite heap_of_length.
  - exact Ht.
  - exists b. split; [|split; [exact H2|]].
    + intros m. rewrite (@map_visit_in_mode m Debug), map_visit_in by auto. apply H1.
    + intros x. rewrite H3. now apply reachable_store.
Qed.
Print Assumptions C43_each_allocation_once.

(** How deep the recursion may go is not observable. *)
Theorem C43_depth_irrelevant : forall m n n' h roots, typed_store h -> plain_store h -> Forall typed roots -> Forall manual_free roots ->
  no_dangling h roots -> (length h <= n)%nat -> (length h <= n')%nat ->
  root_events (map (visit_in m n h) roots) = root_events (map (visit_in m n' h) roots).
Proof.
  intros m n n' h roots Hh Hp Hr Hm Hd Hn Hn'. rewrite !map_visit_in by auto.
  apply C15_depth_irrelevant; rewrite ?heap_of_length; auto. now apply closed_store.
Qed.
Print Assumptions C43_depth_irrelevant.

Example C43_satisfiable : store_reachable x_store x_roots 3 /\ length x_store = 3%nat /\
  option_map (fun o => fg_total_size Debug (out_flamegraph o)) (profile Debug (map (visit_in Debug 3 x_store) x_roots)) <> None.
Proof.
  split; [|split; [reflexivity | vm_compute; discriminate]].
  eapply (@sr_step _ _ 1); [eapply sr_root; [left; reflexivity | cbn; auto] | reflexivity | cbn; auto].
Qed.

(** ** C44: the flame graph accounts for every byte exactly once. *)
Theorem C44_total_bytes : forall n h roots (alloc : ptr -> N),
  typed_store h -> plain_store h -> Forall (fun xo => counted (snd (snd xo)) /\ inner_exact (fst (snd xo)) (snd (snd xo))) h ->
  Forall typed roots -> Forall manual_free roots -> Forall counted roots -> Forall (fun r => silent r = false) roots ->
  no_dangling h roots -> (length h <= n)%nat ->
  (forall x i w, find_obj h x = Some (i, w) -> alloc_size i w (alloc x)) ->
  unmixed (root_events (map (visit_in Debug n h) roots)) ->
  total_declared (root_events (map (visit_in Debug n h) roots)) < two63 ->
  exists o xs, NoDup xs /\ (forall x, In x xs <-> store_reachable h roots x) /\
    forall m, profile m (map (visit_in m n h) roots) = Some o /\ out_warnings o = EmptyString /\
      fg_total_size m (out_flamegraph o) =
      Some (sumN (map (fun r => size_of_val r + owned_bytes r) roots) +
            sumN (map (fun x => alloc x + match find_obj h x with Some (_, w) => owned_bytes w | None => 0 end) xs)).
Proof.
  intros n h roots alloc Hh Hp Hch Hr Hm Hc Hs Hd Hn Ha Hu Ht.
  assert (Hwd : Forall well_declared (map (visit_in Debug n h) roots)).
  { rewrite Forall_map. rewrite Forall_forall in *. intros v Hv. apply visit_in_declared; auto.
    - rewrite Forall_forall. intros xo Hxo. apply counted_map_free, Hch, Hxo.
    - apply counted_map_free; auto. }
  destruct (C17_conservation_lemma (@visit_in_keys Debug n h roots Hh Hr) Hwd Ht) as (o & k & H1 & H2 & H3 & _ & H5).
  specialize (H5 Hu).
  rewrite map_visit_in in Ht, H5 by auto.
  destruct (@C15_exactly_once n (heap_of Debug h) (map (items_in Debug) roots)) as (b & _ & G2 & G3 & G4);
    [now apply closed_store | now rewrite heap_of_length | exact Ht |].
  assert (Hx : forall x, In x (b_visited b) <-> store_reachable h roots x).
  { intros x. rewrite G3. now apply reachable_store. }
  exists o, (b_visited b). split; [exact G2|]. split; [exact Hx|].
  intros m. rewrite (@map_visit_in_mode m Debug) by auto. split; [apply H1|]. split; [exact H2|]. rewrite H3. f_equal.
  rewrite H5. assert (E : block_bytes (root_events (map (link n (heap_of Debug h)) (map (items_in Debug) roots))) =
    block_bytes (flat_map (fun r => own r [] NKRoot) (map (items_in Debug) roots) ++ flat_map (pointee_events (heap_of Debug h)) (b_visited b))).
  { unfold block_bytes. apply sumN_perm. apply Permutation_map, G4. }
  rewrite E, block_app. f_equal.
  - clear - Hr Hc Hs. induction roots as [|r roots IH]; [reflexivity|].
    inversion Hr; inversion Hc; inversion Hs; subst. cbn [map flat_map sumN]. rewrite block_app, IH by auto.
    rewrite block_value by auto. reflexivity.
  - assert (Hf : forall x, In x (b_visited b) -> exists o, find_obj h x = Some o) by (intros x Hin; apply Hd, Hx, Hin).
    clear - Hf Hh Hch Ha. induction (b_visited b) as [|x xs IH]; [reflexivity|]. cbn [map flat_map sumN].
    rewrite block_app, IH by (intros y Hy; apply Hf; now right). f_equal.
    destruct (Hf x (or_introl eq_refl)) as [[i w] E]. rewrite E. unfold pointee_events. rewrite deref_heap_of, E. cbn [option_map fst snd].
    destruct (find_obj_ok Hh E) as [Hi Hw]. rewrite Forall_forall in Hch. destruct (Hch _ (find_obj_in E)) as [Hcw Hex]. cbn [fst snd] in *.
    apply block_inner; auto.
Qed.
Print Assumptions C44_total_bytes.

(** Decision procedure for [unmixed]. *)
Definition unmixed_b (es : list (ev string)) : bool :=
  forallb (fun e => forallb (fun e' =>
    if list_eq_dec string_dec (ev_path e) (ev_path e') then Bool.eqb (is_NKUnique (ev_kind e)) (is_NKUnique (ev_kind e')) else true) es) es.
Lemma unmixed_b_sound es : unmixed_b es = true -> unmixed es.
Proof.
  unfold unmixed_b. rewrite forallb_forall. intros H e e' He He' E. specialize (H e He). rewrite forallb_forall in H.
  specialize (H e' He'). destruct (list_eq_dec string_dec (ev_path e) (ev_path e')); [|contradiction]. now apply eqb_prop.
Qed.

Definition x_alloc (x : ptr) : N := if x =? 3 then 24 else 88.
Lemma x_alloc_size x i w : find_obj x_store x = Some (i, w) -> alloc_size i w (x_alloc x).
Proof.
  assert (H8 : forall f a b c, alloc_size (InArc 8) (x_node f a b c) 88).
  { intros. cbn. split.
    - split; [exists 11; reflexivity|]. split; [exists 11; reflexivity|]. exists 16. cbn. repeat split; try lia. exists 2; reflexivity.
    - intros S' (_ & _ & o & H1 & _ & H2). cbn in H2. lia. }
  assert (H3 : alloc_size (InArc 1) (Node (SStr 5) []) 24).
  { cbn. split.
    - split; [exists 3; reflexivity|]. split; [exists 24; reflexivity|]. exists 16. cbn. repeat split; try lia. exists 16; reflexivity.
    - intros S' ([q ->] & _ & o & H1 & _ & H2). cbn in H2. lia. }
  unfold x_store, x_alloc. cbn [find_obj]. destruct (N.eqb_spec x 1) as [->|_]; [intros [= <- <-]; apply H8|].
  destruct (N.eqb_spec x 2) as [->|_]; [intros [= <- <-]; apply H8|].
  destruct (N.eqb_spec x 3) as [->|_]; [intros [= <- <-]; apply H3 | discriminate].
Qed.

Example C44_satisfiable : typed_store x_store /\ plain_store x_store /\
  Forall (fun xo => counted (snd (snd xo)) /\ inner_exact (fst (snd xo)) (snd (snd xo))) x_store /\
  Forall typed x_roots /\ Forall manual_free x_roots /\ Forall counted x_roots /\ Forall (fun r => silent r = false) x_roots /\
  no_dangling x_store x_roots /\ (forall x i w, find_obj x_store x = Some (i, w) -> alloc_size i w (x_alloc x)) /\
  unmixed (root_events (map (visit_in Debug 3 x_store) x_roots)) /\
  total_declared (root_events (map (visit_in Debug 3 x_store) x_roots)) < two63 /\
  option_map (fun o => fg_total_size Debug (out_flamegraph o)) (profile Debug (map (visit_in Debug 3 x_store) x_roots)) =
  Some (Some ((8 + 8 + 8 + (24 + 109)) + ((88 + 117) + (88 + 117) + 24))).
Proof.
  destruct x_plain as (H1 & H2 & H3 & H4). split; [apply x_store_typed|]. split; [exact H1|].
  split; [unfold x_store in *; inversion_clear H4 as [|? ? A1 A2]; inversion_clear A2 as [|? ? B1 B2]; inversion_clear B2 as [|? ? C1 C2];
          each; split; auto; exact I|].
  split; [apply x_roots_typed|]. split; [exact H2|]. split; [exact H3|]. split; [unfold x_roots; each; reflexivity|].
  split; [apply x_no_dangling|]. split; [apply x_alloc_size|].
  split; [apply unmixed_b_sound; vm_compute; reflexivity|]. split; vm_compute; reflexivity.
Qed.

(** The flame graph total of a value without shared parts is its [size_of_unique]. *)
Theorem C20_values_agree : forall v, typed v -> counted v -> manual_free v -> silent v = false -> value_refs v = [] ->
  unmixed (root_events [visit Debug nowhere v]) -> total_declared (root_events [visit Debug nowhere v]) < two63 ->
  size_of_val v + owned_bytes v < two64 ->
  exists o, forall m, profile m [visit m nowhere v] = Some o /\
    fg_total_size m (out_flamegraph o) = size_of_unique m (size_of_val v) (visit m nowhere v).
Proof.
  intros v Ht Hc Hm Hs Hr Hu Htot Hlt.
  assert (Hrt : forall m pt, retarget pt (visit m nowhere v) = visit m nowhere v).
  { intros m pt. pose proof (refs_visit m Ht Hm) as Hrefs. rewrite Hr in Hrefs. pose proof (@tame_visit m nowhere v Ht) as Htm.
    unfold items_in in Hrefs. revert Hrefs Htm. generalize (visit m nowhere v). clear.
    induction v as [| |k s b IHb r IHr|k s b IHb r IHr|k s x b IHb r1 IH1 r2 IH2]; cbn [items_of retarget tame]; intros H T; auto.
    - unfold refs in H. cbn [flat_map] in H. rewrite refs_scope in H. apply app_eq_nil in H as [A B]. rewrite IHb, IHr by tauto. reflexivity.
    - unfold refs in H. cbn [flat_map] in H. rewrite refs_scope in H. apply app_eq_nil in H as [A B]. rewrite IHb, IHr by tauto. reflexivity.
    - discriminate. }
  assert (Hin : forall m, visit_in m 0 [] v = visit m nowhere v).
  { intros m. cbn [visit_in]. now rewrite <- (@ret_visit m (fun _ => VCrash) nowhere), Hrt. }
  destruct (@C44_total_bytes 0%nat [] [v] (fun _ => 0)) as (o & xs & N1 & N2 & H); auto; try constructor; auto; try (now constructor).
  - intros x Hx. exfalso. induction Hx as [r x Hr' Hx|]; [|assumption]. destruct Hr' as [<-|[]]. rewrite Hr in Hx. destruct Hx.
  - discriminate.
  - cbn [map]. now rewrite Hin.
  - cbn [map]. now rewrite Hin.
  - exists o. intros m. destruct (H m) as (P1 & _ & P2). cbn [map] in P1. rewrite Hin in P1. split; [exact P1|].
    rewrite P2, C33_with_self by auto.
    assert (xs = []) as ->. { destruct xs as [|x xs]; [reflexivity|]. exfalso.
      assert (Hx : store_reachable [] [v] x) by (apply N2; now left). clear - Hx Hr.
      induction Hx as [r x Hr' Hx|]; [|assumption]. destruct Hr' as [<-|[]]. rewrite Hr in Hx. destruct Hx. }
    cbn [map sumN]. f_equal. lia.
Qed.
Print Assumptions C20_values_agree.

Example C20_values_satisfiable : typed x_vec_string /\ counted x_vec_string /\ value_refs x_vec_string = [] /\
  unmixed (root_events [visit Debug nowhere x_vec_string]) /\ total_declared (root_events [visit Debug nowhere x_vec_string]) < two63.
Proof.
  split; [apply x_vec_string_typed|]. split; [destruct x_plain as (_ & _ & H & _); now inversion_clear H as [|? ? _ A]; inversion_clear A as [|? ? _ B]; inversion_clear B as [|? ? _ C]; inversion_clear C|].
  split; [reflexivity|]. split; [apply unmixed_b_sound; vm_compute; reflexivity | vm_compute; reflexivity].
Qed.

(** ** C45: every implementation announces exactly the value's own size. *)
Theorem C45_announces_size : forall m pt v, silent v = false ->
  exists k b, visit m pt v = VInline k (size_of_val v) b VRet.
Proof. exact visit_scope. Qed.
Print Assumptions C45_announces_size.

Theorem C45_silent : forall m pt v, silent v = true -> visit m pt v = VRet.
Proof. exact visit_silent. Qed.
Print Assumptions C45_silent.

(** No implementation panics, and build mode does not matter, for well-typed values. *)
Theorem C45_no_panic : forall m m' pt v, typed v -> (forall x, crash_free (pt x)) ->
  crash_free (visit m pt v) /\ visit m pt v = visit m' pt v.
Proof.
  intros m m' pt v Ht Hpt. split; [|now apply visit_mode].
  pose proof (@tame_visit m pt v Ht) as H. revert H. generalize (visit m pt v). clear - Hpt.
  induction v as [| |k s b IHb r IHr|k s b IHb r IHr|k s x b IHb r1 IH1 r2 IH2]; cbn [tame crash_free]; intros H; try tauto.
  destruct H as (_ & -> & <- & H). auto.
Qed.
Print Assumptions C45_no_panic.

Example C45_satisfiable : typed (x_node true 2 2 3) /\ silent (x_node true 2 2 3) = false /\ size_of_val (x_node true 2 2 3) = 72 /\
  typed (Node (SSilent t_static) []) /\ silent (Node (SSilent t_static) []) = true /\ forall x : ptr, crash_free (nowhere x).
Proof.
  split; [apply x_node_typed|]. split; [reflexivity|]. split; [vm_compute; reflexivity|].
  split; [constructor; cbn; auto|]. split; [reflexivity|]. intros x. exact I.
Qed.

(** ** C40 at the level of the visitor: a bump arena records exactly its allocated bytes. *)
Theorem C40_recorded : forall m pt t allocated chunks, typed (Node (SBump t allocated chunks) []) ->
  root_events [visit m pt (Node (SBump t allocated chunks) [])] =
   [mkEv [t_name t] NKInline NKRoot (t_size t);
    mkEv [t_name t; "ptr"%string] NKUnique NKInline 8;
    mkEv [t_name t; "ptr"%string; "data"%string] NKInline NKUnique (sumN chunks);
    mkEv [t_name t; "ptr"%string; "unused_capacity"%string] NKInline NKUnique (allocated - sumN chunks)] /\
  size_of_unique_allocated_data m (visit m pt (Node (SBump t allocated chunks) [])) = Some allocated.
Proof.
  intros m pt t allocated chunks Ht. split.
  - apply typed_inv in Ht as [(_ & _ & H1 & H2) _]. pose proof two63_lt_two64.
    cbn [visit visit_shape map]. unfold impl_bump. rewrite C40_exact by lia.
    unfold root_events. cbn [trace_roots trace enter_self v_enter_self v_simple vseq fst app].
    unfold key_for_type_name, PTR_NAME, DATA_NAME, UNUSED_CAPACITY_NAME. rewrite !key_str_new. reflexivity.
  - pose proof (typed_inv Ht) as [(_ & _ & H1 & H2) _]. pose proof two63_lt_two64.
    rewrite C33_owned_bytes; [cbn; f_equal; lia | exact Ht | cbn; auto | cbn; lia].
Qed.
Print Assumptions C40_recorded.
