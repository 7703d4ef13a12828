(** * References and blocks of values. *)
From Coq Require Import Permutation.
From Verif Require Import Base BaseFacts KeyModel KeyFacts HMap FlameModel BuilderModel VisitorModel SizeOfModel Spec
  ConserveFacts MergeFacts HeapFacts HeapProps LayoutModel LayoutFacts PropertiesLayout ImplModel ImplSpec ImplFacts OwnedFacts StoreFacts.

#[local] Arguments key_new : simpl never.

(** ** Shared pointers met by a program *)
Definition prog_refs (p : vprog) : list ptr := refs (items_of p).

Lemma refs_inline k s b r : prog_refs (VInline k s b r) = prog_refs b ++ prog_refs r.
Proof. reflexivity. Qed.
Lemma refs_unique k s b r : prog_refs (VUnique k s b r) = prog_refs b ++ prog_refs r.
Proof. reflexivity. Qed.
Lemma refs_ret : prog_refs VRet = []. Proof. reflexivity. Qed.
Lemma refs_simple k s : prog_refs (v_simple k s) = []. Proof. reflexivity. Qed.
Lemma refs_self t b : prog_refs (enter_self t b) = prog_refs b.
Proof. unfold enter_self, v_enter_self. now rewrite refs_inline, app_nil_r. Qed.

Lemma refs_vseq pt p q : tame pt p -> prog_refs (vseq p q) = prog_refs p ++ prog_refs q.
Proof.
  unfold prog_refs.
  induction p as [| |k s b IHb r IHr|k s b IHb r IHr|k s x b IHb r1 IH1 r2 IH2]; cbn [tame vseq items_of]; intros H.
  - reflexivity.
  - destruct H.
  - unfold refs in *. cbn [flat_map]. rewrite IHr by tauto. now rewrite app_assoc.
  - unfold refs in *. cbn [flat_map]. rewrite IHr by tauto. now rewrite app_assoc.
  - destruct H as (_ & _ & <- & H). unfold refs in *. cbn [flat_map]. rewrite IH2 by exact H. now rewrite app_assoc.
Qed.

Section Refs.
  Variable m : mode.
  Definition refs_good (c : value) : Prop := typed c /\ prog_refs (visit m nowhere c) = value_refs c.

  Lemma refs_field k c : refs_good c -> prog_refs (field k (size_of_val c, visit m nowhere c)) = value_refs c.
  Proof. intros [_ H]. unfold field, v_field, v_field_with. rewrite refs_inline, app_nil_r. exact H. Qed.

  Lemma tame_field_of k c : made_by_new k -> refs_good c -> tame nowhere (field k (size_of_val c, visit m nowhere c)).
  Proof. intros Hk [H _]. apply tame_field; [exact Hk | now apply tame_visit]. Qed.

  Lemma refs_fields_named k cs : made_by_new k -> Forall refs_good cs ->
    prog_refs (fields_named k (subs_of m nowhere cs)) = flat_map value_refs cs.
  Proof.
    intros Hk. induction 1 as [|c cs Hc _ IH]; [reflexivity|]. unfold fields_named, subs_of in *. cbn [map vseqs flat_map].
    rewrite (@refs_vseq nowhere) by now apply tame_field_of. rewrite IH, refs_field by exact Hc. reflexivity.
  Qed.

  Lemma refs_fields names cs : length names = length cs -> Forall refs_good cs ->
    prog_refs (fields names (subs_of m nowhere cs)) = flat_map value_refs cs.
  Proof.
    intros Hl H. revert names Hl. induction H as [|c cs Hc _ IH]; intros [|n names] Hl; try discriminate; [reflexivity|].
    unfold subs_of in *. cbn [map fields flat_map]. rewrite (@refs_vseq nowhere) by (apply tame_field_of; auto with tame).
    rewrite IH, refs_field by auto. reflexivity.
  Qed.

  Lemma refs_fields_kv kk kv cs : made_by_new kk -> made_by_new kv -> even_length cs -> Forall refs_good cs ->
    prog_refs (fields_kv kk kv (subs_of m nowhere cs)) = flat_map value_refs cs.
  Proof.
    intros Hk Hv. induction cs as [|c|k v cs IH] using pair_ind; intros He H; [reflexivity | destruct He |].
    inversion H as [|? ? Ha H']; subst. inversion H' as [|? ? Hb H'']; subst.
    unfold subs_of in *. cbn [map fields_kv flat_map]. rewrite !(@refs_vseq nowhere) by now apply tame_field_of.
    rewrite IH, !refs_field by auto. reflexivity.
  Qed.

  Lemma refs_subs cs : Forall refs_good cs -> prog_refs (vseqs (map snd (subs_of m nowhere cs))) = flat_map value_refs cs.
  Proof.
    induction 1 as [|c cs [Hc Hr] _ IH]; [reflexivity|]. unfold subs_of in *. cbn [map vseqs flat_map snd].
    rewrite (@refs_vseq nowhere) by now apply tame_visit. now rewrite IH, Hr.
  Qed.

  Lemma refs_pairs cs : even_length cs -> Forall refs_good cs ->
    prog_refs (vseqs (map (fun kv : sub * sub => vseq (v_field KEY_NAME (fst (fst kv)) (snd (fst kv)))
       (v_field VALUE_NAME (fst (snd kv)) (snd (snd kv)))) (pair_up (subs_of m nowhere cs)))) = flat_map value_refs cs.
  Proof.
    induction cs as [|c|k v cs IH] using pair_ind; intros He H; [reflexivity | destruct He |].
    inversion H as [|? ? Ha H']; subst. inversion H' as [|? ? Hb H'']; subst.
    unfold subs_of in *. cbn [map pair_up vseqs flat_map fst snd].
    rewrite (@refs_vseq nowhere).
    2:{ apply tame_vseq; apply tame_inline; auto with tame; [apply tame_visit, Ha | apply tame_visit, Hb]. }
    rewrite (@refs_vseq nowhere) by (apply tame_inline; auto with tame; apply tame_visit, Ha).
    rewrite IH by auto. unfold v_field, v_field_with. rewrite !refs_inline, !refs_ret, !app_nil_r.
    destruct Ha as [_ ->], Hb as [_ ->]. now rewrite app_assoc.
  Qed.
End Refs.

(** Types that hold no shared pointers. *)
Lemma flat_map_nil {A B} (f : A -> list B) l : Forall (fun c => f c = []) l -> flat_map f l = [].
Proof. induction 1 as [|c l Hc _ IH]; [reflexivity|]. cbn. now rewrite Hc, IH. Qed.

Lemma refs_node s cs : value_refs (Node s cs) = node_refs s ++ (if available s then flat_map value_refs cs else []).
Proof. reflexivity. Qed.

Lemma no_drop_no_refs v : typed v -> manual_free v -> drop_of v = false -> value_refs v = [].
Proof.
  induction v as [s cs IH] using value_induction. intros Ht Hm Hd.
  apply typed_inv in Ht as [Hok Hcs]. apply manual_free_inv in Hm as [Hm1 Hm2]. rewrite refs_node.
  assert (Hc : forall t, t_drop t = false -> contained t cs -> flat_map value_refs cs = []).
  { intros t Ht [_ Hdr]. apply flat_map_nil. rewrite Forall_forall in *. intros c Hin. apply IH; auto.
    destruct (drop_of c) eqn:E; [|reflexivity]. rewrite (Hdr c Hin E) in Ht. discriminate. }
  destruct s; cbn [drop_of shape_info shape_ok node_refs available app] in *; unfold owner in *;
    try (decompose [and] Hok; congruence); try (subst cs; reflexivity).
  - destruct Hok as [-> _]; reflexivity.
  - destruct Hok as [-> _]; reflexivity.
  - apply flat_map_nil. unfold elems in Hok. rewrite Forall_forall in *. intros c Hin. apply IH; auto.
    destruct (drop_of c) eqn:E; [|reflexivity]. destruct (Hok c Hin) as [_ H]. rewrite (H E) in Hd. discriminate.
  - destruct Hok as [_ Hok]. exact (Hc t Hd Hok).
  - destruct variant as [[v names]|]; [|subst cs; reflexivity]. destruct Hok as [_ Hok]. exact (Hc t Hd Hok).
  - destruct Hm1.
  - destruct avail; [|reflexivity]. exact (Hc t Hd Hok).
  - destruct avail; [|reflexivity]. exact (Hc t Hd Hok).
Qed.

Lemma zero_sized_no_refs v : typed v -> size_of_val v = 0 -> value_refs v = [].
Proof.
  induction v as [s cs IH] using value_induction. intros Ht Hz.
  apply typed_inv in Ht as [Hok Hcs]. rewrite refs_node.
  assert (Hc : forall n, n = 0 -> sumN (map size_of_val cs) <= n -> flat_map value_refs cs = []).
  { intros n -> Hs. apply flat_map_nil. assert (Hz0 : sumN (map size_of_val cs) = 0) by lia. apply sum_zero_inv in Hz0.
    rewrite Forall_forall in *. intros c Hin. apply IH; auto. }
  destruct s; cbn [size_of_val shape_info shape_ok node_refs available app] in *; unfold owner, ptr_size in *;
    try (decompose [and] Hok; exfalso; lia); try (subst cs; reflexivity).
  - destruct Hok as [-> _]; reflexivity.
  - destruct Hok as [-> _]; reflexivity.
  - apply Hc with (n := 0); [reflexivity|]. rewrite (elems_sum Hok). lia.
  - destruct Hok as (_ & Hs & _). exact (Hc _ Hz Hs).
  - destruct variant as [[v names]|]; [|subst cs; reflexivity]. destruct Hok as (_ & Hs & _). exact (Hc _ Hz Hs).
  - exact (Hc _ Hz Hok).
  - destruct Hok as (Hs & _). destruct avail; [|reflexivity]. exact (Hc _ Hz Hs).
  - destruct Hok as (Hs & _). destruct avail; [|reflexivity]. exact (Hc _ Hz Hs).
Qed.

Lemma elems_no_refs e cs : elems e cs -> Forall typed cs -> Forall manual_free cs ->
  t_drop e = false \/ t_size e = 0 -> flat_map value_refs cs = [].
Proof.
  intros He Ht Hm H. apply flat_map_nil. unfold elems in He. rewrite Forall_forall in *. intros c Hin. destruct (He c Hin) as [Hs Hd].
  destruct H as [H|H].
  - apply no_drop_no_refs; auto. destruct (drop_of c) eqn:E; [rewrite Hd in H by reflexivity; discriminate | reflexivity].
  - apply zero_sized_no_refs; [auto | congruence].
Qed.

Lemma refs_iter m e cs : t_size e * len cs < two64 -> elems e cs -> Forall typed cs -> Forall manual_free cs -> Forall (refs_good m) cs ->
  prog_refs (v_iter m (t_name e) (t_size e) (t_drop e) (map snd (subs_of m nowhere cs))) = flat_map value_refs cs.
Proof.
  intros Hl He Ht Hm Hg. rewrite v_iter_resolved by (now rewrite len_subs).
  destruct (negb (t_drop e) || (t_size e =? 0)) eqn:E.
  - rewrite (elems_no_refs He Ht Hm); [reflexivity|].
    apply orb_true_iff in E as [E|E]; [left; now apply negb_true_iff | right; now apply N.eqb_eq].
  - now apply refs_subs.
Qed.

Lemma buffer_guard_refs e cs cap : elems e cs -> Forall typed cs -> Forall manual_free cs -> buffer e (len cs) cap ->
  (negb (cap =? 0) && negb (t_size e =? 0)) = false -> flat_map value_refs cs = [].
Proof.
  intros He Ht Hm Hb E. apply andb_false_iff in E as [E|E]; apply negb_false_iff, N.eqb_eq in E.
  - now rewrite (cap_zero_len Hb E).
  - eapply elems_no_refs; eauto.
Qed.

Theorem refs_visit m v : typed v -> manual_free v -> refs (items_in m v) = value_refs v.
Proof.
  change (refs (items_in m v)) with (prog_refs (visit m nowhere v)).
  induction v as [s cs IH] using value_induction. intros Ht Hmf.
  apply typed_inv in Ht as [Hok Hcs]. apply manual_free_inv in Hmf as [Hm1 Hm2].
  assert (Hg : Forall (refs_good m) cs).
  { rewrite Forall_forall in *. intros c Hin. split; [auto | apply IH; auto]. }
  assert (Hts : Forall (fun c => tame nowhere (snd c)) (subs_of m nowhere cs)).
  { unfold subs_of. rewrite Forall_map. cbn [snd]. eapply Forall_impl; [|exact Hcs]. intros c. apply tame_visit. }
  rewrite visit_node, refs_node.
  destruct s as [t|t|n|n|e|t names|t variant|t|t a|t a|t ps|t e cap|t e front cap|t n cap|t n cap|t h|t e cap|t e sp|t d
    |t e cap|t e cap|t|t e cap|t e cap|t e cap|t|t|t al ch|t ps x|t target];
    cbn [visit_shape shape_ok node_refs available app] in *.
  - subst cs. reflexivity.
  - subst cs. reflexivity.
  - destruct Hok as [-> _]. reflexivity.
  - destruct Hok as [-> _]. reflexivity.
  - unfold impl_slice. rewrite refs_inline, refs_ret, app_nil_r. apply refs_fields_named; auto with tame.
  - unfold impl_struct. rewrite refs_self. apply refs_fields; tauto.
  - unfold impl_enum. rewrite refs_self. destruct variant as [[v names]|]; [|subst cs; reflexivity].
    rewrite refs_inline, refs_ret, app_nil_r. apply refs_fields; tauto.
  - destruct Hm1.
  - unfold impl_cell. rewrite refs_self. destruct a; [|reflexivity]. apply refs_fields_named; auto with tame.
  - unfold impl_once. rewrite refs_self. destruct a; [|reflexivity]. apply refs_subs; auto.
  - unfold impl_box. rewrite refs_self, refs_unique, refs_ret, app_nil_r. apply refs_subs; auto.
  - destruct Hok as (Ho & He & Hb). unfold impl_vec. rewrite refs_self. destruct (_ && _) eqn:E.
    + pose proof (buffer_len Hb) as Hl. rewrite refs_unique, refs_ret, app_nil_r. unfold v_slice.
      rewrite (@refs_vseq nowhere) by (apply tame_iter_of; auto).
      rewrite refs_iter by auto. rewrite len_subs, unused_resolved, refs_simple, app_nil_r by exact Hb. reflexivity.
    + now rewrite (buffer_guard_refs He Hcs Hm2 Hb E).
  - destruct Hok as (Ho & He & Hb). unfold impl_vec_deque. rewrite refs_self. destruct (_ && _) eqn:E.
    + pose proof (buffer_len Hb) as Hl. pose proof (len_split front cs) as Hsp.
      rewrite refs_unique, refs_ret, app_nil_r. unfold v_slice. rewrite firstn_subs, skipn_subs.
      rewrite (@refs_vseq nowhere) by (apply tame_iter_of; [nia | now apply Forall_firstn]).
      rewrite (@refs_vseq nowhere) by (apply tame_iter_of; [nia | now apply Forall_skipn]).
      rewrite !refs_iter; auto using Forall_firstn, Forall_skipn, elems_firstn, elems_skipn; try nia.
      rewrite len_subs, unused_resolved, refs_simple, app_nil_r by exact Hb.
      rewrite <- flat_map_app, firstn_skipn. reflexivity.
    + now rewrite (buffer_guard_refs He Hcs Hm2 Hb E).
  - destruct Hok as (-> & Ho & Hn & Hc). pose proof two63_lt_two64. unfold impl_string. rewrite refs_self.
    unfold v_vec_like_body. rewrite umul_exact by lia. cbn [with_val].
    unfold v_slice, v_iter. cbn [negb orb]. rewrite repeat_length, umul_exact by lia. cbn [with_val].
    rewrite wrapping_sub_exact by lia. rewrite umul_exact by lia. reflexivity.
  - destruct Hok as (-> & Ho & Hn & Hc). unfold impl_path_buf. rewrite refs_self. destruct (negb (cap =? 0)); [|reflexivity].
    rewrite usub_ok by exact Hn. reflexivity.
  - destruct Hok as (-> & Ho & Hh). unfold impl_compact_string. rewrite refs_self. destruct h as [[n cap]|]; [|reflexivity].
    rewrite usub_ok by apply Hh. reflexivity.
  - destruct Hok as (Ho & He & Hb). unfold impl_slab. rewrite refs_self. destruct (_ && _) eqn:E.
    + pose proof (buffer_len Hb) as Hl. rewrite refs_unique, refs_ret, app_nil_r.
      rewrite (@refs_vseq nowhere) by (apply tame_iter_of; auto).
      rewrite refs_iter by auto. rewrite len_subs, unused_resolved, refs_simple, app_nil_r by exact Hb. reflexivity.
    + now rewrite (buffer_guard_refs He Hcs Hm2 Hb E).
  - unfold impl_small_vec. rewrite refs_self. destruct sp; rewrite ?refs_unique, ?refs_ret, ?app_nil_r; apply refs_fields_named; auto with tame.
  - destruct Hok as (-> & Ho & Hd). pose proof two63_lt_two64. unfold impl_big_int. rewrite refs_self, umul_exact by lia. reflexivity.
  - destruct Hok as (_ & _ & He & Hb & Hf). unfold impl_index_set, add_raw_table_for_len. rewrite refs_self, refs_unique, !len_subs.
    rewrite (@refs_vseq nowhere) by (apply tame_fields_named; auto with tame).
    rewrite refs_fields_named, unused_resolved, refs_simple, app_nil_r by auto with tame.
    destruct (len cs =? 0); [now rewrite refs_ret, app_nil_r|]. rewrite table_resolved by exact Hf.
    cbn [with_val]. now rewrite refs_unique, refs_simple, refs_ret, !app_nil_r.
  - destruct Hok as (_ & _ & He & Hb & Hf). unfold impl_index_map, add_raw_table_for_len. rewrite refs_self, refs_unique, !len_subs.
    rewrite (@refs_vseq nowhere) by (apply tame_fields_kv; auto with tame).
    rewrite refs_fields_kv, unused_resolved, refs_simple, app_nil_r by (auto with tame; eapply entries_even; eauto).
    destruct (len cs / 2 =? 0); [now rewrite refs_ret, app_nil_r|]. rewrite table_resolved by exact Hf.
    cbn [with_val]. now rewrite refs_unique, refs_simple, refs_ret, !app_nil_r.
  - destruct Hok as (_ & He). unfold impl_json_map. rewrite refs_self, refs_unique, refs_ret, app_nil_r.
    apply refs_fields_kv; auto with tame.
  - destruct Hok as (Ho & He & Hb). unfold impl_dash_map. rewrite refs_self, refs_unique, refs_ret, app_nil_r.
    rewrite umul_exact by (eapply buffer_total; eauto). rewrite ?len_subs. cbn [with_val].
    rewrite refs_inline, refs_ret, app_nil_r. rewrite (@refs_vseq nowhere) by (apply tame_fields_kv; auto with tame).
    unfold usaturating_sub. rewrite umul_exact by (eapply buffer_unused; eauto). cbn [with_val].
    rewrite refs_fields_kv by (auto with tame; eapply entries_even; eauto). now rewrite refs_simple, app_nil_r.
  - destruct Hok as (Ho & He & Hb). unfold impl_dash_set. rewrite refs_self, refs_unique, refs_ret, app_nil_r.
    rewrite umul_exact by (eapply buffer_total; eauto). rewrite ?len_subs. cbn [with_val].
    rewrite refs_inline, refs_ret, app_nil_r. rewrite (@refs_vseq nowhere) by (apply tame_fields_named; auto with tame).
    unfold usaturating_sub. rewrite umul_exact by (eapply buffer_unused; eauto). cbn [with_val].
    rewrite refs_fields_named by auto with tame. now rewrite refs_simple, app_nil_r.
  - destruct Hok as (Ho & He & Hl & Hf). unfold impl_hash_table. rewrite refs_self, refs_unique, refs_ret, app_nil_r.
    rewrite table_resolved by exact Hf. cbn [with_val]. rewrite refs_inline, refs_ret, app_nil_r. apply refs_iter; auto.
    destruct Hf as (p & Hp & Hle & Hf). nia.
  - destruct Hok as (Ho & He). unfold impl_map, v_generic_map_fields, v_field_with. rewrite refs_self, refs_inline, refs_ret, app_nil_r.
    now apply refs_pairs.
  - unfold impl_set, v_generic_set_fields, v_field_with. rewrite refs_self, refs_inline, refs_ret, app_nil_r.
    apply refs_fields_named; auto with tame.
  - destruct Hok as (-> & Ho & Hs1 & Ha). pose proof two63_lt_two64. unfold impl_bump. rewrite refs_self, C40_exact by lia. reflexivity.
  - destruct Hok as (-> & _). reflexivity.
  - destruct Hok as (-> & _). unfold impl_weak. rewrite refs_self. destruct target as [[[t' ps] x]|]; reflexivity.
Qed.

Lemma refs_inner m i w : inner_ok i w -> typed w -> manual_free w -> refs (items_inner m i w) = value_refs w.
Proof.
  intros Hi Hw Hm. rewrite <- (refs_visit m Hw Hm). unfold items_inner, items_in. pose proof (inner_resolved Hi) as H.
  destruct i; try (rewrite H; reflexivity);
    destruct H as (k & S & _ & _ & _ & _ & [H | (k' & _ & H)]); rewrite H; cbn [items_of]; unfold refs; cbn [flat_map];
    rewrite ?refs_scope; unfold refs; cbn [flat_map]; rewrite ?refs_scope; unfold refs; now rewrite ?app_nil_r.
Qed.

(** ** Reachability *)
Lemma find_obj_in h x o : find_obj h x = Some o -> In (x, o) h.
Proof.
  induction h as [|[y o'] h IH]; cbn [find_obj]; [discriminate|]. destruct (N.eqb_spec x y) as [<-|]; [intros [= ->]; now left|].
  intros E. right. auto.
Qed.

Lemma reachable_store m h roots x : typed_store h -> plain_store h -> Forall typed roots -> Forall manual_free roots ->
  (reachable (heap_of m h) (map (items_in m) roots) x <-> store_reachable h roots x).
Proof.
  intros Hh Hp Ht Hm. rewrite Forall_forall in Ht, Hm.
  assert (Hw : forall y i w, find_obj h y = Some (i, w) -> refs (items_inner m i w) = value_refs w).
  { intros y i w E. destruct (find_obj_ok Hh E) as [Hi Hw]. apply refs_inner; auto.
    unfold plain_store in Hp. rewrite Forall_forall in Hp. apply (Hp _ (find_obj_in E)). }
  split.
  - induction 1 as [r x Hr Hx|y o x Hy IH Ho Hx].
    + apply in_map_iff in Hr as (v & <- & Hv). rewrite refs_visit in Hx by auto. eapply sr_root; eauto.
    + rewrite deref_heap_of in Ho. destruct (find_obj h y) as [[i w]|] eqn:E; [|discriminate]. cbn in Ho. inversion Ho; subst o.
      rewrite (Hw _ _ _ E) in Hx. eapply sr_step; eauto.
  - induction 1 as [r x Hr Hx|y i w x Hy IH Ho Hx].
    + eapply reach_root; [apply in_map, Hr|]. rewrite refs_visit by auto. exact Hx.
    + eapply reach_step; [exact IH | rewrite deref_heap_of, Ho; reflexivity |]. cbn [fst snd]. now rewrite (Hw _ _ _ Ho).
Qed.

Lemma closed_store m h roots : typed_store h -> plain_store h -> Forall typed roots -> Forall manual_free roots ->
  no_dangling h roots -> closed_heap (heap_of m h) (map (items_in m) roots).
Proof.
  intros Hh Hp Ht Hm Hd x Hx. apply reachable_store in Hx; auto. destruct (Hd x Hx) as [o E].
  eexists. rewrite deref_heap_of, E. reflexivity.
Qed.

Lemma heap_of_keys m h : typed_store h -> heap_keys_in made_by_new (heap_of m h).
Proof.
  intros H. unfold heap_keys_in, heap_of. rewrite Forall_map. eapply Forall_impl; [|exact H]. intros [x [i w]]. cbn [fst snd].
  intros [Hi Hw]. apply (@items_keys nowhere). apply tame_inner; [exact Hi | now apply tame_visit].
Qed.

Lemma items_in_keys m v : typed v -> Forall (item_keys_in made_by_new) (items_in m v).
Proof. intros H. apply (@items_keys nowhere). now apply tame_visit. Qed.

Lemma map_visit_in m n h roots : typed_store h -> Forall typed roots ->
  map (visit_in m n h) roots = map (link n (heap_of m h)) (map (items_in m) roots).
Proof.
  intros Hh Ht. rewrite map_map. apply map_ext_in. intros v Hv. rewrite Forall_forall in Ht. apply visit_in_link; auto.
Qed.

Lemma heap_of_length m h : length (heap_of m h) = length h.
Proof. apply map_length. Qed.

(** ** The mode is irrelevant for well-typed values *)
Lemma with_val_mode (a b : option N) f g : a = b -> (forall n, f n = g n) -> with_val a f = with_val b g.
Proof. intros -> H. destruct b; cbn; auto. Qed.

Lemma iter_mode m m' tn sz nd (cs : list sub) : sz * len cs < two64 ->
  v_iter m tn sz nd (map snd cs) = v_iter m' tn sz nd (map snd cs).
Proof. intros H. now rewrite !v_iter_resolved. Qed.

Lemma raw_table_mode m m' n : table_fits 8 n -> add_raw_table_for_len m n = add_raw_table_for_len m' n.
Proof. intros H. unfold add_raw_table_for_len. now rewrite !table_resolved. Qed.

Theorem visit_mode m m' pt v : typed v -> visit m pt v = visit m' pt v.
Proof.
  induction v as [s cs IH] using value_induction. intros Ht. apply typed_inv in Ht as [Hok Hcs]. rewrite !visit_node.
  assert (E : subs_of m pt cs = subs_of m' pt cs).
  { unfold subs_of. apply map_ext_in. intros c Hc. rewrite Forall_forall in IH, Hcs. now rewrite (IH c Hc (Hcs c Hc)). }
  rewrite E. pose proof (len_subs m' pt cs) as Hl.
  destruct s as [t|t|n|n|e|t names|t variant|t|t a|t a|t ps|t e cap|t e front cap|t n cap|t n cap|t h|t e cap|t e sp|t d
    |t e cap|t e cap|t|t e cap|t e cap|t e cap|t|t|t al ch|t ps x|t target]; cbn [visit_shape shape_ok] in *; try reflexivity.
  - destruct Hok as (Ho & He & Hb). unfold impl_vec, v_slice. rewrite Hl, !unused_resolved by exact Hb.
    rewrite (@iter_mode m m') by (rewrite Hl; eapply buffer_len; eauto). reflexivity.
  - destruct Hok as (Ho & He & Hb). unfold impl_vec_deque, v_slice. rewrite Hl, !unused_resolved by exact Hb.
    pose proof (buffer_len Hb) as Hbl. pose proof (len_split front (subs_of m' pt cs)) as Hsp. rewrite Hl in Hsp.
    rewrite (@iter_mode m m' _ _ _ (firstn front _)) by nia. rewrite (@iter_mode m m' _ _ _ (skipn front _)) by nia. reflexivity.
  - destruct Hok as (_ & Ho & Hn & Hc). pose proof two63_lt_two64. unfold impl_string, v_vec_like_body, v_slice, v_iter. cbn [negb orb].
    rewrite !repeat_length, !wrapping_sub_exact by lia. now rewrite !umul_exact by lia.
  - destruct Hok as (_ & Ho & Hn & Hc). unfold impl_path_buf. now rewrite !usub_ok.
  - destruct Hok as (_ & Ho & Hh). unfold impl_compact_string. destruct h as [[n cap]|]; [|reflexivity]. now rewrite !usub_ok by apply Hh.
  - destruct Hok as (Ho & He & Hb). unfold impl_slab. rewrite Hl, !unused_resolved by exact Hb.
    rewrite (@iter_mode m m') by (rewrite Hl; eapply buffer_len; eauto). reflexivity.
  - destruct Hok as (_ & Ho & Hd). pose proof two63_lt_two64. unfold impl_big_int. now rewrite !umul_exact by lia.
  - destruct Hok as (_ & _ & He & Hb & Hf). unfold impl_index_set. rewrite Hl, !unused_resolved by exact Hb. now rewrite (@raw_table_mode m m').
  - destruct Hok as (_ & _ & He & Hb & Hf). unfold impl_index_map. rewrite Hl, !unused_resolved by exact Hb. now rewrite (@raw_table_mode m m').
  - destruct Hok as (Ho & He & Hb). unfold impl_dash_map, usaturating_sub. rewrite Hl.
    rewrite (@umul_exact m cap), (@umul_exact m' cap) by (eapply buffer_total; eauto).
    cbn [with_val]. now rewrite !umul_exact by (eapply buffer_unused; eauto).
  - destruct Hok as (Ho & He & Hb). unfold impl_dash_set, usaturating_sub. rewrite Hl.
    rewrite (@umul_exact m cap), (@umul_exact m' cap) by (eapply buffer_total; eauto).
    cbn [with_val]. now rewrite !umul_exact by (eapply buffer_unused; eauto).
  - destruct Hok as (Ho & He & Hn & Hf). unfold impl_hash_table. rewrite !table_resolved by exact Hf. cbn [with_val].
    rewrite (@iter_mode m m'); [reflexivity|]. rewrite Hl. destruct Hf as (p & Hp & Hle & Hf). nia.
  - destruct Hok as (_ & Ho & Hs1 & Ha). pose proof two63_lt_two64. unfold impl_bump. now rewrite !C40_exact by lia.
Qed.

Lemma items_in_mode m m' v : typed v -> items_in m v = items_in m' v.
Proof. intros H. unfold items_in. now rewrite (visit_mode m m' nowhere H). Qed.

Lemma heap_of_mode m m' h : typed_store h -> heap_of m h = heap_of m' h.
Proof.
  intros H. unfold heap_of. apply map_ext_in. intros [x [i w]] Hin. cbn [fst snd]. f_equal. unfold items_inner.
  unfold typed_store in H. rewrite Forall_forall in H. rewrite (visit_mode m m' nowhere); [reflexivity|]. apply (H _ Hin).
Qed.

(** ** Nothing but inline scopes directly inside a unique pointer *)
Lemma announced_vseq pt p q nk : tame pt p -> announced p nk -> announced q nk -> announced (vseq p q) nk.
Proof.
  revert nk; induction p as [| |k s b IHb r IHr|k s b IHb r IHr|k s x b IHb r1 IH1 r2 IH2]; intros nk H; cbn [tame vseq announced] in *; try tauto.
  - intros [H1 H2] H3. split; [exact H1 | apply IHr; tauto].
  - intros (H1 & H2 & H3) H4. repeat split; auto. apply IHr; tauto.
  - destruct H as (_ & _ & <- & H). intros (H1 & H2 & H3 & _) H4. repeat split; auto.
Qed.

Lemma announced_vseqs pt l nk : Forall (fun p => tame pt p /\ announced p nk) l -> announced (vseqs l) nk.
Proof. induction 1 as [|p l [H1 H2] _ IH]; cbn [vseqs]; [exact I | eapply announced_vseq; eauto]. Qed.

(** A visit that announces itself, in any scope. *)
Definition open_ok (c : sub) : Prop := tame nowhere (snd c) /\ forall nk, announced (snd c) nk.

Lemma ann_inline k s b r nk : announced b NKInline -> announced r nk -> announced (VInline k s b r) nk.
Proof. cbn. auto. Qed.
Lemma ann_unique k s b r nk : nk <> NKUnique -> announced b NKUnique -> announced r nk -> announced (VUnique k s b r) nk.
Proof. cbn. auto. Qed.
Lemma ann_simple k s nk : announced (v_simple k s) nk. Proof. cbn. auto. Qed.
Lemma ann_self t b nk : announced b NKInline -> announced (enter_self t b) nk.
Proof. intros. apply ann_inline; [assumption | exact I]. Qed.
Lemma ann_field k c nk : open_ok c -> announced (field k c) nk.
Proof. intros [_ H]. apply ann_inline; [apply H | exact I]. Qed.
Lemma ann_fields_named k cs nk : made_by_new k -> Forall open_ok cs -> announced (fields_named k cs) nk.
Proof.
  intros Hk H. apply (@announced_vseqs nowhere). rewrite Forall_map. eapply Forall_impl; [|exact H]. intros c Hc.
  split; [apply tame_field; [exact Hk | apply Hc] | now apply ann_field].
Qed.
Lemma ann_fields names cs nk : Forall open_ok cs -> announced (fields names cs) nk.
Proof.
  revert cs; induction names as [|n names IH]; intros cs H; [exact I|]. destruct H as [|c cs Hc H]; [exact I|].
  cbn [fields]. apply (@announced_vseq nowhere); [apply tame_field; auto with tame; apply Hc | now apply ann_field | auto].
Qed.
Lemma ann_fields_kv kk kv cs nk : made_by_new kk -> made_by_new kv -> Forall open_ok cs -> announced (fields_kv kk kv cs) nk.
Proof.
  intros Hk Hv. induction cs as [|c|k v cs IH] using pair_ind; intros H; try exact I.
  inversion H as [|? ? Ha H']; subst. inversion H' as [|? ? Hb H'']; subst. cbn [fields_kv].
  apply (@announced_vseq nowhere); [apply tame_field; auto; apply Ha | now apply ann_field|].
  apply (@announced_vseq nowhere); [apply tame_field; auto; apply Hb | now apply ann_field | auto].
Qed.
Lemma ann_subs (cs : list sub) nk : Forall open_ok cs -> announced (vseqs (map snd cs)) nk.
Proof.
  intros H. apply (@announced_vseqs nowhere). rewrite Forall_map. eapply Forall_impl; [|exact H]. intros c [H1 H2]. auto.
Qed.
Lemma ann_iter m tn sz nd (cs : list sub) nk : sz * len cs < two64 -> Forall open_ok cs ->
  announced (v_iter m tn sz nd (map snd cs)) nk.
Proof.
  intros H Hc. rewrite v_iter_resolved by exact H. destruct (negb nd || (sz =? 0)); [apply ann_simple | now apply ann_subs].
Qed.

Lemma announced_visit m v : typed v -> forall nk, announced (visit m nowhere v) nk.
Proof.
  induction v as [s cs IH] using value_induction. intros Ht. apply typed_inv in Ht as [Hok Hcs]. intros nk. rewrite visit_node.
  assert (Hs : Forall open_ok (subs_of m nowhere cs)).
  { unfold subs_of. rewrite Forall_map. rewrite Forall_forall in *. intros c Hin. split; cbn [snd]; [apply tame_visit; auto | apply IH; auto]. }
  assert (Hts : Forall (fun c => tame nowhere (snd c)) (subs_of m nowhere cs)).
  { eapply Forall_impl; [|exact Hs]. intros c H. apply H. }
  assert (Hu : NKInline <> NKUnique) by discriminate.
  destruct s as [t|t|n|n|e|t names|t variant|t|t a|t a|t ps|t e cap|t e front cap|t n cap|t n cap|t h|t e cap|t e sp|t d
    |t e cap|t e cap|t|t e cap|t e cap|t e cap|t|t|t al ch|t ps x|t target]; cbn [visit_shape shape_ok] in *.
  - cbn. auto.
  - exact I.
  - apply ann_simple.
  - apply ann_simple.
  - apply ann_inline; [apply ann_fields_named; auto with tame | exact I].
  - apply ann_self, ann_fields; auto.
  - apply ann_self. destruct variant as [[v names]|]; [|exact I]. apply ann_inline; [apply ann_fields; auto | exact I].
  - apply ann_self, ann_fields_named; auto with tame.
  - apply ann_self. destruct a; [apply ann_fields_named; auto with tame | exact I].
  - apply ann_self. destruct a; [apply ann_subs; auto | exact I].
  - apply ann_self, ann_unique; [exact Hu | apply ann_subs; auto | exact I].
  - destruct Hok as (Ho & He & Hb). apply ann_self. destruct (_ && _); [|exact I]. apply ann_unique; [exact Hu | | exact I].
    rewrite len_subs, unused_resolved by exact Hb. pose proof (buffer_len Hb). apply (@announced_vseq nowhere).
    + apply tame_iter; [now rewrite len_subs | exact Hts].
    + apply ann_iter; [now rewrite len_subs | exact Hs].
    + apply ann_simple.
  - destruct Hok as (Ho & He & Hb). apply ann_self. destruct (_ && _); [|exact I]. apply ann_unique; [exact Hu | | exact I].
    rewrite len_subs, unused_resolved by exact Hb. pose proof (buffer_len Hb) as Hl.
    pose proof (len_split front (subs_of m nowhere cs)) as Hsp. rewrite len_subs in Hsp.
    apply (@announced_vseq nowhere).
    + apply tame_iter; [nia | now apply Forall_firstn].
    + apply ann_iter; [nia | now apply Forall_firstn].
    + apply (@announced_vseq nowhere).
      * apply tame_iter; [nia | now apply Forall_skipn].
      * apply ann_iter; [nia | now apply Forall_skipn].
      * apply ann_simple.
  - destruct Hok as (-> & Ho & Hn & Hc). pose proof two63_lt_two64. apply ann_self, ann_unique; [exact Hu | | exact I].
    unfold v_vec_like_body. rewrite umul_exact by lia. cbn [with_val].
    unfold v_slice, v_iter. cbn [negb orb]. rewrite repeat_length, umul_exact by lia. cbn [with_val].
    rewrite wrapping_sub_exact by lia. rewrite umul_exact by lia. cbn. auto.
  - destruct Hok as (-> & Ho & Hn & Hc). apply ann_self. destruct (negb (cap =? 0)); [|exact I].
    rewrite usub_ok by exact Hn. cbn. repeat split; auto; discriminate.
  - destruct Hok as (-> & Ho & Hh). apply ann_self. destruct h as [[n cap]|]; [|exact I].
    rewrite usub_ok by apply Hh. cbn. repeat split; auto; discriminate.
  - destruct Hok as (Ho & He & Hb). apply ann_self. destruct (_ && _); [|exact I]. apply ann_unique; [exact Hu | | exact I].
    rewrite len_subs, unused_resolved by exact Hb. pose proof (buffer_len Hb). apply (@announced_vseq nowhere).
    + apply tame_iter; [now rewrite len_subs | exact Hts].
    + apply ann_iter; [now rewrite len_subs | exact Hs].
    + apply ann_simple.
  - apply ann_self. destruct sp; [apply ann_unique; [exact Hu | | exact I]|]; apply ann_fields_named; auto with tame.
  - destruct Hok as (-> & Ho & Hd). pose proof two63_lt_two64. apply ann_self. rewrite umul_exact by lia. cbn. repeat split; auto.
  - destruct Hok as (_ & _ & He & Hb & Hf). apply ann_self. rewrite len_subs, unused_resolved by exact Hb.
    apply ann_unique; [exact Hu | |].
    + apply (@announced_vseq nowhere); [apply tame_fields_named; auto with tame | apply ann_fields_named; auto with tame | apply ann_simple].
    + unfold add_raw_table_for_len. destruct (len cs =? 0); [exact I|]. rewrite table_resolved by exact Hf. cbn. repeat split; auto.
  - destruct Hok as (_ & _ & He & Hb & Hf). apply ann_self. rewrite len_subs, unused_resolved by exact Hb.
    apply ann_unique; [exact Hu | |].
    + apply (@announced_vseq nowhere); [apply tame_fields_kv; auto with tame | apply ann_fields_kv; auto with tame | apply ann_simple].
    + unfold add_raw_table_for_len. destruct (len cs / 2 =? 0); [exact I|]. rewrite table_resolved by exact Hf. cbn. repeat split; auto.
  - apply ann_self, ann_unique; [exact Hu | apply ann_fields_kv; auto with tame | exact I].
  - destruct Hok as (Ho & He & Hb). apply ann_self, ann_unique; [exact Hu | | exact I].
    rewrite umul_exact by (eapply buffer_total; eauto). rewrite ?len_subs. cbn [with_val]. apply ann_inline; [|exact I].
    unfold usaturating_sub. rewrite umul_exact by (eapply buffer_unused; eauto). cbn [with_val].
    apply (@announced_vseq nowhere); [apply tame_fields_kv; auto with tame | apply ann_fields_kv; auto with tame | apply ann_simple].
  - destruct Hok as (Ho & He & Hb). apply ann_self, ann_unique; [exact Hu | | exact I].
    rewrite umul_exact by (eapply buffer_total; eauto). rewrite ?len_subs. cbn [with_val]. apply ann_inline; [|exact I].
    unfold usaturating_sub. rewrite umul_exact by (eapply buffer_unused; eauto). cbn [with_val].
    apply (@announced_vseq nowhere); [apply tame_fields_named; auto with tame | apply ann_fields_named; auto with tame | apply ann_simple].
  - destruct Hok as (Ho & He & Hl & Hf). apply ann_self, ann_unique; [exact Hu | | exact I]. rewrite table_resolved by exact Hf.
    cbn [with_val]. apply ann_inline; [|exact I]. apply ann_iter; [|exact Hs]. rewrite len_subs.
    destruct Hf as (p & Hp & Hle & Hf). nia.
  - apply ann_self, ann_inline; [|exact I]. apply (@announced_vseqs nowhere). rewrite Forall_map. clear - Hs.
    revert Hs. induction (subs_of m nowhere cs) as [|c|k v l IH] using pair_ind; intros H; cbn [pair_up]; constructor.
    + inversion H as [|? ? Ha H']; subst. inversion H' as [|? ? Hb H'']; subst. cbn [fst snd].
      split; [apply tame_vseq; apply tame_inline; auto with tame; [apply Ha | apply Hb]|].
      apply (@announced_vseq nowhere); [apply tame_inline; auto with tame; apply Ha | |]; apply ann_inline; try exact I; [apply Ha | apply Hb].
    + apply IH. inversion H as [|? ? Ha H']; subst. inversion H' as [|? ? Hb H'']; subst. exact H''.
  - apply ann_self, ann_inline; [|exact I]. change (announced (fields_named KEY_NAME (subs_of m nowhere cs)) NKInline).
    apply ann_fields_named; auto with tame.
  - destruct Hok as (-> & Ho & Hs1 & Ha). pose proof two63_lt_two64. apply ann_self. rewrite C40_exact by lia. cbn. repeat split; auto.
  - cbn. repeat split; discriminate.
  - apply ann_self. destruct target as [[[t' ps] x]|]; [|exact I]. cbn. repeat split; discriminate.
Qed.

(** ** Blocks of a value *)
Lemma block_app a b : block_bytes (a ++ b) = block_bytes a + block_bytes b.
Proof. unfold block_bytes. now rewrite map_app, sumN_app. Qed.
Lemma block_cons e es : block_bytes (e :: es) = (if is_NKInline (ev_parent e) then 0 else ev_size e) + block_bytes es.
Proof. reflexivity. Qed.

Lemma block_own p here nk pt : tame pt p -> announced p nk -> nk = NKInline \/ nk = NKUnique ->
  block_bytes (own (items_of p) here nk) = unique_bytes p nk.
Proof.
  revert here nk; induction p as [| |k s b IHb r IHr|k s b IHb r IHr|k s x b IHb r1 IH1 r2 IH2];
    intros here nk Ht Ha Hnk; cbn [tame items_of announced unique_bytes] in *; unfold own; cbn [flat_map].
  - reflexivity.
  - destruct Ht.
  - rewrite own_scope. cbn [app]. rewrite block_cons, block_app. cbn [ev_parent ev_size].
    fold (own (items_of r) here nk). rewrite IHb, IHr by tauto. destruct Hnk as [-> | ->]; cbn [is_NKInline is_NKUnique]; lia.
  - rewrite own_scope. cbn [app]. rewrite block_cons, block_app. cbn [ev_parent ev_size].
    fold (own (items_of r) here nk). rewrite IHb, IHr by tauto. destruct Hnk as [-> | ->]; cbn [is_NKInline is_NKUnique]; [lia | tauto].
  - destruct Ht as (_ & _ & <- & Ht). cbn [own1 app]. rewrite block_cons. cbn [ev_parent ev_size].
    fold (own (items_of r1) here nk). rewrite IH2 by tauto. destruct Hnk as [-> | ->]; cbn [is_NKInline]; [lia | tauto].
Qed.

Lemma block_scope k S b here nk : tame nowhere b -> announced b NKInline -> is_NKInline nk = false ->
  block_bytes (own (items_of (VInline k S b VRet)) here nk) = S + unique_bytes b NKInline.
Proof.
  intros Ht Ha Hnk. cbn [items_of]. unfold own. cbn [flat_map]. rewrite own_scope, app_nil_r, block_cons. cbn [ev_parent ev_size].
  rewrite Hnk. rewrite (@block_own b _ NKInline nowhere) by auto. reflexivity.
Qed.

Lemma block_value m v here nk : typed v -> counted v -> silent v = false -> is_NKInline nk = false ->
  block_bytes (own (items_in m v) here nk) = size_of_val v + owned_bytes v.
Proof.
  intros Ht Hc Hs Hnk. unfold items_in. destruct (@visit_scope m nowhere v Hs) as (k & b & E).
  pose proof (@ub_visit m nowhere v Ht Hc NKInline) as Hu. rewrite shown_inline, E, ub_inline in Hu. unfold in_unique in Hu. cbn in Hu.
  pose proof (@tame_visit m nowhere v Ht) as Htm. pose proof (@announced_visit m v Ht NKInline) as Ha. rewrite E in Htm, Ha.
  rewrite E. rewrite block_scope; [lia | apply Htm | apply Ha | exact Hnk].
Qed.

Lemma block_inner m i w S here : inner_ok i w -> inner_exact i w -> alloc_size i w S -> typed w -> counted w ->
  block_bytes (own (items_inner m i w) here NKShared) = S + owned_bytes w.
Proof.
  intros Hi He HS Ht Hc. pose proof (inner_resolved Hi) as H.
  assert (Hsame : forall S', alloc_size i w S' -> S' = S).
  { intros S' HS'. destruct i; cbn [alloc_size] in *; try congruence;
      destruct HS as [A1 A2], HS' as [B1 B2]; apply N.le_antisymm; auto. }
  pose proof (@tame_visit m nowhere w Ht) as Htm. pose proof (@announced_visit m w Ht) as Ha.
  pose proof (@ub_visit m nowhere w Ht Hc NKInline) as Hu. rewrite shown_inline in Hu.
  assert (Hbare : i = InBare \/ i <> InBare) by (destruct i; auto; right; discriminate).
  destruct Hbare as [-> | Hnb].
  - unfold items_inner. rewrite H. cbn in He, HS. subst S. now apply block_value.
  - assert (H' : exists k S, made_by_new k /\ size_of_val w <= S /\ (inner_exact i w -> alloc_size i w S) /\ S < two63 /\
      ((forall p, visit_inner i (size_of_val w, p) = VInline k S p VRet) \/
       exists k', made_by_new k' /\ forall p, visit_inner i (size_of_val w, p) = VInline k S (VInline k' (size_of_val w) p VRet) VRet))
      by (destruct i; try exact H; congruence). clear H.
    destruct H' as (k & R & Hk & _ & Hex & _ & Hv). rewrite (Hsame R (Hex He)) in *. unfold items_inner. destruct Hv as [Hv | (k' & Hk' & Hv)]; rewrite Hv.
    + rewrite block_scope; [lia | exact Htm | apply Ha | reflexivity].
    + rewrite block_scope; [| | |reflexivity].
      * rewrite ub_inline. unfold in_unique. cbn [is_NKUnique]. lia.
      * apply tame_inline; [exact Hk' | exact Htm | exact I].
      * apply ann_inline; [apply Ha | exact I].
Qed.

(** ** Declarations are consistent in the whole graph *)
Lemma visit_in_fits m n h v : typed_store h -> Forall (fun xo => map_free (snd (snd xo))) h -> typed v -> map_free v ->
  fits (visit_in m n h v) (Some (size_of_val v)).
Proof.
  intros Hh Hmf. revert v. induction n as [|n IH]; intros v Hv Hm; cbn [visit_in]; apply fits_visit; auto; intros x; [exact I|].
  destruct (find_obj h x) as [[i w]|] eqn:E; [|exact I]. destruct (find_obj_ok Hh E) as [Hi Hw].
  assert (Hmw : map_free w) by (rewrite Forall_forall in Hmf; apply (Hmf _ (find_obj_in E))).
  specialize (IH w Hw Hmw). pose proof (inner_resolved Hi) as H.
  destruct i; try (rewrite H; eapply fits_none; exact IH);
  destruct H as (k & S & _ & Hle & _ & _ & [H | (k' & _ & H)]); rewrite H; cbn [fits option_map]; repeat split; auto; try lia;
    eapply fits_mono; eauto.
Qed.

Lemma visit_in_declared m n h v : typed_store h -> Forall (fun xo => map_free (snd (snd xo))) h -> typed v -> map_free v ->
  well_declared (visit_in m n h v).
Proof. intros. eapply fits_none. now apply visit_in_fits. Qed.
