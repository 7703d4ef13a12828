(** * Values with shared parts are object graphs. *)
From Coq Require Import Permutation.
From Verif Require Import Base BaseFacts KeyModel KeyFacts HMap FlameModel BuilderModel VisitorModel SizeOfModel Spec MergeFacts
  HeapFacts LayoutModel LayoutFacts PropertiesLayout ImplModel ImplSpec ImplFacts OwnedFacts.

#[local] Arguments key_new : simpl never.

(** ** What happens behind shared pointers is a parameter *)
Fixpoint retarget (pt : ptr -> vprog) (p : vprog) : vprog :=
  match p with
  | VRet => VRet
  | VCrash => VCrash
  | VInline k s b r => VInline k s (retarget pt b) (retarget pt r)
  | VUnique k s b r => VUnique k s (retarget pt b) (retarget pt r)
  | VShared k s x _ r1 r2 => VShared k s x (pt x) (retarget pt r1) (retarget pt r2)
  end.

Lemma retarget_ext pt pt' p : (forall x, pt x = pt' x) -> retarget pt p = retarget pt' p.
Proof. intros H. induction p; cbn; congruence. Qed.

Section Retarget.
  Variable pt : ptr -> vprog.
  Definition on_sub (c : sub) : sub := (fst c, retarget pt (snd c)).

  Lemma ret_vseq p q : retarget pt (vseq p q) = vseq (retarget pt p) (retarget pt q).
  Proof. induction p; cbn; congruence. Qed.
  Lemma ret_vseqs l : retarget pt (vseqs l) = vseqs (map (retarget pt) l).
  Proof. induction l; cbn; [reflexivity|]. now rewrite ret_vseq, IHl. Qed.
  Lemma ret_fields_named k cs : retarget pt (fields_named k cs) = fields_named k (map on_sub cs).
  Proof. unfold fields_named. rewrite ret_vseqs, !map_map. reflexivity. Qed.
  Lemma ret_fields names cs : retarget pt (fields names cs) = fields names (map on_sub cs).
  Proof.
    revert cs; induction names as [|n names IH]; intros [|c cs]; try reflexivity.
    cbn [fields map]. now rewrite ret_vseq, IH.
  Qed.
  Lemma ret_fields_kv kk kv cs : retarget pt (fields_kv kk kv cs) = fields_kv kk kv (map on_sub cs).
  Proof.
    induction cs as [|c|k v cs IH] using pair_ind; try reflexivity.
    cbn [fields_kv map]. now rewrite !ret_vseq, IH.
  Qed.
  Lemma ret_with_val x f : retarget pt (with_val x f) = with_val x (fun n => retarget pt (f n)).
  Proof. destruct x; reflexivity. Qed.
  Lemma ret_subs (cs : list sub) : map (retarget pt) (map snd cs) = map snd (map on_sub cs).
  Proof. rewrite !map_map. reflexivity. Qed.
  Lemma ret_iter m tn sz nd (cs : list sub) :
    retarget pt (v_iter m tn sz nd (map snd cs)) = v_iter m tn sz nd (map snd (map on_sub cs)).
  Proof.
    unfold v_iter. rewrite !map_length. destruct (negb nd || (sz =? 0)).
    - rewrite ret_with_val. reflexivity.
    - now rewrite ret_vseqs, ret_subs.
  Qed.
  Lemma ret_unused m cap n sz : retarget pt (unused_capacity m cap n sz) = unused_capacity m cap n sz.
  Proof. unfold unused_capacity. now rewrite ret_with_val. Qed.
  Lemma ret_raw_table m n : retarget pt (add_raw_table_for_len m n) = add_raw_table_for_len m n.
  Proof.
    unfold add_raw_table_for_len. destruct (n =? 0); [reflexivity|]. cbn [retarget]. now rewrite ret_with_val.
  Qed.
  Lemma with_val_ext x f g : (forall n, f n = g n) -> with_val x f = with_val x g.
  Proof. intros H. destruct x; cbn; auto. Qed.

  Lemma ret_shape m pt0 s cs : retarget pt (visit_shape m pt0 s cs) = visit_shape m pt s (map on_sub cs).
  Proof.
    destruct s as [t|t|n|n|e|t names|t variant|t|t a|t a|t ps|t e cap|t e front cap|t n cap|t n cap|t h|t e cap|t e sp|t d
      |t e cap|t e cap|t|t e cap|t e cap|t e cap|t|t|t al ch|t ps x|t target]; cbn [visit_shape]; try reflexivity.
    - unfold impl_slice. cbn [retarget]. now rewrite ret_fields_named, len_map.
    - unfold impl_struct, enter_self, v_enter_self. cbn [retarget]. now rewrite ret_fields.
    - unfold impl_enum, enter_self, v_enter_self. destruct variant as [[v names]|]; cbn [retarget]; now rewrite ?ret_fields.
    - unfold impl_manually_drop, enter_self, v_enter_self. cbn [retarget]. now rewrite ret_fields_named.
    - unfold impl_cell, enter_self, v_enter_self. destruct a; cbn [retarget]; now rewrite ?ret_fields_named.
    - unfold impl_once, enter_self, v_enter_self. destruct a; cbn [retarget]; now rewrite ?ret_vseqs, ?ret_subs.
    - unfold impl_box, enter_self, v_enter_self. cbn [retarget]. now rewrite ret_vseqs, ret_subs.
    - unfold impl_vec, enter_self, v_enter_self. cbn [retarget]. destruct (_ && _); cbn [retarget]; [|reflexivity].
      unfold v_slice. now rewrite ret_vseq, ret_iter, ret_unused, len_map.
    - unfold impl_vec_deque, enter_self, v_enter_self. cbn [retarget]. destruct (_ && _); cbn [retarget]; [|reflexivity].
      unfold v_slice. now rewrite !ret_vseq, !ret_iter, ret_unused, len_map, firstn_map, skipn_map.
    - unfold impl_string, enter_self, v_enter_self, v_vec_like_body, v_slice, v_iter. cbn [retarget negb orb].
      rewrite ret_with_val. erewrite with_val_ext; [reflexivity|]. intros total. unfold v_field_with. cbn [retarget].
      rewrite ret_vseq, !ret_with_val. reflexivity.
    - unfold impl_path_buf, enter_self, v_enter_self. cbn [retarget]. destruct (negb (cap =? 0)); cbn [retarget]; [|reflexivity].
      now rewrite ret_vseq, ret_with_val.
    - unfold impl_compact_string, enter_self, v_enter_self. cbn [retarget]. destruct h as [[n cap]|]; cbn [retarget]; [|reflexivity].
      now rewrite ret_vseq, ret_with_val.
    - unfold impl_slab, enter_self, v_enter_self. cbn [retarget]. destruct (_ && _); cbn [retarget]; [|reflexivity].
      now rewrite ret_vseq, ret_iter, ret_unused, len_map.
    - unfold impl_small_vec, enter_self, v_enter_self. cbn [retarget]. destruct sp; cbn [retarget]; now rewrite ret_fields_named.
    - unfold impl_big_int, enter_self, v_enter_self. cbn [retarget]. now rewrite ret_with_val.
    - unfold impl_index_set, enter_self, v_enter_self. cbn [retarget].
      now rewrite ret_vseq, ret_fields_named, ret_unused, ret_raw_table, len_map.
    - unfold impl_index_map, enter_self, v_enter_self. cbn [retarget].
      now rewrite ret_vseq, ret_fields_kv, ret_unused, ret_raw_table, len_map.
    - unfold impl_json_map, enter_self, v_enter_self. cbn [retarget]. now rewrite ret_fields_kv.
    - unfold impl_dash_map, enter_self, v_enter_self. cbn [retarget]. rewrite ret_with_val, len_map. erewrite with_val_ext; [reflexivity|]. intros total. cbn [retarget]. now rewrite ret_vseq, ret_fields_kv, ret_with_val.
    - unfold impl_dash_set, enter_self, v_enter_self. cbn [retarget]. rewrite ret_with_val, len_map. erewrite with_val_ext; [reflexivity|]. intros total. cbn [retarget]. now rewrite ret_vseq, ret_fields_named, ret_with_val.
    - unfold impl_hash_table, enter_self, v_enter_self. cbn [retarget]. rewrite ret_with_val. erewrite with_val_ext; [reflexivity|]. intros total. cbn [retarget]. now rewrite ret_iter.
    - unfold impl_map, enter_self, v_enter_self, v_generic_map_fields, v_field_with. cbn [retarget].
      rewrite ret_vseqs, map_map. do 3 f_equal.
      induction cs as [|c|k v cs IH] using pair_ind; try reflexivity. cbn [pair_up map]. now rewrite IH.
    - unfold impl_set, enter_self, v_enter_self, v_generic_set_fields, v_field_with. cbn [retarget].
      rewrite ret_vseqs, !map_map. reflexivity.
    - unfold impl_bump, enter_self, v_enter_self. cbn [retarget]. destruct (bump_counters m al ch) as [[u n]|]; reflexivity.
    - destruct target as [[[t' ps] x]|]; reflexivity.
  Qed.
End Retarget.

Lemma ret_visit m pt pt0 v : retarget pt (visit m pt0 v) = visit m pt v.
Proof.
  induction v as [s cs IH] using value_induction. rewrite !visit_node, (@ret_shape pt m pt0). f_equal.
  unfold subs_of. rewrite map_map. apply map_ext_in. intros c Hc. unfold on_sub. cbn [fst snd].
  rewrite Forall_forall in IH. now rewrite IH.
Qed.

Lemma visit_ext m pt pt' v : (forall x, pt x = pt' x) -> visit m pt v = visit m pt' v.
Proof. intros H. rewrite <- (ret_visit m pt pt), <- (ret_visit m pt' pt). now apply retarget_ext. Qed.

(** ** Items of tame programs *)
Fixpoint items_of (p : vprog) : list item :=
  match p with
  | VRet | VCrash => []
  | VInline k s b r => Scope false k s (items_of b) :: items_of r
  | VUnique k s b r => Scope true k s (items_of b) :: items_of r
  | VShared k s x _ _ r2 => Ref k s x :: items_of r2
  end.

Lemma link1_scope pt u k s body r : link1 pt (Scope u k s body) r =
  (if u then VUnique else VInline) k s (fold_right (link1 pt) VRet body) r.
Proof.
  assert (H : (fix go (l : list item) := match l with [] => VRet | j :: l' => link1 pt j (go l') end) body =
              fold_right (link1 pt) VRet body) by (induction body; cbn; congruence).
  cbn [link1]. now rewrite H.
Qed.

Lemma items_link pt0 pt p : tame pt0 p -> fold_right (link1 pt) VRet (items_of p) = retarget pt p.
Proof.
  induction p as [| |k s b IHb r IHr|k s b IHb r IHr|k s x b IHb r1 IH1 r2 IH2]; cbn [tame items_of retarget]; intros H.
  - reflexivity.
  - destruct H.
  - cbn [fold_right]. rewrite link1_scope, IHb, IHr by tauto. reflexivity.
  - cbn [fold_right]. rewrite link1_scope, IHb, IHr by tauto. reflexivity.
  - destruct H as (_ & _ & <- & H). cbn [fold_right link1]. rewrite IH2 by exact H. reflexivity.
Qed.

Lemma items_keys pt p : tame pt p -> Forall (item_keys_in made_by_new) (items_of p).
Proof.
  induction p as [| |k s b IHb r IHr|k s b IHb r IHr|k s x b IHb r1 IH1 r2 IH2]; cbn [tame items_of]; intros H.
  - constructor.
  - destruct H.
  - destruct H as (H1 & H2 & H3). constructor; [|auto]. cbn [item_keys_in]. split; [exact H1|].
    specialize (IHb H2). clear - IHb. induction IHb; cbn; auto.
  - destruct H as (H1 & H2 & H3). constructor; [|auto]. cbn [item_keys_in]. split; [exact H1|].
    specialize (IHb H2). clear - IHb. induction IHb; cbn; auto.
  - destruct H as (H1 & _ & <- & H). constructor; [exact H1 | auto].
Qed.

(** ** The object graph of a store *)
Definition nowhere : ptr -> vprog := fun _ => VRet.
Definition items_in (m : mode) (v : value) : list item := items_of (visit m nowhere v).
Definition items_inner (m : mode) (i : inner) (w : value) : list item :=
  items_of (visit_inner i (size_of_val w, visit m nowhere w)).
Definition heap_of (m : mode) (h : store) : heap :=
  map (fun xo => (fst xo, items_inner m (fst (snd xo)) (snd (snd xo)))) h.

Lemma deref_heap_of m h x : deref (heap_of m h) x = option_map (fun o => items_inner m (fst o) (snd o)) (find_obj h x).
Proof.
  induction h as [|[y o] h IH]; cbn [heap_of map deref find_obj fst snd]; [reflexivity|].
  destruct (N.eqb x y); [reflexivity | exact IH].
Qed.

Lemma find_obj_ok h x i w : typed_store h -> find_obj h x = Some (i, w) -> inner_ok i w /\ typed w.
Proof.
  intros H. induction h as [|[y o] h IH]; cbn [find_obj]; [discriminate|].
  inversion H as [|? ? H1 H2]; subst. destruct (N.eqb x y); [intros [= ->]; exact H1 | auto].
Qed.

Lemma holds_valid c v S : valid_layout v -> (c = 16 \/ c = 8) -> S < two63 -> holds c v S ->
  exists R, (if c =? 16 then rcbox_layout_size v else triomphe_arc_size v) = Some R.
Proof.
  intros Hv [-> | ->] HS Hh.
  - change (16 =? 16) with true. cbv iota. destruct (rcbox_layout_size v) eqn:E; [eauto|].
    pose proof (proj1 (C30_rc_panic Hv) E S Hh). lia.
  - change (8 =? 16) with false. cbv iota. unfold triomphe_arc_size. rewrite extend_pad; [| |exact Hv].
    2:{ apply valid_hdr; lia. }
    pose proof (@padded_least 8 v S Hv Hh) as L. unfold arc_inner_repr_layout.
    destruct (N.ltb_spec (padded_size (mkLayout 8 8) v) two63); [eauto | lia].
Qed.

(** The scope of a pointee: no panic, and its size. *)
Lemma inner_resolved i w : inner_ok i w ->
  match i with
  | InBare => forall p, visit_inner i (size_of_val w, p) = p
  | _ => exists k S, made_by_new k /\ size_of_val w <= S /\ (inner_exact i w -> alloc_size i w S) /\ S < two63 /\
      ((forall p, visit_inner i (size_of_val w, p) = VInline k S p VRet) \/
       exists k', made_by_new k' /\ forall p, visit_inner i (size_of_val w, p) = VInline k S (VInline k' (size_of_val w) p VRet) VRet)
  end.
Proof.
  destruct i as [a|a|a|tn h sz al n|]; cbn [inner_ok visit_inner alloc_size inner_exact].
  - intros (Hv & S & HS & Hh). destruct (@holds_valid 16 _ S Hv (or_introl eq_refl) HS Hh) as [R E]. change (16 =? 16) with true in E; change (8 =? 16) with false in E; cbv iota in E.
    exists (key_new "ArcInner"), R. pose proof (proj1 (C30_covers R Hv) E) as Hc. cbn [l_size] in Hc.
    pose proof (proj1 (C30_rc_exact R Hv) E) as (G1 & G2). split; [apply new_made|].
    split; [lia|]. split; [tauto|]. split; [exact G1|]. left. intros p. cbn [fst snd]. now rewrite E.
  - intros (Hv & S & HS & Hh). destruct (@holds_valid 16 _ S Hv (or_introl eq_refl) HS Hh) as [R E]. change (16 =? 16) with true in E; change (8 =? 16) with false in E; cbv iota in E.
    exists (key_new "RcInner"), R. pose proof (proj1 (C30_covers R Hv) E) as Hc. cbn [l_size] in Hc.
    pose proof (proj1 (C30_rc_exact R Hv) E) as (G1 & G2). split; [apply new_made|].
    split; [lia|]. split; [tauto|]. split; [exact G1|]. left. intros p. cbn [fst snd]. now rewrite E.
  - intros (Hv & S & HS & Hh). destruct (@holds_valid 8 _ S Hv (or_intror eq_refl) HS Hh) as [R E]. change (16 =? 16) with true in E; change (8 =? 16) with false in E; cbv iota in E.
    exists (key_for_type_name "allocative::impls::triomphe::ArcInnerRepr"), R.
    pose proof (proj2 (C30_covers R Hv) E) as Hc. cbn [l_size] in Hc.
    pose proof (proj1 (C30_triomphe_exact R Hv) E) as (G1 & G2). split; [apply name_made|].
    split; [lia|]. split; [tauto|]. split; [exact G1|]. right. exists (key_new "data"). split; [apply new_made|].
    intros p. cbn [fst snd]. now rewrite E.
  - intros (Hs & Hv & Hal & Hla & Hw & Ht). destruct (@C30_thin_at_most h sz al n Hs Hv Hal Ht) as (R & E & HR).
    exists (key_for_type_name tn), R. pose proof (C30_thin_covers Hs Hv Hal Hla E) as Hc.
    split; [apply name_made|]. split; [rewrite Hw; exact Hc|].
    split; [intros Hex; eapply C30_thin_exact; eauto|]. split; [lia|]. right. exists (key_new "data"). split; [apply new_made|].
    intros p. cbn [fst snd]. now rewrite E.
  - intros _ p. reflexivity.
Qed.

Lemma tame_inner pt i w p : inner_ok i w -> tame pt p -> tame pt (visit_inner i (size_of_val w, p)).
Proof.
  intros Hi Hp. pose proof (inner_resolved Hi) as H. destruct i; try (rewrite H; exact Hp);
  destruct H as (k & S & Hk & _ & _ & _ & [H | (k' & Hk' & H)]); rewrite H; repeat apply tame_inline; auto with tame.
Qed.

Lemma ret_inner pt i w p : retarget pt (visit_inner i (size_of_val w, p)) = visit_inner i (size_of_val w, retarget pt p).
Proof.
  destruct i; cbn [visit_inner fst snd]; rewrite ?ret_with_val; reflexivity.
Qed.

Theorem visit_in_link m n h v : typed_store h -> typed v ->
  visit_in m n h v = link n (heap_of m h) (items_in m v).
Proof.
  intros Hh. revert v. induction n as [|n IH]; intros v Hv.
  - cbn [visit_in link]. unfold items_in. rewrite (@items_link nowhere) by now apply tame_visit. now rewrite ret_visit.
  - cbn [visit_in link]. unfold items_in. rewrite (@items_link nowhere) by now apply tame_visit. rewrite ret_visit.
    apply visit_ext. intros x. rewrite deref_heap_of. destruct (find_obj h x) as [[i w]|] eqn:E; cbn [option_map fst snd]; [|reflexivity].
    destruct (find_obj_ok Hh E) as [Hi Hw]. rewrite IH by exact Hw.
    unfold items_inner. destruct n as [|n']; cbn [link].
    + rewrite (@items_link nowhere) by (apply tame_inner; [exact Hi | now apply tame_visit]).
      unfold items_in. rewrite (@items_link nowhere) by now apply tame_visit. now rewrite ret_inner.
    + rewrite (@items_link nowhere) by (apply tame_inner; [exact Hi | now apply tame_visit]).
      unfold items_in. rewrite (@items_link nowhere) by now apply tame_visit. now rewrite ret_inner.
Qed.
