(** * Lemmas for property C51: a profile next to other threads is the profile of one state. *)
From Verif Require Import Base BaseFacts KeyModel KeyFacts HMap FlameModel BuilderModel BuilderFacts VisitorModel Spec LayoutModel ImplModel ImplSpec ImplFacts
  StoreFacts LockModel LockSpec LockFacts SnapshotModel SnapshotSpec.

#[local] Arguments key_new : simpl never.

Lemma lvalue_induction (P : lvalue -> Prop) :
  (forall s cs, Forall P cs -> P (LPlain s cs)) -> (forall t l a c, P c -> P (LLock t l a c)) ->
  (forall t l c, P c -> P (LOnce t l c)) -> (forall t t' ps x, P (LWeak t t' ps x)) -> forall v, P v.
Proof.
  intros H1 H2 H3 H4. fix go 1. intros [s cs|t l a c|t l c|t t' ps x]; [|apply H2, go|apply H3, go|apply H4].
  apply H1. induction cs as [|c cs IH]; constructor; [apply go | exact IH].
Qed.

(** ** Filling in the marks *)
Fixpoint fill (g : N -> vprog) (p : vprog) : vprog :=
  match p with
  | VRet => VRet
  | VCrash => VCrash
  | VInline k s b r => VInline k s (fill g b) (fill g r)
  | VUnique k s b r => VUnique k s (fill g b) (fill g r)
  | VShared _ _ i _ r _ => vseq (g i) (fill g r)
  end.
Fixpoint marks (i : N) (p : vprog) : nat :=
  match p with
  | VRet | VCrash => 0
  | VInline _ _ b r | VUnique _ _ b r => marks i b + marks i r
  | VShared _ _ j _ r _ => (if N.eqb i j then 1 else 0) + marks i r
  end.
Definition pointer (s : shape) : bool := match s with SShared _ _ _ | SWeak _ _ => true | _ => false end.

Section Fill.
  Variable g : N -> vprog.
  Definition fill_sub (c : sub) : sub := (fst c, fill g (snd c)).

  Lemma fill_vseq p q : fill g (vseq p q) = vseq (fill g p) (fill g q).
  Proof. induction p; cbn; try congruence. now rewrite vseq_assoc, IHp2. Qed.
  Lemma fill_vseqs l : fill g (vseqs l) = vseqs (map (fill g) l).
  Proof. induction l; cbn; [reflexivity|]. now rewrite fill_vseq, IHl. Qed.
  Lemma fill_fields_named k cs : fill g (fields_named k cs) = fields_named k (map fill_sub cs).
  Proof. unfold fields_named. rewrite fill_vseqs, !map_map. reflexivity. Qed.
  Lemma fill_fields names cs : fill g (fields names cs) = fields names (map fill_sub cs).
  Proof.
    revert cs; induction names as [|n names IH]; intros [|c cs]; try reflexivity.
    cbn [fields map]. now rewrite fill_vseq, IH.
  Qed.
  Lemma fill_fields_kv kk kv cs : fill g (fields_kv kk kv cs) = fields_kv kk kv (map fill_sub cs).
  Proof.
    induction cs as [|c|k v cs IH] using pair_ind; try reflexivity.
    cbn [fields_kv map]. now rewrite !fill_vseq, IH.
  Qed.
  Lemma fill_with_val x f : fill g (with_val x f) = with_val x (fun n => fill g (f n)).
  Proof. destruct x; reflexivity. Qed.
  Lemma fill_subs (cs : list sub) : map (fill g) (map snd cs) = map snd (map fill_sub cs).
  Proof. rewrite !map_map. reflexivity. Qed.
  Lemma fill_iter m tn sz nd (cs : list sub) :
    fill g (v_iter m tn sz nd (map snd cs)) = v_iter m tn sz nd (map snd (map fill_sub cs)).
  Proof.
    unfold v_iter. rewrite !map_length. destruct (negb nd || (sz =? 0)).
    - rewrite fill_with_val. reflexivity.
    - now rewrite fill_vseqs, fill_subs.
  Qed.
  Lemma fill_unused m cap n sz : fill g (unused_capacity m cap n sz) = unused_capacity m cap n sz.
  Proof. unfold unused_capacity. now rewrite fill_with_val. Qed.
  Lemma fill_raw_table m n : fill g (add_raw_table_for_len m n) = add_raw_table_for_len m n.
  Proof.
    unfold add_raw_table_for_len. destruct (n =? 0); [reflexivity|]. cbn [fill]. now rewrite fill_with_val.
  Qed.

  Lemma fill_shape m pt s cs : pointer s = false -> fill g (visit_shape m pt s cs) = visit_shape m pt s (map fill_sub cs).
  Proof.
    intros Hs.
    destruct s as [t|t|n|n|e|t names|t variant|t|t a|t a|t ps|t e cap|t e front cap|t n cap|t n cap|t h|t e cap|t e sp|t d
      |t e cap|t e cap|t|t e cap|t e cap|t e cap|t|t|t al ch|t ps x|t target]; cbn [visit_shape]; try reflexivity; try discriminate.
    - unfold impl_slice. cbn [fill]. now rewrite fill_fields_named, len_map.
    - unfold impl_struct, enter_self, v_enter_self. cbn [fill]. now rewrite fill_fields.
    - unfold impl_enum, enter_self, v_enter_self. destruct variant as [[v names]|]; cbn [fill]; now rewrite ?fill_fields.
    - unfold impl_manually_drop, enter_self, v_enter_self. cbn [fill]. now rewrite fill_fields_named.
    - unfold impl_cell, enter_self, v_enter_self. destruct a; cbn [fill]; now rewrite ?fill_fields_named.
    - unfold impl_once, enter_self, v_enter_self. destruct a; cbn [fill]; now rewrite ?fill_vseqs, ?fill_subs.
    - unfold impl_box, enter_self, v_enter_self. cbn [fill]. now rewrite fill_vseqs, fill_subs.
    - unfold impl_vec, enter_self, v_enter_self. cbn [fill]. destruct (_ && _); cbn [fill]; [|reflexivity].
      unfold v_slice. now rewrite fill_vseq, fill_iter, fill_unused, len_map.
    - unfold impl_vec_deque, enter_self, v_enter_self. cbn [fill]. destruct (_ && _); cbn [fill]; [|reflexivity].
      unfold v_slice. now rewrite !fill_vseq, !fill_iter, fill_unused, len_map, firstn_map, skipn_map.
    - unfold impl_string, enter_self, v_enter_self, v_vec_like_body, v_slice, v_iter. cbn [fill negb orb].
      rewrite fill_with_val. erewrite with_val_ext; [reflexivity|]. intros total. unfold v_field_with. cbn [fill].
      rewrite fill_vseq, !fill_with_val. reflexivity.
    - unfold impl_path_buf, enter_self, v_enter_self. cbn [fill]. destruct (negb (cap =? 0)); cbn [fill]; [|reflexivity].
      now rewrite fill_vseq, fill_with_val.
    - unfold impl_compact_string, enter_self, v_enter_self. cbn [fill]. destruct h as [[n cap]|]; cbn [fill]; [|reflexivity].
      now rewrite fill_vseq, fill_with_val.
    - unfold impl_slab, enter_self, v_enter_self. cbn [fill]. destruct (_ && _); cbn [fill]; [|reflexivity].
      now rewrite fill_vseq, fill_iter, fill_unused, len_map.
    - unfold impl_small_vec, enter_self, v_enter_self. cbn [fill]. destruct sp; cbn [fill]; now rewrite fill_fields_named.
    - unfold impl_big_int, enter_self, v_enter_self. cbn [fill]. now rewrite fill_with_val.
    - unfold impl_index_set, enter_self, v_enter_self. cbn [fill].
      now rewrite fill_vseq, fill_fields_named, fill_unused, fill_raw_table, len_map.
    - unfold impl_index_map, enter_self, v_enter_self. cbn [fill].
      now rewrite fill_vseq, fill_fields_kv, fill_unused, fill_raw_table, len_map.
    - unfold impl_json_map, enter_self, v_enter_self. cbn [fill]. now rewrite fill_fields_kv.
    - unfold impl_dash_map, enter_self, v_enter_self. cbn [fill]. rewrite fill_with_val, len_map. erewrite with_val_ext; [reflexivity|]. intros total. cbn [fill]. now rewrite fill_vseq, fill_fields_kv, fill_with_val.
    - unfold impl_dash_set, enter_self, v_enter_self. cbn [fill]. rewrite fill_with_val, len_map. erewrite with_val_ext; [reflexivity|]. intros total. cbn [fill]. now rewrite fill_vseq, fill_fields_named, fill_with_val.
    - unfold impl_hash_table, enter_self, v_enter_self. cbn [fill]. rewrite fill_with_val. erewrite with_val_ext; [reflexivity|]. intros total. cbn [fill]. now rewrite fill_iter.
    - unfold impl_map, enter_self, v_enter_self, v_generic_map_fields, v_field_with. cbn [fill].
      rewrite fill_vseqs, map_map. do 3 f_equal.
      induction cs as [|c|k v cs IH] using pair_ind; try reflexivity. cbn [pair_up map]. now rewrite IH.
    - unfold impl_set, enter_self, v_enter_self, v_generic_set_fields, v_field_with. cbn [fill].
      rewrite fill_vseqs, !map_map. reflexivity.
    - unfold impl_bump, enter_self, v_enter_self. cbn [fill]. destruct (bump_counters m al ch) as [[u n]|]; reflexivity.
  Qed.

  Lemma fill_inner i c : fill g (visit_inner i c) = visit_inner i (fill_sub c).
  Proof. destruct i; cbn [visit_inner fst snd fill_sub]; rewrite ?fill_with_val; reflexivity. Qed.
End Fill.

(** ** Each mark occurs at most once *)
Section Marks.
  Variable i : N.
  Definition sub_marks (cs : list sub) : nat := list_sum (map (fun c => marks i (snd c)) cs).

  Lemma sub_marks_cons c cs : sub_marks (c :: cs) = (marks i (snd c) + sub_marks cs)%nat.
  Proof. reflexivity. Qed.
  Lemma marks_simple k s : marks i (v_simple k s) = 0%nat. Proof. reflexivity. Qed.
  Lemma marks_field k c : marks i (field k c) = marks i (snd c).
  Proof. cbn. lia. Qed.
  Lemma marks_vseq p q : (marks i (vseq p q) <= marks i p + marks i q)%nat.
  Proof. induction p as [| |k s b IHb r IHr|k s b IHb r IHr|k s x b IHb r1 IH1 r2 IH2]; cbn [vseq marks]; try lia. Qed.
  Lemma marks_vseqs l : (marks i (vseqs l) <= list_sum (map (marks i) l))%nat.
  Proof. induction l as [|p l IH]; cbn [vseqs map list_sum fold_right marks]; [lia|]. pose proof (marks_vseq p (vseqs l)). unfold list_sum in IH. lia. Qed.
  Lemma marks_subs (cs : list sub) : (marks i (vseqs (map snd cs)) <= sub_marks cs)%nat.
  Proof. pose proof (marks_vseqs (map snd cs)). rewrite map_map in H. exact H. Qed.
  Lemma marks_fields_named k cs : (marks i (fields_named k cs) <= sub_marks cs)%nat.
  Proof.
    unfold fields_named. pose proof (marks_vseqs (map (field k) cs)) as H. rewrite map_map in H. unfold sub_marks.
    rewrite (map_ext (fun x : sub => marks i (field k x)) (fun c => marks i (snd c))) in H; [exact H|]. intros c. cbn. lia.
  Qed.
  Lemma marks_fields names cs : (marks i (fields names cs) <= sub_marks cs)%nat.
  Proof.
    revert cs; induction names as [|n names IH]; intros [|c cs]; cbn [fields marks]; try lia.
    pose proof (marks_vseq (field (key_new n) c) (fields names cs)) as H. specialize (IH cs). rewrite sub_marks_cons. rewrite marks_field in H. lia.
  Qed.
  Lemma marks_fields_kv kk kv cs : (marks i (fields_kv kk kv cs) <= sub_marks cs)%nat.
  Proof.
    induction cs as [|c|k v cs IH] using pair_ind; cbn [fields_kv marks]; try lia.
    pose proof (marks_vseq (field kk k) (vseq (field kv v) (fields_kv kk kv cs))) as H.
    pose proof (marks_vseq (field kv v) (fields_kv kk kv cs)) as H'. rewrite !sub_marks_cons. rewrite marks_field in H, H'. lia.
  Qed.
  Lemma marks_with_val x f : (forall n, marks i (f n) = 0%nat) -> marks i (with_val x f) = 0%nat.
  Proof. destruct x; cbn; auto. Qed.
  Lemma marks_with_val_le x f k : (forall n, (marks i (f n) <= k)%nat) -> (marks i (with_val x f) <= k)%nat.
  Proof. destruct x; cbn; intros; auto; lia. Qed.
  Lemma marks_iter m tn sz nd (cs : list sub) : (marks i (v_iter m tn sz nd (map snd cs)) <= sub_marks cs)%nat.
  Proof.
    unfold v_iter. destruct (negb nd || (sz =? 0)); [|apply marks_subs].
    rewrite marks_with_val; [lia|]. reflexivity.
  Qed.
  Lemma marks_unused m cap n sz : marks i (unused_capacity m cap n sz) = 0%nat.
  Proof. apply marks_with_val. reflexivity. Qed.
  Lemma marks_raw_table m n : marks i (add_raw_table_for_len m n) = 0%nat.
  Proof. unfold add_raw_table_for_len. destruct (n =? 0); [reflexivity|]. cbn [marks]. rewrite marks_with_val; reflexivity. Qed.
  Lemma sub_marks_app a b : sub_marks (a ++ b) = (sub_marks a + sub_marks b)%nat.
  Proof. unfold sub_marks. now rewrite map_app, list_sum_app. Qed.

  Ltac mk := repeat match goal with
    | |- context [marks i (vseq ?p ?q)] => pose proof (marks_vseq p q); let z := fresh in let E := fresh in remember (marks i (vseq p q)) as z eqn:E; clear E
    | H : context [marks i (vseq ?p ?q)] |- _ => pose proof (marks_vseq p q); let z := fresh in let E := fresh in remember (marks i (vseq p q)) as z eqn:E; clear E
    end.

  Lemma marks_shape m s cs : pointer s = false -> (marks i (visit_shape m unseen s cs) <= sub_marks cs)%nat.
  Proof.
    intros Hs.
    destruct s as [t|t|n|n|e|t names|t variant|t|t a|t a|t ps|t e cap|t e front cap|t n cap|t n cap|t h|t e cap|t e sp|t d
      |t e cap|t e cap|t|t e cap|t e cap|t e cap|t|t|t al ch|t ps x|t target]; cbn [visit_shape]; try discriminate;
      try (cbn; lia).
    - unfold impl_slice. cbn [marks]. pose proof (marks_fields_named DATA_NAME cs). lia.
    - unfold impl_struct, enter_self, v_enter_self. cbn [marks]. pose proof (marks_fields names cs). lia.
    - unfold impl_enum, enter_self, v_enter_self. destruct variant as [[v names]|]; cbn [marks]; [|lia]. pose proof (marks_fields names cs). lia.
    - unfold impl_manually_drop, enter_self, v_enter_self. cbn [marks]. pose proof (marks_fields_named (key_new "inner") cs). lia.
    - unfold impl_cell, enter_self, v_enter_self. cbn [marks]. destruct a; cbn [marks]; [|lia]. pose proof (marks_fields_named DATA_NAME cs). lia.
    - unfold impl_once, enter_self, v_enter_self. cbn [marks]. destruct a; cbn [marks]; [|lia]. pose proof (marks_subs cs). lia.
    - unfold impl_box, enter_self, v_enter_self. cbn [marks]. pose proof (marks_subs cs). lia.
    - unfold impl_vec, enter_self, v_enter_self. cbn [marks]. destruct (_ && _); cbn [marks]; [|lia]. unfold v_slice.
      pose proof (marks_vseq (v_iter m (t_name e) (t_size e) (t_drop e) (map snd cs)) (unused_capacity m cap (len cs) (t_size e))).
      rewrite marks_unused in H. pose proof (marks_iter m (t_name e) (t_size e) (t_drop e) cs). lia.
    - unfold impl_vec_deque, enter_self, v_enter_self. cbn [marks]. destruct (_ && _); cbn [marks]; [|lia]. unfold v_slice.
      pose proof (marks_iter m (t_name e) (t_size e) (t_drop e) (firstn front cs)).
      pose proof (marks_iter m (t_name e) (t_size e) (t_drop e) (skipn front cs)).
      pose proof (sub_marks_app (firstn front cs) (skipn front cs)). rewrite firstn_skipn in H1.
      pose proof (marks_unused m cap (len cs) (t_size e)). mk. lia.
    - unfold impl_string, enter_self, v_enter_self, v_vec_like_body, v_slice, v_iter. cbn [marks negb orb].
      rewrite marks_with_val; [lia|]. intros total. unfold v_field_with. cbn [marks].
      match goal with |- context [vseq ?a ?b] => pose proof (marks_vseq a b) end.
      rewrite !marks_with_val in H by reflexivity. lia.
    - unfold impl_path_buf, enter_self, v_enter_self. cbn [marks]. destruct (negb (cap =? 0)); cbn [marks]; [|lia].
      pose proof (@marks_with_val (usub m cap n) (v_simple UNUSED_CAPACITY_NAME) ltac:(reflexivity)). mk. rewrite !marks_simple in *. lia.
    - unfold impl_compact_string, enter_self, v_enter_self. cbn [marks]. destruct h as [[n cap]|]; cbn [marks]; [|lia].
      pose proof (@marks_with_val (usub m cap n) (v_simple UNUSED_CAPACITY_NAME) ltac:(reflexivity)). mk. rewrite !marks_simple in *. lia.
    - unfold impl_slab, enter_self, v_enter_self. cbn [marks]. destruct (_ && _); cbn [marks]; [|lia].
      pose proof (marks_iter m (t_name e) (t_size e) (t_drop e) cs). pose proof (marks_unused m cap (len cs) (t_size e)). mk. lia.
    - unfold impl_small_vec, enter_self, v_enter_self. cbn [marks]. pose proof (marks_fields_named (key_new "data") cs). destruct sp; cbn [marks]; lia.
    - unfold impl_big_int, enter_self, v_enter_self. cbn [marks]. rewrite marks_with_val; [lia | reflexivity].
    - unfold impl_index_set, enter_self, v_enter_self. cbn [marks]. rewrite marks_raw_table.
      pose proof (marks_fields_named (key_new "value") cs). pose proof (marks_unused m cap (len cs) (t_size e)). mk. lia.
    - unfold impl_index_map, enter_self, v_enter_self. cbn [marks]. rewrite marks_raw_table.
      pose proof (marks_fields_kv (key_new "key") (key_new "value") cs). pose proof (marks_unused m cap (len cs / 2) (t_size e)). mk. lia.
    - unfold impl_json_map, enter_self, v_enter_self. cbn [marks]. pose proof (marks_fields_kv (key_new "key") (key_new "value") cs). lia.
    - unfold impl_dash_map, enter_self, v_enter_self. cbn [marks]. rewrite !Nat.add_0_r. apply marks_with_val_le. intros total. cbn [marks].
      pose proof (marks_fields_kv KEY_NAME VALUE_NAME cs).
      pose proof (@marks_with_val (umul m (usaturating_sub cap (len cs / 2)) (t_size e)) (v_simple UNUSED_CAPACITY_NAME) ltac:(reflexivity)). mk. lia.
    - unfold impl_dash_set, enter_self, v_enter_self. cbn [marks]. rewrite !Nat.add_0_r. apply marks_with_val_le. intros total. cbn [marks].
      pose proof (marks_fields_named DATA_NAME cs).
      pose proof (@marks_with_val (umul m (usaturating_sub cap (len cs)) (t_size e)) (v_simple UNUSED_CAPACITY_NAME) ltac:(reflexivity)). mk. lia.
    - unfold impl_hash_table, enter_self, v_enter_self. cbn [marks]. rewrite !Nat.add_0_r. apply marks_with_val_le. intros total. cbn [marks].
      pose proof (marks_iter m (t_name e) (t_size e) (t_drop e) cs). lia.
    - unfold impl_map, enter_self, v_enter_self, v_generic_map_fields, v_field_with. cbn [marks]. rewrite !Nat.add_0_r.
      etransitivity; [apply marks_vseqs|]. rewrite map_map.
      induction cs as [|c|k v cs IH] using pair_ind; cbn [pair_up map list_sum fold_right]; try lia.
      unfold list_sum in IH. match type of IH with (?x <= _)%nat => set (F := x) in * end.
      rewrite !sub_marks_cons. unfold v_field, v_field_with. cbn [vseq marks fst snd]. lia.
    - unfold impl_set, enter_self, v_enter_self, v_generic_set_fields, v_field_with. cbn [marks]. rewrite !Nat.add_0_r.
      etransitivity; [apply marks_vseqs|]. rewrite map_map.
      induction cs as [|c cs IH]; cbn [map list_sum fold_right]; [lia|]. unfold list_sum in IH.
      match type of IH with (?x <= _)%nat => set (F := x) in * end. rewrite sub_marks_cons. unfold v_field, v_field_with. cbn [marks]. lia.
    - unfold impl_bump, enter_self, v_enter_self. cbn [marks]. destruct (bump_counters m al ch) as [[u n]|]; cbn; lia.
  Qed.

  Lemma marks_inner j c : (marks i (visit_inner j c) <= marks i (snd c))%nat.
  Proof. destruct j; cbn [visit_inner]; try lia; apply marks_with_val_le; intros ?; cbn; lia. Qed.

  Lemma marks_placeholders j sizes : (sub_marks (placeholders j sizes) <= (if (i <? j)%N then 0 else 1))%nat.
  Proof.
    revert j; induction sizes as [|n sizes IH]; intros j; cbn [placeholders]; [cbn; destruct (i <? j); lia|].
    specialize (IH (N.succ j)). rewrite sub_marks_cons. cbn [snd marks].
    destruct (N.ltb_spec i (N.succ j)), (N.ltb_spec i j), (N.eqb_spec i j); lia.
  Qed.
End Marks.

Lemma fill_ext g g' p : (forall i, (0 < marks i p)%nat -> g i = g' i) -> fill g p = fill g' p.
Proof.
  induction p as [| |k s b IHb r IHr|k s b IHb r IHr|k s x b IHb r1 IH1 r2 IH2]; cbn [fill marks]; intros H; try reflexivity.
  - rewrite IHb, IHr; [reflexivity | |]; intros i Hi; apply H; lia.
  - rewrite IHb, IHr; [reflexivity | |]; intros i Hi; apply H; lia.
  - rewrite IH1, H; [reflexivity | rewrite N.eqb_refl; lia | intros i Hi; apply H; lia].
Qed.

Definition pick (gl : list vprog) (i : N) : vprog := nth (N.to_nat i) gl VRet.
Lemma fill_placeholders sizes : forall gl pre, length sizes = length gl ->
  map (fill_sub (pick (pre ++ gl))) (placeholders (len pre) sizes) = combine sizes gl.
Proof.
  induction sizes as [|n sizes IH]; intros [|g gl] pre H; try discriminate; [reflexivity|]. cbn [placeholders map combine].
  unfold fill_sub at 1. cbn [fst snd fill]. rewrite vseq_ret. f_equal.
  - f_equal. unfold pick, len. rewrite Nat2N.id, app_nth2, Nat.sub_diag by lia. reflexivity.
  - injection H as H. specialize (IH gl (pre ++ [g]) H). rewrite <- app_assoc in IH. cbn [app] in IH. rewrite <- IH. f_equal. f_equal.
    unfold len. rewrite app_length, Nat.add_1_r, Nat2N.inj_succ. reflexivity.
Qed.

(** ** Outcomes of code with marks *)
Lemma resolves_plug ls p : Forall plain_spine ls -> (forall i, (marks i p <= 1)%nat) -> forall q, resolves (plug ls p) q ->
  exists g, (forall i, resolves (nth (N.to_nat i) ls LRet) (g i)) /\ q = fill g p.
Proof.
  intros Hls.
  assert (Hp : forall i, plain_spine (nth i ls LRet)).
  { intros i. destruct (nth_in_or_default i ls LRet) as [H | ->]; [|exact I]. rewrite Forall_forall in Hls. auto. }
  assert (Hdef : exists g, forall i : N, resolves (nth (N.to_nat i) ls LRet) (g i)).
  { clear - ls. assert (H : exists l, Forall2 resolves ls l).
    { induction ls as [|p ls (l & IH)]; [exists []; constructor|]. destruct (resolves_some p) as [q Hq]. exists (q :: l). now constructor. }
    destruct H as [l H]. exists (fun i => nth (N.to_nat i) l VRet). intros i. generalize (N.to_nat i). clear i.
    induction H as [|p q ls l H _ IH]; intros [|i]; cbn; auto; constructor. }
  induction p as [| |k s b IHb r IHr|k s b IHb r IHr|k s x b IHb r1 IH1 r2 IH2]; cbn [marks plug fill]; intros H1 q Hq.
  - inversion Hq; subst. destruct Hdef as [g Hg]. exists g. auto.
  - inversion Hq; subst. destruct Hdef as [g Hg]. exists g. auto.
  - inversion Hq as [| |? ? ? b' ? r' Hb Hr| | | | | | |]; subst.
    destruct (IHb ltac:(intros i; specialize (H1 i); lia) _ Hb) as (gb & Hgb & ->).
    destruct (IHr ltac:(intros i; specialize (H1 i); lia) _ Hr) as (gr & Hgr & ->).
    exists (fun i => if Nat.eqb (marks i b) 0 then gr i else gb i). split.
    + intros i. destruct (Nat.eqb (marks i b) 0); auto.
    + f_equal; apply fill_ext; intros i Hi; destruct (Nat.eqb_spec (marks i b) 0); auto; specialize (H1 i); lia.
  - inversion Hq as [| | |? ? ? b' ? r' Hb Hr| | | | | |]; subst.
    destruct (IHb ltac:(intros i; specialize (H1 i); lia) _ Hb) as (gb & Hgb & ->).
    destruct (IHr ltac:(intros i; specialize (H1 i); lia) _ Hr) as (gr & Hgr & ->).
    exists (fun i => if Nat.eqb (marks i b) 0 then gr i else gb i). split.
    + intros i. destruct (Nat.eqb (marks i b) 0); auto.
    + f_equal; apply fill_ext; intros i Hi; destruct (Nat.eqb_spec (marks i b) 0); auto; specialize (H1 i); lia.
  - apply resolves_lseq in Hq as (p' & q' & Hp' & Hq' & ->); [|apply Hp].
    destruct (IH1 ltac:(intros i; specialize (H1 i); lia) _ Hq') as (gr & Hgr & ->).
    exists (fun i => if N.eqb i x then p' else gr i). split.
    + intros i. destruct (N.eqb_spec i x) as [->|]; auto.
    + rewrite N.eqb_refl. f_equal. apply fill_ext. intros i Hi. destruct (N.eqb_spec i x) as [->|]; auto.
      specialize (H1 x). rewrite N.eqb_refl in H1. lia.
Qed.

Lemma resolves_plug_list ls p : Forall plain_spine ls -> (forall i, (marks i p <= 1)%nat) -> forall q, resolves (plug ls p) q ->
  exists gl, Forall2 resolves ls gl /\ q = fill (pick gl) p.
Proof.
  intros H1 H2 q H. destruct (resolves_plug H1 H2 H) as (g & Hg & ->).
  exists (map (fun i => g (N.of_nat i)) (seq 0 (length ls))). split.
  - assert (X : forall i, resolves (nth i ls LRet) (g (N.of_nat i))) by (intros i; specialize (Hg (N.of_nat i)); now rewrite Nat2N.id in Hg).
    assert (Y : forall i, resolves (nth i ls LRet) (g (N.of_nat (0 + i)))) by exact X. clear - Y. revert Y. generalize 0%nat.
    induction ls as [|l ls IH]; intros k Y; cbn [length seq map]; constructor.
    + specialize (Y 0%nat). now rewrite Nat.add_0_r in Y.
    + apply IH. intros i. specialize (Y (S i)). now rewrite Nat.add_succ_r in Y.
  - apply fill_ext. intros i _. unfold pick. destruct (Nat.lt_ge_cases (N.to_nat i) (length ls)) as [L|L].
    + rewrite nth_indep with (d' := g (N.of_nat 0)) by (rewrite map_length, seq_length; exact L).
      rewrite (map_nth (fun i => g (N.of_nat i))), seq_nth by exact L. cbn [Nat.add]. now rewrite N2Nat.id.
    + rewrite nth_overflow by (rewrite map_length, seq_length; exact L).
      specialize (Hg i). rewrite nth_overflow in Hg by exact L. now inversion Hg.
Qed.

(** ** The same code with other code behind its shared pointers *)
Inductive relinked (B : ptr -> vprog -> Prop) : vprog -> vprog -> Prop :=
| rl_ret : relinked B VRet VRet
| rl_crash : relinked B VCrash VCrash
| rl_inline k s b b' r r' : relinked B b b' -> relinked B r r' -> relinked B (VInline k s b r) (VInline k s b' r')
| rl_unique k s b b' r r' : relinked B b b' -> relinked B r r' -> relinked B (VUnique k s b r) (VUnique k s b' r')
| rl_shared k s x b0 b r1 r1' r2 r2' : B x b -> relinked B r1 r1' -> relinked B r2 r2' ->
    relinked B (VShared k s x b0 r1 r2) (VShared k s x b r1' r2').

Lemma relinked_vseq B p p' q q' : relinked B p p' -> relinked B q q' -> relinked B (vseq p q) (vseq p' q').
Proof. intros H1 H2. induction H1; cbn; try constructor; auto. Qed.
Lemma relinked_fill B g g' p : (forall i, relinked B (g i) (g' i)) -> relinked B (fill g p) (fill g' p).
Proof. intros H. induction p; cbn [fill]; try constructor; auto. now apply relinked_vseq. Qed.
Lemma resolves_embed lpt p : forall q, resolves (embed lpt p) q -> relinked (fun x b => resolves (lpt x) b) p q.
Proof.
  induction p as [| |k s b IHb r IHr|k s b IHb r IHr|k s x b IHb r1 IH1 r2 IH2]; cbn [embed]; intros q H; inversion H; subst; constructor; auto.
Qed.

(** ** Visits have a plain spine *)
Lemma shape_spine m s cs : visit_shape m unseen s cs = VRet \/ exists k n b, visit_shape m unseen s cs = VInline k n b VRet.
Proof. destruct s; cbn [visit_shape]; auto; right; unfold impl_leaf, v_simple_sized, impl_str, impl_os_str, v_simple, impl_slice, impl_struct, impl_enum,
  impl_manually_drop, impl_cell, impl_once, impl_box, impl_vec, impl_vec_deque, impl_string, impl_path_buf, impl_compact_string, impl_slab, impl_small_vec,
  impl_big_int, impl_index_set, impl_index_map, impl_json_map, impl_dash_map, impl_dash_set, impl_hash_table, impl_map, impl_set, impl_bump, impl_shared_ptr,
  impl_weak, enter_self, v_enter_self; eauto. Qed.
Lemma plain_l_shape m lpt s cs : plain_spine (l_shape m lpt s cs).
Proof.
  unfold l_shape. destruct (pointer s) eqn:E.
  - assert (X : plain_spine (embed lpt (visit_shape m unseen s []))).
    { destruct (shape_spine m s []) as [-> | (k & n & b & ->)]; exact I. }
    destruct s; try discriminate; exact X.
  - assert (X : plain_spine (plug (map snd cs) (visit_shape m unseen s (placeholders 0 (map fst cs))))).
    { destruct (shape_spine m s (placeholders 0 (map fst cs))) as [-> | (k & n & b & ->)]; exact I. }
    destruct s; try discriminate; exact X.
Qed.
Lemma plain_l_visit m lpt v : plain_spine (l_visit m lpt v).
Proof. destruct v as [s cs|t l a c|t l c|t t' ps x]; [apply plain_l_shape | exact I | exact I | exact I]. Qed.

(** ** Outcomes of the visit of a value *)
Lemma could_be_quiet v : could_be v (quiet v).
Proof.
  induction v as [s cs IH|t l a c IH|t l c IH|t t' ps x] using lvalue_induction; cbn [quiet]; constructor; auto.
  induction IH; cbn; constructor; auto.
Qed.
Lemma Forall2_len {A B} (R : A -> B -> Prop) a b : Forall2 R a b -> length a = length b.
Proof. induction 1; cbn; congruence. Qed.
Lemma could_be_size v w : could_be v w -> size_of_val w = lsize v.
Proof.
  intros H. unfold lsize. inversion H as [s cs ws Hc| | | |]; subst; cbn [quiet]; try reflexivity.
  cbn [size_of_val]. destruct s; try reflexivity. f_equal. unfold len. now rewrite map_length, (Forall2_len Hc).
Qed.

Definition linked_to (m : mode) (B : ptr -> vprog -> Prop) (v : lvalue) (q : vprog) : Prop :=
  exists w, could_be v w /\ relinked B (visit m unseen w) q.

Lemma children_linked m B (cs : list lvalue) (f : lvalue -> lprog) gl :
  Forall (fun c => forall q, resolves (f c) q -> linked_to m B c q) cs ->
  Forall2 resolves (map f cs) gl ->
  exists ws, Forall2 could_be cs ws /\ Forall2 (relinked B) (map (visit m unseen) ws) gl.
Proof.
  revert gl; induction cs as [|c cs IH]; intros gl Hc H; inversion H as [|? q ? gl' Hq Hr]; subst; [exists []; split; constructor|].
  inversion Hc as [|? ? H1 H2]; subst. destruct (IH _ H2 Hr) as (ws & H3 & H4). destruct (H1 _ Hq) as (w & H5 & H6).
  exists (w :: ws). split; cbn; constructor; auto.
Qed.
Lemma pick_relinked B a b : Forall2 (relinked B) a b -> forall i, relinked B (pick a i) (pick b i).
Proof.
  intros H i. unfold pick. generalize (N.to_nat i). clear i. induction H; intros [|i]; cbn; auto; constructor.
Qed.
Lemma combine_sizes m cs ws : Forall2 could_be cs ws ->
  combine (map lsize cs) (map (visit m unseen) ws) = map (fun w => (size_of_val w, visit m unseen w)) ws.
Proof. induction 1 as [|c w cs ws H _ IH]; cbn [map combine]; [reflexivity|]. now rewrite IH, (could_be_size H). Qed.

Theorem resolves_visit m lpt v : forall q, resolves (l_visit m lpt v) q -> linked_to m (fun x b => resolves (lpt x) b) v q.
Proof.
  set (B := fun x b => resolves (lpt x) b).
  induction v as [s cs IH|t l a c IH|t l c IH|t t' ps x] using lvalue_induction; intros q H.
  - destruct (pointer s) eqn:Es.
    + assert (H' : resolves (embed lpt (visit_shape m unseen s [])) q) by (destruct s; try discriminate; exact H).
      apply resolves_embed in H'. exists (quiet (LPlain s cs)). split; [apply could_be_quiet|]. cbn [quiet]. rewrite visit_node.
      destruct s; try discriminate; exact H'.
    + assert (H' : resolves (plug (map (l_visit m lpt) cs) (visit_shape m unseen s (placeholders 0 (map lsize cs)))) q).
      { destruct s; try discriminate; cbn [l_visit l_shape] in H; rewrite !map_map in H; cbn [fst snd] in H; exact H. }
      clear H. apply resolves_plug_list in H' as (gl & Hgl & ->).
      * destruct (children_linked IH Hgl) as (ws & H1 & H2). exists (Node s ws). split; [now constructor|]. rewrite visit_node. unfold subs_of.
        rewrite <- (combine_sizes m H1), <- (@fill_placeholders (map lsize cs) (map (visit m unseen) ws) []) by (rewrite !map_length; apply (Forall2_len H1)).
        cbn [app]. change (len []) with 0. rewrite <- fill_shape by exact Es. apply relinked_fill. now apply pick_relinked.
      * apply Forall_forall. intros p Hp. apply in_map_iff in Hp as (c & <- & _). apply plain_l_visit.
      * intros i. etransitivity; [apply marks_shape, Es|]. etransitivity; [apply marks_placeholders|]. destruct (i <? 0)%N; lia.
  - cbn [l_visit] in H. apply C49_cells_lemma in H as [[z ->] | (q' & Hq & ->)].
    + exists (Node (SCell t false) [quiet c]). split; [constructor; apply could_be_quiet|]. repeat constructor.
    + destruct (IH _ Hq) as (w & H1 & H2). exists (Node (SCell t true) [w]). split; [now constructor|].
      cbn [visit visit_shape map]. unfold impl_cell, enter_self, v_enter_self, fields_named. cbn [map vseqs]. rewrite (could_be_size H1).
      repeat (constructor; auto).
  - cbn [l_visit l_once] in H. unfold l_once in H. inversion H as [| |? ? ? b' ? r' Hb Hr| | | | | | |]; subst. inversion Hr; subst.
    inversion Hb as [| | | | |? ? ? b0 ? r0 Hb0 Hr0|? ? ? ? ? Hr0| | |]; subst; inversion Hr0; subst.
    + destruct (IH _ Hb0) as (w & H1 & H2). exists (Node (SOnce t true) [w]). split; [now constructor|].
      cbn [visit visit_shape map]. unfold impl_once, enter_self, v_enter_self. cbn [map vseqs snd]. rewrite !vseq_ret. repeat (constructor; auto).
    + exists (Node (SOnce t false) [quiet c]). split; [constructor; apply could_be_quiet|]. repeat constructor.
  - cbn [l_visit] in H. unfold l_weak in H. inversion H as [| |? ? ? b' ? r' Hb Hr| | | | | | |]; subst. inversion Hr; subst.
    inversion Hb as [| | | | | | | |? ? b0 ? r0 Hb0 Hr0|? ? ? ? Hr0]; subst; inversion Hr0; subst.
    + change (resolves (embed lpt (impl_shared_ptr unseen t' ps x)) b0) in Hb0; apply resolves_embed in Hb0. exists (Node (SWeak t (Some (t', ps, x))) []). split; [constructor|].
      cbn [visit visit_shape map]. unfold impl_weak, enter_self, v_enter_self. rewrite vseq_ret. constructor; [exact Hb0 | constructor].
    + exists (Node (SWeak t None) []). split; constructor; constructor.
Qed.

Lemma resolves_inner m lpt i v q : resolves (l_inner i (lsize v, l_visit m lpt v)) q ->
  exists w, could_be v w /\ relinked (fun x b => resolves (lpt x) b) (visit_inner i (size_of_val w, visit m unseen w)) q.
Proof.
  unfold l_inner. cbn [placeholders fst snd]. intros H. apply resolves_plug_list in H as (gl & Hgl & ->).
  - inversion Hgl as [|? g ? ? Hg Hn]; subst. inversion Hn; subst. destruct (resolves_visit Hg) as (w & H1 & H2). exists w. split; [exact H1|].
    rewrite (could_be_size H1).
    assert (E : (lsize v, visit m unseen w) = fill_sub (pick [visit m unseen w]) (lsize v, VShared DATA_NAME 0 0 VRet VRet VRet)).
    { unfold fill_sub. cbn [fst snd fill]. now rewrite vseq_ret. }
    rewrite E, <- fill_inner. apply relinked_fill. apply pick_relinked. repeat constructor. exact H2.
  - repeat constructor. apply plain_l_visit.
  - intros j. etransitivity; [apply marks_inner|]. cbn. destruct (j =? 0); lia.
Qed.
