(** * Facts about the implementations. *)
From Verif Require Import Base BaseFacts KeyModel KeyFacts HMap FlameModel BuilderModel VisitorModel Spec
  LayoutModel LayoutFacts PropertiesLayout ImplModel ImplSpec.

#[local] Arguments key_new : simpl never.

(** ** Tame programs: no panic, keys from [Key::new], uniform use of shared pointers *)
Fixpoint tame (pt : ptr -> vprog) (p : vprog) : Prop :=
  match p with
  | VRet => True
  | VCrash => False
  | VInline k _ b r | VUnique k _ b r => made_by_new k /\ tame pt b /\ tame pt r
  | VShared k _ x b r1 r2 => made_by_new k /\ b = pt x /\ r1 = r2 /\ tame pt r1
  end.

Lemma vseq_ret p : vseq p VRet = p.
Proof. induction p; cbn; congruence. Qed.

Lemma tame_vseq pt p q : tame pt p -> tame pt q -> tame pt (vseq p q).
Proof.
  intros Hp Hq. induction p as [| |k s b IHb r IHr|k s b IHb r IHr|k s x b IHb r1 IH1 r2 IH2]; cbn in *; try tauto.
  destruct Hp as (H1 & H2 & H3 & H4). subst r2. repeat split; auto.
Qed.

Lemma tame_vseqs pt l : Forall (tame pt) l -> tame pt (vseqs l).
Proof. induction 1; cbn; [exact I | now apply tame_vseq]. Qed.

Lemma new_made s : made_by_new (key_new s). Proof. eexists; reflexivity. Qed.
Lemma name_made s : made_by_new (key_for_type_name s). Proof. eexists; reflexivity. Qed.
#[export] Hint Resolve new_made name_made : tame.
Lemma data_name_made : made_by_new DATA_NAME. Proof. apply new_made. Qed.
Lemma ptr_name_made : made_by_new PTR_NAME. Proof. apply new_made. Qed.
Lemma capacity_name_made : made_by_new CAPACITY_NAME. Proof. apply new_made. Qed.
Lemma unused_capacity_name_made : made_by_new UNUSED_CAPACITY_NAME. Proof. apply new_made. Qed.
Lemma key_name_made : made_by_new KEY_NAME. Proof. apply new_made. Qed.
Lemma value_name_made : made_by_new VALUE_NAME. Proof. apply new_made. Qed.
#[export] Hint Resolve data_name_made ptr_name_made capacity_name_made unused_capacity_name_made key_name_made value_name_made : tame.

Lemma tame_inline pt k s b r : made_by_new k -> tame pt b -> tame pt r -> tame pt (VInline k s b r).
Proof. cbn; tauto. Qed.
Lemma tame_unique pt k s b r : made_by_new k -> tame pt b -> tame pt r -> tame pt (VUnique k s b r).
Proof. cbn; tauto. Qed.
Lemma tame_ret pt : tame pt VRet. Proof. exact I. Qed.
Lemma tame_simple pt k s : made_by_new k -> tame pt (v_simple k s).
Proof. cbn; tauto. Qed.
Lemma tame_self pt t b : tame pt b -> tame pt (enter_self t b).
Proof. intros. apply tame_inline; auto with tame. exact I. Qed.
#[export] Hint Resolve tame_ret tame_simple tame_self : tame.

Lemma tame_field pt k c : made_by_new k -> tame pt (snd c) -> tame pt (field k c).
Proof. intros. apply tame_inline; auto with tame. Qed.

Lemma tame_fields_named pt k cs : made_by_new k -> Forall (fun c => tame pt (snd c)) cs -> tame pt (fields_named k cs).
Proof.
  intros Hk H. apply tame_vseqs. rewrite Forall_map. eapply Forall_impl; [|exact H]. intros c Hc. now apply tame_field.
Qed.

Lemma tame_fields pt names cs : Forall (fun c => tame pt (snd c)) cs -> tame pt (fields names cs).
Proof.
  revert cs; induction names as [|n names IH]; intros cs H; [exact I|]. destruct H; [exact I|].
  cbn [fields]. apply tame_vseq; [apply tame_field; auto with tame | auto].
Qed.

Lemma pair_ind {A} (P : list A -> Prop) : P [] -> (forall x, P [x]) -> (forall x y l, P l -> P (x :: y :: l)) -> forall l, P l.
Proof.
  intros H0 H1 H2. fix go 1. intros [|x [|y l]]; [exact H0 | apply H1 | apply H2, go].
Qed.

Lemma tame_fields_kv pt kk kv cs : made_by_new kk -> made_by_new kv -> Forall (fun c => tame pt (snd c)) cs ->
  tame pt (fields_kv kk kv cs).
Proof.
  intros Hk Hv. induction cs as [|c|k v cs IH] using pair_ind; intros H; try exact I.
  inversion H as [|? ? Ha H']; subst. inversion H' as [|? ? Hb H'']; subst. cbn [fields_kv].
  apply tame_vseq; [now apply tame_field|]. apply tame_vseq; [now apply tame_field | auto].
Qed.

Lemma tame_subs pt (cs : list sub) : Forall (fun c => tame pt (snd c)) cs -> tame pt (vseqs (map snd cs)).
Proof. intros H. apply tame_vseqs. now rewrite Forall_map. Qed.

Lemma Forall_firstn {A} (P : A -> Prop) n l : Forall P l -> Forall P (firstn n l).
Proof. intros H. revert n; induction H; intros [|n]; cbn; constructor; auto. Qed.
Lemma Forall_skipn {A} (P : A -> Prop) n l : Forall P l -> Forall P (skipn n l).
Proof. intros H. revert n; induction H; intros [|n]; cbn; auto. Qed.

Lemma len_map {A B} (f : A -> B) l : len (map f l) = len l.
Proof. unfold len. now rewrite map_length. Qed.
Lemma len_split {A} n (l : list A) : len (firstn n l) + len (skipn n l) = len l.
Proof. unfold len. rewrite <- Nat2N.inj_add, <- app_length, firstn_skipn. reflexivity. Qed.

(** ** Resolved arithmetic *)
Lemma v_iter_resolved m tn sz nd (cs : list sub) : sz * len cs < two64 ->
  v_iter m tn sz nd (map snd cs) =
  if negb nd || (sz =? 0) then v_simple (key_for_type_name tn) (sz * len cs) else vseqs (map snd cs).
Proof.
  intros H. unfold v_iter. rewrite map_length. fold (len cs). rewrite umul_exact by exact H. reflexivity.
Qed.

Lemma unused_resolved m e n cap : buffer e n cap ->
  unused_capacity m cap n (t_size e) = v_simple UNUSED_CAPACITY_NAME ((cap - n) * t_size e).
Proof.
  intros (H1 & H2 & H3). unfold unused_capacity, usub. rewrite (proj2 (N.leb_le n cap)) by exact H1.
  cbn [obind]. rewrite umul_exact; [reflexivity|]. pose proof two63_lt_two64. nia.
Qed.

Lemma log2_up_least n : 1 < n -> least_pow2 n (2 ^ N.log2_up n).
Proof.
  intros H. split; [eexists; reflexivity|]. destruct (N.log2_up_spec n H) as [L U]. split; [exact U|].
  intros q [k ->] Hq. apply N.pow_le_mono_r; [lia|]. apply N.log2_up_le_pow2; lia.
Qed.

Lemma table_resolved m sz n : table_fits sz n -> raw_table_alloc_size_for_len m sz n = Some ((sz + 1) * buckets_for n).
Proof.
  intros (p & Hp & Hle & Hf). unfold buckets_for. destruct (N.eqb_spec n 0) as [->|Hn].
  - rewrite N.mul_0_r. apply C31_empty. pose proof (pow2_pos Hp). nia.
  - pose proof (@log2_up_least (N.max 4 n) ltac:(lia)) as HL. apply C31_exact; [lia | exact HL|].
    destruct HL as (_ & _ & Hmin). specialize (Hmin p Hp Hle). nia.
Qed.

Lemma sub_len (f : value -> sub) cs : len (map f cs) = len cs. Proof. apply len_map. Qed.

(** ** All implementations are tame on well-typed values *)
Definition subs_of (m : mode) (pt : ptr -> vprog) (cs : list value) : list sub :=
  map (fun c => (size_of_val c, visit m pt c)) cs.

Lemma visit_node m pt s cs : visit m pt (Node s cs) = visit_shape m pt s (subs_of m pt cs).
Proof. reflexivity. Qed.

Lemma len_subs m pt cs : len (subs_of m pt cs) = len cs. Proof. apply len_map. Qed.

Lemma tame_iter m pt tn sz nd (cs : list sub) : sz * len cs < two64 -> Forall (fun c => tame pt (snd c)) cs ->
  tame pt (v_iter m tn sz nd (map snd cs)).
Proof.
  intros H Hc. rewrite v_iter_resolved by exact H. destruct (negb nd || (sz =? 0)); [auto with tame | now apply tame_subs].
Qed.

Lemma buffer_len e n cap : buffer e n cap -> t_size e * n < two64.
Proof. intros (H1 & H2 & H3). pose proof two63_lt_two64. nia. Qed.

Lemma buffer_unused e n cap : buffer e n cap -> (cap - n) * t_size e < two64.
Proof.
  intros (H1 & H2 & H3). pose proof two63_lt_two64. assert ((cap - n) * t_size e <= cap * t_size e) by (apply N.mul_le_mono_r; lia). lia.
Qed.

Lemma buffer_total e n cap : buffer e n cap -> cap * t_size e < two64.
Proof. intros (H1 & H2 & H3). pose proof two63_lt_two64. lia. Qed.

Lemma tame_unused m pt e n cap : buffer e n cap -> tame pt (unused_capacity m cap n (t_size e)).
Proof. intros H. rewrite unused_resolved by exact H. apply tame_simple, new_made. Qed.

Lemma with_val_some n f : with_val (Some n) f = f n. Proof. reflexivity. Qed.

Lemma usub_ok m a b : b <= a -> usub m a b = Some (a - b).
Proof. intros H. unfold usub. now rewrite (proj2 (N.leb_le b a) H). Qed.

Lemma tame_shared_ptr pt t ps x : tame pt (impl_shared_ptr pt t ps x).
Proof. apply tame_self. cbn. repeat split. apply new_made. Qed.

Lemma tame_raw_table m pt n : table_fits 8 n -> tame pt (add_raw_table_for_len m n).
Proof.
  intros H. unfold add_raw_table_for_len. destruct (n =? 0); [exact I|].
  rewrite table_resolved by exact H. cbn [with_val]. apply tame_unique; auto with tame.
Qed.

Lemma tame_pairs pt (cs : list sub) : Forall (fun c => tame pt (snd c)) cs -> tame pt (v_generic_map_fields (pair_up cs)).
Proof.
  intros H. apply tame_inline; [apply new_made | | exact I]. apply tame_vseqs. rewrite Forall_map.
  revert H. induction cs as [|c|k v cs IH] using pair_ind; intros H; cbn [pair_up]; try constructor.
  - inversion H as [|? ? Ha H']; subst. inversion H' as [|? ? Hb H'']; subst. cbn [fst snd].
    apply tame_vseq; apply tame_inline; auto with tame.
  - apply IH. inversion H as [|? ? Ha H']; subst. inversion H' as [|? ? Hb H'']; subst. exact H''.
Qed.

Lemma tame_set pt (cs : list sub) : Forall (fun c => tame pt (snd c)) cs -> tame pt (v_generic_set_fields cs).
Proof.
  intros H. apply tame_inline; [apply new_made | | exact I]. apply tame_vseqs. rewrite Forall_map.
  eapply Forall_impl; [|exact H]. intros c Hc. apply tame_inline; auto with tame.
Qed.

Lemma typed_inv s cs : typed (Node s cs) -> shape_ok s cs /\ Forall typed cs.
Proof. intros H. inversion H; auto. Qed.

Lemma tame_visit m pt v : typed v -> tame pt (visit m pt v).
Proof.
  induction v as [s cs IH] using value_induction. intros Ht. apply typed_inv in Ht as [Hok Hcs].
  rewrite visit_node.
  assert (Hs : Forall (fun c => tame pt (snd c)) (subs_of m pt cs)).
  { unfold subs_of. rewrite Forall_map. cbn [snd]. apply Forall_forall. intros c Hc.
    rewrite Forall_forall in IH, Hcs. auto. }
  destruct s as [t|t|n|n|e|t names|t variant|t|t a|t a|t ps|t e cap|t e front cap|t n cap|t n cap|t h|t e cap|t e sp|t d
    |t e cap|t e cap|t|t e cap|t e cap|t e cap|t|t|t al ch|t ps x|t target]; cbn [visit_shape shape_ok] in *.
  - apply tame_self, tame_ret.
  - exact I.
  - apply tame_simple, new_made.
  - apply tame_simple, new_made.
  - apply tame_inline; auto with tame. apply tame_fields_named; auto with tame.
  - apply tame_self, tame_fields; auto.
  - apply tame_self. destruct variant as [[v names]|]; [|exact I]. apply tame_inline; auto with tame. apply tame_fields; auto.
  - apply tame_self, tame_fields_named; auto with tame.
  - apply tame_self. destruct a; [apply tame_fields_named; auto with tame | exact I].
  - apply tame_self. destruct a; [apply tame_subs; auto | exact I].
  - apply tame_self, tame_unique; auto with tame. apply tame_subs; auto.
  - destruct Hok as (Ho & He & Hb). apply tame_self. destruct (_ && _); [|exact I]. apply tame_unique; auto with tame.
    rewrite len_subs. apply tame_vseq; [|now apply tame_unused]. apply tame_iter; auto. rewrite len_subs. eapply buffer_len; eauto.
  - destruct Hok as (Ho & He & Hb). apply tame_self. destruct (_ && _); [|exact I]. apply tame_unique; auto with tame.
    rewrite len_subs. pose proof (buffer_len Hb) as Hl. pose proof (len_split front (subs_of m pt cs)) as Hsp. rewrite len_subs in Hsp.
    apply tame_vseq; [|apply tame_vseq; [|now apply tame_unused]].
    + apply tame_iter; [nia | now apply Forall_firstn].
    + apply tame_iter; [nia | now apply Forall_skipn].
  - destruct Hok as (_ & Ho & Hn & Hc). pose proof two63_lt_two64. apply tame_self, tame_unique; auto with tame.
    unfold v_vec_like_body. rewrite umul_exact by lia. cbn [with_val]. apply tame_inline; auto with tame.
    apply tame_vseq.
    + unfold v_slice, v_iter. cbn [negb orb]. rewrite repeat_length, umul_exact by lia. apply tame_simple; auto with tame.
    + rewrite repeat_length, wrapping_sub_exact by lia. rewrite umul_exact by lia. apply tame_simple; auto with tame.
  - destruct Hok as (_ & Ho & Hn & Hc). apply tame_self. destruct (negb (cap =? 0)); [|exact I]. apply tame_unique; auto with tame.
    apply tame_vseq; [auto with tame|]. rewrite usub_ok by exact Hn. apply tame_simple; auto with tame.
  - destruct Hok as (_ & Ho & Hh). apply tame_self. destruct h as [[n cap]|]; [|exact I]. apply tame_unique; auto with tame.
    apply tame_vseq; [auto with tame|]. rewrite usub_ok by apply Hh. apply tame_simple; auto with tame.
  - destruct Hok as (Ho & He & Hb). apply tame_self. destruct (_ && _); [|exact I]. apply tame_unique; auto with tame.
    rewrite len_subs. apply tame_vseq; [|now apply tame_unused]. apply tame_iter; auto. rewrite len_subs. eapply buffer_len; eauto.
  - apply tame_self. destruct sp; [apply tame_unique; auto with tame|]; apply tame_fields_named; auto with tame.
  - destruct Hok as (_ & Ho & Hd). pose proof two63_lt_two64. apply tame_self, tame_unique; auto with tame.
    rewrite umul_exact by lia. apply tame_simple; auto with tame.
  - destruct Hok as (_ & _ & He & Hb & Hf). apply tame_self. rewrite len_subs. apply tame_unique; auto with tame.
    + apply tame_vseq; [apply tame_fields_named; auto with tame | now apply tame_unused].
    + now apply tame_raw_table.
  - destruct Hok as (_ & _ & He & Hb & Hf). apply tame_self. rewrite len_subs. apply tame_unique; auto with tame.
    + apply tame_vseq; [apply tame_fields_kv; auto with tame | now apply tame_unused].
    + now apply tame_raw_table.
  - apply tame_self, tame_unique; auto with tame. apply tame_fields_kv; auto with tame.
  - destruct Hok as (Ho & He & Hb). apply tame_self, tame_unique; auto with tame.
    rewrite umul_exact by (eapply buffer_total; eauto). rewrite ?len_subs. cbn [with_val]. apply tame_inline; auto with tame.
    apply tame_vseq; [apply tame_fields_kv; auto with tame|]. unfold usaturating_sub. rewrite umul_exact by (eapply buffer_unused; eauto). apply tame_simple; auto with tame.
  - destruct Hok as (Ho & He & Hb). apply tame_self, tame_unique; auto with tame.
    rewrite umul_exact by (eapply buffer_total; eauto). rewrite ?len_subs. cbn [with_val]. apply tame_inline; auto with tame.
    apply tame_vseq; [apply tame_fields_named; auto with tame|]. unfold usaturating_sub. rewrite umul_exact by (eapply buffer_unused; eauto). apply tame_simple; auto with tame.
  - destruct Hok as (Ho & He & Hl & Hf). apply tame_self, tame_unique; auto with tame. rewrite table_resolved by exact Hf.
    cbn [with_val]. apply tame_inline; auto with tame. apply tame_iter; auto. rewrite len_subs.
    destruct Hf as (p & Hp & Hle & Hf). nia.
  - apply tame_self, tame_pairs; auto.
  - apply tame_self, tame_set; auto.
  - destruct Hok as (_ & Ho & Hs1 & Ha). apply tame_self, tame_unique; auto with tame. pose proof two63_lt_two64.
    rewrite C40_exact by lia. apply tame_vseq; auto with tame.
  - apply tame_shared_ptr.
  - apply tame_self. destruct target as [[[t' ps] x]|]; [apply tame_shared_ptr | exact I].
Qed.

(** ** Every implementation opens one scope of the value's size *)
Lemma visit_shape_scope m pt s (cs : list sub) : match s with SSilent _ => False | _ => True end ->
  exists k b, visit_shape m pt s cs = VInline k
    (match s with SStr n | SOsStr n => n | SSlice e => t_size e * len cs
     | _ => match shape_info s with Some t => t_size t | None => 0 end end) b VRet.
Proof. intros H. destruct s; try (destruct H; fail); do 2 eexists; reflexivity. Qed.

Lemma visit_scope m pt v : silent v = false ->
  exists k b, visit m pt v = VInline k (size_of_val v) b VRet.
Proof.
  destruct v as [s cs]. intros H. rewrite visit_node.
  destruct (@visit_shape_scope m pt s (subs_of m pt cs)) as (k & b & E).
  { destruct s; try exact I. discriminate H. }
  exists k, b. rewrite E. f_equal. destruct s; try reflexivity. cbn [size_of_val]. now rewrite len_subs.
Qed.

Lemma visit_silent m pt v : silent v = true -> visit m pt v = VRet.
Proof. destruct v as [s cs]. destruct s; try discriminate. reflexivity. Qed.

(** ** Consistent declarations *)
Lemma fits_mono p c c' : fits p (Some c) -> c <= c' -> fits p (Some c').
Proof.
  revert c c'; induction p as [| |k s b IHb r IHr|k s b IHb r IHr|k s x b IHb r1 IH1 r2 IH2]; intros c c' H Hc; cbn in *; auto.
  - destruct H as (H1 & H2 & H3). repeat split; auto; [lia|]. eapply IHr; [exact H3 | lia].
  - destruct H as (H1 & H2 & H3). repeat split; auto; [lia|]. eapply IHr; [exact H3 | lia].
  - destruct H as (H1 & H2 & H3 & H4). repeat split; auto; [lia | |]; [eapply IH1 | eapply IH2]; eauto; lia.
Qed.

Lemma fits_none p c : fits p (Some c) -> fits p None.
Proof.
  revert c; induction p as [| |k s b IHb r IHr|k s b IHb r IHr|k s x b IHb r1 IH1 r2 IH2]; intros c H; cbn in *; auto.
  - destruct H as (H1 & H2 & H3). repeat split; eauto.
  - destruct H as (H1 & H2 & H3). repeat split; eauto.
  - destruct H as (H1 & H2 & H3 & H4). repeat split; eauto.
Qed.

Lemma fits_vseq p q a b : fits p (Some a) -> fits q (Some b) -> fits (vseq p q) (Some (a + b)).
Proof.
  revert a; induction p as [| |k s bd IHb r IHr|k s bd IHb r IHr|k s x bd IHb r1 IH1 r2 IH2]; intros a Hp Hq;
    cbn [vseq]; auto.
  - eapply fits_mono; [exact Hq | lia].
  - destruct Hp as (H1 & H2 & H3). cbn in *. split; [lia|]. split; [auto|].
    replace (a + b - s) with (a - s + b) by lia. auto.
  - destruct Hp as (H1 & H2 & H3). cbn in *. split; [lia|]. split; [auto|].
    replace (a + b - s) with (a - s + b) by lia. auto.
  - destruct Hp as (H1 & H2 & H3 & H4). cbn in *. split; [lia|]. split; [auto|].
    replace (a + b - s) with (a - s + b) by lia. auto.
Qed.

Lemma fits_vseq_none p q : fits p None -> fits q None -> fits (vseq p q) None.
Proof.
  intros Hp Hq; induction p as [| |k s bd IHb r IHr|k s bd IHb r IHr|k s x bd IHb r1 IH1 r2 IH2];
    cbn [vseq]; cbn in Hp |- *; tauto.
Qed.

Lemma fits_simple k s : fits (v_simple k s) (Some s).
Proof. cbn. auto using N.le_refl. Qed.

Definition fitting (c : sub) : Prop := fits (snd c) (Some (fst c)).
Definition sub_sizes (cs : list sub) : N := sumN (map fst cs).

Lemma fits_field k c : fitting c -> fits (field k c) (Some (fst c)).
Proof. intros H. split; [reflexivity|]. split; [exact H | exact I]. Qed.

Lemma fits_fields_named k cs : Forall fitting cs -> fits (fields_named k cs) (Some (sub_sizes cs)).
Proof.
  induction 1 as [|c cs Hc _ IH]; [exact I|]. unfold fields_named. cbn [map vseqs].
  change (sub_sizes (c :: cs)) with (fst c + sub_sizes cs). apply fits_vseq; [now apply fits_field | exact IH].
Qed.

Lemma fits_fields names cs : Forall fitting cs -> fits (fields names cs) (Some (sub_sizes cs)).
Proof.
  revert cs; induction names as [|n names IH]; intros cs H; [exact I|]. destruct H as [|c cs Hc H]; [exact I|].
  cbn [fields]. change (sub_sizes (c :: cs)) with (fst c + sub_sizes cs). apply fits_vseq; [now apply fits_field | auto].
Qed.

Lemma fits_fields_kv kk kv cs : Forall fitting cs -> fits (fields_kv kk kv cs) (Some (sub_sizes cs)).
Proof.
  induction cs as [|c|k v cs IH] using pair_ind; intros H; try exact I.
  inversion H as [|? ? Ha H']; subst. inversion H' as [|? ? Hb H'']; subst. cbn [fields_kv].
  change (sub_sizes (k :: v :: cs)) with (fst k + (fst v + sub_sizes cs)).
  apply fits_vseq; [now apply fits_field|]. apply fits_vseq; [now apply fits_field | auto].
Qed.

Lemma fits_subs (cs : list sub) : Forall fitting cs -> fits (vseqs (map snd cs)) (Some (sub_sizes cs)).
Proof.
  induction 1 as [|c cs Hc _ IH]; [exact I|]. cbn [map vseqs]. change (sub_sizes (c :: cs)) with (fst c + sub_sizes cs).
  now apply fits_vseq.
Qed.

Lemma fits_self t b : fits b (Some (t_size t)) -> fits (enter_self t b) (Some (t_size t)).
Proof. intros H. split; [reflexivity|]. split; [exact H | exact I]. Qed.

Lemma fits_unique k s b r c : s <= c -> fits b None -> fits r (Some (c - s)) -> fits (VUnique k s b r) (Some c).
Proof. cbn. auto. Qed.

Lemma sub_sizes_subs m pt cs : sub_sizes (subs_of m pt cs) = sumN (map size_of_val cs).
Proof. unfold sub_sizes, subs_of. now rewrite map_map. Qed.

Lemma elems_sum e cs : elems e cs -> sumN (map size_of_val cs) = t_size e * len cs.
Proof.
  unfold len. induction 1 as [|c cs [Hc _] _ IH]; [cbn; lia|]. cbn [map sumN length]. rewrite IH, Hc. lia.
Qed.

Lemma entries_sum e cs : entries e cs -> sumN (map size_of_val cs) <= t_size e * (len cs / 2).
Proof.
  unfold len. induction cs as [|c|k v cs IH] using pair_ind; intros H; [cbn; lia | destruct H|].
  destruct H as [H1 H2]. apply IH in H2. cbn [map sumN length].
  replace (N.of_nat (S (S (length cs)))) with (1 * 2 + N.of_nat (length cs)) by lia.
  rewrite N.div_add_l by lia. nia.
Qed.

Lemma fits_iter m tn sz nd (cs : list sub) : sz * len cs < two64 -> sub_sizes cs = sz * len cs -> Forall fitting cs ->
  fits (v_iter m tn sz nd (map snd cs)) (Some (sz * len cs)).
Proof.
  intros H E Hc. rewrite v_iter_resolved by exact H. destruct (negb nd || (sz =? 0)); [apply fits_simple|].
  rewrite <- E. now apply fits_subs.
Qed.

Lemma fits_shared_ptr pt t ps x : (forall x, fits (pt x) None) -> ps <= t_size t ->
  fits (impl_shared_ptr pt t ps x) (Some (t_size t)).
Proof. intros H Hp. apply fits_self. cbn. auto. Qed.

Lemma map_free_inv s cs : map_free (Node s cs) ->
  match s with SMap _ | SSet _ => cs = [] | _ => True end /\ Forall map_free cs.
Proof.
  intros [H1 H2]. split; [exact H1|]. clear H1. induction cs as [|c cs IH]; constructor; cbn in H2; tauto.
Qed.

Lemma buckets_ge n : n <= buckets_for n.
Proof.
  unfold buckets_for. destruct (N.eqb_spec n 0) as [->|Hn]; [lia|].
  destruct (@log2_up_least (N.max 4 n) ltac:(lia)) as (_ & H & _). lia.
Qed.

Lemma fits_visit m pt v : (forall x, fits (pt x) None) -> typed v -> map_free v ->
  fits (visit m pt v) (Some (size_of_val v)).
Proof.
  intros Hpt. induction v as [s cs IH] using value_induction. intros Ht Hm.
  apply typed_inv in Ht as [Hok Hcs]. apply map_free_inv in Hm as [Hm1 Hm2]. rewrite visit_node.
  assert (Hs : Forall fitting (subs_of m pt cs)).
  { unfold subs_of. rewrite Forall_map. apply Forall_forall. intros c Hc. unfold fitting. cbn [fst snd].
    rewrite Forall_forall in IH, Hcs, Hm2. auto. }
  assert (Hz : fits (vseqs (map snd (subs_of m pt cs))) None) by (eapply fits_none, fits_subs, Hs).
  assert (Hfn : forall k, fits (fields_named k (subs_of m pt cs)) (Some (sumN (map size_of_val cs)))).
  { intros k. rewrite <- (sub_sizes_subs m pt). now apply fits_fields_named. }
  assert (Hfk : forall k k', fits (fields_kv k k' (subs_of m pt cs)) (Some (sumN (map size_of_val cs)))).
  { intros k k'. rewrite <- (sub_sizes_subs m pt). now apply fits_fields_kv. }
  assert (Hff : forall ns, fits (fields ns (subs_of m pt cs)) (Some (sumN (map size_of_val cs)))).
  { intros ns. rewrite <- (sub_sizes_subs m pt). now apply fits_fields. }
  assert (Hfs : fits (vseqs (map snd (subs_of m pt cs))) (Some (sumN (map size_of_val cs)))).
  { rewrite <- (sub_sizes_subs m pt). now apply fits_subs. }
  destruct s as [t|t|n|n|e|t names|t variant|t|t a|t a|t ps|t e cap|t e front cap|t n cap|t n cap|t h|t e cap|t e sp|t d
    |t e cap|t e cap|t|t e cap|t e cap|t e cap|t|t|t al ch|t ps x|t target]; cbn [visit_shape shape_ok] in *;
    cbn [size_of_val shape_info].
  - apply fits_self. exact I.
  - exact I.
  - apply fits_simple.
  - apply fits_simple.
  - unfold impl_slice. rewrite len_subs. split; [reflexivity|]. split; [|exact I].
    eapply fits_mono; [apply Hfn|]. rewrite (elems_sum Hok). lia.
  - destruct Hok as (_ & Hc & _). apply fits_self. eapply fits_mono; [apply Hff | exact Hc].
  - apply fits_self. destruct variant as [[v names]|]; [|exact I]. destruct Hok as (_ & Hc & _).
    split; [reflexivity|]. split; [|exact I]. eapply fits_mono; [apply Hff | exact Hc].
  - apply fits_self. eapply fits_mono; [apply Hfn | exact Hok].
  - destruct Hok as (Hc & _). apply fits_self. destruct a; [|exact I]. eapply fits_mono; [apply Hfn | exact Hc].
  - destruct Hok as (Hc & _). apply fits_self. destruct a; [|exact I]. eapply fits_mono; [apply Hfs | exact Hc].
  - destruct Hok as (_ & [_ Hps] & _). apply fits_self, fits_unique; [exact Hps | exact Hz | exact I].
  - destruct Hok as ((Ho & _) & He & Hb). apply fits_self. destruct (_ && _); [|exact I]. apply fits_unique; [exact Ho | | exact I].
    rewrite len_subs, unused_resolved by exact Hb. apply fits_vseq_none; [|cbn; auto]. eapply fits_none, fits_iter; auto.
    + rewrite len_subs. eapply buffer_len; eauto.
    + rewrite sub_sizes_subs, len_subs. now apply elems_sum.
  - destruct Hok as ((Ho & _) & He & Hb). apply fits_self. destruct (_ && _); [|exact I]. apply fits_unique; [exact Ho | | exact I].
    rewrite len_subs, unused_resolved by exact Hb. pose proof (buffer_len Hb) as Hl.
    pose proof (len_split front (subs_of m pt cs)) as Hsp. rewrite len_subs in Hsp.
    assert (Hel : Forall (fun c => fst c = t_size e) (subs_of m pt cs)).
    { unfold subs_of. rewrite Forall_map. eapply Forall_impl; [|exact He]. cbn. tauto. }
    assert (Hsum : forall l : list sub, Forall (fun c => fst c = t_size e) l -> sub_sizes l = t_size e * len l).
    { unfold sub_sizes, len. induction 1 as [|c l Hc _ IHl]; [cbn; lia|]. cbn [map sumN length]. rewrite IHl, Hc. lia. }
    apply fits_vseq_none; [|apply fits_vseq_none; [|cbn; auto]].
    + eapply fits_none, fits_iter; [nia | apply Hsum, Forall_firstn, Hel | now apply Forall_firstn].
    + eapply fits_none, fits_iter; [nia | apply Hsum, Forall_skipn, Hel | now apply Forall_skipn].
  - destruct Hok as (_ & (Ho & _) & Hn & Hc). pose proof two63_lt_two64. apply fits_self, fits_unique; [exact Ho | | exact I].
    unfold v_vec_like_body. rewrite umul_exact by lia. cbn [with_val]. split; [exact I|]. split; [|exact I].
    unfold v_slice, v_iter. cbn [negb orb]. rewrite repeat_length, umul_exact by lia. cbn [with_val].
    rewrite wrapping_sub_exact by lia. rewrite umul_exact by lia. cbn [with_val].
    eapply fits_mono; [apply fits_vseq; apply fits_simple | lia].
  - destruct Hok as (_ & (Ho & _) & Hn & Hc). apply fits_self. destruct (negb (cap =? 0)); [|exact I].
    apply fits_unique; [exact Ho | | exact I]. rewrite usub_ok by exact Hn. cbn. auto.
  - destruct Hok as (_ & (Ho & _) & Hh). apply fits_self. destruct h as [[n cap]|]; [|exact I].
    apply fits_unique; [exact Ho | | exact I]. rewrite usub_ok by apply Hh. cbn. auto.
  - destruct Hok as ((Ho & _) & He & Hb). apply fits_self. destruct (_ && _); [|exact I]. apply fits_unique; [exact Ho | | exact I].
    rewrite len_subs, unused_resolved by exact Hb. apply fits_vseq_none; [|cbn; auto]. eapply fits_none, fits_iter; auto.
    + rewrite len_subs. eapply buffer_len; eauto.
    + rewrite sub_sizes_subs, len_subs. now apply elems_sum.
  - destruct Hok as ((Ho & _) & He & Hc). apply fits_self. destruct sp.
    + apply fits_unique; [exact Ho | eapply fits_none, Hfn | exact I].
    + eapply fits_mono; [apply Hfn | apply Hc; reflexivity].
  - destruct Hok as (_ & (Ho & _) & Hd). pose proof two63_lt_two64. apply fits_self, fits_unique; [exact Ho | | exact I].
    rewrite umul_exact by lia. cbn. auto.
  - destruct Hok as (Ho & _ & He & Hb & Hf). apply fits_self. apply fits_unique; [lia | |].
    + rewrite len_subs, unused_resolved by exact Hb. apply fits_vseq_none; [eapply fits_none, Hfn | cbn; auto].
    + unfold add_raw_table_for_len. rewrite len_subs. destruct (len cs =? 0); [exact I|].
      rewrite table_resolved by exact Hf. apply fits_unique; [lia | cbn; auto | exact I].
  - destruct Hok as (Ho & _ & He & Hb & Hf). apply fits_self. apply fits_unique; [lia | |].
    + rewrite len_subs, unused_resolved by exact Hb. apply fits_vseq_none; [eapply fits_none, Hfk | cbn; auto].
    + unfold add_raw_table_for_len. rewrite len_subs. destruct (len cs / 2 =? 0); [exact I|].
      rewrite table_resolved by exact Hf. apply fits_unique; [lia | cbn; auto | exact I].
  - destruct Hok as ((Ho & _) & _). apply fits_self, fits_unique; [exact Ho | eapply fits_none, Hfk | exact I].
  - destruct Hok as ((Ho & _) & He & Hb). apply fits_self, fits_unique; [exact Ho | | exact I].
    rewrite umul_exact by (eapply buffer_total; eauto). rewrite ?len_subs. cbn [with_val]. split; [exact I|]. split; [|exact I].
    unfold usaturating_sub. rewrite umul_exact by (eapply buffer_unused; eauto). cbn [with_val].
    eapply fits_mono; [apply fits_vseq; [apply Hfk | apply fits_simple]|].
    pose proof (entries_sum He). destruct Hb as (Hb1 & _). 
    assert (E : cap * t_size e = t_size e * (len cs / 2) + (cap - len cs / 2) * t_size e) by (rewrite N.mul_sub_distr_r; nia).
    lia.
  - destruct Hok as ((Ho & _) & He & Hb). apply fits_self, fits_unique; [exact Ho | | exact I].
    rewrite umul_exact by (eapply buffer_total; eauto). rewrite ?len_subs. cbn [with_val]. split; [exact I|]. split; [|exact I].
    unfold usaturating_sub. rewrite umul_exact by (eapply buffer_unused; eauto). cbn [with_val].
    eapply fits_mono; [apply fits_vseq; [apply Hfn | apply fits_simple]|].
    pose proof (elems_sum He). destruct Hb as (Hb1 & _).
    assert (E : cap * t_size e = t_size e * len cs + (cap - len cs) * t_size e) by (rewrite N.mul_sub_distr_r; nia).
    lia.
  - destruct Hok as ((Ho & _) & He & Hl & Hf). apply fits_self, fits_unique; [exact Ho | | exact I].
    rewrite table_resolved by exact Hf. cbn [with_val]. split; [exact I|]. split; [|exact I].
    pose proof (@buckets_ge cap) as Hg.
    eapply fits_mono; [apply fits_iter|].
    + rewrite len_subs. destruct Hf as (p & Hp & Hle & Hf). nia.
    + rewrite sub_sizes_subs, len_subs. now apply elems_sum.
    + exact Hs.
    + rewrite len_subs. nia.
  - destruct Hok as ((Ho & _) & _). subst cs. apply fits_self. cbn. auto.
  - destruct Hok as (Ho & _). subst cs. apply fits_self. cbn. auto.
  - destruct Hok as (_ & (Ho & _) & Hs1 & Ha). apply fits_self, fits_unique; [exact Ho | | exact I]. pose proof two63_lt_two64.
    rewrite C40_exact by lia. cbn. auto.
  - destruct Hok as (_ & [_ Hps] & _). now apply fits_shared_ptr.
  - destruct Hok as (_ & _ & Ht). apply fits_self. destruct target as [[[t' ps] x]|]; [|exact I].
    destruct Ht as [[_ H1] H2]. eapply fits_mono; [apply fits_shared_ptr; auto | exact H2].
Qed.
