(** * Unique bytes of values: what [size_of_unique_allocated_data] sees. *)
From Verif Require Import Base BaseFacts KeyModel KeyFacts HMap FlameModel BuilderModel VisitorModel SizeOfModel Spec MergeFacts
  LayoutModel LayoutFacts PropertiesLayout ImplModel ImplSpec ImplFacts.

#[local] Arguments key_new : simpl never.

Lemma ub_vseq pt p q nk : tame pt p -> unique_bytes (vseq p q) nk = unique_bytes p nk + unique_bytes q nk.
Proof.
  revert nk; induction p as [| |k s b IHb r IHr|k s b IHb r IHr|k s x b IHb r1 IH1 r2 IH2]; intros nk H; cbn in *.
  - lia.
  - destruct H.
  - rewrite IHr by tauto. lia.
  - rewrite IHr by tauto. lia.
  - destruct H as (_ & _ & <- & H). now rewrite IH1.
Qed.

(** What the visit of a value contributes directly, by the kind of the enclosing scope. *)
Definition shown_size (v : value) (nk : node_kind) : N :=
  if is_NKUnique nk && negb (silent v) then size_of_val v else 0.

Definition ub_ok (m : mode) (pt : ptr -> vprog) (v : value) : Prop :=
  forall nk, unique_bytes (visit m pt v) nk = shown_size v nk + owned_bytes v.

Definition in_unique (nk : node_kind) (n : N) : N := if is_NKUnique nk then n else 0.

Lemma in_unique_add nk a b : in_unique nk (a + b) = in_unique nk a + in_unique nk b.
Proof. unfold in_unique. destruct (is_NKUnique nk); lia. Qed.

Lemma ub_inline k s b nk : unique_bytes (VInline k s b VRet) nk = in_unique nk s + unique_bytes b NKInline.
Proof. cbn. unfold in_unique. lia. Qed.

Lemma ub_unique k s b r nk : unique_bytes (VUnique k s b r) nk = unique_bytes b NKUnique + unique_bytes r nk.
Proof. reflexivity. Qed.

Lemma ub_simple k s nk : unique_bytes (v_simple k s) nk = in_unique nk s.
Proof. cbn. unfold in_unique. lia. Qed.

Lemma shown_inline v : shown_size v NKInline = 0. Proof. reflexivity. Qed.

Section Values.
  Variables (m : mode) (pt : ptr -> vprog).

  Lemma ub_field k c nk : ub_ok m pt c ->
    unique_bytes (field k (size_of_val c, visit m pt c)) nk = in_unique nk (size_of_val c) + owned_bytes c.
  Proof. intros H. unfold field, v_field, v_field_with. rewrite ub_inline. cbn [fst snd]. rewrite (H NKInline), shown_inline. lia. Qed.

  Definition good (c : value) : Prop := typed c /\ ub_ok m pt c.

  Lemma good_tame_field k c : made_by_new k -> good c -> tame pt (field k (size_of_val c, visit m pt c)).
  Proof. intros Hk [Ht _]. apply tame_field; [exact Hk | now apply tame_visit]. Qed.

  Lemma ub_fields_named k cs nk : made_by_new k -> Forall good cs ->
    unique_bytes (fields_named k (subs_of m pt cs)) nk =
    in_unique nk (sumN (map size_of_val cs)) + sumN (map owned_bytes cs).
  Proof.
    intros Hk. induction 1 as [|c cs Hc _ IH]; [unfold in_unique; cbn; destruct (is_NKUnique nk); lia|].
    unfold fields_named, subs_of in *. cbn [map vseqs sumN]. rewrite (@ub_vseq pt) by (now apply good_tame_field).
    rewrite IH, ub_field by apply Hc. rewrite in_unique_add. lia.
  Qed.

  Lemma ub_fields names cs nk : length names = length cs -> Forall good cs ->
    unique_bytes (fields names (subs_of m pt cs)) nk =
    in_unique nk (sumN (map size_of_val cs)) + sumN (map owned_bytes cs).
  Proof.
    intros Hl H. revert names Hl. induction H as [|c cs Hc _ IH]; intros [|n names] Hl; try discriminate;
      [unfold in_unique; cbn; destruct (is_NKUnique nk); lia|].
    unfold subs_of in *. cbn [map fields sumN]. rewrite (@ub_vseq pt) by (apply good_tame_field; auto with tame).
    rewrite IH, ub_field by (auto; apply Hc). rewrite in_unique_add. lia.
  Qed.

  Lemma ub_fields_kv kk kv cs nk : made_by_new kk -> made_by_new kv -> even_length cs -> Forall good cs ->
    unique_bytes (fields_kv kk kv (subs_of m pt cs)) nk =
    in_unique nk (sumN (map size_of_val cs)) + sumN (map owned_bytes cs).
  Proof.
    intros Hk Hv. induction cs as [|c|k v cs IH] using pair_ind; intros He H.
    - unfold in_unique; cbn; destruct (is_NKUnique nk); lia.
    - destruct He.
    - inversion H as [|? ? Ha H']; subst. inversion H' as [|? ? Hb H'']; subst.
      unfold subs_of in *. cbn [map fields_kv sumN].
      rewrite (@ub_vseq pt) by (now apply good_tame_field). rewrite (@ub_vseq pt) by (now apply good_tame_field).
      rewrite IH, !ub_field by (auto; first [apply Ha | apply Hb]). rewrite !in_unique_add. lia.
  Qed.

  Lemma ub_subs cs nk : Forall good cs ->
    unique_bytes (vseqs (map snd (subs_of m pt cs))) nk =
    sumN (map (fun c => shown_size c nk) cs) + sumN (map owned_bytes cs).
  Proof.
    induction 1 as [|c cs [Hc Hu] _ IH]; [reflexivity|]. unfold subs_of in *. cbn [map vseqs sumN snd].
    rewrite (@ub_vseq pt) by (now apply tame_visit). rewrite IH, Hu. lia.
  Qed.

  Lemma shown_all cs : Forall (fun c => silent c = false) cs ->
    sumN (map (fun c => shown_size c NKUnique) cs) = sumN (map size_of_val cs).
  Proof.
    induction 1 as [|c cs Hc _ IH]; [reflexivity|]. cbn [map sumN]. rewrite IH.
    unfold shown_size at 1. rewrite Hc. cbn. lia.
  Qed.

  Lemma shown_inline_all cs : sumN (map (fun c => shown_size c NKInline) cs) = 0.
  Proof. induction cs; cbn; auto. Qed.

  (** Elements: of type [e], visited one by one or all at once. *)
  Lemma ub_iter e cs nk : t_size e * len cs < two64 -> elems e cs -> Forall good cs ->
    (t_drop e = true -> t_size e <> 0 -> is_NKUnique nk = true -> Forall (fun c => silent c = false) cs) ->
    (t_drop e = false \/ t_size e = 0 -> Forall (fun c => owned_bytes c = 0) cs) ->
    is_NKUnique nk = true \/ nk = NKInline ->
    unique_bytes (v_iter m (t_name e) (t_size e) (t_drop e) (map snd (subs_of m pt cs))) nk =
    in_unique nk (t_size e * len cs) + sumN (map owned_bytes cs).
  Proof.
    intros Hl He Hg Hns Hz Hnk. rewrite v_iter_resolved by (now rewrite len_subs). rewrite len_subs.
    destruct (negb (t_drop e) || (t_size e =? 0)) eqn:E.
    - rewrite ub_simple. assert (Ho : Forall (fun c => owned_bytes c = 0) cs).
      { apply Hz. apply orb_true_iff in E as [E|E]; [left; now apply negb_true_iff | right; now apply N.eqb_eq]. }
      assert (Hs0 : sumN (map owned_bytes cs) = 0).
      { clear - Ho. induction Ho as [|c cs Hc _ IH]; [reflexivity|]. cbn [map sumN]. rewrite Hc, IH. reflexivity. }
      lia.
    - apply orb_false_iff in E as [E1 E2]. apply negb_false_iff in E1. apply N.eqb_neq in E2.
      rewrite ub_subs by exact Hg. f_equal. unfold in_unique. destruct Hnk as [Hnk|Hnk].
      + rewrite Hnk. rewrite <- (elems_sum He). rewrite <- shown_all by auto.
        f_equal. apply map_ext. intros c. unfold shown_size. now rewrite Hnk.
      + subst nk. apply shown_inline_all.
  Qed.
End Values.

(** ** Types that own nothing *)
Lemma manual_free_inv s cs : manual_free (Node s cs) ->
  match s with SManuallyDrop _ => False | _ => True end /\ Forall manual_free cs.
Proof.
  intros [H1 H2]. split; [exact H1|]. clear H1. induction cs as [|c cs IH]; constructor; cbn in H2; tauto.
Qed.

Lemma sum_zero {A} (f : A -> N) l : Forall (fun c => f c = 0) l -> sumN (map f l) = 0.
Proof. induction 1 as [|c cs Hc _ IH]; [reflexivity|]. cbn [map sumN]. now rewrite Hc, IH. Qed.

Lemma sum_zero_inv {A} (f : A -> N) l : sumN (map f l) = 0 -> Forall (fun c => f c = 0) l.
Proof. induction l as [|c l IH]; cbn [map sumN]; constructor; [lia | apply IH; lia]. Qed.

Lemma owned_node s cs : owned_bytes (Node s cs) = own_block s cs + (if available s then sumN (map owned_bytes cs) else 0).
Proof. reflexivity. Qed.

(** A well-typed value of a type without drop glue owns nothing (unless it
    contains a [ManuallyDrop]). *)
Lemma no_drop_owns_nothing v : typed v -> manual_free v -> drop_of v = false -> owned_bytes v = 0.
Proof.
  induction v as [s cs IH] using value_induction. intros Ht Hm Hd.
  apply typed_inv in Ht as [Hok Hcs]. apply manual_free_inv in Hm as [Hm1 Hm2]. rewrite owned_node.
  assert (Hc : forall t, t_drop t = false -> contained t cs -> sumN (map owned_bytes cs) = 0).
  { intros t Ht [_ Hdr]. apply sum_zero. rewrite Forall_forall in *. intros c Hin. apply IH; auto.
    destruct (drop_of c) eqn:E; [|reflexivity]. rewrite (Hdr c Hin E) in Ht. discriminate. }
  destruct s; cbn [drop_of shape_info shape_ok own_block available] in *; unfold owner in *;
    try (decompose [and] Hok; congruence); try (subst cs; reflexivity).
  - destruct Hok as [-> _]; reflexivity.
  - destruct Hok as [-> _]; reflexivity.
  - apply sum_zero. unfold elems in Hok. rewrite Forall_forall in *. intros c Hin. apply IH; auto.
    destruct (drop_of c) eqn:E; [|reflexivity]. destruct (Hok c Hin) as [_ H]. rewrite (H E) in Hd. discriminate.
  - destruct Hok as [_ Hok]. rewrite (Hc t Hd Hok). reflexivity.
  - destruct variant as [[v names]|]; [|subst cs; reflexivity]. destruct Hok as [_ Hok]. rewrite (Hc t Hd Hok). reflexivity.
  - destruct Hm1.
  - destruct avail; [|reflexivity]. rewrite (Hc t Hd Hok). reflexivity.
  - destruct avail; [|reflexivity]. rewrite (Hc t Hd Hok). reflexivity.
Qed.

(** A well-typed zero-sized value owns nothing. *)
Lemma zero_sized_owns_nothing v : typed v -> size_of_val v = 0 -> owned_bytes v = 0.
Proof.
  induction v as [s cs IH] using value_induction. intros Ht Hz.
  apply typed_inv in Ht as [Hok Hcs]. rewrite owned_node.
  assert (Hc : forall n, n = 0 -> sumN (map size_of_val cs) <= n -> sumN (map owned_bytes cs) = 0).
  { intros n -> Hs. apply sum_zero. assert (Hz0 : sumN (map size_of_val cs) = 0) by lia. apply sum_zero_inv in Hz0.
    rewrite Forall_forall in *. intros c Hin. apply IH; auto. }
  destruct s; cbn [size_of_val shape_info shape_ok own_block available] in *; unfold owner, ptr_size in *;
    try (decompose [and] Hok; exfalso; lia); try (subst cs; reflexivity).
  - destruct Hok as [-> _]; reflexivity.
  - destruct Hok as [-> _]; reflexivity.
  - apply Hc with (n := 0); [reflexivity|]. rewrite (elems_sum Hok). lia.
  - destruct Hok as (_ & Hs & _). rewrite (Hc _ Hz Hs). reflexivity.
  - destruct variant as [[v names]|]; [|subst cs; reflexivity]. destruct Hok as (_ & Hs & _). rewrite (Hc _ Hz Hs). reflexivity.
  - rewrite (Hc _ Hz Hok). reflexivity.
  - destruct Hok as (Hs & _). destruct avail; [|reflexivity]. rewrite (Hc _ Hz Hs). reflexivity.
  - destruct Hok as (Hs & _). destruct avail; [|reflexivity]. rewrite (Hc _ Hz Hs). reflexivity.
Qed.

Lemma elems_own_nothing e cs : elems e cs -> Forall typed cs -> (t_drop e = false -> Forall manual_free cs) ->
  t_drop e = false \/ t_size e = 0 -> Forall (fun c => owned_bytes c = 0) cs.
Proof.
  intros He Ht Hm H. unfold elems in He. rewrite Forall_forall in *. intros c Hin. destruct (He c Hin) as [Hs Hd].
  destruct H as [H|H].
  - apply no_drop_owns_nothing; auto. destruct (drop_of c) eqn:E; [rewrite Hd in H by reflexivity; discriminate | reflexivity].
  - apply zero_sized_owns_nothing; [auto | congruence].
Qed.

Lemma counted_inv s cs : counted (Node s cs) -> counted_node s cs /\ Forall counted cs.
Proof.
  intros [H1 H2]. split; [exact H1|]. clear H1. induction cs as [|c cs IH]; constructor; cbn in H2; tauto.
Qed.

Lemma entries_even e cs : entries e cs -> even_length cs.
Proof. induction cs as [|c|k v cs IH] using pair_ind; cbn; tauto. Qed.

Lemma ub_self t b nk : unique_bytes (enter_self t b) nk = in_unique nk (t_size t) + unique_bytes b NKInline.
Proof. apply ub_inline. Qed.

Lemma shown_node s cs nk : silent (Node s cs) = false -> shown_size (Node s cs) nk = in_unique nk (size_of_val (Node s cs)).
Proof. intros H. unfold shown_size, in_unique. rewrite H. cbn [negb]. now rewrite andb_true_r. Qed.

Lemma inline_zero n : in_unique NKInline n = 0. Proof. reflexivity. Qed.
Lemma unique_all n : in_unique NKUnique n = n. Proof. reflexivity. Qed.

Lemma cap_split e cap (n : N) : n <= cap -> t_size e * n + (cap - n) * t_size e = cap * t_size e.
Proof. intros H. rewrite N.mul_sub_distr_r. nia. Qed.

Lemma sum_split {A} (f : A -> N) n l : sumN (map f (firstn n l)) + sumN (map f (skipn n l)) = sumN (map f l).
Proof. rewrite <- (firstn_skipn n l) at 3. rewrite map_app, sumN_app. reflexivity. Qed.

Lemma sum_own_zero cs : Forall (fun c => owned_bytes c = 0) cs -> sumN (map owned_bytes cs) = 0.
Proof. apply sum_zero. Qed.

Lemma cap_zero_len e (cs : list value) cap : buffer e (len cs) cap -> cap = 0 -> cs = [].
Proof. intros (H & _) ->. destruct cs; [reflexivity|]. unfold len in H. cbn in H. lia. Qed.

(** One element buffer: [Vec], [VecDeque] and [Slab] agree on what they count. *)
Lemma buffer_guard e cs cap : elems e cs -> Forall typed cs -> buffer e (len cs) cap ->
  (negb (cap =? 0) && negb (t_size e =? 0)) = false -> cap * t_size e + sumN (map owned_bytes cs) = 0.
Proof.
  intros He Ht Hb E. apply andb_false_iff in E as [E|E]; apply negb_false_iff, N.eqb_eq in E.
  - rewrite (cap_zero_len Hb E), E. reflexivity.
  - rewrite E, N.mul_0_r. apply sum_zero. unfold elems in He. rewrite Forall_forall in *. intros c Hin.
    apply zero_sized_owns_nothing; [auto|]. destruct (He c Hin) as [-> _]. exact E.
Qed.

Lemma elems_firstn e n cs : elems e cs -> elems e (firstn n cs). Proof. apply Forall_firstn. Qed.
Lemma elems_skipn e n cs : elems e cs -> elems e (skipn n cs). Proof. apply Forall_skipn. Qed.

Lemma firstn_subs m pt n cs : firstn n (subs_of m pt cs) = subs_of m pt (firstn n cs).
Proof. apply firstn_map. Qed.
Lemma skipn_subs m pt n cs : skipn n (subs_of m pt cs) = subs_of m pt (skipn n cs).
Proof. apply skipn_map. Qed.

Lemma tame_iter_of m pt e cs : t_size e * len cs < two64 -> Forall typed cs ->
  tame pt (v_iter m (t_name e) (t_size e) (t_drop e) (map snd (subs_of m pt cs))).
Proof.
  intros Hl Ht. apply tame_iter; [now rewrite len_subs|]. unfold subs_of. rewrite Forall_map. cbn [snd].
  eapply Forall_impl; [|exact Ht]. intros c. apply tame_visit.
Qed.

Theorem ub_visit m pt v : typed v -> counted v -> ub_ok m pt v.
Proof.
  induction v as [s cs IH] using value_induction. intros Ht Hcn nk.
  apply typed_inv in Ht as [Hok Hcs]. apply counted_inv in Hcn as [Hcn Hcc].
  assert (Hg : Forall (good m pt) cs).
  { rewrite Forall_forall in *. intros c Hin. split; [auto | apply IH; auto]. }
  assert (Hts : Forall (fun c => tame pt (snd c)) (subs_of m pt cs)).
  { unfold subs_of. rewrite Forall_map. cbn [snd]. eapply Forall_impl; [|exact Hcs]. intros c. apply tame_visit. }
  destruct (silent (Node s cs)) eqn:Esil.
  { destruct s; try discriminate. cbn in Hok. subst cs. unfold shown_size. cbn. destruct (is_NKUnique nk); reflexivity. }
  rewrite shown_node by exact Esil. rewrite visit_node, owned_node.
  destruct s as [t|t|n|n|e|t names|t variant|t|t a|t a|t ps|t e cap|t e front cap|t n cap|t n cap|t h|t e cap|t e sp|t d
    |t e cap|t e cap|t|t e cap|t e cap|t e cap|t|t|t al ch|t ps x|t target];
    cbn [visit_shape shape_ok own_block available size_of_val shape_info] in *; try discriminate Esil.
  - subst cs. unfold impl_leaf, v_simple_sized, v_enter_self. rewrite ub_inline. cbn. lia.
  - destruct Hok as [-> _]. unfold impl_str. rewrite ub_simple. cbn. lia.
  - destruct Hok as [-> _]. unfold impl_os_str. rewrite ub_simple. cbn. lia.
  - unfold impl_slice. rewrite ub_inline, len_subs, (ub_fields_named (m:=m) (pt:=pt)) by auto with tame. rewrite inline_zero. lia.
  - unfold impl_struct. rewrite ub_self, (ub_fields (m:=m) (pt:=pt)) by tauto. rewrite inline_zero. lia.
  - unfold impl_enum. rewrite ub_self. destruct variant as [[v names]|].
    + rewrite ub_inline, (ub_fields (m:=m) (pt:=pt)) by tauto. rewrite !inline_zero. lia.
    + subst cs. cbn. lia.
  - unfold impl_manually_drop. rewrite ub_self, (ub_fields_named (m:=m) (pt:=pt)) by auto with tame. rewrite inline_zero. lia.
  - unfold impl_cell. rewrite ub_self. destruct a; [|cbn; lia].
    rewrite (ub_fields_named (m:=m) (pt:=pt)) by auto with tame. rewrite inline_zero. lia.
  - unfold impl_once. rewrite ub_self. destruct a; [|cbn; lia].
    rewrite ub_subs by exact Hg. rewrite shown_inline_all. lia.
  - unfold impl_box. rewrite ub_self, ub_unique, ub_subs by exact Hg. cbn [counted_node] in Hcn.
    rewrite shown_all by exact Hcn. cbn. lia.
  - (* Vec *)
    destruct Hok as (Ho & He & Hb). destruct Hcn as [Hc1 Hc2]. unfold impl_vec. rewrite ub_self.
    destruct (negb (cap =? 0) && negb (t_size e =? 0)) eqn:E.
    + rewrite ub_unique. unfold v_slice. rewrite (@ub_vseq pt) by (apply tame_iter_of; [eapply buffer_len; eauto | auto]).
      rewrite (ub_iter (m:=m) (pt:=pt)); auto.
      * rewrite len_subs, unused_resolved, ub_simple, !unique_all by exact Hb. cbn [unique_bytes].
        destruct Hb as (Hb1 & _). pose proof (cap_split e Hb1). lia.
      * eapply buffer_len; eauto.
      * eapply elems_own_nothing; eauto.
    + pose proof (buffer_guard He Hcs Hb E). cbn [unique_bytes]. lia.
  - (* VecDeque *)
    destruct Hok as (Ho & He & Hb). destruct Hcn as [Hc1 Hc2]. unfold impl_vec_deque. rewrite ub_self.
    destruct (negb (cap =? 0) && negb (t_size e =? 0)) eqn:E.
    + rewrite ub_unique. unfold v_slice. rewrite firstn_subs, skipn_subs.
      pose proof (buffer_len Hb) as Hl. pose proof (len_split front cs) as Hsp.
      rewrite (@ub_vseq pt) by (apply tame_iter_of; [nia | now apply Forall_firstn]).
      rewrite (@ub_vseq pt) by (apply tame_iter_of; [nia | now apply Forall_skipn]).
      rewrite !(ub_iter (m:=m) (pt:=pt)).
      * rewrite len_subs, unused_resolved, ub_simple, !unique_all by exact Hb. cbn [unique_bytes].
        destruct Hb as (Hb1 & _). pose proof (cap_split e Hb1). pose proof (sum_split owned_bytes front cs). nia.
      * nia.
      * now apply elems_skipn.
      * now apply Forall_skipn.
      * intros. apply Forall_skipn. auto.
      * intros. apply Forall_skipn. eapply elems_own_nothing; eauto.
      * now left.
      * nia.
      * now apply elems_firstn.
      * now apply Forall_firstn.
      * intros. apply Forall_firstn. auto.
      * intros. apply Forall_firstn. eapply elems_own_nothing; eauto.
      * now left.
    + pose proof (buffer_guard He Hcs Hb E). cbn [unique_bytes]. lia.
  - (* String *)
    destruct Hok as (-> & Ho & Hn & Hc). pose proof two63_lt_two64. unfold impl_string. rewrite ub_self, ub_unique.
    unfold v_vec_like_body. rewrite umul_exact by lia. cbn [with_val]. unfold v_field_with. rewrite ub_inline.
    unfold v_slice, v_iter. cbn [negb orb]. rewrite repeat_length, umul_exact by lia. cbn [with_val].
    rewrite wrapping_sub_exact by lia. rewrite umul_exact by lia. cbn [with_val].
    rewrite (@ub_vseq pt) by auto with tame. rewrite !ub_simple, unique_all, !inline_zero. cbn. lia.
  - destruct Hok as (-> & Ho & Hn & Hc). unfold impl_path_buf. rewrite ub_self. destruct (N.eqb_spec cap 0) as [->|Hz]; cbn [negb].
    + cbn. lia.
    + rewrite ub_unique, usub_ok by exact Hn. cbn [with_val]. rewrite (@ub_vseq pt) by auto with tame.
      rewrite !ub_simple, !unique_all. cbn. lia.
  - destruct Hok as (-> & Ho & Hh). unfold impl_compact_string. rewrite ub_self. destruct h as [[n cap]|]; [|cbn; lia].
    rewrite ub_unique, usub_ok by apply Hh. cbn [with_val]. rewrite (@ub_vseq pt) by auto with tame.
    rewrite !ub_simple, !unique_all. cbn. lia.
  - (* Slab *)
    destruct Hok as (Ho & He & Hb). destruct Hcn as [Hc1 Hc2]. unfold impl_slab. rewrite ub_self.
    destruct (negb (cap =? 0) && negb (t_size e =? 0)) eqn:E.
    + rewrite ub_unique. rewrite (@ub_vseq pt) by (apply tame_iter_of; [eapply buffer_len; eauto | auto]).
      rewrite (ub_iter (m:=m) (pt:=pt)); auto.
      * rewrite len_subs, unused_resolved, ub_simple, !unique_all by exact Hb. cbn [unique_bytes].
        destruct Hb as (Hb1 & _). pose proof (cap_split e Hb1). lia.
      * eapply buffer_len; eauto.
      * eapply elems_own_nothing; eauto.
    + pose proof (buffer_guard He Hcs Hb E). cbn [unique_bytes]. lia.
  - unfold impl_small_vec. rewrite ub_self. destruct sp.
    + rewrite ub_unique, (ub_fields_named (m:=m) (pt:=pt)), unique_all by auto with tame. cbn. lia.
    + rewrite (ub_fields_named (m:=m) (pt:=pt)), inline_zero by auto with tame. lia.
  - destruct Hok as (-> & Ho & Hd). pose proof two63_lt_two64. unfold impl_big_int. rewrite ub_self, ub_unique, umul_exact by lia.
    cbn [with_val]. rewrite ub_simple, unique_all. cbn. lia.
  - (* IndexSet *)
    destruct Hok as (_ & _ & He & Hb & Hf). unfold impl_index_set, add_raw_table_for_len. rewrite ub_self, ub_unique, !len_subs.
    rewrite (@ub_vseq pt) by (apply tame_fields_named; auto with tame).
    rewrite (ub_fields_named (m:=m) (pt:=pt)), unused_resolved, ub_simple, !unique_all by auto with tame.
    rewrite (elems_sum He). assert (Hb1 : len cs <= cap) by apply Hb. pose proof (cap_split e Hb1).
    unfold buckets_for at 1. destruct (N.eqb_spec (len cs) 0) as [Hz|Hz].
    + cbn [unique_bytes]. lia.
    + rewrite ub_unique, table_resolved by exact Hf. cbn [with_val]. rewrite ub_simple, unique_all. unfold buckets_for.
      destruct (N.eqb_spec (len cs) 0); [contradiction|]. cbn [unique_bytes]. lia.
  - (* IndexMap *)
    destruct Hok as (_ & _ & He & Hb & Hf). unfold impl_index_map, add_raw_table_for_len. rewrite ub_self, ub_unique, !len_subs.
    rewrite (@ub_vseq pt) by (apply tame_fields_kv; auto with tame).
    rewrite (ub_fields_kv (m:=m) (pt:=pt)), unused_resolved, ub_simple, !unique_all by (auto with tame; eapply entries_even; eauto).
    unfold buckets_for at 1. destruct (N.eqb_spec (len cs / 2) 0) as [Hz|Hz].
    + cbn [unique_bytes]. lia.
    + rewrite ub_unique, table_resolved by exact Hf. cbn [with_val]. rewrite ub_simple, unique_all. unfold buckets_for.
      destruct (N.eqb_spec (len cs / 2) 0); [contradiction|]. cbn [unique_bytes]. lia.
  - destruct Hok as (_ & He). unfold impl_json_map. rewrite ub_self, ub_unique, (ub_fields_kv (m:=m) (pt:=pt)), unique_all by auto with tame.
    cbn [unique_bytes]. lia.
  - destruct Hok as (Ho & He & Hb). unfold impl_dash_map. rewrite ub_self, ub_unique, umul_exact by (eapply buffer_total; eauto).
    rewrite ?len_subs. cbn [with_val]. rewrite ub_inline, (@ub_vseq pt) by (apply tame_fields_kv; auto with tame).
    unfold usaturating_sub. rewrite umul_exact by (eapply buffer_unused; eauto). cbn [with_val].
    rewrite (ub_fields_kv (m:=m) (pt:=pt)) by (auto with tame; eapply entries_even; eauto).
    rewrite ub_simple, !inline_zero, unique_all. cbn [unique_bytes]. lia.
  - destruct Hok as (Ho & He & Hb). unfold impl_dash_set. rewrite ub_self, ub_unique, umul_exact by (eapply buffer_total; eauto).
    rewrite ?len_subs. cbn [with_val]. rewrite ub_inline, (@ub_vseq pt) by (apply tame_fields_named; auto with tame).
    unfold usaturating_sub. rewrite umul_exact by (eapply buffer_unused; eauto). cbn [with_val].
    rewrite (ub_fields_named (m:=m) (pt:=pt)) by auto with tame.
    rewrite ub_simple, !inline_zero, unique_all. cbn [unique_bytes]. lia.
  - destruct Hok as (Ho & He & Hl & Hf). unfold impl_hash_table. rewrite ub_self, ub_unique, table_resolved by exact Hf.
    cbn [with_val]. rewrite ub_inline, unique_all. rewrite (ub_iter (m:=m) (pt:=pt)); auto.
    + rewrite inline_zero. cbn [unique_bytes]. lia.
    + destruct Hf as (p & Hp & Hle & Hf). nia.
    + discriminate.
    + eapply elems_own_nothing; eauto.
  - cbn [counted_node] in Hcn. subst cs. unfold impl_map. rewrite ub_self. cbn. lia.
  - cbn [counted_node] in Hcn. subst cs. unfold impl_set. rewrite ub_self. cbn. lia.
  - destruct Hok as (-> & Ho & Hs1 & Ha). pose proof two63_lt_two64. unfold impl_bump. rewrite ub_self, ub_unique, C40_exact by lia.
    rewrite (@ub_vseq pt) by auto with tame. rewrite !ub_simple, !unique_all. cbn. lia.
  - destruct Hok as (-> & _). unfold impl_shared_ptr. rewrite ub_self. cbn. lia.
  - destruct Hok as (-> & _). unfold impl_weak. rewrite ub_self. destruct target as [[[t' ps] x]|]; [|cbn; lia].
    unfold impl_shared_ptr. rewrite ub_self. cbn. lia.
Qed.
