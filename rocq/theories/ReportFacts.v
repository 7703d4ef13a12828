(** * The events of a visit are the lines of the report. *)
From Coq Require Import Permutation.
From Verif Require Import Base BaseFacts KeyModel KeyFacts HMap FlameModel BuilderModel VisitorModel SizeOfModel Spec
  ConserveFacts MergeFacts HeapFacts HeapProps LayoutModel LayoutSpec LayoutFacts PropertiesLayout ImplModel ImplSpec ImplFacts OwnedFacts
  StoreFacts StoreProps PropertiesImpl ReportSpec.

#[local] Arguments key_new : simpl never.

Definition evs (p : vprog) (here : path) (nk : node_kind) : list (ev string) := own (items_of p) here nk.

Lemma evs_ret here nk : evs VRet here nk = []. Proof. reflexivity. Qed.
Lemma evs_inline k s b r here nk :
  evs (VInline k s b r) here nk = mkEv (here ++ [k_str k]) NKInline nk s :: evs b (here ++ [k_str k]) NKInline ++ evs r here nk.
Proof. unfold evs. cbn [items_of]. unfold own at 1. cbn [flat_map]. now rewrite own_scope. Qed.
Lemma evs_unique k s b r here nk :
  evs (VUnique k s b r) here nk = mkEv (here ++ [k_str k]) NKUnique nk s :: evs b (here ++ [k_str k]) NKUnique ++ evs r here nk.
Proof. unfold evs. cbn [items_of]. unfold own at 1. cbn [flat_map]. now rewrite own_scope. Qed.
Lemma evs_shared k s x b r here nk : evs (VShared k s x b r r) here nk = mkEv (here ++ [k_str k]) NKShared nk s :: evs r here nk.
Proof. reflexivity. Qed.
Lemma evs_simple k s here nk : evs (v_simple k s) here nk = [mkEv (here ++ [k_str k]) NKInline nk s].
Proof. reflexivity. Qed.
Lemma type_key s : k_str (key_for_type_name s) = s.
Proof. apply key_str_new. Qed.
Lemma evs_self t b here nk :
  evs (enter_self t b) here nk = mkEv (here ++ [t_name t]) NKInline nk (t_size t) :: evs b (here ++ [t_name t]) NKInline.
Proof. unfold enter_self, v_enter_self. now rewrite evs_inline, evs_ret, app_nil_r, type_key. Qed.

Lemma evs_vseq pt p q here nk : tame pt p -> evs (vseq p q) here nk = evs p here nk ++ evs q here nk.
Proof.
  induction p as [| |k s b IHb r IHr|k s b IHb r IHr|k s x b IHb r1 IH1 r2 IH2]; cbn [tame vseq]; intros H.
  - reflexivity.
  - destruct H.
  - rewrite !evs_inline, IHr by tauto. cbn [app]. now rewrite app_assoc.
  - rewrite !evs_unique, IHr by tauto. cbn [app]. now rewrite app_assoc.
  - destruct H as (_ & _ & <- & H). rewrite !evs_shared, IH1 by exact H. reflexivity.
Qed.

(** The contained values, by place. *)
Definition put (me : path) (p : place) (c : value) : list (ev string) :=
  match p with
  | Hidden => []
  | Direct st k => report (me ++ st) k c
  | Named st k label => mkEv (me ++ st ++ [label]) NKInline k (size_of_val c) :: report (me ++ st ++ [label]) NKInline c
  end.
Fixpoint contents (f : nat -> place) (me : path) (i : nat) (l : list value) : list (ev string) :=
  match l with [] => [] | c :: l' => put me (f i) c ++ contents f me (S i) l' end.

Lemma report_node here nk s cs : silent (Node s cs) = false -> report here nk (Node s cs) =
  mkEv (here ++ [frame_name s]) NKInline nk (size_of_val (Node s cs)) ::
  map (at_stack (here ++ [frame_name s])) (extra_lines s cs) ++ contents (place_of s) (here ++ [frame_name s]) 0 cs.
Proof.
  intros H. cbn [report]. rewrite H. do 2 f_equal. generalize 0%nat. induction cs as [|c cs IH]; intros i; [reflexivity|].
  cbn [contents]. rewrite <- IH by (destruct s; exact H). unfold put. destruct (place_of s i); reflexivity.
Qed.

Lemma contents_const f p me cs : (forall i, f i = p) -> forall i, contents f me i cs = flat_map (put me p) cs.
Proof. intros H. induction cs as [|c cs IH]; intros i; [reflexivity|]. cbn [contents flat_map]. now rewrite H, IH. Qed.

Lemma contents_ext f g me cs i : (forall j, f j = g j) -> contents f me i cs = contents g me i cs.
Proof. intros H. revert i. induction cs as [|c cs IH]; intros i; [reflexivity|]. cbn [contents]. now rewrite H, IH. Qed.

Lemma put_hidden me cs : flat_map (put me Hidden) cs = [].
Proof. induction cs as [|c cs IH]; [reflexivity | exact IH]. Qed.

Lemma contents_hidden f me cs i : (forall j, f j = Hidden) -> contents f me i cs = [].
Proof. intros H. rewrite (contents_const _ _ H). apply put_hidden. Qed.

Section Report.
  Variable m : mode.
  Definition good (c : value) : Prop :=
    typed c /\ forall here nk, Permutation (evs (visit m nowhere c) here nk) (report here nk c).

  Lemma evs_field k c here nk : good c ->
    Permutation (evs (field k (size_of_val c, visit m nowhere c)) here nk)
      (mkEv (here ++ [k_str k]) NKInline nk (size_of_val c) :: report (here ++ [k_str k]) NKInline c).
  Proof.
    intros [_ H]. unfold field, v_field, v_field_with. rewrite evs_inline, evs_ret, app_nil_r. constructor. apply H.
  Qed.

  Lemma tame_f k c : made_by_new k -> good c -> tame nowhere (field k (size_of_val c, visit m nowhere c)).
  Proof. intros Hk [H _]. apply tame_field; [exact Hk | now apply tame_visit]. Qed.

  Lemma evs_fields_named k l me st enc cs : made_by_new k -> k_str k = l -> Forall good cs ->
    Permutation (evs (fields_named k (subs_of m nowhere cs)) (me ++ st) enc) (flat_map (put me (Named st enc l)) cs).
  Proof.
    intros Hk <-. induction 1 as [|c cs Hc _ IH]; [reflexivity|]. unfold fields_named, subs_of in *. cbn [map vseqs flat_map].
    rewrite (@evs_vseq nowhere) by now apply tame_f. apply Permutation_app; [|exact IH].
    rewrite evs_field by exact Hc. unfold put. now rewrite !app_assoc.
  Qed.

  Lemma evs_fields names cs me st enc i f : length names = length cs ->
    (forall j, f (i + j)%nat = match nth_error names j with Some l => Named st enc l | None => Hidden end) ->
    Forall good cs ->
    Permutation (evs (fields names (subs_of m nowhere cs)) (me ++ st) enc) (contents f me i cs).
  Proof.
    intros Hl Hf H. revert names i Hl Hf. induction H as [|c cs Hc _ IH]; intros [|n names] i Hl Hf; try discriminate; [reflexivity|].
    unfold subs_of in *. cbn [map fields contents]. rewrite (@evs_vseq nowhere) by (apply tame_f; auto with tame).
    pose proof (Hf 0%nat) as H0. rewrite Nat.add_0_r in H0. cbn [nth_error] in H0. rewrite H0. apply Permutation_app.
    - rewrite evs_field by exact Hc. rewrite key_str_new. unfold put. now rewrite !app_assoc.
    - apply IH; [now inversion Hl|]. intros j. specialize (Hf (S j)). now rewrite Nat.add_succ_r in Hf.
  Qed.

  Lemma key_or_value_SS i : key_or_value (S (S i)) = key_or_value i.
  Proof. reflexivity. Qed.

  Lemma evs_fields_kv kk kv me st enc cs i : made_by_new kk -> made_by_new kv -> k_str kk = "key"%string -> k_str kv = "value"%string ->
    even_length cs -> Nat.even i = true -> Forall good cs ->
    Permutation (evs (fields_kv kk kv (subs_of m nowhere cs)) (me ++ st) enc)
      (contents (fun j => Named st enc (key_or_value j)) me i cs).
  Proof.
    intros Hk Hv Ek Ev. revert i. induction cs as [|c|k v cs IH] using pair_ind; intros i He Hi H; [reflexivity | destruct He |].
    inversion H as [|? ? Ha H']; subst. inversion H' as [|? ? Hb H'']; subst.
    unfold subs_of in *. cbn [map fields_kv contents]. rewrite !(@evs_vseq nowhere) by now apply tame_f.
    assert (E1 : key_or_value i = "key"%string) by (unfold key_or_value; now rewrite Hi).
    assert (E2 : key_or_value (S i) = "value"%string).
    { unfold key_or_value. rewrite Nat.even_succ. unfold Nat.odd. now rewrite Hi. }
    rewrite E1, E2. unfold put. apply Permutation_app; [rewrite evs_field by exact Ha; now rewrite Ek, !app_assoc|].
    apply Permutation_app; [rewrite evs_field by exact Hb; now rewrite Ev, !app_assoc|]. apply IH; auto.
  Qed.

  Lemma evs_subs me st enc cs : Forall good cs ->
    Permutation (evs (vseqs (map snd (subs_of m nowhere cs))) (me ++ st) enc) (flat_map (put me (Direct st enc)) cs).
  Proof.
    induction 1 as [|c cs [Hc Hr] _ IH]; [reflexivity|]. unfold subs_of in *. cbn [map vseqs flat_map snd].
    rewrite (@evs_vseq nowhere) by now apply tame_visit. apply Permutation_app; [apply Hr | exact IH].
  Qed.

  Lemma evs_iter me st enc e cs : t_size e * len cs < two64 -> Forall good cs ->
    Permutation (evs (v_iter m (t_name e) (t_size e) (t_drop e) (map snd (subs_of m nowhere cs))) (me ++ st) enc)
      (map (at_stack me) (bulk st enc e (len cs)) ++ flat_map (put me (if in_bulk e then Hidden else Direct st enc)) cs).
  Proof.
    intros Hl Hg. rewrite v_iter_resolved by now rewrite len_subs. rewrite len_subs. unfold bulk, in_bulk.
    destruct (negb (t_drop e) || (t_size e =? 0)).
    - rewrite evs_simple, type_key. cbn [map app]. rewrite (@put_hidden me cs).
      unfold at_stack. cbn. now rewrite app_assoc, N.mul_comm.
    - now apply evs_subs.
  Qed.
End Report.

Lemma put_app me p a b : flat_map (put me p) (a ++ b) = flat_map (put me p) a ++ flat_map (put me p) b.
Proof. apply flat_map_app. Qed.

Ltac perm_tail := apply Permutation_cons; [reflexivity|].

Lemma good_forall m cs : Forall (fun v => typed v -> forall here nk, Permutation (evs (visit m nowhere v) here nk) (report here nk v)) cs ->
  Forall typed cs -> Forall (good m) cs.
Proof. intros H1 H2. rewrite Forall_forall in *. intros c Hc. split; auto. Qed.

Lemma Forall_firstn_skipn {A} (P : A -> Prop) n l : Forall P l -> Forall P (firstn n l) /\ Forall P (skipn n l).
Proof. split; [now apply Forall_firstn | now apply Forall_skipn]. Qed.

Lemma len_firstn {A} n (l : list A) : len (firstn n l) = N.min (N.of_nat n) (len l).
Proof. unfold len. rewrite firstn_length. lia. Qed.
Lemma len_skipn {A} n (l : list A) : len (skipn n l) = len l - N.of_nat n.
Proof. unfold len. rewrite skipn_length. lia. Qed.

Lemma no_buffer_put me e cap cs : buffer e (len cs) cap -> has_buffer e cap = false ->
  flat_map (put me (if in_bulk e then Hidden else Direct ["ptr"%string] NKUnique)) cs = [].
Proof.
  intros Hb E. apply andb_false_iff in E as [E|E]; apply negb_false_iff in E.
  - apply N.eqb_eq in E. now rewrite (cap_zero_len Hb E).
  - unfold in_bulk. rewrite E, orb_true_r. apply put_hidden.
Qed.

Ltac node := rewrite report_node by reflexivity; cbn [frame_name shape_info size_of_val].
Ltac leaf_line := rewrite ?evs_simple, ?key_str_new; unfold at_stack, pointer, unused; cbn [ln_stack ln_kind ln_in ln_bytes map app]; rewrite <- ?app_assoc; cbn [app]; reflexivity.

Theorem report_visit m v : typed v -> forall here nk, Permutation (own (items_in m v) here nk) (report here nk v).
Proof.
  change (typed v -> forall here nk, Permutation (evs (visit m nowhere v) here nk) (report here nk v)).
  induction v as [s cs IH] using value_induction. intros Ht here nk.
  apply typed_inv in Ht as [Hok Hcs]. pose proof (good_forall IH Hcs) as Hg. clear IH.
  assert (Hts : Forall (fun c => tame nowhere (snd c)) (subs_of m nowhere cs)).
  { unfold subs_of. rewrite Forall_map. cbn [snd]. eapply Forall_impl; [|exact Hcs]. intros c. apply tame_visit. }
  rewrite visit_node.
  destruct s as [t|t|n|n|e|t names|t variant|t|t a|t a|t ps|t e cap|t e front cap|t n cap|t n cap|t h|t e cap|t e sp|t d
    |t e cap|t e cap|t|t e cap|t e cap|t e cap|t|t|t al ch|t ps x|t target];
    cbn [visit_shape shape_ok] in *.
  - subst cs. node. unfold impl_leaf, v_simple_sized. cbn. now rewrite type_key.
  - reflexivity.
  - destruct Hok as [-> _]. node. unfold impl_str. cbn. now rewrite key_str_new.
  - destruct Hok as [-> _]. node. unfold impl_os_str. cbn. now rewrite key_str_new.
  - node. unfold impl_slice. rewrite evs_inline, evs_ret, app_nil_r, type_key, len_subs. perm_tail.
    cbn [extra_lines map app]. rewrite (@contents_const _ (Named [] NKInline "data")) by reflexivity.
    rewrite <- (app_nil_r (here ++ [t_name e])) at 1. apply evs_fields_named; auto with tame; apply key_str_new.
  - node. unfold impl_struct. rewrite evs_self. perm_tail. cbn [extra_lines map app].
    rewrite <- (app_nil_r (here ++ [t_name t])) at 1. eapply evs_fields; [apply Hok | reflexivity | exact Hg].
  - node. unfold impl_enum. rewrite evs_self. perm_tail. destruct variant as [[v names]|]; [|subst cs; reflexivity].
    cbn [extra_lines map app]. rewrite evs_inline, evs_ret, app_nil_r, key_str_new. perm_tail.
    eapply evs_fields; [apply Hok | reflexivity | exact Hg].
  - node. unfold impl_manually_drop. rewrite evs_self. perm_tail. cbn [extra_lines map app].
    rewrite (@contents_const _ (Named [] NKInline "inner")) by reflexivity.
    rewrite <- (app_nil_r (here ++ [t_name t])) at 1. apply evs_fields_named; auto with tame; apply key_str_new.
  - node. unfold impl_cell. rewrite evs_self. perm_tail. cbn [extra_lines map app]. destruct a.
    + rewrite (@contents_const _ (Named [] NKInline "data")) by reflexivity.
      rewrite <- (app_nil_r (here ++ [t_name t])) at 1. apply evs_fields_named; auto with tame; apply key_str_new.
    + now rewrite contents_hidden.
  - node. unfold impl_once. rewrite evs_self. perm_tail. cbn [extra_lines map app]. destruct a.
    + rewrite (@contents_const _ (Direct [] NKInline)) by reflexivity.
      rewrite <- (app_nil_r (here ++ [t_name t])) at 1. now apply evs_subs.
    + now rewrite contents_hidden.
  - node. unfold impl_box. rewrite evs_self. perm_tail. cbn [extra_lines map app]. rewrite evs_unique, evs_ret, app_nil_r.
    unfold PTR_NAME. rewrite key_str_new. perm_tail. rewrite (@contents_const _ (Direct ["ptr"%string] NKUnique)) by reflexivity. now apply evs_subs.
  - destruct Hok as (Ho & He & Hb). node. unfold impl_vec. rewrite evs_self. perm_tail. cbn [extra_lines].
    fold (has_buffer e cap). destruct (has_buffer e cap) eqn:E.
    + pose proof (buffer_len Hb) as Hl. rewrite evs_unique, evs_ret, app_nil_r. unfold v_slice, PTR_NAME. rewrite key_str_new.
      cbn [map app]. perm_tail.
      rewrite (@evs_vseq nowhere) by (apply tame_iter_of; auto). rewrite evs_iter by auto.
      rewrite len_subs, unused_resolved, evs_simple by exact Hb.
      rewrite (@contents_const _ (if in_bulk e then Hidden else Direct ["ptr"%string] NKUnique)) by reflexivity.
      rewrite map_app, <- !app_assoc. apply Permutation_app_head. rewrite Permutation_app_comm. apply Permutation_app_tail.
      unfold UNUSED_CAPACITY_NAME. rewrite key_str_new. leaf_line.
    + now rewrite (@contents_const _ (if in_bulk e then Hidden else Direct ["ptr"%string] NKUnique)), (no_buffer_put _ Hb E).
  - destruct Hok as (Ho & He & Hb). node. unfold impl_vec_deque. rewrite evs_self. perm_tail. cbn [extra_lines].
    fold (has_buffer e cap). destruct (has_buffer e cap) eqn:E.
    + pose proof (buffer_len Hb) as Hl. pose proof (len_split front cs) as Hsp.
      rewrite evs_unique, evs_ret, app_nil_r. unfold v_slice, PTR_NAME. rewrite key_str_new.
      cbn [map app]. perm_tail. rewrite firstn_subs, skipn_subs.
      rewrite (@evs_vseq nowhere) by (apply tame_iter_of; [nia | now apply Forall_firstn]).
      rewrite (@evs_vseq nowhere) by (apply tame_iter_of; [nia | now apply Forall_skipn]).
      rewrite !evs_iter; auto using Forall_firstn, Forall_skipn; try nia.
      rewrite len_subs, unused_resolved, evs_simple, len_firstn, len_skipn by exact Hb.
      rewrite (@contents_const _ (if in_bulk e then Hidden else Direct ["ptr"%string] NKUnique)) by reflexivity.
      set (f := put _ _). assert (Hf : flat_map f cs = flat_map f (firstn front cs) ++ flat_map f (skipn front cs)).
      { now rewrite <- flat_map_app, firstn_skipn. }
      rewrite Hf, !map_app, <- !app_assoc.
      apply Permutation_app_head. rewrite Permutation_app_swap_app. apply Permutation_app_head.
      rewrite app_assoc, Permutation_app_comm. apply Permutation_app_tail.
      unfold UNUSED_CAPACITY_NAME. rewrite key_str_new. leaf_line.
    + now rewrite (@contents_const _ (if in_bulk e then Hidden else Direct ["ptr"%string] NKUnique)), (no_buffer_put _ Hb E).
  - destruct Hok as (-> & Ho & Hn & Hc). pose proof two63_lt_two64. node. unfold impl_string. rewrite evs_self. perm_tail.
    unfold v_vec_like_body. rewrite umul_exact by lia. cbn [with_val].
    unfold v_slice, v_iter. cbn [negb orb]. rewrite repeat_length, umul_exact by lia. cbn [with_val].
    rewrite wrapping_sub_exact by lia. rewrite umul_exact by lia. cbn [with_val vseq v_simple].
    rewrite evs_unique, evs_ret, app_nil_r. unfold v_field_with. rewrite !evs_inline, !evs_ret.
    unfold PTR_NAME, CAPACITY_NAME, UNUSED_CAPACITY_NAME. rewrite !key_str_new, !N.mul_1_l. cbn [extra_lines contents]. leaf_line.
  - destruct Hok as (-> & Ho & Hn & Hc). node. unfold impl_path_buf. rewrite evs_self. perm_tail. cbn [extra_lines].
    destruct (cap =? 0); cbn [negb]; [reflexivity|]. rewrite usub_ok by exact Hn. cbn [with_val vseq v_simple].
    rewrite evs_unique, !evs_inline, !evs_ret. unfold PTR_NAME, UNUSED_CAPACITY_NAME. rewrite !key_str_new. cbn [contents]. leaf_line.
  - destruct Hok as (-> & Ho & Hh). node. unfold impl_compact_string. rewrite evs_self. perm_tail. cbn [extra_lines].
    destruct h as [[n cap]|]; [|reflexivity]. rewrite usub_ok by apply Hh. cbn [with_val vseq v_simple].
    rewrite evs_unique, !evs_inline, !evs_ret. unfold PTR_NAME, UNUSED_CAPACITY_NAME. rewrite !key_str_new. cbn [contents]. leaf_line.
  - destruct Hok as (Ho & He & Hb). node. unfold impl_slab. rewrite evs_self. perm_tail. cbn [extra_lines].
    fold (has_buffer e cap). destruct (has_buffer e cap) eqn:E.
    + pose proof (buffer_len Hb) as Hl. rewrite evs_unique, evs_ret, app_nil_r. unfold PTR_NAME. rewrite key_str_new.
      cbn [map app]. perm_tail.
      rewrite (@evs_vseq nowhere) by (apply tame_iter_of; auto). rewrite evs_iter by auto.
      rewrite len_subs, unused_resolved, evs_simple by exact Hb.
      rewrite (@contents_const _ (if in_bulk e then Hidden else Direct ["ptr"%string] NKUnique)) by reflexivity.
      rewrite map_app, <- !app_assoc. apply Permutation_app_head. rewrite Permutation_app_comm. apply Permutation_app_tail.
      unfold UNUSED_CAPACITY_NAME. rewrite key_str_new. leaf_line.
    + now rewrite (@contents_const _ (if in_bulk e then Hidden else Direct ["ptr"%string] NKUnique)), (no_buffer_put _ Hb E).
  - node. unfold impl_small_vec. rewrite evs_self. perm_tail. cbn [extra_lines]. destruct sp.
    + rewrite evs_unique, evs_ret, app_nil_r. unfold PTR_NAME. rewrite key_str_new. cbn [map app]. perm_tail.
      rewrite (@contents_const _ (Named ["ptr"%string] NKUnique "data")) by reflexivity.
      apply evs_fields_named; auto with tame; apply key_str_new.
    + cbn [map app]. rewrite (@contents_const _ (Named [] NKInline "data")) by reflexivity.
      rewrite <- (app_nil_r (here ++ [t_name t])) at 1. apply evs_fields_named; auto with tame; apply key_str_new.
  - destruct Hok as (-> & Ho & Hd). pose proof two63_lt_two64. node. unfold impl_big_int. rewrite evs_self. perm_tail.
    rewrite umul_exact by lia. cbn [with_val]. rewrite evs_unique, evs_simple, !evs_ret. unfold PTR_NAME, DATA_NAME. rewrite !key_str_new.
    cbn [extra_lines contents]. leaf_line.
  - destruct Hok as (_ & _ & He & Hb & Hf). node. unfold impl_index_set, add_raw_table_for_len. rewrite evs_self. perm_tail.
    rewrite evs_unique, !len_subs, key_str_new. cbn [extra_lines map app]. perm_tail.
    rewrite (@evs_vseq nowhere) by (apply tame_fields_named; auto with tame).
    rewrite unused_resolved, evs_simple by exact Hb.
    rewrite evs_fields_named by (auto with tame; apply key_str_new).
    rewrite (@contents_const _ (Named ["data"%string] NKUnique "value")) by reflexivity.
    rewrite <- !app_assoc. rewrite Permutation_app_comm. cbn [app]. unfold UNUSED_CAPACITY_NAME. rewrite key_str_new.
    apply Permutation_cons; [leaf_line|]. apply Permutation_app_tail. unfold index_table.
    destruct (len cs =? 0); [reflexivity|]. rewrite table_resolved by exact Hf. cbn [with_val].
    rewrite evs_unique, evs_simple, evs_ret, !key_str_new. leaf_line.
  - destruct Hok as (_ & _ & He & Hb & Hf). node. unfold impl_index_map, add_raw_table_for_len. rewrite evs_self. perm_tail.
    rewrite evs_unique, !len_subs, key_str_new. cbn [extra_lines map app]. perm_tail.
    rewrite (@evs_vseq nowhere) by (apply tame_fields_kv; auto with tame).
    rewrite unused_resolved, evs_simple by exact Hb.
    rewrite (@evs_fields_kv m _ _ _ _ _ _ 0%nat) by (auto with tame; try apply key_str_new; eapply entries_even; eauto).
    rewrite <- !app_assoc. rewrite Permutation_app_comm. cbn [app]. unfold UNUSED_CAPACITY_NAME. rewrite key_str_new.
    apply Permutation_cons; [leaf_line|]. apply Permutation_app_tail. unfold index_table.
    destruct (len cs / 2 =? 0); [reflexivity|]. rewrite table_resolved by exact Hf. cbn [with_val].
    rewrite evs_unique, evs_simple, evs_ret, !key_str_new. leaf_line.
  - destruct Hok as (_ & He). node. unfold impl_json_map. rewrite evs_self. perm_tail. cbn [extra_lines map app].
    rewrite evs_unique, evs_ret, app_nil_r, key_str_new. perm_tail.
    apply (@evs_fields_kv m _ _ _ _ _ _ 0%nat); auto with tame; apply key_str_new.
  - destruct Hok as (Ho & He & Hb). node. unfold impl_dash_map. rewrite evs_self. perm_tail. cbn [extra_lines map app].
    rewrite evs_unique, evs_ret, app_nil_r. unfold PTR_NAME. rewrite key_str_new. perm_tail.
    rewrite umul_exact by (eapply buffer_total; eauto). rewrite ?len_subs. cbn [with_val].
    rewrite evs_inline, evs_ret, app_nil_r. unfold CAPACITY_NAME. rewrite key_str_new.
    apply Permutation_cons; [leaf_line|]. rewrite (@evs_vseq nowhere) by (apply tame_fields_kv; auto with tame).
    unfold usaturating_sub. rewrite umul_exact by (eapply buffer_unused; eauto). cbn [with_val]. rewrite evs_simple.
    rewrite <- (app_assoc (here ++ [t_name t])).
    rewrite (@evs_fields_kv m _ _ _ _ _ _ 0%nat) by (auto with tame; try apply key_str_new; eapply entries_even; eauto).
    rewrite Permutation_app_comm. cbn [app]. unfold UNUSED_CAPACITY_NAME. rewrite key_str_new.
    apply Permutation_cons; [leaf_line | reflexivity].
  - destruct Hok as (Ho & He & Hb). node. unfold impl_dash_set. rewrite evs_self. perm_tail. cbn [extra_lines map app].
    rewrite evs_unique, evs_ret, app_nil_r. unfold PTR_NAME. rewrite key_str_new. perm_tail.
    rewrite umul_exact by (eapply buffer_total; eauto). rewrite ?len_subs. cbn [with_val].
    rewrite evs_inline, evs_ret, app_nil_r. unfold CAPACITY_NAME. rewrite key_str_new.
    apply Permutation_cons; [leaf_line|]. rewrite (@evs_vseq nowhere) by (apply tame_fields_named; auto with tame).
    unfold usaturating_sub. rewrite umul_exact by (eapply buffer_unused; eauto). cbn [with_val]. rewrite evs_simple.
    rewrite <- (app_assoc (here ++ [t_name t])).
    rewrite evs_fields_named by (auto with tame; apply key_str_new).
    rewrite (@contents_const _ (Named ["ptr"%string; "capacity"%string] NKInline "data")) by reflexivity.
    rewrite Permutation_app_comm. cbn [app]. unfold UNUSED_CAPACITY_NAME. rewrite key_str_new.
    apply Permutation_cons; [leaf_line | reflexivity].
  - destruct Hok as (Ho & He & Hl & Hf). node. unfold impl_hash_table. rewrite evs_self. perm_tail. cbn [extra_lines map app].
    rewrite evs_unique, evs_ret, app_nil_r. unfold DATA_NAME. rewrite key_str_new. perm_tail.
    rewrite table_resolved by exact Hf. cbn [with_val]. rewrite evs_inline, evs_ret, app_nil_r.
    unfold CAPACITY_NAME. rewrite key_str_new. apply Permutation_cons; [leaf_line|].
    rewrite <- (app_assoc (here ++ [t_name t])). rewrite (@contents_const _ (if in_bulk e then Hidden else Direct ["data"%string; "capacity"%string] NKInline)) by reflexivity.
    apply evs_iter; auto. destruct Hf as (p & Hp & Hle & Hf). nia.
  - destruct Hok as (Ho & He). node. unfold impl_map. rewrite evs_self, pairs_fields. perm_tail. cbn [extra_lines map app].
    rewrite evs_inline, evs_ret, app_nil_r. unfold DATA_NAME. rewrite key_str_new. perm_tail.
    apply (@evs_fields_kv m _ _ _ _ _ _ 0%nat); auto with tame; apply key_str_new.
  - node. unfold impl_set, v_generic_set_fields, v_field_with. rewrite evs_self. perm_tail. cbn [extra_lines map app].
    rewrite evs_inline, evs_ret, app_nil_r. unfold DATA_NAME. rewrite key_str_new. perm_tail.
    rewrite (@contents_const _ (Named ["data"%string] NKInline "key")) by reflexivity.
    apply (@evs_fields_named m KEY_NAME); auto with tame; apply key_str_new.
  - destruct Hok as (-> & Ho & Hs1 & Ha). pose proof two63_lt_two64. node. unfold impl_bump. rewrite evs_self, C40_exact by lia. perm_tail.
    rewrite evs_unique, (@evs_vseq nowhere), !evs_simple, evs_ret by auto with tame. unfold PTR_NAME, DATA_NAME, UNUSED_CAPACITY_NAME. rewrite !key_str_new.
    cbn [extra_lines contents]. leaf_line.
  - destruct Hok as (-> & _). node. unfold impl_shared_ptr. rewrite evs_self, evs_shared, evs_ret. unfold PTR_NAME. rewrite key_str_new.
    cbn [extra_lines contents]. leaf_line.
  - destruct Hok as (-> & _). node. unfold impl_weak. rewrite evs_self. destruct target as [[[t' ps] x]|]; [|reflexivity].
    unfold impl_shared_ptr. rewrite evs_self, evs_shared, evs_ret. unfold PTR_NAME. rewrite key_str_new.
    cbn [extra_lines contents]. leaf_line.
Qed.

(** The allocation behind a shared pointer. *)
Lemma report_of_inner m i w S : inner_ok i w -> typed w -> recorded_size i w S ->
  Permutation (own (items_inner m i w) [] NKShared) (report_inner i w S).
Proof.
  intros Hi Ht HS. pose proof (report_visit m Ht) as Hv.
  unfold items_inner.
  change (Permutation (evs (visit_inner i (size_of_val w, visit m nowhere w)) [] NKShared) (report_inner i w S)).
  destruct i as [a|a|a|tn h sz al n|]; cbn [report_inner inner_stack app].
  - destruct Hi as (Hl & S0 & HS0 & Hh). destruct (@holds_valid 16 _ S0 Hl (or_introl eq_refl) HS0 Hh) as [R E].
    change (16 =? 16) with true in E. cbv iota in E. cbn [visit_inner fst snd]. rewrite E. cbn [with_val].
    assert (R = S) as ->. { destruct HS as [A1 A2]. pose proof (proj1 (C30_rc_exact R Hl) E) as (_ & G1 & G2). apply N.le_antisymm; auto. }
    rewrite evs_inline, evs_ret, app_nil_r, key_str_new. constructor. apply Hv.
  - destruct Hi as (Hl & S0 & HS0 & Hh). destruct (@holds_valid 16 _ S0 Hl (or_introl eq_refl) HS0 Hh) as [R E].
    change (16 =? 16) with true in E. cbv iota in E. cbn [visit_inner fst snd]. rewrite E. cbn [with_val].
    assert (R = S) as ->. { destruct HS as [A1 A2]. pose proof (proj1 (C30_rc_exact R Hl) E) as (_ & G1 & G2). apply N.le_antisymm; auto. }
    rewrite evs_inline, evs_ret, app_nil_r, key_str_new. constructor. apply Hv.
  - destruct Hi as (Hl & S0 & HS0 & Hh). destruct (@holds_valid 8 _ S0 Hl (or_intror eq_refl) HS0 Hh) as [R E].
    change (8 =? 16) with false in E. cbv iota in E. cbn [visit_inner fst snd]. rewrite E. cbn [with_val].
    assert (R = S) as ->. { destruct HS as [A1 A2]. pose proof (proj1 (C30_triomphe_exact R Hl) E) as (_ & G1 & G2). apply N.le_antisymm; auto. }
    unfold field, v_field, v_field_with. cbn [fst snd].
    rewrite evs_inline, evs_ret, app_nil_r, type_key. constructor. rewrite evs_inline, evs_ret, app_nil_r, key_str_new. constructor. apply Hv.
  - destruct Hi as (Hs & Hl & Hal & Hla & Hw & Hf). cbn [recorded_size] in HS.
    destruct (@C30_thin_at_most h sz al n Hs Hl Hal Hf) as (R & E & HR).
    assert (R = S) as ->.
    { rewrite HS. pose proof (proj1 (thin_arc_size_spec Hs Hl Hal Hla E)) as ->. rewrite repr_c2.
      - reflexivity.
      - apply pow2_pos. apply Hl.
      - cbn [l_align]. now apply pow2_pos. }
    cbn [visit_inner fst snd]. rewrite E. cbn [with_val]. unfold field, v_field, v_field_with. cbn [fst snd].
    rewrite evs_inline, evs_ret, app_nil_r, type_key. constructor. rewrite evs_inline, evs_ret, app_nil_r, key_str_new. constructor. apply Hv.
  - apply Hv.
Qed.

(** A whole profile. *)
Lemma report_everything m n h roots (alloc : ptr -> N) :
  typed_store h -> plain_store h -> Forall typed roots -> Forall manual_free roots ->
  no_dangling h roots -> (length h <= n)%nat ->
  (forall x i w, find_obj h x = Some (i, w) -> recorded_size i w (alloc x)) ->
  exists xs, NoDup xs /\ (forall x, In x xs <-> store_reachable h roots x) /\
    Permutation (root_events (map (visit_in m n h) roots))
      (flat_map (report [] NKRoot) roots ++
       flat_map (fun x => match find_obj h x with Some (i, w) => report_inner i w (alloc x) | None => [] end) xs).
Proof.
  intros Hh Hp Hr Hm Hd Hn Ha. rewrite map_visit_in by auto.
  assert (Hc : closed_heap (heap_of m h) (map (items_in m) roots)) by now apply closed_store.
  destruct (@link_roots n (heap_of m h) (map (items_in m) roots)) as (es & vis & E & H1 & H2 & H3);
    [now rewrite heap_of_length | exact Hc |].
  exists vis. split; [exact H1|]. split; [intros x; rewrite H2; now apply reachable_store|].
  unfold root_events. rewrite E. cbn [fst]. rewrite H3. apply Permutation_app.
  - clear - Hr. induction Hr as [|r roots H _ IH]; [reflexivity|]. cbn [map flat_map]. apply Permutation_app; [now apply report_visit | exact IH].
  - clear - Hh Ha. induction vis as [|x xs IH]; [reflexivity|]. cbn [flat_map]. apply Permutation_app; [|exact IH].
    unfold pointee_events. rewrite deref_heap_of. destruct (find_obj h x) as [[i w]|] eqn:E; [|reflexivity]. cbn [option_map fst snd].
    destruct (find_obj_ok Hh E) as [Hi Hw]. apply report_of_inner; eauto.
Qed.

(** With nothing behind shared pointers the trace is the value's own. *)
Lemma trace_nowhere p : tame nowhere p -> forall vis here nk, exists vis', trace k_str p vis here nk = (evs p here nk, vis', true).
Proof.
  induction p as [| |k s b IHb r IHr|k s b IHb r IHr|k s x b IHb r1 IH1 r2 IH2]; cbn [tame trace]; intros H vis here nk.
  - eexists. reflexivity.
  - destruct H.
  - destruct H as (_ & H1 & H2). destruct (IHb H1 vis (here ++ [k_str k]) NKInline) as [v1 ->]. destruct (IHr H2 v1 here nk) as [v2 ->].
    rewrite evs_inline. eexists. reflexivity.
  - destruct H as (_ & H1 & H2). destruct (IHb H1 vis (here ++ [k_str k]) NKUnique) as [v1 ->]. destruct (IHr H2 v1 here nk) as [v2 ->].
    rewrite evs_unique. eexists. reflexivity.
  - destruct H as (_ & -> & <- & H). rewrite evs_shared. cbn [nowhere trace]. destruct (ptr_mem x vis).
    + destruct (IH1 H vis here nk) as [v2 ->]. eexists. reflexivity.
    + destruct (IH1 H (x :: vis) here nk) as [v2 ->]. eexists. reflexivity.
Qed.

Lemma roots_nowhere m vs : Forall typed vs -> forall vis,
  exists vis', trace_roots k_str (map (visit m nowhere) vs) vis = (flat_map (fun v => evs (visit m nowhere v) [] NKRoot) vs, vis').
Proof.
  induction 1 as [|v vs Hv _ IH]; intros vis; cbn [map trace_roots flat_map]; [eexists; reflexivity|].
  destruct (trace_nowhere (tame_visit m nowhere Hv) vis [] NKRoot) as [v1 ->]. destruct (IH v1) as [v2 ->]. eexists. reflexivity.
Qed.

Lemma report_roots m vs : Forall typed vs -> Permutation (root_events (map (visit m nowhere) vs)) (flat_map (report [] NKRoot) vs).
Proof.
  intros H. unfold root_events. destruct (@roots_nowhere m vs H []) as [v ->]. cbn [fst].
  induction H as [|r vs Hr _ IH]; [reflexivity|]. cbn [flat_map]. apply Permutation_app; [now apply report_visit | exact IH].
Qed.

(** ** Frames of reports come from names *)
Definition clean_ev (e : ev string) : Prop := Forall frame_clean (ev_path e).
Definition clean_line (l : line) : Prop := Forall frame_clean (ln_stack l).
Definition clean_place (p : place) : Prop :=
  match p with Hidden => True | Direct st _ => Forall frame_clean st | Named st _ l => Forall frame_clean st /\ frame_clean l end.

Ltac lit := repeat first [apply Forall_nil | apply Forall_cons; [first [split; reflexivity | assumption]|]].

Lemma clean_bulk st k e n : Forall frame_clean st -> frame_clean (t_name e) -> Forall clean_line (bulk st k e n).
Proof.
  intros H1 H2. unfold bulk. destruct (in_bulk e); constructor; [|constructor]. unfold clean_line. cbn. apply Forall_app. split; [exact H1 | lit].
Qed.
Lemma clean_unused st k n : Forall frame_clean st -> clean_line (unused st k n).
Proof. intros H. unfold clean_line, unused. cbn. apply Forall_app. split; [exact H | lit]. Qed.
Lemma clean_pointer : clean_line pointer.
Proof. unfold clean_line. cbn. lit. Qed.

Ltac lines := repeat first
  [ apply Forall_nil | apply Forall_cons | apply clean_pointer | apply clean_unused | apply clean_bulk | apply Forall_app; split
  | split; reflexivity | assumption | progress (unfold clean_line; cbn [ln_stack]) ].

Lemma clean_lines s cs : Forall frame_clean (node_names s) -> Forall clean_line (extra_lines s cs).
Proof.
  intros H. unfold node_names in H. inversion H as [|? ? H1 H2]; subst.
  destruct s as [t|t|n|n|e|t names|t variant|t|t a|t a|t ps|t e cap|t e front cap|t n cap|t n cap|t h|t e cap|t e sp|t d
    |t e cap|t e cap|t|t e cap|t e cap|t e cap|t|t|t al ch|t ps x|t target]; cbn [extra_lines]; try solve [lines].
  - destruct variant as [[v names]|]; [|constructor]. inversion H2; subst. lines.
  - inversion H2; subst. destruct (has_buffer e cap); lines.
  - inversion H2; subst. destruct (has_buffer e cap); lines.
  - destruct (cap =? 0); lines.
  - destruct h as [[n cap]|]; lines.
  - inversion H2; subst. destruct (has_buffer e cap); lines.
  - destruct sp; lines.
  - unfold index_table. destruct (len cs =? 0); lines.
  - unfold index_table. destruct (len cs / 2 =? 0); lines.
  - inversion H2; subst. lines.
  - destruct target as [[[t' ps] x]|]; [|constructor]. inversion H2; subst. lines.
Qed.

Lemma clean_places s i : Forall frame_clean (node_names s) -> clean_place (place_of s i).
Proof.
  intros H. unfold node_names in H. inversion H as [|? ? H1 H2]; subst.
  assert (Hkv : frame_clean (key_or_value i)) by (unfold key_or_value; destruct (Nat.even i); split; reflexivity).
  destruct s as [t|t|n|n|e|t names|t variant|t|t a|t a|t ps|t e cap|t e front cap|t n cap|t n cap|t h|t e cap|t e sp|t d
    |t e cap|t e cap|t|t e cap|t e cap|t e cap|t|t|t al ch|t ps x|t target]; cbn [place_of clean_place];
    try solve [exact I | split; [lit | first [exact Hkv | split; reflexivity]] | lit].
  - destruct (nth_error names i) eqn:E; [|exact I]. split; [lit|]. rewrite Forall_forall in H2. apply H2. eapply nth_error_In; eauto.
  - destruct variant as [[v names]|]; [|exact I]. inversion H2 as [|? ? H3 H4]; subst. destruct (nth_error names i) eqn:E; [|exact I].
    split; [lit|]. rewrite Forall_forall in H4. apply H4. eapply nth_error_In; eauto.
  - destruct a; [split; [lit | split; reflexivity] | exact I].
  - destruct a; [lit | exact I].
  - destruct (in_bulk e); [exact I | cbn; lit].
  - destruct (in_bulk e); [exact I | cbn; lit].
  - destruct (in_bulk e); [exact I | cbn; lit].
  - destruct sp; (split; [lit | split; reflexivity]).
  - destruct (in_bulk e); [exact I | cbn; lit].
Qed.

Lemma clean_report v : Forall frame_clean (all_names v) -> forall here nk, Forall frame_clean here -> Forall clean_ev (report here nk v).
Proof.
  induction v as [s cs IH] using value_induction. cbn [all_names]. intros H here nk Hh. apply Forall_app in H as [Hs Hc].
  destruct (silent (Node s cs)) eqn:E; [cbn [report]; rewrite E; constructor|]. rewrite report_node by exact E.
  assert (Hme : Forall frame_clean (here ++ [frame_name s])).
  { apply Forall_app. split; [exact Hh|]. inversion Hs; subst. auto. }
  constructor; [exact Hme|]. apply Forall_app. split.
  - rewrite Forall_map. eapply Forall_impl; [|apply clean_lines, Hs]. intros l Hl. unfold clean_ev, at_stack. cbn. apply Forall_app. auto.
  - generalize 0%nat. revert Hc. induction IH as [|c cs Hc' _ IHcs]; intros Hc i; [constructor|]. cbn [flat_map] in Hc. apply Forall_app in Hc as [Hc1 Hc2].
    cbn [contents]. apply Forall_app. split.
    + pose proof (clean_places i Hs) as Hp. destruct (place_of s i) as [|st k|st k l]; cbn [put clean_place] in *.
      * constructor.
      * apply Hc'; [exact Hc1|]. apply Forall_app. auto.
      * destruct Hp as [Hp1 Hp2]. assert (G : Forall frame_clean ((here ++ [frame_name s]) ++ st ++ [l])).
        { apply Forall_app. split; [exact Hme|]. apply Forall_app. auto. }
        constructor; [exact G | apply Hc'; auto].
    + apply IHcs; [destruct s; exact E | exact Hc2].
Qed.

Lemma clean_report_inner i w S : Forall frame_clean (all_names w) -> Forall frame_clean (inner_names i) ->
  Forall clean_ev (report_inner i w S).
Proof.
  intros Hw Hi. destruct i as [a|a|a|tn h sz al n|]; cbn [report_inner inner_stack app].
  - assert (G : Forall frame_clean ["ArcInner"%string]) by lit. constructor; [exact G | now apply clean_report].
  - assert (G : Forall frame_clean ["RcInner"%string]) by lit. constructor; [exact G | now apply clean_report].
  - assert (G : Forall frame_clean ["allocative::impls::triomphe::ArcInnerRepr"%string]) by lit. constructor; [exact G|].
    assert (G' : Forall frame_clean ["allocative::impls::triomphe::ArcInnerRepr"%string; "data"%string]) by lit. constructor; [exact G' | now apply clean_report].
  - inversion Hi; subst. assert (G : Forall frame_clean [tn]) by lit. constructor; [exact G|].
    assert (G' : Forall frame_clean [tn; "data"%string]) by lit. constructor; [exact G' | now apply clean_report].
  - now apply clean_report.
Qed.

Lemma shown_at_event es p : 0 < shown_s es p -> exists e, In e es /\ ev_path e = p.
Proof.
  unfold shown_s, shown. destruct p as [|x p]; [lia|]. set (q := x :: p). intros H. assert (Hd : 0 < declared string_dec es q) by lia.
  clear H. unfold declared in Hd. induction es as [|e es IH]; cbn [map sumN] in Hd; [lia|].
  destruct (path_dec string_dec (ev_path e) q) as [E|_]; [exists e; split; [now left | exact E]|].
  destruct (IH ltac:(lia)) as (e' & H1 & H2). exists e'. split; [now right | exact H2].
Qed.

Lemma recorded_exact i w S : inner_ok i w -> inner_exact i w -> i <> InBare -> (recorded_size i w S <-> alloc_size i w S).
Proof.
  destruct i as [a|a|a|tn h sz al n|]; cbn [recorded_size]; try reflexivity; [|congruence].
  intros (Hs & Hl & Hal & Hla & Hw & Hf) He _. cbn [inner_exact alloc_size] in *.
  destruct (@C30_thin_at_most h sz al n Hs Hl Hal Hf) as (R & E & _).
  rewrite <- (C30_thin_exact Hs Hl Hal He E). rewrite (proj1 (thin_arc_size_spec Hs Hl Hal Hla E)). rewrite repr_c2.
  - reflexivity.
  - apply pow2_pos. apply Hl.
  - cbn [l_align]. now apply pow2_pos.
Qed.
