(** * Names that keep allocations apart make the trace unmixed. *)
From Verif Require Import Base KeyModel KeyFacts HMap FlameModel BuilderModel VisitorModel LayoutModel Spec ImplModel ImplSpec ImplFacts StoreFacts NameSpec.

#[local] Arguments key_new : simpl never.

(** [k] is directly below a scope named [par] ([None]: at the start of a stack). *)
Definition below (owns : table) (par : option string) (k : string) : Prop :=
  match par with Some n => owns n k | None => False end.
Definition plain_par (owns : table) (par : option string) : Prop := forall k, ~ below owns par k.

(** Every unique scope, and no other, is where the table says. *)
Fixpoint tidy (owns : table) (par : option string) (p : vprog) : Prop :=
  match p with
  | VRet | VCrash => True
  | VInline k _ b r => ~ below owns par (k_str k) /\ tidy owns (Some (k_str k)) b /\ tidy owns par r
  | VUnique k _ b r => below owns par (k_str k) /\ tidy owns (Some (k_str k)) b /\ tidy owns par r
  | VShared k _ _ b r1 r2 => ~ below owns par (k_str k) /\ tidy owns None b /\ tidy owns par r1 /\ tidy owns par r2
  end.

Fixpoint last_opt {A} (l : list A) : option A :=
  match l with [] => None | [x] => Some x | _ :: l' => last_opt l' end.
Lemma last_opt_snoc {A} (l : list A) x : last_opt (l ++ [x]) = Some x.
Proof. induction l as [|y l IH]; [reflexivity|]. cbn [app last_opt]. rewrite IH. now destruct (l ++ [x]) eqn:E; [destruct l|]. Qed.

(** The events of a tidy program. *)
Definition placed (owns : table) (e : ev string) : Prop :=
  exists here k, ev_path e = here ++ [k] /\
    (is_NKUnique (ev_kind e) = true -> below owns (last_opt here) k) /\
    (is_NKUnique (ev_kind e) = false -> ~ below owns (last_opt here) k).

Lemma tidy_trace owns p : forall vis here nk, tidy owns (last_opt here) p ->
  Forall (placed owns) (fst (fst (trace k_str p vis here nk))).
Proof.
  induction p as [| |k s b IHb r IHr|k s b IHb r IHr|k s x b IHb r1 IH1 r2 IH2]; intros vis here nk H; cbn [trace tidy] in *.
  - constructor.
  - constructor.
  - destruct H as (H1 & H2 & H3). specialize (IHb vis (here ++ [k_str k]) NKInline). rewrite last_opt_snoc in IHb. specialize (IHb H2).
    destruct (trace k_str b vis (here ++ [k_str k]) NKInline) as [[es1 vis1] ok1]. cbn [fst] in IHb.
    assert (He : placed owns (mkEv (here ++ [k_str k]) NKInline nk s)) by (exists here, (k_str k); cbn; repeat split; auto; discriminate).
    destruct ok1; [|constructor; auto]. specialize (IHr vis1 here nk H3). destruct (trace k_str r vis1 here nk) as [[es2 vis2] ok2].
    constructor; [exact He|]. apply Forall_app; auto.
  - destruct H as (H1 & H2 & H3). specialize (IHb vis (here ++ [k_str k]) NKUnique). rewrite last_opt_snoc in IHb. specialize (IHb H2).
    destruct (trace k_str b vis (here ++ [k_str k]) NKUnique) as [[es1 vis1] ok1]. cbn [fst] in IHb.
    assert (He : placed owns (mkEv (here ++ [k_str k]) NKUnique nk s)) by (exists here, (k_str k); cbn; repeat split; auto; discriminate).
    destruct ok1; [|constructor; auto]. specialize (IHr vis1 here nk H3). destruct (trace k_str r vis1 here nk) as [[es2 vis2] ok2].
    constructor; [exact He|]. apply Forall_app; auto.
  - destruct H as (H1 & H2 & H3 & H4).
    assert (He : placed owns (mkEv (here ++ [k_str k]) NKShared nk s)) by (exists here, (k_str k); cbn; repeat split; auto; discriminate).
    destruct (ptr_mem x vis).
    + specialize (IH2 vis here nk H4). destruct (trace k_str r2 vis here nk) as [[es2 vis2] ok2]. constructor; auto.
    + specialize (IHb (x :: vis) [] NKShared H2). destruct (trace k_str b (x :: vis) [] NKShared) as [[es1 vis1] ok1].
      destruct ok1; [|constructor; auto]. specialize (IH1 vis1 here nk H3). destruct (trace k_str r1 vis1 here nk) as [[es2 vis2] ok2].
      constructor; [exact He|]. apply Forall_app; auto.
Qed.

Lemma tidy_roots owns l : Forall (tidy owns None) l -> Forall (placed owns) (root_events l).
Proof.
  unfold root_events. generalize (@nil ptr). induction l as [|p l IH]; intros vis H; cbn [trace_roots]; [constructor|].
  inversion H as [|? ? Hp Hl]; subst. pose proof (@tidy_trace owns p vis [] NKRoot Hp) as T.
  destruct (trace k_str p vis [] NKRoot) as [[es1 vis1] ok]. specialize (IH vis1 Hl). destruct (trace_roots k_str l vis1) as [es2 vis2].
  apply Forall_app; auto.
Qed.

Lemma placed_unmixed owns es : Forall (placed owns) es -> unmixed es.
Proof.
  intros H e e' He He' E. rewrite Forall_forall in H. destruct (H e He) as (h & k & P & A & B), (H e' He') as (h' & k' & P' & A' & B').
  rewrite P, P' in E. apply app_inj_tail in E as [<- <-].
  destruct (is_NKUnique (ev_kind e)), (is_NKUnique (ev_kind e')); auto; exfalso; [apply B' | apply B]; auto.
Qed.

(** ** Visits of values *)
Section Owns.
Variable owns : table.
Hypothesis fixed : Forall (plain_name owns) fixed_labels.

Lemma label n : In n fixed_labels -> plain_par owns (Some n).
Proof. intros H k. cbn. rewrite Forall_forall in fixed. now apply fixed. Qed.

Lemma tidy_vseq par p q : tidy owns par p -> tidy owns par q -> tidy owns par (vseq p q).
Proof. induction p as [| |k s b IHb r IHr|k s b IHb r IHr|k s x b IHb r1 IH1 r2 IH2]; cbn [vseq tidy]; tauto. Qed.
Lemma tidy_vseqs par l : Forall (tidy owns par) l -> tidy owns par (vseqs l).
Proof. induction 1; cbn [vseqs]; [exact I|]. now apply tidy_vseq. Qed.
Lemma tidy_with par x f : (forall n, tidy owns par (f n)) -> tidy owns par (with_val x f).
Proof. destruct x; cbn; auto. Qed.
Lemma tidy_simple par k n : ~ below owns par (k_str k) -> tidy owns par (v_simple k n).
Proof. cbn. auto. Qed.

Definition ready (c : sub) : Prop := forall par, plain_par owns par -> tidy owns par (snd c).

Lemma tidy_subs par cs : plain_par owns par -> Forall ready cs -> tidy owns par (vseqs (map snd cs)).
Proof. intros Hp H. apply tidy_vseqs. rewrite Forall_map. eapply Forall_impl; [|exact H]. intros c Hc. now apply Hc. Qed.
Lemma tidy_field par n c : ~ below owns par n -> plain_par owns (Some n) -> ready c -> tidy owns par (field (key_new n) c).
Proof. intros H1 H2 H3. cbn. rewrite key_str_new. auto. Qed.
Lemma tidy_fields_named par n cs : ~ below owns par n -> plain_par owns (Some n) -> Forall ready cs ->
  tidy owns par (fields_named (key_new n) cs).
Proof. intros H1 H2 H. apply tidy_vseqs. rewrite Forall_map. eapply Forall_impl; [|exact H]. intros c Hc. now apply tidy_field. Qed.
Lemma tidy_fields par names cs : plain_par owns par -> Forall (plain_name owns) names -> Forall ready cs ->
  tidy owns par (fields names cs).
Proof.
  intros Hp Hn. revert cs. induction Hn as [|n names Hn1 Hn IH]; intros cs H; [exact I|].
  destruct H as [|c cs Hc H]; [exact I|]. cbn [fields]. apply tidy_vseq; [|now apply IH]. apply tidy_field; auto.
Qed.
Lemma tidy_kv par a b cs : ~ below owns par a -> ~ below owns par b -> plain_par owns (Some a) -> plain_par owns (Some b) -> Forall ready cs ->
  tidy owns par (fields_kv (key_new a) (key_new b) cs).
Proof.
  intros Ha Hb Pa Pb. induction cs as [|c|k v cs IH] using pair_ind; intros H; try exact I.
  inversion H as [|? ? Hk H']; subst. inversion H' as [|? ? Hv H'']; subst. cbn [fields_kv].
  apply tidy_vseq; [now apply tidy_field|]. apply tidy_vseq; [now apply tidy_field|]. now apply IH.
Qed.
Lemma tidy_pairs par cs : plain_par owns par -> Forall ready cs -> tidy owns par (v_generic_map_fields (pair_up cs)).
Proof.
  intros Hp H. unfold v_generic_map_fields, v_field_with, DATA_NAME. cbn [tidy]. rewrite key_str_new. split; [apply Hp|]. split; [|exact I].
  apply tidy_vseqs. rewrite Forall_map. pose proof (@label "data" ltac:(cbn; auto 12)) as Hd.
  revert H. induction cs as [|c|k v cs IH] using pair_ind; intros H; cbn [pair_up]; try constructor;
    inversion H as [|? ? Hk H']; subst; inversion H' as [|? ? Hv H'']; subst; auto.
  apply tidy_vseq; [apply (@tidy_field _ "key" k) | apply (@tidy_field _ "value" v)]; auto; apply label; cbn; auto 12.
Qed.
Lemma tidy_set par cs : plain_par owns par -> Forall ready cs -> tidy owns par (v_generic_set_fields cs).
Proof.
  intros Hp H. unfold v_generic_set_fields, v_field_with, DATA_NAME. cbn [tidy]. rewrite key_str_new. split; [apply Hp|]. split; [|exact I].
  apply tidy_vseqs. rewrite Forall_map. pose proof (@label "data" ltac:(cbn; auto 12)) as Hd.
  eapply Forall_impl; [|exact H]. intros c Hc. apply (@tidy_field _ "key" c); auto. apply label; cbn; auto 12.
Qed.
Lemma tidy_self par t b : plain_par owns par -> tidy owns (Some (t_name t)) b -> tidy owns par (enter_self t b).
Proof. intros H1 H2. cbn. unfold key_for_type_name. rewrite key_str_new. auto. Qed.
Lemma tidy_iter par m tn sz nd cs : plain_par owns par -> Forall ready cs -> tidy owns par (v_iter m tn sz nd (map snd cs)).
Proof.
  intros Hp H. unfold v_iter. destruct (_ || _); [|now apply tidy_subs].
  apply tidy_with. intros n. apply tidy_simple. apply Hp.
Qed.
Lemma tidy_unused par m cap n sz : plain_par owns par -> tidy owns par (unused_capacity m cap n sz).
Proof. intros Hp. apply tidy_with. intros d. apply tidy_simple, Hp. Qed.
Lemma tidy_unique par n s b r : below owns par n -> tidy owns (Some n) b -> tidy owns par r -> tidy owns par (VUnique (key_new n) s b r).
Proof. cbn. rewrite key_str_new. auto. Qed.
Lemma tidy_inline par n s b r : ~ below owns par n -> tidy owns (Some n) b -> tidy owns par r -> tidy owns par (VInline (key_new n) s b r).
Proof. cbn. rewrite key_str_new. auto. Qed.
Lemma tidy_raw par m n : below owns par "raw_table" -> tidy owns par (add_raw_table_for_len m n).
Proof.
  intros H. unfold add_raw_table_for_len. destruct (n =? 0); [exact I|]. apply tidy_unique; [exact H| |exact I].
  apply tidy_with. intros d. apply tidy_simple. apply label; cbn; auto 12.
Qed.
Lemma tidy_shared pt t ps x par : plain_par owns par -> plain_par owns (Some (t_name t)) -> tidy owns None (pt x) ->
  tidy owns par (impl_shared_ptr pt t ps x).
Proof. intros Hp Ht Hx. apply tidy_self; auto. cbn [tidy]. split; [apply Ht|]. auto. Qed.

Lemma tidy_visit m pt v : (forall x, tidy owns None (pt x)) -> named owns v ->
  forall par, plain_par owns par -> tidy owns par (visit m pt v).
Proof.
  intros Hpt. induction v as [s cs IH] using value_induction. intros Hn par Hp. inversion Hn as [? ? [Hs1 Hs2] Hcs]; subst. clear Hn.
  rewrite visit_node.
  assert (Hs : Forall ready (subs_of m pt cs)).
  { unfold subs_of. rewrite Forall_map. rewrite Forall_forall in *. intros c Hc q Hq. apply IH; auto. }
  pose proof (@label "ptr" ltac:(cbn; auto 12)) as Lptr. pose proof (@label "data" ltac:(cbn; auto 12)) as Ldata.
  pose proof (@label "inner" ltac:(cbn; auto 12)) as Linner. pose proof (@label "capacity" ltac:(cbn; auto 12)) as Lcap.
  pose proof (@label "key" ltac:(cbn; auto 12)) as Lkey. pose proof (@label "value" ltac:(cbn; auto 12)) as Lval.
  assert (Hno : forall t, shape_info s = Some t -> forall k, ~ In k (owned_labels s) -> ~ below owns (Some (t_name t)) k).
  { intros t E k Hk. rewrite E in Hs1. cbn. rewrite Hs1. exact Hk. }
  assert (Hyes : forall t, shape_info s = Some t -> forall k, In k (owned_labels s) -> below owns (Some (t_name t)) k).
  { intros t E k Hk. rewrite E in Hs1. cbn. rewrite Hs1. exact Hk. }
  clear Hs1.
  destruct s as [t|t|n|n|e|t names|t variant|t|t a|t a|t ps|t e cap|t e front cap|t n cap|t n cap|t h|t e cap|t e sp|t d
    |t e cap|t e cap|t|t e cap|t e cap|t e cap|t|t|t al ch|t ps x|t target];
    cbn [visit_shape shape_info owned_labels] in *;
    try (specialize (Hno t eq_refl)); try (specialize (Hyes t eq_refl)).
  - apply tidy_self; auto; exact I.
  - exact I.
  - apply tidy_simple, Hp.
  - apply tidy_simple, Hp.
  - apply tidy_inline; [apply Hp | | exact I]. apply tidy_fields_named; auto.
  - apply tidy_self; auto. apply tidy_fields; auto. intros k. apply Hno. auto.
  - apply tidy_self; auto. destruct variant as [[v names]|]; [|exact I]. destruct Hs2 as [Hv Hnm].
    apply tidy_inline; [apply Hno; auto | | exact I]. apply tidy_fields; auto.
  - apply tidy_self; auto. apply tidy_fields_named; auto.
  - apply tidy_self; auto. destruct a; [apply tidy_fields_named; auto | exact I].
  - apply tidy_self; auto. destruct a; [apply tidy_subs; auto | exact I]. intros k. apply Hno. auto.
  - apply tidy_self; auto. apply tidy_unique; [apply Hyes; cbn; auto | | exact I]. apply tidy_subs; auto.
  - apply tidy_self; auto. destruct (_ && _); [|exact I]. apply tidy_unique; [apply Hyes; cbn; auto | | exact I].
    apply tidy_vseq; [apply tidy_iter; auto | now apply tidy_unused].
  - apply tidy_self; auto. destruct (_ && _); [|exact I]. apply tidy_unique; [apply Hyes; cbn; auto | | exact I].
    apply tidy_vseq; [apply tidy_iter; auto; now apply Forall_firstn|].
    apply tidy_vseq; [apply tidy_iter; auto; now apply Forall_skipn | now apply tidy_unused].
  - apply tidy_self; auto. apply tidy_unique; [apply Hyes; cbn; auto | | exact I].
    unfold v_vec_like_body. apply tidy_with. intros total. apply tidy_inline; [apply Lptr | | exact I].
    apply tidy_vseq; [|apply tidy_with; intros d; apply tidy_simple, Lcap].
    unfold v_slice, v_iter. cbn [negb orb]. apply tidy_with. intros d. apply tidy_simple, Lcap.
  - apply tidy_self; auto. destruct (negb _); [|exact I]. apply tidy_unique; [apply Hyes; cbn; auto | | exact I].
    apply tidy_vseq; [apply tidy_simple, Lptr | apply tidy_with; intros d; apply tidy_simple, Lptr].
  - apply tidy_self; auto. destruct h as [[n cap]|]; [|exact I]. apply tidy_unique; [apply Hyes; cbn; auto | | exact I].
    apply tidy_vseq; [apply tidy_simple, Lptr | apply tidy_with; intros d; apply tidy_simple, Lptr].
  - apply tidy_self; auto. destruct (_ && _); [|exact I]. apply tidy_unique; [apply Hyes; cbn; auto | | exact I].
    apply tidy_vseq; [apply tidy_iter; auto | now apply tidy_unused].
  - apply tidy_self; auto. destruct sp.
    + apply tidy_unique; [apply Hyes; cbn; auto | | exact I]. apply tidy_fields_named; auto.
    + apply tidy_fields_named; auto. apply Hno. intros [H|[]]; discriminate.
  - apply tidy_self; auto. apply tidy_unique; [apply Hyes; cbn; auto | | exact I]. apply tidy_with. intros n. apply tidy_simple, Lptr.
  - apply tidy_self; auto. apply tidy_unique; [apply Hyes; cbn; auto | | apply tidy_raw, Hyes; cbn; auto].
    apply tidy_vseq; [apply tidy_fields_named; auto | now apply tidy_unused].
  - apply tidy_self; auto. apply tidy_unique; [apply Hyes; cbn; auto | | apply tidy_raw, Hyes; cbn; auto].
    apply tidy_vseq; [apply tidy_kv; auto | now apply tidy_unused].
  - apply tidy_self; auto. apply tidy_unique; [apply Hyes; cbn; auto | | exact I]. apply tidy_kv; auto.
  - apply tidy_self; auto. apply tidy_unique; [apply Hyes; cbn; auto | | exact I]. apply tidy_with. intros total.
    apply tidy_inline; [apply Lptr | | exact I]. apply tidy_vseq; [apply tidy_kv; auto | apply tidy_with; intros d; apply tidy_simple, Lcap].
  - apply tidy_self; auto. apply tidy_unique; [apply Hyes; cbn; auto | | exact I]. apply tidy_with. intros total.
    apply tidy_inline; [apply Lptr | | exact I]. apply tidy_vseq; [apply tidy_fields_named; auto | apply tidy_with; intros d; apply tidy_simple, Lcap].
  - apply tidy_self; auto. apply tidy_unique; [apply Hyes; cbn; auto | | exact I]. apply tidy_with. intros total.
    apply tidy_inline; [apply Ldata | | exact I]. apply tidy_iter; auto.
  - apply tidy_self; auto. apply tidy_pairs; auto. intros k. apply Hno. auto.
  - apply tidy_self; auto. apply tidy_set; auto. intros k. apply Hno. auto.
  - apply tidy_self; auto. apply tidy_unique; [apply Hyes; cbn; auto | | exact I].
    destruct (bump_counters m al ch) as [[u w]|]; [|exact I]. apply tidy_vseq; apply tidy_simple, Lptr.
  - apply tidy_shared; auto. intros k. apply Hno. auto.
  - apply tidy_self; auto. destruct target as [[[t' ps] x]|]; [|exact I]. apply tidy_shared; auto. intros k. apply Hno. auto.
Qed.

Lemma tidy_inner i c : inner_named owns i -> ready c -> tidy owns None (visit_inner i c).
Proof.
  intros Hi Hc. assert (H0 : plain_par owns None) by (intros k []).
  assert (Ld : plain_par owns (Some "data"%string)) by (apply label; cbn; auto 12).
  destruct i as [a|a|a|tn h sz al n|]; cbn [visit_inner].
  - apply tidy_with. intros d. apply tidy_inline; [apply H0 | | exact I]. apply Hc, label; cbn; auto 12.
  - apply tidy_with. intros d. apply tidy_inline; [apply H0 | | exact I]. apply Hc, label; cbn; auto 12.
  - apply tidy_with. intros d. apply tidy_inline; [apply H0 | | exact I]. apply tidy_field; auto. apply (@label _ ltac:(cbn; auto 12)).
  - apply tidy_with. intros d. apply tidy_inline; [apply H0 | | exact I]. apply tidy_field; auto. apply Hi.
  - now apply Hc.
Qed.

Lemma tidy_visit_in m n h v : named_store owns h -> named owns v -> forall par, plain_par owns par -> tidy owns par (visit_in m n h v).
Proof.
  intros Hh. revert v. induction n as [|n IH]; intros v Hv par Hp; cbn [visit_in]; apply tidy_visit; auto; intros x; [exact I|].
  destruct (find_obj h x) as [[i w]|] eqn:E; [|exact I].
  assert (Hx : inner_named owns i /\ named owns w).
  { clear - Hh E. induction h as [|[y o] h IH]; [discriminate|]. cbn [find_obj] in E. inversion Hh as [|? ? H1 H2]; subst.
    destruct (x =? y); [injection E as ->; exact H1 | auto]. }
  destruct Hx as [Hi Hw]. apply tidy_inner; auto. intros q Hq. cbn [snd]. now apply IH.
Qed.
End Owns.

(** Names that are apart leave no stack with two meanings. *)
Lemma apart_unmixed m n h roots : names_apart h roots -> unmixed (root_events (map (visit_in m n h) roots)).
Proof.
  intros (owns & Hf & Hh & Hr). apply placed_unmixed with owns. apply tidy_roots. rewrite Forall_map.
  eapply Forall_impl; [|exact Hr]. intros v Hv. apply tidy_visit_in; auto. intros k [].
Qed.

Lemma apart_unmixed_nowhere m v : names_apart [] [v] -> unmixed (root_events [visit m nowhere v]).
Proof.
  intros (owns & Hf & _ & Hr). inversion Hr as [|? ? Hv _]; subst. apply placed_unmixed with owns. apply tidy_roots.
  constructor; [|constructor]. apply tidy_visit; auto; [intros x; exact I | intros k []].
Qed.
