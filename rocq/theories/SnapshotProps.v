(** * Lemmas for property C51: the states a value can be in are as good as the value. *)
From Coq Require Import Permutation Sorted.
From Verif Require Import Base BaseFacts KeyModel KeyFacts HMap FlameModel BuilderModel BuilderFacts VisitorModel Spec LayoutModel ImplModel ImplSpec ImplFacts
  StoreFacts LockModel LockSpec LockFacts SnapshotModel SnapshotSpec SnapshotFacts SnapshotRun.

#[local] Arguments key_new : simpl never.

Definition alike (a b : value) : Prop := size_of_val a = size_of_val b /\ drop_of a = drop_of b.

Lemma could_be_drop v w : could_be v w -> drop_of w = drop_of (quiet v).
Proof. intros H. inversion H as [s cs ws Hc| | | |]; subst; cbn [quiet]; try reflexivity. Qed.
Lemma could_be_alike v w : could_be v w -> alike (quiet v) w.
Proof. intros H. split; [symmetry; apply (could_be_size H) | symmetry; apply (could_be_drop H)]. Qed.

Lemma alike_sizes A B : Forall2 alike A B -> map size_of_val A = map size_of_val B.
Proof. induction 1 as [|a b A B [E _] _ IH]; cbn [map]; [reflexivity | now rewrite E, IH]. Qed.
Lemma alike_len A B : Forall2 alike A B -> len A = len B.
Proof. intros H. unfold len. now rewrite (Forall2_len H). Qed.
Lemma alike_elems A B e : Forall2 alike A B -> elems e A -> elems e B.
Proof.
  unfold elems. induction 1 as [|a b A B [E1 E2] _ IH]; intros X; inversion X; subst; constructor; auto.
  rewrite <- E1, <- E2. assumption.
Qed.
Lemma alike_contained A B t : Forall2 alike A B -> contained t A -> contained t B.
Proof.
  unfold contained. intros H. rewrite (alike_sizes H). intros [X1 X2]. split; [exact X1|]. clear - H X2.
  induction H as [|a b A B [E1 E2] _ IH]; inversion X2; subst; constructor; auto. now rewrite <- E2.
Qed.
Lemma alike_pair (P : list value -> list value -> Prop) : P [] [] -> (forall a b, P [a] [b]) ->
  (forall a a' b b' A B, alike a b -> alike a' b' -> P A B -> P (a :: a' :: A) (b :: b' :: B)) ->
  forall A B, Forall2 alike A B -> P A B.
Proof.
  intros P0 P1 P2. fix go 1. intros [|a [|a' A]] B X; inversion X as [|? b ? B1 X1 X2]; subst; [exact P0| |]; inversion X2 as [|? b' ? B2 X3 X4]; subst; [apply P1|].
  apply P2; [exact X1 | exact X3 | apply go, X4].
Qed.
Lemma alike_entries e A B : Forall2 alike A B -> entries e A -> entries e B.
Proof.
  revert A B. apply (@alike_pair (fun A B => entries e A -> entries e B)); cbn [entries]; auto.
  intros a a' b b' A B [E1 _] [E2 _] IH [X1 X2]. rewrite <- E1, <- E2. auto.
Qed.
Lemma alike_even A B : Forall2 alike A B -> even_length A -> even_length B.
Proof. revert A B. apply (@alike_pair (fun A B => even_length A -> even_length B)); cbn [even_length]; auto. Qed.

Lemma shape_ok_alike s A B : Forall2 alike A B -> shape_ok s A -> shape_ok s B.
Proof.
  intros H.
  assert (Z : A = [] -> B = []) by (intros ->; now inversion H).
  pose proof (alike_len H) as L. pose proof (alike_sizes H) as S. pose proof (Forall2_len H) as LN.
  destruct s as [t|t|n|n|e|t names|t [[v names]|]|t|t a|t a|t ps|t e cap|t e front cap|t n cap|t n cap|t h|t e cap|t e sp|t d
      |t e cap|t e cap|t|t e cap|t e cap|t e cap|t|t|t al ch|t ps x|t target]; cbn [shape_ok]; rewrite ?L, ?S, <- ?LN; auto;
    try tauto; intros X; repeat match goal with X : _ /\ _ |- _ => destruct X end; repeat match goal with |- _ /\ _ => split end; auto;
    eauto using alike_elems, alike_contained, alike_entries, alike_even; try lia.
  match goal with X : exists c, A = [c] |- _ => destruct X as [c ->] end. inversion H as [|? ? ? ? _ X]; subst. inversion X; subst. eauto.
Qed.

Lemma Forall2_quiet cs ws : Forall2 could_be cs ws -> Forall2 alike (map quiet cs) ws.
Proof. induction 1; cbn; constructor; auto using could_be_alike. Qed.

Lemma typed_inv' s cs : typed (Node s cs) -> shape_ok s cs /\ Forall typed cs.
Proof. intros H. inversion H; auto. Qed.
Theorem could_be_typed v : forall w, could_be v w -> typed (quiet v) -> typed w.
Proof.
  induction v as [s cs IH|t l a c IH|t l c IH|t t' ps x] using lvalue_induction; intros w H Ht; inversion H as [? ? ws Hc|? ? ? ? u av Hc|? ? ? u av Hc| |]; subst;
    cbn [quiet] in Ht; apply typed_inv' in Ht as [Hok Hcs].
  - constructor; [eapply shape_ok_alike; [apply Forall2_quiet, Hc | exact Hok]|].
    clear - IH Hc Hcs. induction Hc as [|c w cs ws Hcw _ IHc]; [constructor|]. cbn in Hcs. inversion IH; inversion Hcs; subst. constructor; auto.
  - inversion Hcs; subst. constructor; [|constructor; auto]. eapply (@shape_ok_alike (SCell t av)); [|exact Hok]. constructor; [now apply could_be_alike | constructor].
  - inversion Hcs; subst. constructor; [|constructor; auto]. eapply (@shape_ok_alike (SOnce t av)); [|exact Hok]. constructor; [now apply could_be_alike | constructor].
  - constructor; auto.
  - constructor; [|constructor]. cbn in *. tauto.
Qed.

Lemma and_map {A} (P : A -> Prop) l : fold_right and True (map P l) <-> Forall P l.
Proof. induction l as [|a l IH]; cbn; split; intros H; auto; [constructor; tauto | inversion H; subst; tauto]. Qed.
Theorem could_be_manual v : forall w, could_be v w -> manual_free (quiet v) -> manual_free w.
Proof.
  induction v as [s cs IH|t l a c IH|t l c IH|t t' ps x] using lvalue_induction; intros w H Ht; inversion H as [? ? ws Hc|? ? ? ? u av Hc|? ? ? u av Hc| |]; subst;
    cbn [quiet manual_free map fold_right] in *; try tauto.
  - destruct Ht as [H1 H2]. split; [exact H1|]. rewrite and_map in *. clear - IH Hc H2.
    induction Hc as [|c w cs ws Hcw _ IHc]; [constructor|]. cbn in H2. inversion IH; inversion H2; subst. constructor; auto.
  - specialize (IH _ Hc). tauto.
  - specialize (IH _ Hc). tauto.
Qed.
Theorem could_be_map_free v : forall w, could_be v w -> map_free (quiet v) -> map_free w.
Proof.
  induction v as [s cs IH|t l a c IH|t l c IH|t t' ps x] using lvalue_induction; intros w H Ht; inversion H as [? ? ws Hc|? ? ? ? u av Hc|? ? ? u av Hc| |]; subst;
    cbn [quiet map_free map fold_right] in *; try tauto.
  - destruct Ht as [H1 H2]. split.
    + destruct s; auto; destruct cs; try discriminate; inversion Hc; reflexivity.
    + rewrite and_map in *. clear - IH Hc H2.
      induction Hc as [|c w cs ws Hcw _ IHc]; [constructor|]. cbn in H2. inversion IH; inversion H2; subst. constructor; auto.
  - specialize (IH _ Hc). tauto.
  - specialize (IH _ Hc). tauto.
Qed.
Theorem could_be_refs v : forall w, could_be v w -> incl (value_refs w) (value_refs (quiet v)).
Proof.
  induction v as [s cs IH|t l a c IH|t l c IH|t t' ps x] using lvalue_induction; intros w H; inversion H as [? ? ws Hc|? ? ? ? u av Hc|? ? ? u av Hc| |]; subst;
    cbn [quiet value_refs node_refs ImplSpec.available app flat_map map].
  - apply incl_app; [apply incl_appl, incl_refl|]. apply incl_appr. destruct (ImplSpec.available s); [|intros y []].
    clear - IH Hc. induction Hc as [|c w cs ws Hcw _ IHc]; cbn; [apply incl_refl|]. inversion IH; subst.
    apply incl_app; [apply incl_appl; auto | apply incl_appr; auto].
  - rewrite app_nil_r. destruct av; [rewrite app_nil_r; auto | intros y []].
  - rewrite app_nil_r. destruct av; [rewrite app_nil_r; auto | intros y []].
  - apply incl_refl.
  - intros y [].
Qed.

(** ** Stores *)
Lemma store_typed H h : store_could_be H h -> typed_store (quiet_store H) -> typed_store h.
Proof.
  unfold typed_store, quiet_store. induction 1 as [|[x [i v]] [x' [i' w]] H h (E1 & E2 & E3) _ IH]; intros X; [constructor|].
  cbn [map fst snd] in *. inversion X as [|? ? [Y1 Y2] Y3]; subst. cbn [fst snd] in *. constructor; [|auto]. cbn. split; [|eapply could_be_typed; eauto].
  destruct (could_be_alike E3) as [Es _]. unfold inner_ok in *. rewrite <- Es. exact Y1.
Qed.
Lemma store_plain H h : store_could_be H h -> plain_store (quiet_store H) -> plain_store h.
Proof.
  unfold plain_store, quiet_store. induction 1 as [|[x [i v]] [x' [i' w]] H h (E1 & E2 & E3) _ IH]; intros X; [constructor|].
  cbn [map fst snd] in *. inversion X; subst. constructor; [|auto]. cbn in *. eapply could_be_manual; eauto.
Qed.
Lemma store_map_free H h : store_could_be H h -> Forall (fun xo => map_free (snd (snd xo))) (quiet_store H) -> Forall (fun xo => map_free (snd (snd xo))) h.
Proof.
  unfold quiet_store. induction 1 as [|[x [i v]] [x' [i' w]] H h (E1 & E2 & E3) _ IH]; intros X; [constructor|].
  cbn [map fst snd] in *. inversion X; subst. constructor; [|auto]. cbn in *. eapply could_be_map_free; eauto.
Qed.
Lemma store_length H h : store_could_be H h -> length h = length H.
Proof. intros X. symmetry. apply (Forall2_len X). Qed.
Lemma store_find H h x i w : store_could_be H h -> find_obj h x = Some (i, w) ->
  exists v, could_be v w /\ find_obj (quiet_store H) x = Some (i, quiet v).
Proof.
  unfold quiet_store. induction 1 as [|[y [j v]] [y' [j' u]] H h (E1 & E2 & E3) _ IH]; cbn [find_obj map fst snd]; [discriminate|]. cbn [fst snd] in *. subst y' j'.
  destruct (N.eqb x y); [intros [= -> ->]; eauto | exact IH].
Qed.
Lemma store_find_some H h x o : store_could_be H h -> find_obj (quiet_store H) x = Some o -> exists o', find_obj h x = Some o'.
Proof.
  unfold quiet_store. induction 1 as [|[y [j v]] [y' [j' u]] H h (E1 & E2 & E3) _ IH]; cbn [find_obj map fst snd]; [discriminate|]. cbn [fst snd] in *. subst y' j'.
  destruct (N.eqb x y); [eauto | exact IH].
Qed.
Lemma roots_typed roots vs : Forall2 could_be roots vs -> Forall typed (map quiet roots) -> Forall typed vs.
Proof. induction 1; cbn; intros X; inversion X; subst; constructor; auto. eapply could_be_typed; eauto. Qed.
Lemma roots_manual roots vs : Forall2 could_be roots vs -> Forall manual_free (map quiet roots) -> Forall manual_free vs.
Proof. induction 1; cbn; intros X; inversion X; subst; constructor; auto. eapply could_be_manual; eauto. Qed.
Lemma roots_map_free roots vs : Forall2 could_be roots vs -> Forall map_free (map quiet roots) -> Forall map_free vs.
Proof. induction 1; cbn; intros X; inversion X; subst; constructor; auto. eapply could_be_map_free; eauto. Qed.
Lemma roots_in roots vs w : Forall2 could_be roots vs -> In w vs -> exists v, In v roots /\ could_be v w.
Proof. induction 1 as [|v u roots vs H _ IH]; cbn; [intros []|]. intros [<-|X]; [eauto|]. destruct (IH X) as (z & Z1 & Z2). eauto. Qed.
Lemma reachable_quiet H h roots vs x : store_could_be H h -> Forall2 could_be roots vs ->
  store_reachable h vs x -> store_reachable (quiet_store H) (map quiet roots) x.
Proof.
  intros HS HR R. induction R as [r x Hr Hx|y i w x _ IH Hf Hx].
  - destruct (roots_in HR Hr) as (v & V1 & V2). eapply sr_root; [apply in_map, V1 | eapply could_be_refs; eauto].
  - destruct (store_find HS Hf) as (v & V1 & V2). eapply sr_step; [exact IH | exact V2 | eapply could_be_refs; eauto].
Qed.
Lemma dangling_quiet H h roots vs : store_could_be H h -> Forall2 could_be roots vs ->
  no_dangling (quiet_store H) (map quiet roots) -> no_dangling h vs.
Proof. intros HS HR N x X. destruct (N x (reachable_quiet HS HR X)) as [o Ho]. eapply store_find_some; eauto. Qed.

(** ** No waiting *)
Lemma nw_lseq p q : no_waiting p -> no_waiting q -> no_waiting (lseq p q).
Proof. intros Hp Hq. induction p; cbn in *; tauto. Qed.
Lemma nw_plug ls p : Forall no_waiting ls -> no_waiting (plug ls p).
Proof.
  intros H. induction p as [| |k s b IHb r IHr|k s b IHb r IHr|k s x b IHb r1 IH1 r2 IH2]; cbn [plug no_waiting]; auto.
  apply nw_lseq; [|exact IH1]. destruct (nth_in_or_default (N.to_nat x) ls LRet) as [Hin | ->]; [|exact I]. rewrite Forall_forall in H. auto.
Qed.
Lemma nw_embed lpt p : (forall x, no_waiting (lpt x)) -> no_waiting (embed lpt p).
Proof. intros H. induction p; cbn [embed no_waiting]; auto. Qed.
Lemma nw_visit m lpt v : (forall x, no_waiting (lpt x)) -> no_waiting (l_visit m lpt v).
Proof.
  intros H. induction v as [s cs IH|t l a c IH|t l c IH|t t' ps x] using lvalue_induction; cbn [l_visit].
  - assert (X : Forall no_waiting (map snd (map (fun c => (lsize c, l_visit m lpt c)) cs))).
    { rewrite map_map. cbn [snd]. rewrite Forall_map. exact IH. }
    unfold l_shape. destruct s; try (apply nw_plug, X); now apply nw_embed.
  - cbn. auto.
  - cbn. auto.
  - cbn. auto 10.
Qed.
Lemma nw_visit_in m n H : forall v, no_waiting (l_visit_in m n H v).
Proof.
  induction n as [|n IH]; intros v; cbn [l_visit_in]; apply nw_visit; intros x; [exact I|].
  destruct (find_lobj H x) as [[i w]|]; [|exact I]. unfold l_inner. cbn [placeholders fst snd]. apply nw_plug. repeat constructor. apply IH.
Qed.
