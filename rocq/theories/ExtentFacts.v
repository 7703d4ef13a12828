(** * Proofs for C57. *)
From Coq Require Import Lia Sorted.
From Verif Require Import Base BaseFacts KeyModel KeyFacts HMap FlameModel BuilderModel VisitorModel Spec FlameFacts WriteFacts ArenaFacts RunFacts FinishFacts BuilderFacts ExtentModel ExtentSpec.

(** ** Nodes *)
Lemma in_stacks es p : In p (stacks es) <-> exists e, In e es /\ ev_path e = p.
Proof. unfold stacks. rewrite nodup_In, in_map_iff. split; intros (e & H1 & H2); eauto. Qed.
Lemma nodup_stacks es : NoDup (stacks es). Proof. apply NoDup_nodup. Qed.
Lemma same_length {X} (l l' : list X) : NoDup l -> NoDup l' -> (forall x, In x l <-> In x l') -> length l = length l'.
Proof. intros H H' E. apply Nat.le_antisymm; apply NoDup_incl_length; auto; intros x; apply E. Qed.
Lemma stacks_le es : (length (stacks es) <= length es)%nat.
Proof.
  rewrite <- (map_length (@ev_path string) es). apply NoDup_incl_length; [apply nodup_stacks|]. intros p H. apply in_stacks in H as (e & H & <-). now apply in_map.
Qed.
Lemma nodes es ps b : binv string_dec k_str made_by_new es ps b -> length (b_trees b) = S (length (stacks es)).
Proof.
  intros [Ha Hd _ Ho]. rewrite <- (ar_len Ha). change (S (length (stacks es))) with (length ([] :: stacks es)).
  assert (Hn : ~ In [] (stacks es)). { intros H. apply in_stacks in H as (e & H & E). exact (da_nonroot Hd H E). }
  apply same_length; [apply (ar_nodup Ha) | constructor; [exact Hn | apply nodup_stacks]|].
  intros p. cbn [In]. rewrite in_stacks. split.
  - intros H. destruct (Ho p H) as [->|H']; auto.
  - intros [<-|(e & H & <-)]; [eapply nth_error_In, (ar_root Ha) | eapply da_cover; eauto].
Qed.

(** ** Visited pointers *)
Lemma trace_vis {A} (name : key -> A) p : forall vis here nk es vis' ok, trace name p vis here nk = (es, vis', ok) -> NoDup vis -> NoDup vis'.
Proof.
  induction p as [| |k s body IHb rest IHr|k s body IHb rest IHr|k s x body IHb r1 IH1 r2 IH2]; intros vis here nk es vis' ok E Hn; cbn [trace] in E.
  - now inversion E; subst.
  - now inversion E; subst.
  - destruct (trace name body vis (here ++ [name k]) NKInline) as [[e1 v1] [|]] eqn:Eb; [|inversion E; subst; eauto].
    destruct (trace name rest v1 here nk) as [[e2 v2] o2] eqn:Er. inversion E; subst. eauto.
  - destruct (trace name body vis (here ++ [name k]) NKUnique) as [[e1 v1] [|]] eqn:Eb; [|inversion E; subst; eauto].
    destruct (trace name rest v1 here nk) as [[e2 v2] o2] eqn:Er. inversion E; subst. eauto.
  - destruct (ptr_mem x vis) eqn:Ex.
    + destruct (trace name r2 vis here nk) as [[e2 v2] o2] eqn:Er. inversion E; subst. eauto.
    + assert (Hx : NoDup (x :: vis)).
      { constructor; [|exact Hn]. intros H. enough (ptr_mem x vis = true) by congruence. unfold ptr_mem. apply existsb_exists. exists x. split; [exact H | apply N.eqb_refl]. }
      destruct (trace name body (x :: vis) [] NKShared) as [[e1 v1] [|]] eqn:Eb; [|inversion E; subst; eauto].
      destruct (trace name r1 v1 here nk) as [[e2 v2] o2] eqn:Er. inversion E; subst. eauto.
Qed.
Lemma trace_roots_vis {A} (name : key -> A) l : forall vis es vis', trace_roots name l vis = (es, vis') -> NoDup vis -> NoDup vis'.
Proof.
  induction l as [|p l IH]; intros vis es vis' E H; cbn [trace_roots] in E; [now inversion E; subst|].
  destruct (trace name p vis [] NKRoot) as [[e1 v1] o1] eqn:E1. destruct (trace_roots name l v1) as [e2 v2] eqn:E2. inversion E; subst.
  eapply IH; eauto. eapply trace_vis; eauto.
Qed.

(** ** Depth of stacks *)
Lemma trace_nesting p : forall vis here nk es vis' ok, trace k_str p vis here nk = (es, vis', ok) ->
  forall e, In e es -> (length (ev_path e) <= length here + nesting p)%nat.
Proof.
  induction p as [| |k s body IHb rest IHr|k s body IHb rest IHr|k s x body IHb r1 IH1 r2 IH2]; intros vis here nk es vis' ok E e He; cbn [trace nesting] in *.
  - inversion E; subst. destruct He.
  - inversion E; subst. destruct He.
  - assert (X : forall e1 v1 o1, trace k_str body vis (here ++ [k_str k]) NKInline = (e1, v1, o1) -> forall e, In e e1 ->
      (length (ev_path e) <= length here + Nat.max (S (nesting body)) (nesting rest))%nat).
    { intros e1 v1 o1 E1 e0 H0. pose proof (IHb _ _ _ _ _ _ E1 _ H0) as X. rewrite app_length in X. cbn [length] in X. lia. }
    destruct (trace k_str body vis (here ++ [k_str k]) NKInline) as [[e1 v1] [|]] eqn:Eb;
      [destruct (trace k_str rest v1 here nk) as [[e2 v2] o2] eqn:Er|]; inversion E; subst.
    + destruct He as [<-|He]; [cbn [ev_path]; rewrite app_length; cbn [length]; lia|]. apply in_app_or in He as [He|He]; [eapply X; eauto|].
      pose proof (IHr _ _ _ _ _ _ Er _ He). lia.
    + destruct He as [<-|He]; [cbn [ev_path]; rewrite app_length; cbn [length]; lia|]. eapply X; eauto.
  - assert (X : forall e1 v1 o1, trace k_str body vis (here ++ [k_str k]) NKUnique = (e1, v1, o1) -> forall e, In e e1 ->
      (length (ev_path e) <= length here + Nat.max (S (nesting body)) (nesting rest))%nat).
    { intros e1 v1 o1 E1 e0 H0. pose proof (IHb _ _ _ _ _ _ E1 _ H0) as X. rewrite app_length in X. cbn [length] in X. lia. }
    destruct (trace k_str body vis (here ++ [k_str k]) NKUnique) as [[e1 v1] [|]] eqn:Eb;
      [destruct (trace k_str rest v1 here nk) as [[e2 v2] o2] eqn:Er|]; inversion E; subst.
    + destruct He as [<-|He]; [cbn [ev_path]; rewrite app_length; cbn [length]; lia|]. apply in_app_or in He as [He|He]; [eapply X; eauto|].
      pose proof (IHr _ _ _ _ _ _ Er _ He). lia.
    + destruct He as [<-|He]; [cbn [ev_path]; rewrite app_length; cbn [length]; lia|]. eapply X; eauto.
  - destruct (ptr_mem x vis).
    + destruct (trace k_str r2 vis here nk) as [[e2 v2] o2] eqn:Er. inversion E; subst.
      destruct He as [<-|He]; [cbn [ev_path]; rewrite app_length; cbn [length]; lia|]. pose proof (IH2 _ _ _ _ _ _ Er _ He). lia.
    + destruct (trace k_str body (x :: vis) [] NKShared) as [[e1 v1] [|]] eqn:Eb;
        [destruct (trace k_str r1 v1 here nk) as [[e2 v2] o2] eqn:Er|]; inversion E; subst.
      * destruct He as [<-|He]; [cbn [ev_path]; rewrite app_length; cbn [length]; lia|]. apply in_app_or in He as [He|He].
        -- pose proof (IHb _ _ _ _ _ _ Eb _ He) as X. cbn [length] in X. lia.
        -- pose proof (IH1 _ _ _ _ _ _ Er _ He). lia.
      * destruct He as [<-|He]; [cbn [ev_path]; rewrite app_length; cbn [length]; lia|]. pose proof (IHb _ _ _ _ _ _ Eb _ He) as X. cbn [length] in X. lia.
Qed.
Lemma trace_roots_nesting l : forall vis es vis', trace_roots k_str l vis = (es, vis') ->
  forall e, In e es -> (length (ev_path e) <= list_max (map nesting l))%nat.
Proof.
  induction l as [|p l IH]; intros vis es vis' E e He; cbn [trace_roots] in E; [inversion E; subst; destruct He|].
  destruct (trace k_str p vis [] NKRoot) as [[e1 v1] o1] eqn:E1. destruct (trace_roots k_str l v1) as [e2 v2] eqn:E2. inversion E; subst.
  cbn [map]. change (list_max (nesting p :: map nesting l)) with (Nat.max (nesting p) (list_max (map nesting l))).
  apply in_app_or in He as [He|He]; [pose proof (@trace_nesting _ _ _ _ _ _ _ E1 _ He) as X; cbn [length] in X; lia | pose proof (IH _ _ _ E2 _ He); lia].
Qed.
Lemma longest_le es n : (forall e, In e es -> (length (ev_path e) <= n)%nat) -> (longest es <= n)%nat.
Proof. intros H. unfold longest. apply list_max_le, Forall_forall. intros x Hx. apply in_map_iff in Hx as (e & <- & He). auto. Qed.
Lemma le_longest es e : In e es -> (length (ev_path e) <= longest es)%nat.
Proof.
  intros H. unfold longest. pose proof (proj1 (list_max_le (map (fun e => length (ev_path e)) es) _) (Nat.le_refl _)) as F. rewrite Forall_forall in F.
  apply F. apply (in_map (fun e => length (ev_path e)) es e H).
Qed.

(** ** The roots again *)
Definition incl_vis (v v' : list ptr) : Prop := forall x, ptr_mem x v = true -> ptr_mem x v' = true.
Lemma trace_grows {A} (name : key -> A) p : forall vis here nk es vis' ok, trace name p vis here nk = (es, vis', ok) -> incl_vis vis vis'.
Proof.
  induction p as [| |k s body IHb rest IHr|k s body IHb rest IHr|k s x body IHb r1 IH1 r2 IH2]; intros vis here nk es vis' ok E y Hy; cbn [trace] in E.
  - now inversion E; subst.
  - now inversion E; subst.
  - destruct (trace name body vis (here ++ [name k]) NKInline) as [[e1 v1] [|]] eqn:Eb; [|inversion E; subst; eapply IHb; eauto].
    destruct (trace name rest v1 here nk) as [[e2 v2] o2] eqn:Er. inversion E; subst. eapply IHr; eauto. eapply IHb; eauto.
  - destruct (trace name body vis (here ++ [name k]) NKUnique) as [[e1 v1] [|]] eqn:Eb; [|inversion E; subst; eapply IHb; eauto].
    destruct (trace name rest v1 here nk) as [[e2 v2] o2] eqn:Er. inversion E; subst. eapply IHr; eauto. eapply IHb; eauto.
  - destruct (ptr_mem x vis) eqn:Ex.
    + destruct (trace name r2 vis here nk) as [[e2 v2] o2] eqn:Er. inversion E; subst. eapply IH2; eauto.
    + assert (Hx : ptr_mem y (x :: vis) = true) by (unfold ptr_mem in *; cbn [existsb]; rewrite Hy; apply orb_true_r).
      destruct (trace name body (x :: vis) [] NKShared) as [[e1 v1] [|]] eqn:Eb; [|inversion E; subst; eapply IHb; eauto].
      destruct (trace name r1 v1 here nk) as [[e2 v2] o2] eqn:Er. inversion E; subst. eapply IH1; eauto. eapply IHb; eauto.
Qed.
Lemma trace_again {A} (name : key -> A) p : indifferent p -> forall vis here nk es vis', trace name p vis here nk = (es, vis', true) ->
  forall seen, incl_vis vis' seen -> exists es', trace name p seen here nk = (es', seen, true) /\ incl es' es.
Proof.
  induction p as [| |k s body IHb rest IHr|k s body IHb rest IHr|k s x body IHb r1 IH1 r2 IH2]; intros HI vis here nk es vis' E seen Hs; cbn [trace indifferent] in *.
  - inversion E; subst. exists []. split; [reflexivity | intros e []].
  - discriminate.
  - destruct HI as [I1 I2]. destruct (trace name body vis (here ++ [name k]) NKInline) as [[e1 v1] [|]] eqn:Eb; [|discriminate].
    destruct (trace name rest v1 here nk) as [[e2 v2] o2] eqn:Er. inversion E; subst.
    destruct (IHb I1 _ _ _ _ _ Eb seen) as (es1 & Q1 & L1); [intros y Hy; apply Hs; eapply trace_grows; eauto|]. destruct (IHr I2 _ _ _ _ _ Er seen Hs) as (es2 & Q2 & L2).
    rewrite Q1, Q2. eexists. split; [reflexivity|]. intros e [<-|He]; [now left | right; apply in_or_app; apply in_app_or in He as [He|He]; auto].
  - destruct HI as [I1 I2]. destruct (trace name body vis (here ++ [name k]) NKUnique) as [[e1 v1] [|]] eqn:Eb; [|discriminate].
    destruct (trace name rest v1 here nk) as [[e2 v2] o2] eqn:Er. inversion E; subst.
    destruct (IHb I1 _ _ _ _ _ Eb seen) as (es1 & Q1 & L1); [intros y Hy; apply Hs; eapply trace_grows; eauto|]. destruct (IHr I2 _ _ _ _ _ Er seen Hs) as (es2 & Q2 & L2).
    rewrite Q1, Q2. eexists. split; [reflexivity|]. intros e [<-|He]; [now left | right; apply in_or_app; apply in_app_or in He as [He|He]; auto].
  - destruct HI as (<- & I1 & I2). destruct (ptr_mem x vis) eqn:Ex.
    + destruct (trace name r1 vis here nk) as [[e2 v2] o2] eqn:Er. inversion E; subst.
      destruct (IH1 I2 _ _ _ _ _ Er seen Hs) as (es2 & Q2 & L2). rewrite (Hs x) by (eapply trace_grows; eauto). rewrite Q2. eexists. split; [reflexivity|].
      intros e [<-|He]; [now left | right; auto].
    + destruct (trace name body (x :: vis) [] NKShared) as [[e1 v1] [|]] eqn:Eb; [|discriminate].
      destruct (trace name r1 v1 here nk) as [[e2 v2] o2] eqn:Er. inversion E; subst. destruct (IH1 I2 _ _ _ _ _ Er seen Hs) as (es2 & Q2 & L2).
      assert (Hx : ptr_mem x seen = true).
      { apply Hs. eapply trace_grows; [exact Er|]. eapply trace_grows; [exact Eb|]. unfold ptr_mem. cbn [existsb]. now rewrite N.eqb_refl. }
      rewrite Hx, Q2. eexists. split; [reflexivity|]. intros e [<-|He]; [now left | right; apply in_or_app; auto].
Qed.
Lemma roots_grow {A} (name : key -> A) l : forall vis es vis', trace_roots name l vis = (es, vis') -> incl_vis vis vis'.
Proof.
  induction l as [|p l IH]; intros vis es vis' E y Hy; cbn [trace_roots] in E; [now inversion E; subst|].
  destruct (trace name p vis [] NKRoot) as [[e1 v1] o1] eqn:E1. destruct (trace_roots name l v1) as [e2 v2] eqn:E2. inversion E; subst.
  eapply IH; eauto. eapply trace_grows; eauto.
Qed.
(** No visit panics. *)
Fixpoint fine {A} (name : key -> A) (l : list vprog) (vis : list ptr) : Prop :=
  match l with
  | [] => True
  | p :: l' => snd (trace name p vis [] NKRoot) = true /\ fine name l' (snd (fst (trace name p vis [] NKRoot)))
  end.
Lemma roots_again {A} (name : key -> A) l : Forall indifferent l -> forall vis es vis', fine name l vis -> trace_roots name l vis = (es, vis') ->
  forall seen, incl_vis vis' seen -> exists es', trace_roots name l seen = (es', seen) /\ incl es' es.
Proof.
  induction l as [|p l IH]; intros HI vis es vis' HF E seen Hs; cbn [trace_roots fine] in *.
  - inversion E; subst. exists []. split; [reflexivity | intros e []].
  - inversion HI; subst. destruct (trace name p vis [] NKRoot) as [[e1 v1] o1] eqn:E1. cbn [fst snd] in HF. destruct HF as [-> HF].
    destruct (trace_roots name l v1) as [e2 v2] eqn:E2. inversion E; subst.
    destruct (@trace_again A name p ltac:(assumption) _ _ _ _ _ E1 seen) as (es1 & Q1 & L1). { intros y Hy. apply Hs. eapply roots_grow; eauto. }
    destruct (IH ltac:(assumption) _ _ _ HF E2 seen Hs) as (es2 & Q2 & L2). rewrite Q1, Q2. eexists. split; [reflexivity|].
    intros e He. apply in_or_app. apply in_app_or in He as [He|He]; auto.
Qed.
Lemma trace_roots_app {A} (name : key -> A) l l' : forall vis, trace_roots name (l ++ l') vis =
  let '(es, v) := trace_roots name l vis in let '(es', v') := trace_roots name l' v in (es ++ es', v').
Proof.
  induction l as [|p l IH]; intros vis; cbn [app trace_roots].
  - destruct (trace_roots name l' vis); reflexivity.
  - destruct (trace name p vis [] NKRoot) as [[e1 v1] o1]. rewrite IH. destruct (trace_roots name l v1) as [e2 v2]. destruct (trace_roots name l' v2) as [e3 v3].
    now rewrite app_assoc.
Qed.
Lemma again_events l n : fine k_str l [] -> Forall indifferent l -> exists es v, trace_roots k_str (again n l) [] = (es, v) /\
  incl es (root_events l) /\ incl (root_events l) es /\ v = snd (trace_roots k_str l []).
Proof.
  intros HC HI. unfold root_events, again. destruct (trace_roots k_str l []) as [e0 v0] eqn:E0. cbn [fst snd repeat concat]. rewrite trace_roots_app, E0.
  enough (X : exists es, trace_roots k_str (concat (repeat l n)) v0 = (es, v0) /\ incl es e0).
  { destruct X as (es & Q & L). rewrite Q. exists (e0 ++ es), v0. split; [reflexivity|]. split; [intros e He; apply in_app_or in He as [He|He]; auto|].
    split; [intros e He; apply in_or_app; now left | reflexivity]. }
  induction n as [|n IH]; cbn [repeat concat].
  - exists []. split; [reflexivity | intros e []].
  - rewrite trace_roots_app. destruct (@roots_again _ k_str l HI _ _ _ HC E0 v0) as (es' & Q & L); [intros y Hy; exact Hy|]. rewrite Q. destruct IH as (es & Q' & L'). rewrite Q'.
    eexists. split; [reflexivity|]. intros e He. apply in_app_or in He as [He|He]; auto.
Qed.
Lemma stacks_ext es es' : incl es es' -> incl es' es -> length (stacks es) = length (stacks es').
Proof. intros H H'. apply same_length; try apply nodup_stacks. intros p. rewrite !in_stacks. split; intros (e & He & E); eauto. Qed.

(** ** How deep [finish] recurses *)
Section Depth.
  Variable m : mode.
  Variables (ps : list (list string)) (t0 : trees).
  Notation ok := (arena_ok k_str made_by_new ps).

  Lemma us_loop_same f l : (forall c t t', f c t = Some t' -> Forall2 td_same t t') -> forall t t', us_loop f l t = Some t' -> Forall2 td_same t t'.
  Proof.
    intros Hf. induction l as [|[k c] l IH]; intros t t' E; cbn [us_loop] in E; [inversion E; subst; apply td_same_refl|].
    destruct (f c t) as [t1|] eqn:E1; cbn [obind] in E; [|discriminate]. eapply td_same_trans; eauto.
  Qed.
  Lemma update_sizes_same F : forall id t t', update_sizes m F id t = Some t' -> Forall2 td_same t t'.
  Proof.
    induction F as [|F IH]; intros id t t' E; [discriminate|]. rewrite update_sizes_eq in E. unfold tree_get in E.
    destruct (nth_error t id) as [td|] eqn:Et; cbn [obind] in E; [|discriminate].
    destruct (us_loop _ _ t) as [t1|] eqn:El; cbn [obind] in E; [|discriminate].
    destruct (nth_error t1 id) as [td1|] eqn:Et1; cbn [obind] in E; [|discriminate].
    destruct (if td_unique td1 then _ else _) as [cs|]; cbn [obind] in E; [|discriminate]. inversion E; subst.
    eapply td_same_trans; [eapply us_loop_same; [exact IH | exact El]|]. now apply td_same_upd.
  Qed.
  Lemma us_loop_depth f g l : (forall k c t t', In (k, c) l -> Forall2 td_same t0 t -> f c t = Some t' -> g c t = Some t' /\ Forall2 td_same t0 t') ->
    forall t t', Forall2 td_same t0 t -> us_loop f l t = Some t' -> us_loop g l t = Some t'.
  Proof.
    induction l as [|[k c] l IH]; intros H t t' Hs E; cbn [us_loop] in *; [exact E|].
    destruct (f c t) as [t1|] eqn:E1; cbn [obind] in E; [|discriminate]. destruct (H k c t t1 (or_introl eq_refl) Hs E1) as [-> Hs1]. cbn [obind].
    apply IH; [intros k' c' x x' Hin; apply (H k'); now right | exact Hs1 | exact E].
  Qed.
  Hypothesis Ha : ok t0.
  Lemma child_below id p td k c t : nth_error ps id = Some p -> Forall2 td_same t0 t -> nth_error t id = Some td -> In (k, c) (td_children td) ->
    nth_error ps c = Some (p ++ [k_str k]).
  Proof.
    intros Hp Hs Ht Hin. destruct (ar_child (arena_same Hs Ha) Ht Hin) as (_ & _ & p' & Hp' & Hc). rewrite Hp in Hp'. now inversion Hp'; subst.
  Qed.
  Lemma update_sizes_depth d : forall F id p t t', nth_error ps id = Some p -> (forall q, In (p ++ q) ps -> (length q < d)%nat) ->
    Forall2 td_same t0 t -> update_sizes m F id t = Some t' -> update_sizes m d id t = Some t'.
  Proof.
    induction d as [|d IH]; intros F id p t t' Hp Hd Hs E.
    { specialize (Hd []). rewrite app_nil_r in Hd. apply nth_error_In in Hp. specialize (Hd Hp). lia. }
    destruct F as [|F]; [discriminate|]. rewrite update_sizes_eq in *. unfold tree_get in *.
    destruct (nth_error t id) as [td|] eqn:Et; cbn [obind] in *; [|discriminate].
    destruct (us_loop (update_sizes m F) _ t) as [t1|] eqn:El; cbn [obind] in E; [|discriminate].
    enough (Q : us_loop (update_sizes m d) (td_children td) t = Some t1) by (rewrite Q; exact E).
    eapply us_loop_depth; [|exact Hs | exact El].
    intros k c x x' Hin Hx E1. split; [|eapply td_same_trans; [exact Hx | eapply update_sizes_same; eauto]].
    eapply (IH F c (p ++ [k_str k])); [exact (child_below Hp Hs Et Hin) | | exact Hx | exact E1].
    intros q Hq. rewrite <- app_assoc in Hq. specialize (Hd _ Hq). cbn [length app] in Hd. lia.
  Qed.
  Lemma update_sizes_shallow d : forall id p q t, nth_error ps id = Some p -> In (p ++ q) ps -> (d <= length q)%nat ->
    Forall2 td_same t0 t -> update_sizes m d id t = None.
  Proof.
    induction d as [|d IH]; intros id p q t Hp Hq Hd Hs; [reflexivity|]. destruct q as [|a q]; [cbn in Hd; lia|]. rewrite update_sizes_eq. unfold tree_get.
    destruct (nth_error t id) as [td|] eqn:Et; cbn [obind]; [|reflexivity].
    assert (Hc : exists k c, In (k, c) (td_children td) /\ k_str k = a).
    { assert (H1 : In (p ++ [a]) ps). { apply (arena_prefix Ha (q := q)). now rewrite <- app_assoc. }
      apply In_nth_error in H1 as [j Hj]. destruct (ar_parent (arena_same Hs Ha) Hj) as (i & td' & k & Hi & Ht' & Hin & E).
      assert (i = id) by (eapply NoDup_nth_inj; [apply (ar_nodup Ha) | exact Hi | exact Hp]). subst i. rewrite Et in Ht'. inversion Ht'; subst. eauto. }
    destruct Hc as (k & c & Hin & E).
    assert (X : forall l x, incl l (td_children td) -> In (k, c) l -> Forall2 td_same t0 x -> us_loop (update_sizes m d) l x = None).
    { induction l as [|[k1 c1] l IHl]; intros x Hl H Hx; [destruct H|]. cbn [us_loop]. destruct H as [H|H].
      - inversion H; subst. rewrite (IH c (p ++ [k_str k]) q x); [reflexivity | exact (child_below Hp Hs Et Hin) | now rewrite <- app_assoc | cbn in Hd; lia | exact Hx].
      - destruct (update_sizes m d c1 x) as [x1|] eqn:E1; cbn [obind]; [|reflexivity]. apply IHl; [intros y Hy; apply Hl; now right | exact H|].
        eapply td_same_trans; [exact Hx | eapply update_sizes_same; eauto]. }
    rewrite X; [reflexivity | apply incl_refl | exact Hin | exact Hs].
  Qed.
  Lemma tw_loop_depth f g l : (forall k c s r, In (k, c) l -> f c (s ++ [key_deref k]) = Some r -> g c (s ++ [key_deref k]) = Some r) ->
    forall s x w r, tw_loop m f s l x w = Some r -> tw_loop m g s l x w = Some r.
  Proof.
    induction l as [|[k c] l IH]; intros H s x w r E; cbn [tw_loop] in *; [exact E|].
    destruct (f c (s ++ [key_deref k])) as [[cf cw]|] eqn:E1; cbn [obind] in E; [|discriminate]. rewrite (H k c s _ (or_introl eq_refl) E1). cbn [obind].
    destruct (fg_add_child m x k cf); cbn [obind] in *; [|discriminate]. apply IH; [intros k' c' s' r' Hin; apply H; now right | exact E].
  Qed.
  Lemma tree_write_depth d : forall F id p t s r, nth_error ps id = Some p -> (forall q, In (p ++ q) ps -> (length q < d)%nat) ->
    Forall2 td_same t0 t -> tree_write m F t id s = Some r -> tree_write m d t id s = Some r.
  Proof.
    induction d as [|d IH]; intros F id p t s r Hp Hd Hs E.
    { specialize (Hd []). rewrite app_nil_r in Hd. apply nth_error_In in Hp. specialize (Hd Hp). lia. }
    destruct F as [|F]; [discriminate|]. rewrite tree_write_eq in *. unfold tree_get in *.
    destruct (nth_error t id) as [td|] eqn:Et; cbn [obind] in *; [|discriminate]. destruct (tw_node m td s) as [[f w]|]; cbn [obind] in *; [|discriminate].
    eapply tw_loop_depth; [|exact E]. intros k c s' r' Hin E1. apply (Permutation.Permutation_in (l' := td_children td)) in Hin; [|apply sort_perm].
    eapply (IH F c (p ++ [k_str k])); [exact (child_below Hp Hs Et Hin) | | exact Hs | exact E1].
    intros q Hq. rewrite <- app_assoc in Hq. specialize (Hd _ Hq). cbn [length app] in Hd. lia.
  Qed.
End Depth.

Lemma finish_in_exact es ps b d m : binv string_dec k_str made_by_new es ps b -> idle b -> total_declared es < two63 ->
  finish_in d m b = if (longest es <? d)%nat then finish m b else None.
Proof.
  intros Hb Hi Ht. destruct (@finish_ok string string_dec k_str made_by_new made_by_new_inj (fun s => s) (fun k => eq_refl) _ _ _ Hb Hi Ht) as (f & w & _ & Hf & _).
  specialize (Hf m). destruct Hb as [Ha Hd Hr Ho], Hi as (Hc & Hs & He). pose proof Hf as Hf0. unfold finish, finish_impl in Hf. unfold finish_in. rewrite Hf0. clear Hf0. rewrite Hs, Hc, He in *. cbn [ts_stack] in *. rewrite Hr in *.
  destruct (update_sizes m (S (length (b_trees b))) 0 (b_trees b)) as [t|] eqn:E1; cbn [obind] in Hf; [|discriminate].
  destruct (tree_write m (S (length t)) t 0 []) as [[f1 w1]|] eqn:E2; cbn [obind] in Hf; [|discriminate].
  destruct (Nat.ltb_spec (longest es) d) as [H|H].
  - assert (Hq : forall q : list string, In ([] ++ q) ps -> (length q < d)%nat).
    { cbn [app]. intros q Hq. destruct (Ho q Hq) as [->|(e & Hin & <-)]; [cbn; lia|]. pose proof (le_longest Hin). lia. }
    rewrite (@update_sizes_depth m ps (b_trees b) Ha d _ 0%nat [] (b_trees b) t (ar_root Ha) Hq (td_same_refl _) E1). cbn [obind].
    rewrite (@tree_write_depth m ps (b_trees b) Ha d _ 0%nat [] t [] _ (ar_root Ha) Hq (update_sizes_same E1) E2). cbn [obind]. exact Hf.
  - assert (Hq : exists q, In ([] ++ q) ps /\ (d <= length q)%nat).
    { cbn [app]. destruct es as [|e0 es'] eqn:Ees; [exists []; split; [eapply nth_error_In, (ar_root Ha) | exact H]|]. rewrite <- Ees in *.
      assert (M : exists e, In e es /\ length (ev_path e) = longest es).
      { clear - Ees. unfold longest. subst es. revert e0. induction es' as [|e1 es' IH]; intros e0.
        - exists e0. split; [now left|]. cbn. lia.
        - destruct (IH e1) as (e & He & E). change (list_max (map (fun e2 => length (ev_path e2)) (e0 :: e1 :: es'))) with
            (Nat.max (length (ev_path e0)) (list_max (map (fun e2 => length (ev_path e2)) (e1 :: es')))).
          destruct (Nat.le_ge_cases (length (ev_path e0)) (list_max (map (fun e2 => length (ev_path e2)) (e1 :: es')))).
          + exists e. split; [now right|]. lia.
          + exists e0. split; [now left|]. lia. }
      destruct M as (e & He' & E). exists (ev_path e). split; [eapply da_cover; eauto | lia]. }
    destruct Hq as (q & Hq & Hl). now rewrite (@update_sizes_shallow m ps (b_trees b) Ha d 0%nat [] q (b_trees b) (ar_root Ha) Hq Hl (td_same_refl _)).
Qed.

(** ** Sessions *)
Lemma session_of l : Forall (keys_in made_by_new) l -> total_declared (root_events l) < two64 ->
  exists b ps, (forall m, visit_roots m l b_default = (b, Done)) /\ binv string_dec k_str made_by_new (root_events l) ps b /\
    b_visited b = snd (trace_roots k_str l []) /\ idle b.
Proof.
  intros HK Htot. unfold root_events in *. destruct (trace_roots k_str l []) as [es vis] eqn:E. cbn [fst snd] in *.
  destruct (@b_default_ok string string_dec k_str made_by_new) as (Hb & Hi & Hv).
  destruct (@visit_roots_trace string string_dec k_str made_by_new made_by_new_inj l b_default [] [[]] es vis) as (b & ps & Hr & Hb' & Hvis & Hi'); auto.
  exists b, ([[]] ++ ps). cbn [app] in *. auto.
Qed.

Lemma calm_fine m l : Forall (keys_in made_by_new) l -> total_declared (root_events l) < two64 -> calm m l -> fine k_str l [].
Proof.
  intros HK Ht HC.
  assert (X : forall l2 l1, l = l1 ++ l2 -> fine k_str l2 (snd (trace_roots k_str l1 []))).
  { induction l2 as [|p l2 IH]; intros l1 E; cbn [fine]; [exact I|].
    assert (HK1 : Forall (keys_in made_by_new) (l1 ++ [p])). { subst l. apply Forall_app in HK as [H1 H2]. apply Forall_app. split; [exact H1|]. inversion H2; subst. auto. }
    assert (Ht1 : total_declared (root_events (l1 ++ [p])) < two64).
    { unfold root_events in *. replace l with ((l1 ++ [p]) ++ l2) in Ht by (rewrite E, <- app_assoc; reflexivity). rewrite trace_roots_app in Ht.
      destruct (trace_roots k_str (l1 ++ [p]) []) as [e1 v1]. destruct (trace_roots k_str l2 v1) as [e2 v2]. cbn [fst] in *. rewrite total_app in Ht. lia. }
    assert (K : snd (trace k_str p (snd (trace_roots k_str l1 [])) [] NKRoot) = true).
    { destruct (HC l1 p l2 E) as (b & b' & R1 & R2). apply Forall_app in HK1 as [HK1 HKp]. inversion HKp as [|? ? HKp' _]; subst.
      unfold root_events in Ht1. rewrite trace_roots_app in Ht1. cbn [trace_roots] in Ht1.
      destruct (trace_roots k_str l1 []) as [e1 v1] eqn:E1. cbn [snd] in *. destruct (trace k_str p v1 [] NKRoot) as [[e2 v2] o2] eqn:E2. cbn [snd fst] in *.
      rewrite app_nil_r, total_app in Ht1.
      destruct (@session_of l1 HK1) as (b1 & ps & Q1 & Hb1 & Hv1 & Hi1); [unfold root_events; rewrite E1; cbn [fst]; lia|].
      rewrite Q1 in R1. inversion R1; subst b1. unfold root_events in Hb1. rewrite E1 in Hb1, Hv1. cbn [fst snd] in Hb1, Hv1. rewrite <- Hv1 in E2.
      destruct (@visit_root_trace string string_dec k_str made_by_new made_by_new_inj p b _ _ _ _ _ HKp' Hb1 Hi1 E2) as (b2 & ps2 & Q2 & _); [rewrite total_app; lia|].
      rewrite Q2 in R2. destruct o2; [reflexivity | discriminate]. }
    split; [exact K|]. specialize (IH (l1 ++ [p])). rewrite <- app_assoc in IH. specialize (IH E). rewrite trace_roots_app in IH. cbn [trace_roots] in IH.
    destruct (trace_roots k_str l1 []) as [e1 v1]. cbn [snd] in *. destruct (trace k_str p v1 [] NKRoot) as [[e2 v2] o2]. exact IH. }
  exact (X l [] eq_refl).
Qed.
Lemma stacks_again n l : fine k_str l [] -> Forall indifferent l -> length (stacks (root_events (again n l))) = length (stacks (root_events l)).
Proof.
  intros HF HI. destruct (again_events n HF HI) as (es & v & E & L1 & L2 & _). unfold root_events at 1. rewrite E. now apply stacks_ext.
Qed.
Lemma vis_again n l : fine k_str l [] -> Forall indifferent l -> snd (trace_roots k_str (again n l) []) = snd (trace_roots k_str l []).
Proof. intros HF HI. destruct (again_events n HF HI) as (es & v & E & _ & _ & ->). now rewrite E. Qed.
Lemma again_keys K n l : Forall (keys_in K) l -> Forall (keys_in K) (again n l).
Proof. intros H. unfold again. apply Forall_concat. apply Forall_forall. intros x Hx. apply repeat_spec in Hx. now subst. Qed.

Lemma C57_again_lemma : forall m n l b b', Forall (keys_in made_by_new) l -> Forall indifferent l -> calm m l ->
  total_declared (root_events (again n l)) < two64 ->
  visit_roots m l b_default = (b, Done) -> visit_roots m (again n l) b_default = (b', Done) ->
  length (b_trees b') = length (b_trees b) /\ b_visited b' = b_visited b.
Proof.
  intros m n l b b' HK HI HC Ht R R'.
  assert (Ht1 : total_declared (root_events l) < two64).
  { unfold root_events in *. unfold again in Ht. cbn [repeat concat] in Ht. rewrite trace_roots_app in Ht. destruct (trace_roots k_str l []) as [e1 v1].
    destruct (trace_roots k_str (concat (repeat l n)) v1) as [e2 v2]. cbn [fst] in *. rewrite total_app in Ht. lia. }
  pose proof (calm_fine HK Ht1 HC) as HF.
  destruct (session_of HK Ht1) as (b1 & ps1 & Q1 & Hb1 & Hv1 & _). pose proof (Q1 m) as X. rewrite R in X. inversion X; subst b1.
  destruct (session_of (again_keys n HK) Ht) as (b2 & ps2 & Q2 & Hb2 & Hv2 & _). rewrite Q2 in R'. inversion R'; subst b2.
  rewrite (nodes Hb1), (nodes Hb2), Hv1, Hv2, stacks_again, vis_again by auto. auto.
Qed.
