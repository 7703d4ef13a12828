(** * Lemmas for property C51: one state for a whole session. *)
From Verif Require Import Base BaseFacts KeyModel KeyFacts HMap FlameModel BuilderModel BuilderFacts VisitorModel Spec LayoutModel ImplModel ImplSpec ImplFacts
  StoreFacts LockModel LockSpec LockFacts SnapshotModel SnapshotSpec SnapshotFacts.

#[local] Arguments key_new : simpl never.

(** ** The visited pointers grow *)
Definition seen (b : builder) (x : ptr) : bool := ptr_mem x (b_visited b).

Lemma down_visited b k : b_visited (fst (down b k)) = b_visited b.
Proof. unfold down. destruct (tree_get _ _) as [td|]; [|reflexivity]. destruct (hm_find _ _); [reflexivity|]. destruct (new_tree _). destruct (Nat.eqb _ _); reflexivity. Qed.
Lemma add_size_visited m b s : b_visited (fst (add_size m b s)) = b_visited b.
Proof. unfold add_size. destruct (tree_get _ _); [|reflexivity]. destruct (uadd _ _ _); reflexivity. Qed.
Lemma mark_visited b : b_visited (fst (mark_unique b)) = b_visited b.
Proof. unfold mark_unique. destruct (tree_get _ _); reflexivity. Qed.
Lemma up_visited b : b_visited (fst (up b)) = b_visited b.
Proof. unfold up. destruct (ts_stack _); reflexivity. Qed.
Lemma exit_visited b : b_visited (fst (exit_impl b)) = b_visited b.
Proof.
  unfold exit_impl. destruct (negb _); [reflexivity|]. pose proof (up_visited b) as U. destruct (up b) as [b1 [|]]; cbn [fst] in U; [exact U|].
  destruct (b_shared b1) as [|sh rest]; [exact U|]. pose proof (up_visited (set_current (set_shared b1 rest) sh)) as U2.
  destruct (up _) as [b2 [|]]; cbn [fst] in *; rewrite U2; exact U.
Qed.
Lemma inline_visited m b k s : b_visited (fst (enter_inline m b k s)) = b_visited b.
Proof.
  unfold enter_inline. pose proof (down_visited b k) as D. destruct (down b k) as [b1 [|]]; cbn [bind_status fst] in *; [|exact D].
  now rewrite add_size_visited.
Qed.
Lemma unique_visited m b k s : b_visited (fst (enter_unique m b k s)) = b_visited b.
Proof.
  unfold enter_unique. pose proof (down_visited b k) as D. destruct (down b k) as [b1 [|]]; cbn [bind_status fst] in *; [|exact D].
  pose proof (add_size_visited m b1 s) as A. destruct (add_size m b1 s) as [b2 [|]]; cbn [bind_status fst] in *; [|congruence].
  rewrite mark_visited. congruence.
Qed.
Lemma shared_visited m b k s x : match enter_shared m b k s x with
  | (b', _, true) => seen b x = false /\ b_visited b' = x :: b_visited b
  | (b', _, false) => b_visited b' = b_visited b
  end.
Proof.
  unfold enter_shared. pose proof (inline_visited m b k s) as I. unfold enter_inline in I. destruct (bind_status _ _) as [b1 [|]]; cbn [fst] in I; [|exact I].
  destruct (ptr_mem x (b_visited b1)) eqn:E.
  - pose proof (exit_visited b1) as X. destruct (exit_impl b1) as [b2 st]. cbn [fst] in X. congruence.
  - cbn. split; [unfold seen; congruence | congruence].
Qed.
Lemma leave_visited r : b_visited (fst (leave_scope r)) = b_visited (fst r).
Proof.
  destruct r as [b o]. unfold leave_scope. pose proof (exit_visited b) as X. destruct (exit_impl b) as [b' [|]]; cbn [fst] in X; destruct o; try reflexivity; exact X.
Qed.

Definition grows (b b' : builder) : Prop := forall x, seen b x = true -> seen b' x = true.
Lemma grows_eq b b' : b_visited b' = b_visited b -> grows b b'.
Proof. intros E x. unfold seen. now rewrite E. Qed.
Lemma grows_trans a b c : grows a b -> grows b c -> grows a c.
Proof. unfold grows. auto. Qed.
Lemma grows_cons b b' x : b_visited b' = x :: b_visited b -> grows b b' /\ seen b' x = true.
Proof. intros E. unfold grows, seen, ptr_mem. rewrite E. cbn [existsb]. rewrite N.eqb_refl. split; [|reflexivity]. intros y ->. apply orb_true_r. Qed.
Lemma and_then_grows r f : (forall b, grows b (fst (f b))) -> grows (fst r) (fst (and_then (leave_scope r) f)).
Proof.
  intros H. eapply grows_trans; [apply grows_eq, leave_visited|]. destruct (leave_scope r) as [b [| |]]; cbn [and_then fst]; [apply H | |]; intros x; auto.
Qed.
Lemma run_grows m p : forall b, grows b (fst (run m p b)).
Proof.
  induction p as [| |k s body IHb rest IHr|k s body IHb rest IHr|k s x body IHb r1 IH1 r2 IH2]; intros b; cbn [run]; try (intros y; exact (fun H => H)).
  - pose proof (inline_visited m b k s) as E. destruct (enter_inline m b k s) as [b1 [|]]; cbn [fst] in E; [|now apply grows_eq].
    eapply grows_trans; [apply grows_eq, E|]. eapply grows_trans; [apply IHb|]. now apply and_then_grows.
  - pose proof (unique_visited m b k s) as E. destruct (enter_unique m b k s) as [b1 [|]]; cbn [fst] in E; [|now apply grows_eq].
    eapply grows_trans; [apply grows_eq, E|]. eapply grows_trans; [apply IHb|]. now apply and_then_grows.
  - pose proof (shared_visited m b k s x) as E. destruct (enter_shared m b k s x) as [[b1 [|]] [|]].
    + destruct E as [_ E]. eapply grows_trans; [apply (grows_cons E)|]. eapply grows_trans; [apply IHb|]. now apply and_then_grows.
    + eapply grows_trans; [apply grows_eq, E|]. apply IH2.
    + destruct E as [_ E]. apply (grows_cons E).
    + now apply grows_eq.
Qed.

(** ** Behind the pointers *)
Definition pt_of (m : mode) (n : nat) (h : store) (x : ptr) : vprog :=
  match n with
  | O => VCrash
  | S n' => match find_obj h x with Some (i, w) => visit_inner i (size_of_val w, visit_in m n' h w) | None => VCrash end
  end.
Definition lpt_of (m : mode) (n : nat) (h : lstore) (x : ptr) : lprog :=
  match n with
  | O => LCrash
  | S n' => match find_lobj h x with Some (i, w) => l_inner i (lsize w, l_visit_in m n' h w) | None => LCrash end
  end.
Lemma visit_in_pt m n h v : visit_in m n h v = retarget (pt_of m n h) (visit m unseen v).
Proof. rewrite ret_visit. destruct n; reflexivity. Qed.
Lemma visit_in_lpt m n h v : l_visit_in m n h v = l_visit m (lpt_of m n h) v.
Proof. destruct n; reflexivity. Qed.
Lemma pt_of_obj m n h x i w : find_obj h x = Some (i, w) ->
  pt_of m (S n) h x = retarget (pt_of m n h) (visit_inner i (size_of_val w, visit m unseen w)).
Proof. intros E. cbn [pt_of]. now rewrite E, ret_inner, visit_in_pt. Qed.

(** ** Only newly visited allocations matter *)
Definition agree (h1 h2 : store) (b b' : builder) : Prop :=
  forall x, seen b x = false -> seen b' x = true -> find_obj h2 x = find_obj h1 x.
Lemma agree_sub h1 h2 a a' b b' : grows a b -> grows b' a' -> agree h1 h2 a a' -> agree h1 h2 b b'.
Proof. intros G1 G2 H x X1 X2. apply H; [|now apply G2]. destruct (seen a x) eqn:E; [|reflexivity]. apply G1 in E. congruence. Qed.

Lemma scope_frame m n h1 h2 body1 body2 r b1 :
  run m body2 b1 = run m body1 b1 ->
  (forall b2, leave_scope (run m body1 b1) = (b2, Done) -> run m (retarget (pt_of m n h2) r) b2 = run m (retarget (pt_of m n h1) r) b2) ->
  and_then (leave_scope (run m body2 b1)) (run m (retarget (pt_of m n h2) r)) = and_then (leave_scope (run m body1 b1)) (run m (retarget (pt_of m n h1) r)).
Proof. intros -> H. destruct (leave_scope (run m body1 b1)) as [b2 [| |]]; cbn [and_then]; auto. Qed.

Lemma frame m n : forall h1 h2 p b, agree h1 h2 b (fst (run m (retarget (pt_of m n h1) p) b)) ->
  run m (retarget (pt_of m n h2) p) b = run m (retarget (pt_of m n h1) p) b.
Proof.
  induction n as [n IHn] using lt_wf_ind. intros h1 h2 p.
  induction p as [| |k s body IHb rest IHr|k s body IHb rest IHr|k s x body IHb r1 IH1 r2 IH2]; intros b H; cbn [retarget run] in *; try reflexivity.
  - pose proof (inline_visited m b k s) as E. destruct (enter_inline m b k s) as [b1 [|]]; [|reflexivity]. cbn [fst] in E.
    apply scope_frame.
    + apply IHb. eapply agree_sub; [apply grows_eq, E | | exact H]. apply and_then_grows. intros; apply run_grows.
    + intros b2 E2. apply IHr. rewrite E2 in H. cbn [and_then] in H. eapply agree_sub; [| |exact H]; [|intros y; auto].
      eapply grows_trans; [apply grows_eq, E|]. eapply grows_trans; [apply run_grows|]. apply grows_eq. rewrite <- leave_visited, E2. reflexivity.
  - pose proof (unique_visited m b k s) as E. destruct (enter_unique m b k s) as [b1 [|]]; [|reflexivity]. cbn [fst] in E.
    apply scope_frame.
    + apply IHb. eapply agree_sub; [apply grows_eq, E | | exact H]. apply and_then_grows. intros; apply run_grows.
    + intros b2 E2. apply IHr. rewrite E2 in H. cbn [and_then] in H. eapply agree_sub; [| |exact H]; [|intros y; auto].
      eapply grows_trans; [apply grows_eq, E|]. eapply grows_trans; [apply run_grows|]. apply grows_eq. rewrite <- leave_visited, E2. reflexivity.
  - pose proof (shared_visited m b k s x) as E. destruct (enter_shared m b k s x) as [[b1 [|]] [|]]; try reflexivity.
    + destruct E as [E0 E]. destruct (grows_cons E) as [G Gx]. apply scope_frame.
      * assert (Ef : find_obj h2 x = find_obj h1 x).
        { apply H; [exact E0|]. eapply and_then_grows; [intros; apply run_grows|]. now apply run_grows. }
        destruct n as [|n']; [reflexivity|]. destruct (find_obj h1 x) as [[i w]|] eqn:Eo.
        -- rewrite (pt_of_obj m n' Eo) in *. rewrite (pt_of_obj m n' Ef). apply IHn; [lia|].
           eapply agree_sub; [exact G | | exact H]. apply and_then_grows. intros; apply run_grows.
        -- cbn [pt_of]. now rewrite Ef, Eo.
      * intros b2 E2. apply IH1. rewrite E2 in H. cbn [and_then] in H. eapply agree_sub; [| |exact H]; [|intros y; auto].
        eapply grows_trans; [exact G|]. eapply grows_trans; [apply run_grows|]. apply grows_eq. rewrite <- leave_visited, E2. reflexivity.
    + apply IH2. eapply agree_sub; [apply grows_eq, E | | exact H]. intros y; auto.
Qed.

(** ** Combining two states *)
Fixpoint mix (f : ptr -> bool) (h1 h2 : store) : store :=
  match h1, h2 with
  | (x, o1) :: h1', (_, o2) :: h2' => (x, if f x then o1 else o2) :: mix f h1' h2'
  | _, _ => []
  end.
Lemma mix_find f H h1 h2 x : store_could_be H h1 -> store_could_be H h2 ->
  find_obj (mix f h1 h2) x = if f x then find_obj h1 x else find_obj h2 x.
Proof.
  intros H1. revert h2. induction H1 as [|a b H h1 (E1 & E2 & E3) _ IH]; intros h2 H2; inversion H2 as [|? b2 ? h2' (F1 & F2 & F3) F]; subst;
    [cbn; destruct (f x); reflexivity|]. destruct a as [y o], b as [y1 o1], b2 as [y2 o2]. cbn [fst snd] in *. subst y1 y2. cbn [mix find_obj].
  rewrite IH by assumption. destruct (N.eqb_spec x y) as [->|]; [destruct (f y)|]; reflexivity.
Qed.
Lemma mix_could_be f H h1 h2 : store_could_be H h1 -> store_could_be H h2 -> store_could_be H (mix f h1 h2).
Proof.
  intros H1. revert h2. induction H1 as [|a b H h1 (E1 & E2 & E3) _ IH]; intros h2 H2; inversion H2 as [|? b2 ? h2' (F1 & F2 & F3) F]; subst; [constructor|].
  destruct a as [y o], b as [y1 o1], b2 as [y2 o2]. cbn [fst snd] in *. subst y1 y2. cbn [mix]. constructor; [|now apply IH].
  destruct (f y); repeat split; cbn; auto.
Qed.
(** Setting one object. *)
Fixpoint put (x : ptr) (o : inner * value) (h : store) : store :=
  match h with [] => [] | (y, o') :: h' => if N.eqb x y then (y, o) :: h' else (y, o') :: put x o h' end.
Lemma put_find x o h y : find_obj (put x o h) y = if N.eqb x y then option_map (fun _ => o) (find_obj h y) else find_obj h y.
Proof.
  induction h as [|[z o'] h IH]; cbn [put find_obj]; [destruct (N.eqb x y); reflexivity|].
  destruct (N.eqb_spec x z) as [->|Hz]; cbn [find_obj].
  - destruct (N.eqb_spec y z) as [->|Hy]; [now rewrite N.eqb_refl|]. destruct (N.eqb_spec z y); [congruence | reflexivity].
  - rewrite IH. destruct (N.eqb_spec y z) as [->|Hy]; [|reflexivity]. destruct (N.eqb_spec x z); [congruence | reflexivity].
Qed.
Lemma put_could_be H h x i v w : store_could_be H h -> find_lobj H x = Some (i, v) -> could_be v w ->
  store_could_be H (put x (i, w) h) /\ find_obj (put x (i, w) h) x = Some (i, w).
Proof.
  intros H1 E Hw. split.
  - revert E. induction H1 as [|[y [j u]] [y' [j' u']] H h (E1 & E2 & E3) Hr IH]; cbn [find_lobj put]; [discriminate|]. cbn [fst snd] in *. subst y' j'.
    destruct (N.eqb_spec x y) as [->|]; intros E.
    + injection E as -> ->. constructor; [repeat split; exact Hw | exact Hr].
    + constructor; [repeat split; exact E3 | now apply IH].
  - rewrite put_find, N.eqb_refl.
    assert (X : exists o, find_obj h x = Some o); [|destruct X as [o ->]; reflexivity].
    revert E. induction H1 as [|[y [j u]] [y' [j' u']] H h (E1 & E2 & E3) Hr IH]; cbn [find_lobj find_obj]; [discriminate|]. cbn [fst snd] in *. subst y' j'.
    destruct (N.eqb x y); [eauto | exact IH].
Qed.
Lemma find_none H h x : store_could_be H h -> find_lobj H x = None -> find_obj h x = None.
Proof.
  induction 1 as [|[y o] [y' o'] H h (E1 & _) _ IH]; cbn [find_lobj find_obj]; [reflexivity|]. cbn [fst] in E1. subst y'. destruct (N.eqb x y); [discriminate | exact IH].
Qed.
Lemma store_quiet H : exists h, store_could_be H h.
Proof.
  exists (map (fun o => (fst o, (fst (snd o), quiet (snd (snd o))))) H). induction H; cbn; constructor; [|exact IHlist].
  repeat split. apply could_be_quiet.
Qed.

(** Two pieces of a run, each with its state, agree with the combined state. *)
Definition framed (m : mode) (bd : store -> vprog) (b1 : builder) : Prop :=
  forall h1 h2, (forall y, seen (fst (run m (bd h1) b1)) y = true -> find_obj h2 y = find_obj h1 y) -> run m (bd h2) b1 = run m (bd h1) b1.
Lemma framed_code m n p b1 : framed m (fun h => retarget (pt_of m n h) p) b1.
Proof. intros h1 h2 H. apply frame. intros x _ Hx. now apply H. Qed.
Lemma framed_pointee m n x b1 : seen b1 x = true -> framed m (fun h => pt_of m n h x) b1.
Proof.
  intros Hx h1 h2 H. assert (E : find_obj h2 x = find_obj h1 x) by (apply H; now apply run_grows).
  destruct n as [|n]; [reflexivity|]. destruct (find_obj h1 x) as [[i w]|] eqn:Eo.
  - rewrite (pt_of_obj m n Eo) in *. rewrite (pt_of_obj m n E). apply frame. intros y _ Hy. now apply H.
  - cbn [pt_of]. now rewrite E, Eo.
Qed.

Lemma combine_states m n H bd q1 b1 q2 p2 h1 : framed m bd b1 -> store_could_be H h1 -> run m q1 b1 = run m (bd h1) b1 ->
  (forall b2, exists h2, store_could_be H h2 /\ run m q2 b2 = run m (retarget (pt_of m n h2) p2) b2) ->
  exists h, store_could_be H h /\ run m q1 b1 = run m (bd h) b1 /\
    and_then (leave_scope (run m q1 b1)) (run m q2) = and_then (leave_scope (run m q1 b1)) (run m (retarget (pt_of m n h) p2)).
Proof.
  intros Hbd H1 E1 Hr. pose proof (leave_visited (run m q1 b1)) as L. destruct (leave_scope (run m q1 b1)) as [b2 o] eqn:E. cbn [fst] in L.
  destruct (Hr b2) as (h2 & H2 & E2). exists (mix (seen b2) h1 h2). split; [now apply mix_could_be|]. split.
  - rewrite E1. symmetry. apply Hbd. intros y Hy. rewrite (mix_find _ _ H1 H2). unfold seen at 1. rewrite L, E1. unfold seen in Hy. now rewrite Hy.
  - destruct o; cbn [and_then]; try reflexivity. rewrite E2. symmetry. apply frame. intros y Hy _. rewrite (mix_find _ _ H1 H2). now rewrite Hy.
Qed.

Lemma one_state m H n : forall p q, relinked (fun x b => resolves (lpt_of m n H x) b) p q -> forall b,
  exists h, store_could_be H h /\ run m q b = run m (retarget (pt_of m n h) p) b.
Proof.
  induction n as [n IHn] using lt_wf_ind. intros p q R. destruct (store_quiet H) as [h0 H0].
  induction R as [| |k s body body' r r' _ IHb _ IHr|k s body body' r r' _ IHb _ IHr|k s x body0 body r1 r1' r2 r2' Hb _ IH1 _ IH2]; intros b.
  - exists h0. auto.
  - exists h0. auto.
  - cbn [run retarget]. destruct (enter_inline m b k s) as [b1 [|]]; [|exists h0; auto].
    destruct (IHb b1) as (h1 & H1 & E1). destruct (combine_states (@framed_code m n body b1) H1 E1 IHr) as (h & Hh & F1 & F2).
    exists h. split; [exact Hh|]. now rewrite F2, F1.
  - cbn [run retarget]. destruct (enter_unique m b k s) as [b1 [|]]; [|exists h0; auto].
    destruct (IHb b1) as (h1 & H1 & E1). destruct (combine_states (@framed_code m n body b1) H1 E1 IHr) as (h & Hh & F1 & F2).
    exists h. split; [exact Hh|]. now rewrite F2, F1.
  - cbn [run retarget]. pose proof (shared_visited m b k s x) as E. destruct (enter_shared m b k s x) as [[b1 [|]] [|]]; try (exists h0; auto; fail).
    + destruct E as [_ E]. destruct (grows_cons E) as [_ Gx]. pose proof (@framed_pointee m n x b1 Gx) as Fr.
      assert (X : exists h1, store_could_be H h1 /\ run m body b1 = run m (pt_of m n h1 x) b1).
      { destruct n as [|n]; cbn [lpt_of] in Hb.
        - inversion Hb; subst. exists h0. auto.
        - destruct (find_lobj H x) as [[i v]|] eqn:Ef.
          + rewrite visit_in_lpt in Hb. apply resolves_inner in Hb as (w & Hw & Hb).
            destruct (IHn n ltac:(lia) _ _ Hb b1) as (h1 & H1 & E1). destruct (put_could_be H1 Ef Hw) as [P1 P2].
            exists (put x (i, w) h1). split; [exact P1|]. rewrite (pt_of_obj m n P2), E1. symmetry. apply frame.
            intros y Hy _. rewrite put_find. destruct (N.eqb_spec x y) as [->|]; [congruence | reflexivity].
          + inversion Hb; subst. exists h0. split; [exact H0|]. cbn [pt_of]. now rewrite (find_none H0 Ef). }
      destruct X as (h1 & H1 & E1). destruct (combine_states Fr H1 E1 IH1) as (h & Hh & F1 & F2).
      exists h. split; [exact Hh|]. now rewrite F2, F1.
    + destruct (IH2 b1) as (h & Hh & E2). exists h. auto.
Qed.

(** ** A session *)
Theorem snapshot m std H n roots : forall s b b' o, session m std s b (map (l_visit_in m n H) roots) b' o ->
  exists h vs, store_could_be H h /\ Forall2 could_be roots vs /\ visit_roots m (map (visit_in m n h) vs) b = (b', o).
Proof.
  intros s b b' o. remember (map (l_visit_in m n H) roots) as ps eqn:E. intros S. revert roots E.
  induction S as [s b|s b p ps b1 b' o Er S IH|s b p ps b1 k c b2 o2 b' o Er R Ov El No S IH|s b p ps b1 k c b2 Er R Ov El];
    intros [|v roots] E; try discriminate.
  - destruct (store_quiet H) as [h Hh]. exists h, []. repeat split; auto.
  - injection E as -> E. destruct (IH _ E) as (h & vs & H1 & H2 & H3). exists h, (quiet v :: vs).
    split; [exact H1|]. split; [constructor; [apply could_be_quiet | exact H2]|]. cbn [map visit_roots]. unfold visit_root. now rewrite Er.
  - injection E as -> E. destruct (IH _ E) as (h2 & vs & H1 & H2 & H3).
    apply C49_profile_lemma in R as (q & Hq & Hrun); [|exact Ov]. rewrite visit_in_lpt in Hq. apply resolves_visit in Hq as (w & Hw & Hl).
    destruct (one_state Hl b1) as (h1 & G1 & E1).
    exists (mix (seen b2) h1 h2), (w :: vs). split; [now apply mix_could_be|]. split; [now constructor|]. cbn [map visit_roots]. unfold visit_root. rewrite Er.
    assert (L : b_visited b2 = b_visited (fst (run m q b1))) by (rewrite Hrun, <- leave_visited, El; reflexivity).
    rewrite visit_in_pt.
    assert (X : run m (retarget (pt_of m n (mix (seen b2) h1 h2)) (visit m unseen w)) b1 = result_of c).
    { rewrite <- Hrun, E1. apply frame. intros y _ Hy. rewrite (mix_find _ _ G1 H1). unfold seen at 1. rewrite L, E1. unfold seen in Hy. now rewrite Hy. }
    rewrite X, El. assert (Y : visit_roots m (map (visit_in m n (mix (seen b2) h1 h2)) vs) b2 = (b', o)); [|destruct o2; auto; congruence].
    rewrite <- H3. clear - H1 G1.
    assert (A : forall b, grows b2 b -> forall y, seen b y = false -> find_obj (mix (seen b2) h1 h2) y = find_obj h2 y).
    { intros b G y Hy. rewrite (mix_find _ _ G1 H1). destruct (seen b2 y) eqn:Ey; [apply G in Ey; congruence | reflexivity]. }
    assert (Z : forall b, grows b2 b -> visit_roots m (map (visit_in m n (mix (seen b2) h1 h2)) vs) b = visit_roots m (map (visit_in m n h2) vs) b);
      [|apply Z; intros y; auto].
    induction vs as [|v vs IH]; intros b G; [reflexivity|]. cbn [map visit_roots]. unfold visit_root. destruct (root_visitor b) as [b1 st] eqn:Er.
    assert (V : b_visited b1 = b_visited b) by (unfold root_visitor in Er; destruct (b_entered b); injection Er as <- _; reflexivity).
    assert (G' : grows b2 b1) by (eapply grows_trans; [exact G | now apply grows_eq]).
    destruct st; [|now apply IH]. rewrite !visit_in_pt.
    rewrite (@frame m n h2 (mix (seen b2) h1 h2)) by (intros y Hy _; now apply (A b1)).
    pose proof (leave_visited (run m (retarget (pt_of m n h2) (visit m unseen v)) b1)) as LV.
    destruct (leave_scope _) as [b3 o3]. cbn [fst] in LV.
    assert (G3 : grows b2 b3) by (eapply grows_trans; [exact G'|]; eapply grows_trans; [apply run_grows|]; apply grows_eq, LV).
    destruct o3; [now apply IH | now apply IH | reflexivity].
  - injection E as -> E. apply C49_profile_lemma in R as (q & Hq & Hrun); [|exact Ov]. rewrite visit_in_lpt in Hq. apply resolves_visit in Hq as (w & Hw & Hl).
    destruct (one_state Hl b1) as (h & G & E1). exists h, (w :: map quiet roots). split; [exact G|]. split.
    { constructor; [exact Hw|]. clear. induction roots; cbn; constructor; auto using could_be_quiet. }
    cbn [map visit_roots]. unfold visit_root. rewrite Er, visit_in_pt, <- E1, Hrun, El. reflexivity.
Qed.
