(** * The arena of the builder and what it means.

    Ghost state: a list [ps] giving each arena index the frame path it stands
    for.  Generic in what identifies a frame ([name : key -> A], injective on
    the keys [K] in use). *)
From Coq Require Import Permutation Sorted.
From Verif Require Import Base BaseFacts KeyModel KeyFacts HMap FlameModel BuilderModel VisitorModel Spec FlameFacts WriteFacts.

(** ** Lists *)
Lemma upd_length {A} (l : list A) i a : length (upd l i a) = length l.
Proof. revert i; induction l as [|x l IH]; intros [|i]; simpl; auto. Qed.

Lemma nth_upd {A} (l : list A) i j a : (i < length l)%nat ->
  nth_error (upd l i a) j = if Nat.eqb i j then Some a else nth_error l j.
Proof.
  revert i j; induction l as [|x l IH]; intros i j H; simpl in H; [lia|].
  destruct i as [|i], j as [|j]; simpl; auto. apply IH. lia.
Qed.

Lemma nth_error_lt {A} (l : list A) i a : nth_error l i = Some a -> (i < length l)%nat.
Proof. intros H. apply nth_error_Some. congruence. Qed.

Lemma nth_error_app_l {A} (l l' : list A) i a : nth_error l i = Some a -> nth_error (l ++ l') i = Some a.
Proof. intros H. rewrite nth_error_app1; [auto | eapply nth_error_lt; eauto]. Qed.

Lemma nth_error_snoc {A} (l : list A) a i b : nth_error (l ++ [a]) i = Some b ->
  nth_error l i = Some b \/ (i = length l /\ b = a).
Proof.
  intros H. destruct (Nat.lt_ge_cases i (length l)) as [Hlt|Hge].
  - rewrite nth_error_app1 in H by auto. auto.
  - rewrite nth_error_app2 in H by auto.
    destruct (i - length l)%nat as [|n] eqn:E; simpl in H.
    + inversion H. right. split; [lia | auto].
    + destruct n; discriminate.
Qed.

Lemma nth_error_snoc_last {A} (l : list A) a : nth_error (l ++ [a]) (length l) = Some a.
Proof. rewrite nth_error_app2 by lia. now rewrite Nat.sub_diag. Qed.

Lemma NoDup_nth_inj {A} (l : list A) i j a : NoDup l -> nth_error l i = Some a -> nth_error l j = Some a -> i = j.
Proof.
  intros Hnd Hi Hj. rewrite NoDup_nth_error in Hnd. apply Hnd; [eapply nth_error_lt; eauto | congruence].
Qed.

Lemma Forall2_len {X Y} (R : X -> Y -> Prop) l l' : Forall2 R l l' -> length l = length l'.
Proof. induction 1; simpl; auto. Qed.

Lemma snoc_inj {A} (p q : list A) a b : p ++ [a] = q ++ [b] -> p = q /\ a = b.
Proof. apply app_inj_tail. Qed.

Section Arena.
  Variable A : Type.
  Variable A_dec : forall x y : A, {x = y} + {x <> y}.
  Variable name : key -> A.
  Variable K : key -> Prop.
  Hypothesis name_inj : forall k k', K k -> K k' -> name k = name k' -> k = k'.

  Notation pth := (list A).
  Notation declared := (declared A_dec).
  Notation declared_below := (declared_below A_dec).
  Notation unique_at := (unique_at A_dec).
  Notation child_of := (child_of A_dec).
  Notation inline_below := (inline_below A_dec).
  Notation shown := (shown A_dec).
  Notation misdeclared := (misdeclared A_dec).
  Notation trace := (trace name).
  Notation trace_roots := (trace_roots name).

  Record arena_ok (ps : list pth) (t : trees) : Prop := {
    ar_len : length ps = length t;
    ar_root : nth_error ps 0 = Some [];
    ar_nodup : NoDup ps;
    ar_child : forall i td k j, nth_error t i = Some td -> In (k, j) (td_children td) ->
      K k /\ (i < j)%nat /\ exists p, nth_error ps i = Some p /\ nth_error ps j = Some (p ++ [name k]);
    ar_parent : forall j p a, nth_error ps j = Some (p ++ [a]) ->
      exists i td k, nth_error ps i = Some p /\ nth_error t i = Some td /\
        In (k, j) (td_children td) /\ name k = a;
    ar_keys : forall i td, nth_error t i = Some td -> NoDup (map fst (td_children td));
  }.

  Record data_ok (es : list (ev A)) (ps : list pth) (t : trees) : Prop := {
    da_size : forall i p td, nth_error ps i = Some p -> nth_error t i = Some td ->
      td_size td = declared es p /\ td_unique td = unique_at es p;
    da_cover : forall e, In e es -> In (ev_path e) ps;
    da_nonroot : forall e, In e es -> ev_path e <> [];
  }.

  (** ** Sums over events *)
  Lemma declared_app es es' p : declared (es ++ es') p = declared es p + declared es' p.
  Proof. unfold Spec.declared. now rewrite map_app, sumN_app. Qed.

  Lemma declared_one e p : declared [e] p = if path_dec A_dec (ev_path e) p then ev_size e else 0.
  Proof. unfold Spec.declared. simpl. destruct (path_dec A_dec (ev_path e) p); lia. Qed.

  Lemma declared_le_total es p : declared es p <= total_declared es.
  Proof.
    unfold Spec.declared, total_declared. apply sumN_map_le. intros e _.
    destruct (path_dec A_dec (ev_path e) p); lia.
  Qed.

  Lemma total_app (es es' : list (ev A)) : total_declared (es ++ es') = total_declared es + total_declared es'.
  Proof. unfold total_declared. now rewrite map_app, sumN_app. Qed.

  Lemma total_cons (e : ev A) es : total_declared (e :: es) = ev_size e + total_declared es.
  Proof. reflexivity. Qed.

  Lemma declared_absent es p : (forall e, In e es -> ev_path e <> p) -> declared es p = 0.
  Proof.
    intros H. apply sumN_map_0. intros e He. destruct (path_dec A_dec (ev_path e) p); [|reflexivity].
    exfalso. eapply H; eauto.
  Qed.

  Lemma unique_app es es' p : unique_at (es ++ es') p = unique_at es p || unique_at es' p.
  Proof. unfold Spec.unique_at. apply existsb_app. Qed.

  Lemma unique_absent es p : (forall e, In e es -> ev_path e <> p) -> unique_at es p = false.
  Proof.
    intros H. unfold Spec.unique_at. destruct (existsb _ es) eqn:E; [|reflexivity].
    apply existsb_exists in E as (e & He & E').
    destruct (path_dec A_dec (ev_path e) p) as [Ep|]; [|discriminate]. exfalso. eapply H; eauto.
  Qed.

  (** ** Arena structure *)
  Lemma arena_default : arena_ok [[]] [td_default].
  Proof.
    constructor; simpl; auto.
    - repeat constructor. intros [].
    - intros [|i] td k j H; [inversion H; subst; intros [] | destruct i; discriminate].
    - intros [|j] p a H; [destruct p; discriminate | destruct j; discriminate].
    - intros [|i] td H; [inversion H; constructor | destruct i; discriminate].
  Qed.

  Lemma arena_idx ps t i p : arena_ok ps t -> nth_error ps i = Some p -> exists td, nth_error t i = Some td.
  Proof.
    intros Ha H. apply nth_error_lt in H. rewrite (ar_len Ha) in H.
    destruct (nth_error t i) eqn:E; [eauto|]. apply nth_error_None in E. lia.
  Qed.

  Lemma arena_idx' ps t i td : arena_ok ps t -> nth_error t i = Some td -> exists p, nth_error ps i = Some p.
  Proof.
    intros Ha H. apply nth_error_lt in H. rewrite <- (ar_len Ha) in H.
    destruct (nth_error ps i) eqn:E; [eauto|]. apply nth_error_None in E. lia.
  Qed.

  Lemma arena_prefix ps t : arena_ok ps t -> forall q p, In (p ++ q) ps -> In p ps.
  Proof.
    intros Ha q. induction q as [|a q IH] using rev_ind; intros p H.
    - now rewrite app_nil_r in H.
    - rewrite app_assoc in H. apply In_nth_error in H as [j Hj].
      destruct (ar_parent Ha Hj) as (i & td & k & Hi & _).
      apply IH. eapply nth_error_In; eauto.
  Qed.

  (** Children of a node: one per child path, no more. *)
  Lemma child_unique ps t i td k j k' j' : arena_ok ps t -> nth_error t i = Some td ->
    In (k, j) (td_children td) -> In (k', j') (td_children td) -> name k = name k' -> k = k' /\ j = j'.
  Proof.
    intros Ha Ht H1 H2 E.
    destruct (ar_child Ha Ht H1) as (Hk1 & _ & p & Hp & Hj).
    destruct (ar_child Ha Ht H2) as (Hk2 & _ & p' & Hp' & Hj').
    split; [now apply name_inj|]. rewrite Hp in Hp'. inversion Hp'; subst. rewrite E in Hj.
    eapply NoDup_nth_inj; eauto using ar_nodup.
  Qed.

  Lemma child_names_nodup ps t i td : arena_ok ps t -> nth_error t i = Some td ->
    NoDup (map (fun kc => name (fst kc)) (td_children td)).
  Proof.
    intros Ha Ht. pose proof (ar_keys Ha Ht) as Hnd.
    assert (HK : forall k j, In (k, j) (td_children td) -> K k).
    { intros k j Hin. apply (ar_child Ha Ht Hin). }
    revert Hnd HK. generalize (td_children td) as l. clear - name_inj.
    induction l as [|[k j] l IH]; simpl; intros Hnd HK; [constructor|].
    inversion Hnd as [|? ? Hx Hl]; subst. constructor.
    - intros Hin. apply in_map_iff in Hin as ([k' j'] & E & Hin). simpl in E. apply Hx.
      assert (k' = k) by (apply name_inj; eauto). subst. apply (in_map fst) in Hin. exact Hin.
    - apply IH; eauto.
  Qed.

  (** Sum over the children of a node of something that lives on one child path. *)
  Lemma child_indicator ps t i td p a x : arena_ok ps t -> nth_error t i = Some td -> nth_error ps i = Some p ->
    sumN (map (fun kc => if A_dec (name (fst kc)) a then x else 0) (td_children td)) =
    if in_dec (path_dec A_dec) (p ++ [a]) ps then x else 0.
  Proof.
    intros Ha Ht Hp.
    assert (Hmap : map (fun kc : key * nat => if A_dec (name (fst kc)) a then x else 0) (td_children td)
                 = map (fun b => if A_dec b a then x else 0) (map (fun kc => name (fst kc)) (td_children td)))
      by (rewrite map_map; reflexivity).
    rewrite Hmap, sumN_indicator by (eapply child_names_nodup; eauto).
    destruct (in_dec A_dec a (map (fun kc => name (fst kc)) (td_children td))) as [Hin|Hno];
      destruct (in_dec (path_dec A_dec) (p ++ [a]) ps) as [Hin'|Hno']; auto; exfalso.
    - apply in_map_iff in Hin as ([k j] & E & Hin). simpl in E. subst a.
      destruct (ar_child Ha Ht Hin) as (_ & _ & p' & Hp' & Hj). rewrite Hp in Hp'. inversion Hp'; subst.
      apply Hno'. eapply nth_error_In; eauto.
    - apply In_nth_error in Hin' as [j Hj]. destruct (ar_parent Ha Hj) as (i' & td' & k & Hi' & Ht' & Hin & E).
      assert (i' = i) by (eapply NoDup_nth_inj; eauto using ar_nodup). subst i'.
      rewrite Ht in Ht'. inversion Ht'; subst. apply Hno. apply in_map_iff. exists (k, j). auto.
  Qed.

  Lemma Forall2_nth {X Y} (R : X -> Y -> Prop) l l' i b : Forall2 R l l' -> nth_error l' i = Some b ->
    exists a, nth_error l i = Some a /\ R a b.
  Proof.
    intros H; revert i; induction H as [|x y l l' Hxy Hl IH]; intros [|i] E; simpl in *; try discriminate.
    - inversion E; subst. eauto.
    - eauto.
  Qed.

  Lemma Forall2_nth' {X Y} (R : X -> Y -> Prop) l l' i a : Forall2 R l l' -> nth_error l i = Some a ->
    exists b, nth_error l' i = Some b /\ R a b.
  Proof.
    intros H; revert i; induction H as [|x y l l' Hxy Hl IH]; intros [|i] E; simpl in *; try discriminate.
    - inversion E; subst. eauto.
    - eauto.
  Qed.

  Lemma arena_shuffled ps t t' : Forall2 td_shuffled t t' -> arena_ok ps t -> arena_ok ps t'.
  Proof.
    intros HF Ha. constructor; try apply Ha.
    - rewrite (ar_len Ha). eapply Forall2_len; eauto.
    - intros i td k j Hi Hin. destruct (Forall2_nth HF Hi) as (td0 & Hi0 & (_ & _ & _ & Hp)).
      eapply ar_child; eauto. eapply Permutation_in; [symmetry; exact Hp | auto].
    - intros j p a Hj. destruct (ar_parent Ha Hj) as (i & td & k & Hi & Ht & Hin & E).
      destruct (Forall2_nth' HF Ht) as (td' & Ht' & (_ & _ & _ & Hp)).
      exists i, td', k. repeat split; auto. eapply Permutation_in; eauto.
    - intros i td Hi. destruct (Forall2_nth HF Hi) as (td0 & Hi0 & (_ & _ & _ & Hp)).
      eapply Permutation_NoDup; [apply Permutation_map, Hp | eapply ar_keys; eauto].
  Qed.

  Lemma data_shuffled es ps t t' : Forall2 td_shuffled t t' -> data_ok es ps t -> data_ok es ps t'.
  Proof.
    intros HF Hd. constructor; try apply Hd.
    intros i p td Hp Hi. destruct (Forall2_nth HF Hi) as (td0 & Hi0 & (E1 & _ & E3 & _)).
    rewrite E1, E3. eapply da_size; eauto.
  Qed.

  (** ** Updates *)
  Lemma arena_upd_same ps t i td td' : arena_ok ps t -> nth_error t i = Some td ->
    td_children td' = td_children td -> arena_ok ps (upd t i td').
  Proof.
    intros Ha Hi Hc. pose proof (nth_error_lt Hi) as Hlt.
    assert (Hget : forall j x, nth_error (upd t i td') j = Some x ->
      exists y, nth_error t j = Some y /\ td_children x = td_children y).
    { intros j x Hj. rewrite nth_upd in Hj by auto. destruct (Nat.eqb_spec i j) as [->|].
      - inversion Hj; subst. eauto.
      - eauto. }
    constructor; try apply Ha.
    - rewrite upd_length. apply Ha.
    - intros j x k l Hj Hin. destruct (Hget _ _ Hj) as (y & Hy & E). rewrite E in Hin. eapply ar_child; eauto.
    - intros j p a Hj. destruct (ar_parent Ha Hj) as (i0 & td0 & k & Hi0 & Ht & Hin & E).
      destruct (Nat.eq_dec i i0) as [->|Hne].
      + exists i0, td', k. rewrite nth_upd, Nat.eqb_refl by auto. repeat split; auto.
        rewrite Hc. rewrite Hi in Ht. inversion Ht; subst. auto.
      + exists i0, td0, k. rewrite nth_upd by auto. apply Nat.eqb_neq in Hne. rewrite Hne. auto.
    - intros j x Hj. destruct (Hget _ _ Hj) as (y & Hy & E). rewrite E. eapply ar_keys; eauto.
  Qed.

  Lemma data_upd_event es ps t i td p kind nk s u rem : arena_ok ps t -> data_ok es ps t ->
    nth_error t i = Some td -> nth_error ps i = Some p -> p <> [] ->
    u = is_NKUnique kind ->
    data_ok (es ++ [mkEv p kind nk s]) ps
      (upd t i (mkTD (td_size td + s) rem (td_unique td || u) (td_children td))).
  Proof.
    intros Ha Hd Hi Hp Hne ->. pose proof (nth_error_lt Hi) as Hlt. constructor.
    - intros j q x Hj Hx. rewrite declared_app, unique_app, declared_one.
      unfold Spec.unique_at at 2. cbn [existsb ev_path ev_kind ev_size]. rewrite orb_false_r.
      rewrite nth_upd in Hx by auto. destruct (Nat.eqb_spec i j) as [->|Hij].
      + inversion Hx; subst; clear Hx. cbn [td_size td_unique].
        rewrite Hp in Hj. inversion Hj; subst.
        destruct (path_dec A_dec q q) as [_|n]; [|contradiction].
        destruct (da_size Hd Hp Hi) as [-> ->]. auto.
      + destruct (path_dec A_dec p q) as [->|_].
        * exfalso. apply Hij. eapply NoDup_nth_inj; eauto using ar_nodup.
        * rewrite N.add_0_r, orb_false_r. eapply da_size; eauto.
    - intros e He. apply in_app_or in He as [He|[<-|[]]]; [eapply da_cover; eauto|].
      simpl. eapply nth_error_In; eauto.
    - intros e He. apply in_app_or in He as [He|[<-|[]]]; [eapply da_nonroot; eauto | auto].
  Qed.

  Lemma arena_new_child ps t i td p k : arena_ok ps t -> nth_error t i = Some td -> nth_error ps i = Some p ->
    K k -> hm_find (td_children td) k = None ->
    arena_ok (ps ++ [p ++ [name k]])
      (upd t i (mkTD (td_size td) (td_rem td) (td_unique td)
                  (hm_insert_new (td_children td) k (length t))) ++ [td_default])
    /\ ~ In (p ++ [name k]) ps.
  Proof.
    intros Ha Hi Hp Hk Hnone. pose proof (nth_error_lt Hi) as Hlt.
    assert (Hfresh : ~ In (p ++ [name k]) ps).
    { intros Hin. apply In_nth_error in Hin as [j Hj].
      destruct (ar_parent Ha Hj) as (i' & td' & k' & Hi' & Ht' & Hin & E).
      assert (i' = i) by (eapply NoDup_nth_inj; eauto using ar_nodup). subst i'.
      rewrite Hi in Ht'. inversion Ht'; subst td'.
      assert (k' = k) by (apply name_inj; auto; apply (ar_child Ha Hi Hin)). subst k'.
      apply hm_find_None in Hnone. apply Hnone. apply (in_map fst) in Hin. exact Hin. }
    split; [|exact Hfresh].
    set (t' := upd t i _).
    assert (Hlen : length t' = length t) by apply upd_length.
    assert (Hget : forall j x, nth_error (t' ++ [td_default]) j = Some x ->
       (j = i /\ td_children x = td_children td ++ [(k, length t)]) \/
       (j <> i /\ nth_error t j = Some x) \/ (j = length t /\ x = td_default)).
    { intros j x Hj. apply nth_error_snoc in Hj as [Hj|[-> ->]].
      - unfold t' in Hj. rewrite nth_upd in Hj by auto. destruct (Nat.eqb_spec i j) as [->|].
        + inversion Hj; subst. left. auto.
        + right. left. auto.
      - right; right. rewrite Hlen. auto. }
    constructor.
    - rewrite !app_length, Hlen, (ar_len Ha). reflexivity.
    - apply nth_error_app_l, Ha.
    - apply NoDup_snoc; [apply Ha | exact Hfresh].
    - intros j x k' l Hj Hin. destruct (Hget _ _ Hj) as [[-> E]|[[Hne Hx]|[-> ->]]].
      + rewrite E in Hin. apply in_app_or in Hin as [Hin|[Hin|[]]].
        * destruct (ar_child Ha Hi Hin) as (? & ? & q & Hq & Hl). split; [auto|]. split; [auto|].
          exists q. split; now apply nth_error_app_l.
        * inversion Hin; subst. split; [auto|]. split; [auto|]. exists p. split; [now apply nth_error_app_l|].
          rewrite <- (ar_len Ha). apply nth_error_snoc_last.
      + destruct (ar_child Ha Hx Hin) as (? & ? & q & Hq & Hl). split; [auto|]. split; [auto|].
        exists q. split; now apply nth_error_app_l.
      + destruct Hin.
    - intros j q a Hj. apply nth_error_snoc in Hj as [Hj|[-> E]].
      + destruct (ar_parent Ha Hj) as (i0 & td0 & k0 & Hi0 & Ht & Hin & E).
        destruct (Nat.eq_dec i i0) as [->|Hne].
        * exists i0, (mkTD (td_size td) (td_rem td) (td_unique td) (hm_insert_new (td_children td) k (length t))), k0.
          split; [now apply nth_error_app_l|]. split.
          { apply nth_error_app_l. unfold t'. rewrite nth_upd, Nat.eqb_refl by auto. reflexivity. }
          split; [|auto]. simpl. unfold hm_insert_new. apply in_or_app. left. congruence.
        * exists i0, td0, k0. split; [now apply nth_error_app_l|]. split; [|auto].
          apply nth_error_app_l. unfold t'. rewrite nth_upd by auto. apply Nat.eqb_neq in Hne. now rewrite Hne.
      + apply snoc_inj in E as [-> ->].
        exists i, (mkTD (td_size td) (td_rem td) (td_unique td) (hm_insert_new (td_children td) k (length t))), k.
        split; [now apply nth_error_app_l|]. split.
        { apply nth_error_app_l. unfold t'. rewrite nth_upd, Nat.eqb_refl by auto. reflexivity. }
        split; [|auto]. simpl. unfold hm_insert_new. apply in_or_app. right. left. now rewrite (ar_len Ha).
    - intros j x Hj. destruct (Hget _ _ Hj) as [[-> E]|[[Hne Hx]|[-> ->]]].
      + rewrite E, map_app. apply NoDup_snoc; [eapply ar_keys; eauto|]. now apply hm_find_None.
      + eapply ar_keys; eauto.
      + constructor.
  Qed.

  Lemma data_new_child es ps t i td p k : arena_ok ps t -> data_ok es ps t ->
    nth_error t i = Some td -> nth_error ps i = Some p -> ~ In (p ++ [name k]) ps ->
    data_ok es (ps ++ [p ++ [name k]])
      (upd t i (mkTD (td_size td) (td_rem td) (td_unique td)
                  (hm_insert_new (td_children td) k (length t))) ++ [td_default]).
  Proof.
    intros Ha Hd Hi Hp Hfresh. pose proof (nth_error_lt Hi) as Hlt. constructor.
    - intros j q x Hj Hx.
      apply nth_error_snoc in Hx as [Hx|[-> ->]].
      + assert (Hjl : (j < length t)%nat) by (apply nth_error_lt in Hx; now rewrite upd_length in Hx).
        apply nth_error_snoc in Hj as [Hj|[-> _]]; [|rewrite (ar_len Ha) in Hjl; lia].
        rewrite nth_upd in Hx by auto. destruct (Nat.eqb_spec i j) as [->|].
        * inversion Hx; subst. cbn [td_size td_unique]. eapply da_size; eauto.
        * eapply da_size; eauto.
      + rewrite upd_length in Hj. rewrite <- (ar_len Ha), nth_error_snoc_last in Hj. inversion Hj; subst.
        cbn [td_default td_size td_unique].
        rewrite declared_absent, unique_absent; auto.
        * intros e He E. apply Hfresh. rewrite <- E. eapply da_cover; eauto.
        * intros e He E. apply Hfresh. rewrite <- E. eapply da_cover; eauto.
    - intros e He. apply in_or_app. left. eapply da_cover; eauto.
    - intros e He. eapply da_nonroot; eauto.
  Qed.
End Arena.
