(** * Lemmas about the text output of FlameGraph. *)
From Coq Require Import Permutation Sorted.
From Verif Require Import Base BaseFacts KeyModel KeyFacts HMap FlameModel BuilderModel VisitorModel Spec FlameFacts.

(** ** Order on paths *)
Lemma path_cmp_refl p : path_cmp p p = Eq.
Proof. induction p as [|a p IH]; simpl; [reflexivity|]. now rewrite str_cmp_refl. Qed.

Lemma path_lt_irrefl p : ~ path_lt p p.
Proof. unfold path_lt. rewrite path_cmp_refl. discriminate. Qed.

Lemma path_lt_trans p q r : path_lt p q -> path_lt q r -> path_lt p r.
Proof.
  unfold path_lt. revert q r; induction p as [|a p IH]; intros [|b q] [|c r]; simpl; try discriminate; auto.
  destruct (str_cmp a b) eqn:E1; try discriminate; destruct (str_cmp b c) eqn:E2; try discriminate; intros H1 H2.
  - apply str_cmp_eq in E1, E2; subst. rewrite str_cmp_refl. eauto.
  - apply str_cmp_eq in E1; subst. now rewrite E2.
  - apply str_cmp_eq in E2; subst. now rewrite E1.
  - now rewrite (str_cmp_lt_trans E1 E2).
Qed.

Lemma path_lt_cons a p q : path_lt (a :: p) (a :: q) <-> path_lt p q.
Proof. unfold path_lt; simpl. now rewrite str_cmp_refl. Qed.

Lemma path_lt_head a b p q : str_cmp a b = Lt -> path_lt (a :: p) (b :: q).
Proof. unfold path_lt; simpl. now intros ->. Qed.

(** ** Strictly sorted lists are determined by their elements *)
Lemma ssorted_ext {A} (R : A -> A -> Prop) :
  (forall x, ~ R x x) -> (forall x y z, R x y -> R y z -> R x z) ->
  forall l l', StronglySorted R l -> StronglySorted R l' ->
  (forall x, In x l <-> In x l') -> l = l'.
Proof.
  intros Hirr Htr. induction l as [|x l IH]; intros [|y l'] H1 H2 Hin.
  - reflexivity.
  - exfalso. apply (Hin y). now left.
  - exfalso. apply (Hin x). now left.
  - inversion H1 as [|? ? Hl Hx]; subst. inversion H2 as [|? ? Hl' Hy]; subst.
    rewrite Forall_forall in Hx, Hy.
    assert (x = y).
    { destruct (proj1 (Hin x) (or_introl eq_refl)) as [|Hx']; [congruence|].
      destruct (proj2 (Hin y) (or_introl eq_refl)) as [|Hy']; [congruence|].
      exfalso. apply (Hirr x). eapply Htr; eauto. }
    subst y. f_equal. apply IH; auto. intros z. split; intros Hz.
    + destruct (proj1 (Hin z) (or_intror Hz)) as [->|]; [|auto].
      exfalso. apply (Hirr z). auto.
    + destruct (proj2 (Hin z) (or_intror Hz)) as [->|]; [|auto].
      exfalso. apply (Hirr z). auto.
Qed.

Lemma ssorted_map_iff {A B} (f : A -> B) (R : B -> B -> Prop) l :
  StronglySorted R (map f l) <-> StronglySorted (fun x y => R (f x) (f y)) l.
Proof.
  induction l as [|x l IH]; simpl; [split; constructor|].
  split; intros H; inversion H as [|? ? Hl Hx]; subst; constructor.
  - now apply IH.
  - rewrite Forall_forall in *. intros y Hy. apply Hx. now apply in_map.
  - now apply IH.
  - rewrite Forall_forall in *. intros y Hy. apply in_map_iff in Hy as (z & <- & Hz). auto.
Qed.

Lemma ssorted_impl {A} (R R' : A -> A -> Prop) l :
  (forall x y, R x y -> R' x y) -> StronglySorted R l -> StronglySorted R' l.
Proof.
  intros H. induction 1 as [|x l Hl IH Hx]; constructor; auto.
  rewrite Forall_forall in *. auto.
Qed.

Lemma ssorted_app {A} (R : A -> A -> Prop) l1 l2 :
  StronglySorted R l1 -> StronglySorted R l2 -> (forall x y, In x l1 -> In y l2 -> R x y) ->
  StronglySorted R (l1 ++ l2).
Proof.
  induction l1 as [|x l1 IH]; simpl; intros H1 H2 H; [auto|].
  inversion H1 as [|? ? Hl Hx]; subst. constructor; [apply IH; auto|].
  rewrite Forall_forall in *. intros y Hy. apply in_app_or in Hy as [Hy|Hy]; auto.
Qed.

Lemma listing_unique size size' L L' :
  (forall p, p <> [] -> size p = size' p) -> listing size L -> listing size' L' -> L = L'.
Proof.
  intros Hs [H1 H2] [H1' H2'].
  apply (@ssorted_ext _ (fun x y => path_lt (fst x) (fst y))).
  - intros x. apply path_lt_irrefl.
  - intros x y z. apply path_lt_trans.
  - now apply ssorted_map_iff.
  - now apply ssorted_map_iff.
  - intros [p n]. rewrite H2, H2'. split; intros (Hp & Hn & E); (split; [auto|]; split; [auto|]).
    + now rewrite <- Hs.
    + now rewrite Hs.
Qed.

(** ** Sorting *)
Section Sort.
  Context {V : Type}.
  Implicit Types l : list (key * V).

  Lemma insert_perm (x : key * V) l : Permutation (insert_by_key x l) (x :: l).
  Proof.
    induction l as [|y l IH]; simpl; [reflexivity|].
    destruct (key_cmp (fst x) (fst y)); [reflexivity|reflexivity|].
    rewrite IH. apply perm_swap.
  Qed.

  Lemma sort_perm l : Permutation (sort_by_key l) l.
  Proof. induction l as [|x l IH]; simpl; [reflexivity|]. rewrite insert_perm. now constructor. Qed.

  Definition klt (x y : key * V) : Prop := str_cmp (k_str (fst x)) (k_str (fst y)) = Lt.

  Lemma insert_sorted (x : key * V) l :
    StronglySorted klt l -> (forall y, In y l -> k_str (fst x) <> k_str (fst y)) ->
    StronglySorted klt (insert_by_key x l).
  Proof.
    induction l as [|y l IH]; simpl; intros Hs Hne; [repeat constructor|].
    inversion Hs as [|? ? Hl Hy]; subst. unfold key_cmp.
    destruct (str_cmp (k_str (fst x)) (k_str (fst y))) eqn:E.
    - apply str_cmp_eq in E. exfalso. apply (Hne y); auto.
    - constructor; [auto|]. constructor; [exact E|].
      rewrite Forall_forall in *. intros z Hz. unfold klt. eapply str_cmp_lt_trans; [exact E|].
      apply Hy; auto.
    - constructor.
      + apply IH; auto.
      + rewrite Forall_forall in *. intros z Hz.
        apply (Permutation_in _ (insert_perm x l)) in Hz as [<-|Hz]; [|auto].
        apply str_cmp_gt_lt. exact E.
  Qed.

  Lemma sort_sorted l : NoDup (map (fun kv => k_str (fst kv)) l) -> StronglySorted klt (sort_by_key l).
  Proof.
    induction l as [|x l IH]; simpl; intros H; [constructor|].
    inversion H as [|? ? Hx Hl]; subst. apply insert_sorted; [auto|].
    intros y Hy E. apply Hx. rewrite E. apply (in_map (fun kv => k_str (fst kv))).
    apply (Permutation_in _ (sort_perm l)). exact Hy.
  Qed.
End Sort.

(** ** The lines of a graph, relative to a node *)
Fixpoint rel_lines (f : fg) : list (path * N) :=
  match f with
  | FG cs _ n =>
      (if N.eqb n 0 then [] else [([], n)]) ++
      concat (map (fun kl => map (fun pn => (k_str (fst kl) :: fst pn, snd pn)) (snd kl))
        (sort_by_key ((fix go (l : list (key * fg)) : list (key * list (path * N)) :=
                         match l with [] => [] | (k, c) :: l' => (k, rel_lines c) :: go l' end) cs)))
  end.

Lemma rel_lines_eq f :
  rel_lines f =
  (if N.eqb (fg_node_size f) 0 then [] else [([], fg_node_size f)]) ++
  flat_map (fun kc => map (fun pn => (k_str (fst kc) :: fst pn, snd pn)) (rel_lines (snd kc)))
    (sort_by_key (fg_children f)).
Proof.
  destruct f as [cs c n]. cbn [rel_lines fg_node_size fg_children]. f_equal.
  replace ((fix go (l : list (key * fg)) : list (key * list (path * N)) :=
              match l with [] => [] | (k, c0) :: l' => (k, rel_lines c0) :: go l' end) cs)
    with (map (fun kc => (fst kc, rel_lines (snd kc))) cs).
  - rewrite sort_by_key_map, map_map, flat_map_concat_map. reflexivity.
  - induction cs as [|[k f] cs IH]; [reflexivity|]. cbn [map fst snd]. now rewrite IH.
Qed.

Definition prefix_lines (stack : path) (L : list (path * N)) : list (path * N) :=
  map (fun pn => (stack ++ fst pn, snd pn)) L.

Definition nonroot (pn : path * N) : bool := match fst pn with [] => false | _ => true end.

Lemma filter_prefix_nonempty stack L : stack <> [] ->
  filter nonroot (prefix_lines stack L) = prefix_lines stack L.
Proof.
  intros H. induction L as [|[p n] L IH]; simpl; [reflexivity|].
  destruct stack; [contradiction|]. simpl. now rewrite IH.
Qed.

Lemma concat_str_flat_map {A B} (f : B -> string) (g : A -> list B) l :
  concat_str (map f (flat_map g l)) = concat_str (map (fun a => concat_str (map f (g a))) l).
Proof. induction l as [|a l IH]; simpl; [reflexivity|]. now rewrite map_app, concat_str_app, IH. Qed.

Lemma prefix_flat_map stack (cs : list (key * fg)) :
  prefix_lines stack (flat_map (fun kc => map (fun pn => (k_str (fst kc) :: fst pn, snd pn)) (rel_lines (snd kc))) cs)
  = flat_map (fun kc => prefix_lines (stack ++ [k_str (fst kc)]) (rel_lines (snd kc))) cs.
Proof.
  unfold prefix_lines. induction cs as [|[k c] cs IH]; simpl; [reflexivity|].
  rewrite map_app, IH. f_equal. rewrite map_map. apply map_ext. intros [p n]. simpl.
  now rewrite <- app_assoc.
Qed.

Lemma fg_write_impl_lines f : forall stack,
  fg_write_impl f stack = concat_str (map folded_line (filter nonroot (prefix_lines stack (rel_lines f)))).
Proof.
  induction f as [cs c n IH] using fg_ind'. intros stack.
  rewrite fg_write_impl_eq, rel_lines_eq. cbn [fg_node_size fg_children].
  unfold prefix_lines at 1. rewrite map_app. fold (prefix_lines stack).
  rewrite filter_app, map_app, concat_str_app. f_equal.
  - destruct (N.eqb n 0); simpl; [reflexivity|].
    rewrite app_nil_r. unfold fg_line. destruct stack as [|x l]; simpl; [reflexivity|].
    unfold folded_line. simpl. now rewrite str_app_nil_r.
  - change (map (fun pn => (stack ++ fst pn, snd pn))) with (prefix_lines stack).
    rewrite prefix_flat_map.
    assert (Hin : forall k f, In (k, f) (sort_by_key cs) -> In (k, f) cs).
    { intros k f. apply Permutation_in, sort_perm. }
    revert Hin. generalize (sort_by_key cs) as l.
    induction l as [|[k f] l IHl]; intros Hin; cbn [map flat_map concat_str fst snd]; [reflexivity|].
    rewrite filter_app, map_app, concat_str_app. f_equal.
    + unfold key_deref. eapply IH. apply Hin. now left.
    + apply IHl. intros; apply Hin; now right.
Qed.

(** ** Honest keys: made by [Key::new] *)
Lemma made_by_new_ok k : made_by_new k <-> key_ok k.
Proof.
  split; [intros [s ->]; apply key_ok_new | intros H; exists (k_str k); exact H].
Qed.

Lemma nodup_strings {V} (cs : list (key * V)) :
  (forall k v, In (k, v) cs -> made_by_new k) -> NoDup (map fst cs) ->
  NoDup (map (fun kv => k_str (fst kv)) cs).
Proof.
  induction cs as [|[k v] cs IH]; simpl; intros Hk Hnd; [constructor|].
  inversion Hnd as [|? ? Hx Hl]; subst. constructor.
  - intros Hin. apply in_map_iff in Hin as ([k' v'] & E & Hin). simpl in E. apply Hx.
    assert (k = k').
    { apply key_ok_inj; [apply made_by_new_ok; eapply Hk; now left
        | apply made_by_new_ok; eapply Hk; right; exact Hin | auto]. }
    subst. apply (in_map fst) in Hin. exact Hin.
  - apply IH; auto. intros; eapply Hk; right; eauto.
Qed.

(** With distinct frame names below a node, at most one child matches a frame. *)
Lemma sum_one_child (cs : list (key * fg)) k c (F : fg -> N) :
  NoDup (map (fun kv => k_str (fst kv)) cs) -> In (k, c) cs ->
  sumN (map (fun kc => if String.eqb (k_str (fst kc)) (k_str k) then F (snd kc) else 0) cs) = F c.
Proof.
  induction cs as [|[k' c'] cs IH]; simpl; intros Hnd Hin; [contradiction|].
  inversion Hnd as [|? ? Hx Hl]; subst. destruct Hin as [E|Hin].
  - inversion E; subst. rewrite String.eqb_refl.
    rewrite sumN_map_0; [lia|]. intros [k1 c1] H1. simpl.
    destruct (String.eqb_spec (k_str k1) (k_str k)) as [E1|]; [|reflexivity].
    exfalso. apply Hx. rewrite <- E1. apply in_map_iff. exists (k1, c1). auto.
  - destruct (String.eqb_spec (k_str k') (k_str k)) as [E1|].
    + exfalso. apply Hx. rewrite E1. apply in_map_iff. exists (k, c). auto.
    + rewrite IH; auto.
Qed.

Lemma fg_ok_strings m (K : key -> Prop) f : (forall k, K k -> made_by_new k) -> fg_ok m K f ->
  NoDup (map (fun kv => k_str (fst kv)) (fg_children f)).
Proof.
  intros HK Hok. destruct (fg_ok_inv Hok) as (Hnd & Hch & _). apply nodup_strings; auto.
  intros k v Hin. apply HK. apply (Hch _ _ Hin).
Qed.

Lemma size_at_no_child (cs : list (key * fg)) s (F : fg -> N) :
  (forall k c, In (k, c) cs -> k_str k <> s) ->
  sumN (map (fun kc => if String.eqb (k_str (fst kc)) s then F (snd kc) else 0) cs) = 0.
Proof.
  intros H. apply sumN_map_0. intros [k c] Hin. simpl.
  destruct (String.eqb_spec (k_str k) s) as [E|]; [|reflexivity]. exfalso. eapply H; eauto.
Qed.

Lemma child_dec (cs : list (key * fg)) s :
  (exists k c, In (k, c) cs /\ k_str k = s) \/ (forall k c, In (k, c) cs -> k_str k <> s).
Proof.
  induction cs as [|[k c] cs IH]; [right; intros k c []|].
  destruct (string_dec (k_str k) s) as [E|E].
  - left. exists k, c. split; [now left | auto].
  - destruct IH as [(k' & c' & Hin & E')|H].
    + left. exists k', c'. split; [now right | auto].
    + right. intros k' c' [E'|Hin]; [inversion E'; subst; auto | eauto].
Qed.

Lemma size_at_lt m f : forall p, fg_ok m made_by_new f -> size_at f p < two64.
Proof.
  intros p. revert f. induction p as [|s p IH]; intros f Hok.
  - apply fg_ok_inv in Hok as (_ & _ & H & _). exact H.
  - rewrite size_at_cons.
    pose proof (fg_ok_strings (fun k H => H) Hok) as Hnd.
    destruct (fg_ok_inv Hok) as (_ & Hch & _).
    destruct (child_dec (fg_children f) s) as [(k & c & Hin & <-)|Hno].
    + rewrite (@sum_one_child _ k c (fun c => size_at c p)) by auto. apply IH. apply (Hch _ _ Hin).
    + rewrite (@size_at_no_child _ s (fun c => size_at c p)) by auto. apply two64_pos.
Qed.

Lemma rel_lines_listing m f : fg_ok m made_by_new f ->
  StronglySorted path_lt (map fst (rel_lines f)) /\
  (forall p n, In (p, n) (rel_lines f) <-> 0 < n /\ size_at f p = n).
Proof.
  induction f as [cs cz nz IH] using fg_ind'. intros Hok.
  pose proof (fg_ok_strings (fun k H => H) Hok) as Hnd.
  destruct (fg_ok_inv Hok) as (_ & Hch & _). cbn [fg_children] in *.
  rewrite rel_lines_eq. cbn [fg_node_size fg_children].
  assert (Hperm : forall k f, In (k, f) (sort_by_key cs) <-> In (k, f) cs).
  { intros k f. split; apply Permutation_in; [apply sort_perm | symmetry; apply sort_perm]. }
  assert (Hflat : forall p n, In (p, n) (flat_map (fun kc => map (fun pn => (k_str (fst kc) :: fst pn, snd pn)) (rel_lines (snd kc))) (sort_by_key cs)) <->
     exists k c p', In (k, c) cs /\ p = k_str k :: p' /\ 0 < n /\ size_at c p' = n).
  { intros p n. rewrite in_flat_map. split.
    - intros ([k c] & Hin & Hin'). apply in_map_iff in Hin' as ([p' n'] & E & Hin'). simpl in E, Hin'.
      inversion E; subst. apply Hperm in Hin. exists k, c, p'. split; [auto|]. split; [auto|].
      apply (IH k c Hin); [apply (Hch _ _ Hin) | exact Hin'].
    - intros (k & c & p' & Hin & -> & Hn). exists (k, c). split; [now apply Hperm|].
      apply in_map_iff. exists (p', n). split; [reflexivity|]. simpl.
      apply (IH k c Hin); [apply (Hch _ _ Hin) | exact Hn]. }
  split.
  - rewrite map_app. apply ssorted_app.
    + destruct (N.eqb nz 0); repeat constructor.
    + assert (Hss : StronglySorted klt (sort_by_key cs)) by now apply sort_sorted.
      assert (Hok' : forall k f, In (k, f) (sort_by_key cs) -> StronglySorted path_lt (map fst (rel_lines f))).
      { intros k f Hin. apply Hperm in Hin. apply (IH k f Hin). apply (Hch _ _ Hin). }
      revert Hss Hok'. generalize (sort_by_key cs) as l. clear.
      induction l as [|[k f] l IHl]; cbn [flat_map map fst snd]; intros Hss Hok'; [constructor|].
      inversion Hss as [|? ? Hl Hx]; subst. rewrite map_app. apply ssorted_app.
      * rewrite map_map. cbn [fst].
        rewrite (map_ext _ (fun x : path * N => k_str k :: fst x)) by reflexivity.
        rewrite <- (map_map fst (cons (k_str k))). apply ssorted_map_iff.
        eapply ssorted_impl; [|apply (Hok' k f (or_introl eq_refl))].
        intros p q Hpq. now apply path_lt_cons.
      * apply IHl; auto. intros; eapply Hok'; right; eauto.
      * intros p q Hp Hq. rewrite map_map in Hp. apply in_map_iff in Hp as ([p' n'] & <- & _).
        apply in_map_iff in Hq as ([q' n''] & <- & Hq). apply in_flat_map in Hq as ([k2 f2] & Hin2 & Hq).
        apply in_map_iff in Hq as ([q2 n2] & E & _). inversion E; subst. cbn [fst].
        apply path_lt_head. rewrite Forall_forall in Hx. apply (Hx (k2, f2) Hin2).
    + intros p q Hp Hq. destruct (N.eqb nz 0); [destruct Hp|]. destruct Hp as [<-|[]].
      apply in_map_iff in Hq as ([q' n'] & <- & Hq). apply Hflat in Hq as (k & c & p' & _ & -> & _).
      reflexivity.
  - intros p n. rewrite in_app_iff, Hflat. destruct p as [|s p].
    + cbn [size_at fg_node_size]. split.
      * intros [H|(k & c & p' & _ & E & _)]; [|discriminate].
        destruct (N.eqb_spec nz 0); [destruct H|]. destruct H as [E|[]]. inversion E; subst.
        split; [lia | reflexivity].
      * intros [Hn ->]. left. destruct (N.eqb_spec n 0); [lia | now left].
    + rewrite size_at_cons. cbn [fg_children]. split.
      * intros [H|(k & c & p' & Hin & E & Hn & <-)].
        { destruct (N.eqb nz 0); [destruct H | destruct H as [E|[]]; discriminate]. }
        inversion E; subst. split; [auto|].
        now rewrite (@sum_one_child _ k c (fun c => size_at c p')) by auto.
      * intros [Hn E]. right.
        destruct (child_dec cs s) as [(k & c & Hin & <-)|Hno].
        { rewrite (@sum_one_child _ k c (fun c => size_at c p)) in E by auto. exists k, c, p. auto. }
        { rewrite (@size_at_no_child _ s (fun c => size_at c p)) in E by auto. lia. }
Qed.

Definition nonroot_lines (f : fg) : list (path * N) := filter nonroot (rel_lines f).

Lemma ssorted_filter {A} (R : A -> A -> Prop) (P : A -> bool) l :
  StronglySorted R l -> StronglySorted R (filter P l).
Proof.
  induction 1 as [|x l Hl IH Hx]; simpl; [constructor|]. destruct (P x); [|auto].
  constructor; [auto|]. rewrite Forall_forall in *. intros y Hy. apply filter_In in Hy as [Hy _]. auto.
Qed.

Lemma nonroot_lines_listing m f : fg_ok m made_by_new f -> listing (size_at f) (nonroot_lines f).
Proof.
  intros Hok. destruct (rel_lines_listing Hok) as [H1 H2]. split.
  - apply ssorted_map_iff. apply ssorted_filter. now apply ssorted_map_iff.
  - intros p n. unfold nonroot_lines. rewrite filter_In, H2. unfold nonroot; simpl.
    destruct p; [split; [intros [_ ?]; discriminate | intros [H _]; contradiction]|].
    split; [intros [? _]; split; [discriminate|auto] | intros [_ ?]; auto].
Qed.

Lemma prefix_nil L : prefix_lines [] L = L.
Proof. unfold prefix_lines. rewrite <- (map_id L) at 2. apply map_ext. intros []; reflexivity. Qed.

Lemma fg_write_lines f : fg_write f = concat_str (map folded_line (nonroot_lines f)).
Proof. unfold fg_write, nonroot_lines. rewrite fg_write_impl_lines, prefix_nil. reflexivity. Qed.

(** Sizes on all lines (root included) add up to the node sum. *)
Lemma rel_lines_sum f : sumN (map snd (rel_lines f)) = node_sum f.
Proof.
  induction f as [cs cz nz IH] using fg_ind'. rewrite rel_lines_eq, node_sum_eq.
  cbn [fg_node_size fg_children]. rewrite map_app, sumN_app. f_equal.
  - destruct (N.eqb_spec nz 0) as [->|]; simpl; lia.
  - rewrite sumN_flat_map.
    rewrite (sumN_perm (Permutation_map _ (sort_perm cs))).
    apply sumN_map_ext. intros [k c] Hin. simpl. rewrite map_map. simpl. exact (IH k c Hin).
Qed.

Lemma filter_all_true {A} (P : A -> bool) l : (forall x, In x l -> P x = true) -> filter P l = l.
Proof.
  induction l as [|x l IH]; simpl; intros H; [reflexivity|].
  rewrite (H x) by now left. f_equal. auto.
Qed.

Lemma nonroot_sum f : sumN (map snd (nonroot_lines f)) = node_sum f - fg_node_size f.
Proof.
  rewrite <- rel_lines_sum, rel_lines_eq. unfold nonroot_lines. rewrite rel_lines_eq.
  set (rest := flat_map _ _).
  assert (Hrest : filter nonroot rest = rest).
  { apply filter_all_true. intros [p n] Hin. apply in_flat_map in Hin as (kc & _ & Hin).
    apply in_map_iff in Hin as (pn & E & _). inversion E. reflexivity. }
  rewrite filter_app. change (path * N)%type with (list string * N)%type in *. rewrite Hrest.
  destruct (N.eqb_spec (fg_node_size f) 0) as [E|E]; simpl.
  - rewrite E. lia.
  - lia.
Qed.

(** ** Observational extensionality *)
Lemma write_ext m m' f g : fg_ok m made_by_new f -> fg_ok m' made_by_new g ->
  (forall p, p <> [] -> size_at f p = size_at g p) -> fg_write f = fg_write g.
Proof.
  intros Hf Hg H. rewrite !fg_write_lines. do 2 f_equal.
  eapply listing_unique; [exact H| |]; eapply nonroot_lines_listing; eauto.
Qed.

Lemma node_sum_ext m m' f g : fg_ok m made_by_new f -> fg_ok m' made_by_new g ->
  (forall p, size_at f p = size_at g p) -> node_sum f = node_sum g.
Proof.
  intros Hf Hg H. rewrite <- !rel_lines_sum. do 2 f_equal.
  destruct (rel_lines_listing Hf) as [H1 H2], (rel_lines_listing Hg) as [H1' H2'].
  apply (@ssorted_ext _ (fun x y => path_lt (fst x) (fst y))).
  - intros x. apply path_lt_irrefl.
  - intros x y z. apply path_lt_trans.
  - now apply ssorted_map_iff.
  - now apply ssorted_map_iff.
  - intros [p n]. rewrite H2, H2', H. reflexivity.
Qed.

Lemma observe_ext m f g : fg_ok m made_by_new f -> fg_ok m made_by_new g ->
  (forall p, size_at f p = size_at g p) -> observe m (Some f) = observe m (Some g).
Proof.
  intros Hf Hg H. unfold observe; simpl. do 2 f_equal.
  - eapply write_ext; eauto.
  - rewrite (fg_total_wrapped Hf), (fg_total_wrapped Hg). f_equal. eapply node_sum_ext; eauto.
Qed.

Lemma adds_size_eq m a b c : adds m made_by_new a b c -> forall p,
  size_at c p = match wrapped m (size_at a p + size_at b p) with Some n => n | None => size_at c p end.
Proof.
  intros [Hok Hsz _] p. specialize (Hsz p). pose proof (size_at_lt p Hok) as Hlt.
  destruct m; simpl in *.
  - destruct (N.ltb_spec (size_at a p + size_at b p) two64); auto.
  - rewrite <- Hsz. symmetry. now apply N.mod_small.
Qed.

(** ** Algebraic laws *)
Lemma fg_add_comm m a b : fg_ok m made_by_new a -> fg_ok m made_by_new b ->
  observe m (fg_add m a b) = observe m (fg_add m b a).
Proof.
  intros Ha Hb.
  assert (Hiff : (exists c, fg_add m a b = Some c) <-> (exists c, fg_add m b a = Some c)).
  { destruct m.
    - rewrite <- (fg_add_debug Hb Ha), <- (fg_add_debug Ha Hb). lia.
    - split; intros _; apply fg_add_release. }
  destruct (fg_add m a b) as [c|] eqn:E1; destruct (fg_add m b a) as [d|] eqn:E2.
  - pose proof (fg_add_adds Hb Ha E1) as A1. pose proof (fg_add_adds Ha Hb E2) as A2.
    apply observe_ext; [apply (adds_ok A1) | apply (adds_ok A2)|].
    intros p. apply (@wrapeq_small m).
    + eapply wrapeq_trans; [apply (adds_size A1)|]. rewrite N.add_comm.
      apply wrapeq_sym, (adds_size A2).
    + apply (@size_at_lt m), (adds_ok A1).
    + apply (@size_at_lt m), (adds_ok A2).
  - destruct Hiff as [H _]. destruct H as [d E]; [eauto|discriminate].
  - destruct Hiff as [_ H]. destruct H as [d' E]; [eauto|discriminate].
  - reflexivity.
Qed.

Lemma adds_csum K a b c : fg_ok Debug K b -> adds Debug K a b c ->
  fg_node_size c = fg_node_size a + fg_node_size b /\ csum c = csum a + csum b.
Proof.
  intros Hb [Hok Hsz Hsm]. pose proof (Hsz []) as H. simpl in H, Hsm. rewrite !node_sum_csum in Hsm. lia.
Qed.

Lemma fg_add_assoc m a b c :
  fg_ok m made_by_new a -> fg_ok m made_by_new b -> fg_ok m made_by_new c ->
  observe m (do ab <- fg_add m a b; fg_add m ab c) =
  observe m (do bc <- fg_add m b c; fg_add m a bc).
Proof.
  intros Ha Hb Hc.
  assert (Hiff : (exists g, (do ab <- fg_add m a b; fg_add m ab c) = Some g) <->
                 (exists g, (do bc <- fg_add m b c; fg_add m a bc) = Some g)).
  { destruct m.
    - pose proof (fg_add_debug Hb Ha) as I1. pose proof (fg_add_debug Hc Hb) as I2.
      destruct (fg_add Debug a b) as [ab|] eqn:E1; destruct (fg_add Debug b c) as [bc|] eqn:E2; cbn [obind].
      + pose proof (fg_add_adds Hb Ha E1) as A1. pose proof (fg_add_adds Hc Hb E2) as A2.
        rewrite <- (fg_add_debug Hc (adds_ok A1)), <- (fg_add_debug (adds_ok A2) Ha).
        destruct (adds_csum Hb A1) as [-> ->], (adds_csum Hc A2) as [-> ->]. lia.
      + pose proof (fg_add_adds Hb Ha E1) as A1.
        rewrite <- (fg_add_debug Hc (adds_ok A1)).
        destruct (adds_csum Hb A1) as [-> ->]. split; [|intros [g E]; discriminate].
        intros H. destruct I2 as [I2 _]. destruct I2 as [g E]; [lia|discriminate].
      + pose proof (fg_add_adds Hc Hb E2) as A2.
        rewrite <- (fg_add_debug (adds_ok A2) Ha).
        destruct (adds_csum Hc A2) as [-> ->]. split; [intros [g E]; discriminate|].
        intros H. destruct I1 as [I1 _]. destruct I1 as [g E]; [lia|discriminate].
      + split; intros [g E]; discriminate.
    - destruct (fg_add_release b a) as [ab ->], (fg_add_release c b) as [bc ->]. cbn [obind].
      split; intros _; apply fg_add_release. }
  destruct (fg_add m a b) as [ab|] eqn:E1; cbn [obind] in *.
  2:{ destruct (fg_add m b c) as [bc|] eqn:E2; cbn [obind] in *; [|reflexivity].
      destruct (fg_add m a bc) as [g|]; [|reflexivity].
      destruct Hiff as [_ H]. destruct H as [x E]; [eauto|discriminate]. }
  destruct (fg_add m b c) as [bc|] eqn:E2; cbn [obind] in *.
  2:{ destruct (fg_add m ab c) as [g|]; [|reflexivity].
      destruct Hiff as [H _]. destruct H as [x E]; [eauto|discriminate]. }
  pose proof (fg_add_adds Hb Ha E1) as A1. pose proof (fg_add_adds Hc Hb E2) as A2.
  destruct (fg_add m ab c) as [g|] eqn:E3; destruct (fg_add m a bc) as [h|] eqn:E4.
  - pose proof (fg_add_adds Hc (adds_ok A1) E3) as A3.
    pose proof (fg_add_adds (adds_ok A2) Ha E4) as A4.
    apply observe_ext; [apply (adds_ok A3) | apply (adds_ok A4)|].
    intros p. apply (@wrapeq_small m).
    + eapply wrapeq_trans; [apply (adds_size A3)|].
      eapply wrapeq_trans; [apply wrapeq_add; [apply (adds_size A1) | apply wrapeq_refl]|].
      rewrite <- N.add_assoc. apply wrapeq_sym.
      eapply wrapeq_trans; [apply (adds_size A4)|].
      apply wrapeq_add; [apply wrapeq_refl | apply (adds_size A2)].
    + apply (@size_at_lt m), (adds_ok A3).
    + apply (@size_at_lt m), (adds_ok A4).
  - destruct Hiff as [H _]. destruct H as [x E]; [eauto|discriminate].
  - destruct Hiff as [_ H]. destruct H as [x E]; [eauto|discriminate].
  - reflexivity.
Qed.

Lemma fg_add_default_r m f : fg_ok m any_key f -> fg_add m f fg_default = Some f.
Proof.
  intros Hok. rewrite fg_add_eq. cbn [fg_default fg_node_size fg_children].
  destruct (fg_ok_inv Hok) as (_ & _ & Hn & _).
  rewrite uadd_exact by lia. cbn [obind add_children]. destruct f; simpl. now rewrite N.add_0_r.
Qed.

Lemma fg_ok_mono m (K K' : key -> Prop) f : (forall k, K k -> K' k) -> fg_ok m K f -> fg_ok m K' f.
Proof.
  intros HK. induction f as [cs c n IH] using fg_ind'. intros Hok.
  destruct (fg_ok_inv Hok) as (N1 & N2 & N3 & N4 & N5). cbn [fg_children fg_node_size fg_children_size] in *.
  constructor; auto. intros k f Hin. destruct (N2 k f Hin) as [Hk Hf]. split; [auto|]. eapply IH; eauto.
Qed.

Lemma fg_ok_any m K f : fg_ok m K f -> fg_ok m any_key f.
Proof. apply fg_ok_mono. unfold any_key; auto. Qed.

Lemma fg_add_default_l m f : fg_ok m made_by_new f ->
  observe m (fg_add m fg_default f) = observe m (Some f).
Proof.
  intros Hok. rewrite fg_add_comm by (auto; apply fg_ok_default).
  rewrite fg_add_default_r by (eapply fg_ok_any; eauto). reflexivity.
Qed.

(** ** Independence of hash iteration order *)
Scheme shuffled_mind := Induction for shuffled Sort Prop
  with shuffled_list_mind := Induction for shuffled_list Sort Prop.
Combined Scheme shuffled_mutind from shuffled_mind, shuffled_list_mind.

Lemma shuffled_facts m K :
  (forall f g, shuffled f g ->
     (forall p, size_at g p = size_at f p) /\ node_sum g = node_sum f /\ (fg_ok m K f -> fg_ok m K g)) /\
  (forall l l', shuffled_list l l' ->
     map fst l' = map fst l /\
     (forall s p, sumN (map (fun kc => if String.eqb (k_str (fst kc)) s then size_at (snd kc) p else 0) l') =
                  sumN (map (fun kc => if String.eqb (k_str (fst kc)) s then size_at (snd kc) p else 0) l)) /\
     sumN (map (fun kc => node_sum (snd kc)) l') = sumN (map (fun kc => node_sum (snd kc)) l) /\
     ((forall k f, In (k, f) l -> K k /\ fg_ok m K f) -> (forall k f, In (k, f) l' -> K k /\ fg_ok m K f))).
Proof.
  apply shuffled_mutind.
  - intros cs cs' cs'' c n Hp _ (Hk & Hsz & Hsm & Hok). split; [|split].
    + intros [|s p]; [reflexivity|]. rewrite !size_at_cons. cbn [fg_children].
      rewrite Hsz. symmetry. apply sumN_perm, Permutation_map, Hp.
    + rewrite !node_sum_eq. cbn [fg_node_size fg_children]. rewrite Hsm. f_equal.
      symmetry. apply sumN_perm, Permutation_map, Hp.
    + intros H. destruct (fg_ok_inv H) as (N1 & N2 & N3 & N4 & N5). cbn [fg_children fg_node_size fg_children_size] in *. constructor; auto.
      * rewrite Hk. eapply Permutation_NoDup; [apply Permutation_map, Hp | auto].
      * apply Hok. intros k f Hin. apply N2. eapply Permutation_in; [symmetry; exact Hp | auto].
      * rewrite Hsm. erewrite sumN_perm; [eassumption|]. symmetry. apply Permutation_map, Hp.
  - simpl. split; [auto|]. split; [auto|]. split; [auto|]. tauto.
  - intros k f g l l' _ (Hsz & Hsm & Hok) _ (Hk' & Hsz' & Hsm' & Hok'). simpl. split; [|split; [|split]].
    + now rewrite Hk'.
    + intros s p. rewrite Hsz, Hsz'. reflexivity.
    + now rewrite Hsm, Hsm'.
    + intros H k1 f1 [E|Hin].
      * inversion E; subst. destruct (H k1 f (or_introl eq_refl)); auto.
      * apply Hok'; auto.
Qed.

Lemma shuffled_observe m f g : fg_ok m made_by_new f -> shuffled f g ->
  fg_write g = fg_write f /\ fg_total_size m g = fg_total_size m f.
Proof.
  intros Hok Hs. destruct (proj1 (shuffled_facts m made_by_new) _ _ Hs) as (Hsz & _ & Hok').
  split.
  - eapply write_ext; [apply Hok'; exact Hok | exact Hok | auto].
  - destruct Hs; reflexivity.
Qed.
