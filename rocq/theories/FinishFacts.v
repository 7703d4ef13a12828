(** * finish(): sizes, graph and warnings. *)
From Coq Require Import Permutation Sorted.
From Coq Require Import DecimalString DecimalN DecimalZ.
From Verif Require Import Base BaseFacts KeyModel KeyFacts HMap FlameModel BuilderModel VisitorModel Spec FlameFacts WriteFacts ArenaFacts RunFacts.

(** ** Literal forms of the loops *)
Lemma update_sizes_eq m fuel id t :
  update_sizes m (S fuel) id t =
  do td <- tree_get t id;
  do t <- us_loop (update_sizes m fuel) (td_children td) t;
  do td <- tree_get t id;
  do cs <- (if td_unique td then Some 0 else do sizes <- get_sizes t (td_children td); usum m 0 sizes);
  Some (upd t id (mkTD (td_size td) (isaturating_sub (as_isize (td_size td)) (as_isize cs))
                    (td_unique td) (td_children td))).
Proof. reflexivity. Qed.

Lemma tree_write_eq m fuel t id stack :
  tree_write m (S fuel) t id stack =
  do tree <- tree_get t id;
  do (f, w) <- tw_node m tree stack;
  tw_loop m (fun c s => tree_write m fuel t c s) stack (sort_by_key (td_children tree)) f w.
Proof. reflexivity. Qed.

Lemma show_Z_N n : show_Z (Z.of_N n) = show_N n.
Proof. destruct n; reflexivity. Qed.

(** Trees equal up to the computed remainder. *)
Definition td_same (a b : tree_data) : Prop :=
  td_size b = td_size a /\ td_unique b = td_unique a /\ td_children b = td_children a.

Lemma td_same_refl t : Forall2 td_same t t.
Proof. induction t; constructor; auto. unfold td_same; auto. Qed.

Lemma td_same_trans t t' t'' : Forall2 td_same t t' -> Forall2 td_same t' t'' -> Forall2 td_same t t''.
Proof.
  intros H; revert t''; induction H as [|a b l l' Hab Hl IH]; intros t'' H'; inversion H'; subst; constructor; auto.
  unfold td_same in *. intuition congruence.
Qed.

Lemma td_same_upd t id td r : nth_error t id = Some td ->
  Forall2 td_same t (upd t id (mkTD (td_size td) r (td_unique td) (td_children td))).
Proof.
  revert id; induction t as [|x t IH]; intros [|id] H; simpl in *; try discriminate.
  - inversion H; subst. constructor; [unfold td_same; auto | apply td_same_refl].
  - constructor; [unfold td_same; auto | auto].
Qed.

Section Prefix.
  Variable A : Type.
  Variable A_dec : forall x y : A, {x = y} + {x <> y}.

  Fixpoint prefixb (p q : list A) : bool :=
    match p, q with
    | [], _ => true
    | a :: p', b :: q' => if A_dec a b then prefixb p' q' else false
    | _ :: _, [] => false
    end.

  Lemma prefixb_iff p q : prefixb p q = true <-> exists r, q = p ++ r.
  Proof.
    revert q; induction p as [|a p IH]; intros q; simpl.
    - split; eauto.
    - destruct q as [|b q]; [split; [discriminate | intros [r E]; discriminate]|].
      destruct (A_dec a b) as [->|Hne].
      + rewrite IH. split; intros [r E]; exists r; [now subst | inversion E; auto].
      + split; [discriminate | intros [r E]; inversion E; congruence].
  Qed.

  Lemma prefixb_app p q r : prefixb (p ++ q) (p ++ r) = prefixb q r.
  Proof. induction p as [|a p IH]; simpl; [reflexivity|]. destruct (A_dec a a); [auto|contradiction]. Qed.
End Prefix.

Section Finish.
  Variable A : Type.
  Variable A_dec : forall x y : A, {x = y} + {x <> y}.
  Variable name : key -> A.
  Variable K : key -> Prop.
  Hypothesis name_inj : forall k k', K k -> K k' -> name k = name k' -> k = k'.
  Variable astr : A -> string.
  Hypothesis astr_name : forall k, astr (name k) = k_str k.

  Notation pth := (list A).
  Notation arena_ok := (arena_ok name K).
  Notation data_ok := (data_ok A_dec).
  Notation declared := (declared A_dec).
  Notation declared_below := (declared_below A_dec).
  Notation unique_at := (unique_at A_dec).
  Notation inline_below := (inline_below A_dec).
  Notation shown := (shown A_dec).
  Notation misdeclared := (misdeclared A_dec).
  Notation binv := (binv A_dec name K).
  Notation prefixb := (prefixb A_dec).

  Lemma Forall2_sym_nth t t' i b : Forall2 td_same t t' -> nth_error t' i = Some b ->
    exists a, nth_error t i = Some a /\ td_same a b.
  Proof. apply Forall2_nth. Qed.

  Lemma arena_same ps t t' : Forall2 td_same t t' -> arena_ok ps t -> arena_ok ps t'.
  Proof.
    intros HF Ha. constructor; try apply Ha.
    - rewrite (ar_len Ha). eapply Forall2_len; eauto.
    - intros i td k j Hi Hin. destruct (Forall2_nth HF Hi) as (td0 & Hi0 & (_ & _ & Hp)).
      rewrite Hp in Hin. eapply ar_child; eauto.
    - intros j p a Hj. destruct (ar_parent Ha Hj) as (i & td & k & Hi & Ht & Hin & E).
      destruct (Forall2_nth' HF Ht) as (td' & Ht' & (_ & _ & Hp)).
      exists i, td', k. rewrite Hp. auto.
    - intros i td Hi. destruct (Forall2_nth HF Hi) as (td0 & Hi0 & (_ & _ & Hp)).
      rewrite Hp. eapply ar_keys; eauto.
  Qed.

  Lemma data_same es ps t t' : Forall2 td_same t t' -> data_ok es ps t -> data_ok es ps t'.
  Proof.
    intros HF Hd. constructor; try apply Hd.
    intros i p td Hp Hi. destruct (Forall2_nth HF Hi) as (td0 & Hi0 & (E1 & E3 & _)).
    rewrite E1, E3. eapply da_size; eauto.
  Qed.

  (** ** Children sums *)
  Lemma children_sum es ps t i td p : arena_ok ps t -> data_ok es ps t ->
    nth_error t i = Some td -> nth_error ps i = Some p ->
    sumN (map (fun kc => declared es (p ++ [name (fst kc)])) (td_children td)) = declared_below es p.
  Proof.
    intros Ha Hd Ht Hp. unfold Spec.declared.
    rewrite (sumN_swap (fun (kc : key * nat) e => if path_dec A_dec (ev_path e) (p ++ [name (fst kc)]) then ev_size e else 0)).
    unfold Spec.declared_below. apply sumN_map_ext. intros e He.
    pose proof (da_nonroot Hd He) as Hnr. pose proof (da_cover Hd He) as Hcov.
    destruct (exists_last Hnr) as (q & a & Eq). unfold child_of. rewrite Eq in *.
    rewrite removelast_last. destruct (q ++ [a]) eqn:Eqa; [contradiction|]. rewrite <- Eqa in *. clear l Eqa a0.
    destruct (path_dec A_dec q p) as [->|Hne].
    - rewrite (sumN_map_ext (g := fun kc : key * nat => if A_dec (name (fst kc)) a then ev_size e else 0)).
      + rewrite (@child_indicator A A_dec name K name_inj ps t i td p a (ev_size e) Ha Ht Hp).
        destruct (in_dec (path_dec A_dec) (p ++ [a]) ps); [reflexivity|contradiction].
      + intros [k c] _. cbn [fst].
        destruct (path_dec A_dec (p ++ [a]) (p ++ [name k])) as [E|E]; destruct (A_dec (name k) a) as [E'|E']; auto; exfalso.
        * apply snoc_inj in E as [_ E]. congruence.
        * apply E. now rewrite E'.
    - apply sumN_map_0. intros [k c] _. cbn [fst].
      destruct (path_dec A_dec (q ++ [a]) (p ++ [name k])) as [E|E]; [|reflexivity].
      apply snoc_inj in E as [E _]. contradiction.
  Qed.

  Lemma declared_below_le es p : declared_below es p <= total_declared es.
  Proof.
    unfold Spec.declared_below, total_declared. apply sumN_map_le. intros e _.
    destruct (child_of A_dec (ev_path e) p); lia.
  Qed.

  Lemma inline_below_le es p : inline_below es p <= total_declared es.
  Proof. unfold Spec.inline_below. destruct (unique_at es p); [lia | apply declared_below_le]. Qed.

  Lemma get_sizes_ok es ps t td p l : arena_ok ps t -> data_ok es ps t ->
    (forall k c, In (k, c) l -> In (k, c) (td_children td)) ->
    forall i, nth_error t i = Some td -> nth_error ps i = Some p ->
    get_sizes t l = Some (map (fun kc => declared es (p ++ [name (fst kc)])) l).
  Proof.
    intros Ha Hd Hsub i Ht Hp. induction l as [|[k c] l IH]; [reflexivity|]. cbn [get_sizes map fst].
    destruct (ar_child Ha Ht (Hsub k c (or_introl eq_refl))) as (_ & _ & p' & Hp' & Hc).
    rewrite Hp in Hp'. inversion Hp'; subst p'.
    destruct (arena_idx Ha Hc) as [tc Htc]. unfold tree_get. rewrite Htc. cbn [obind].
    rewrite IH by (intros; apply Hsub; now right). cbn [obind].
    now destruct (da_size Hd Hc Htc) as [-> _].
  Qed.

  (** ** update_sizes *)
  Definition right (es : list (ev A)) (ps : list pth) (t : trees) (i : nat) : Prop :=
    forall p td, nth_error ps i = Some p -> nth_error t i = Some td ->
      td_rem td = (Z.of_N (declared es p) - Z.of_N (inline_below es p))%Z.

  Definition updated es ps t t' (S : nat -> Prop) : Prop :=
    Forall2 td_same t t' /\ (forall i, right es ps t i -> right es ps t' i) /\ (forall i, S i -> right es ps t' i).

  Lemma us_loop_ok es ps (f : mode -> nat -> trees -> option trees) t0 td i p :
    arena_ok ps t0 -> data_ok es ps t0 -> nth_error t0 i = Some td -> nth_error ps i = Some p ->
    (forall c k t, In (k, c) (td_children td) -> Forall2 td_same t0 t ->
       exists t', (forall m, f m c t = Some t') /\ updated es ps t t' (fun j => exists q, nth_error ps j = Some (p ++ [name k] ++ q))) ->
    forall l, (forall k c, In (k, c) l -> In (k, c) (td_children td)) ->
    forall t, Forall2 td_same t0 t ->
    exists t', (forall m, us_loop (f m) l t = Some t') /\
      updated es ps t t' (fun j => exists k c q, In (k, c) l /\ nth_error ps j = Some (p ++ [name k] ++ q)).
  Proof.
    intros Ha Hd Ht Hp Hf. induction l as [|[k c] l IH]; intros Hsub t Hs; cbn [us_loop].
    - exists t. split; [reflexivity|]. split; [apply td_same_refl|]. split; [auto|].
      intros j (k & c & q & [] & _).
    - destruct (Hf c k t (Hsub _ _ (or_introl eq_refl)) Hs) as (t1 & E1 & Hs1 & Hk1 & Hr1).
      destruct (IH (fun k c H => Hsub k c (or_intror H)) t1 (td_same_trans Hs Hs1)) as (t2 & E2 & Hs2 & Hk2 & Hr2).
      exists t2. split; [intros m; rewrite E1; apply E2|]. split; [eapply td_same_trans; eauto|]. split; [auto|].
      intros j (k' & c' & q & [Hin|Hin] & Hq).
      + inversion Hin; subst. apply Hk2, Hr1. eauto.
      + apply Hr2. eauto 6.
  Qed.

  Lemma update_sizes_ok es ps : total_declared es < two63 -> forall fuel t0 id p,
    arena_ok ps t0 -> data_ok es ps t0 ->
    nth_error ps id = Some p -> (length t0 - id <= fuel)%nat -> forall t, Forall2 td_same t0 t ->
    exists t', (forall m, update_sizes m fuel id t = Some t') /\
      updated es ps t t' (fun j => exists q, nth_error ps j = Some (p ++ q)).
  Proof.
    intros Htot. induction fuel as [|fuel IH]; intros t0 id p Ha Hd Hp Hfuel t Hs.
    { destruct (arena_idx Ha Hp) as [td Ht]. apply nth_error_lt in Ht. lia. }
    destruct (arena_idx Ha Hp) as [td0 Ht0].
    destruct (Forall2_nth' Hs Ht0) as (td & Ht & _).
    pose proof (arena_same Hs Ha) as Ha1. pose proof (data_same Hs Hd) as Hd1.
    destruct (@us_loop_ok es ps (fun m => update_sizes m fuel) t td id p Ha1 Hd1 Ht Hp) with (l := td_children td) (t := t)
      as (t1 & E1 & Hs1 & Hk1 & Hr1); auto.
    { intros c k t1 Hin Hs1. destruct (ar_child Ha1 Ht Hin) as (_ & Hlt & p' & Hp' & Hc).
      rewrite Hp in Hp'. inversion Hp'; subst p'.
      destruct (IH t c (p ++ [name k]) Ha1 Hd1 Hc) with (t := t1) as (t2 & E2 & H2); auto.
      - rewrite <- (Forall2_len Hs). lia.
      - exists t2. split; [auto|]. destruct H2 as (? & ? & Hr). split; [auto|]. split; [auto|].
        intros j (q & Hq). apply Hr. exists q. now rewrite <- app_assoc. }
    { apply td_same_refl. }
    destruct (Forall2_nth' Hs1 Ht) as (td1 & Ht1 & (Es & Eu & Ec)).
    pose proof (arena_same Hs1 Ha1) as Ha2. pose proof (data_same Hs1 Hd1) as Hd2.
    destruct (da_size Hd2 Hp Ht1) as [Hsz Hun].
    assert (Hcs : forall m, (if td_unique td1 then Some 0
                   else do sizes <- get_sizes t1 (td_children td1); usum m 0 sizes) = Some (inline_below es p)).
    { intros m. unfold Spec.inline_below. rewrite Hun. destruct (unique_at es p); [reflexivity|].
      rewrite (@get_sizes_ok es ps t1 td1 p (td_children td1) Ha2 Hd2 (fun k c H => H) id Ht1 Hp). cbn [obind].
      rewrite usum_exact.
      - now rewrite (@children_sum es ps t1 id td1 p).
      - rewrite (@children_sum es ps t1 id td1 p) by auto.
        pose proof (@declared_below_le es p). pose proof two63_lt_two64. lia. }
    eexists. split.
    { intros m. rewrite update_sizes_eq. unfold tree_get. rewrite Ht. cbn [obind]. rewrite E1. cbn [obind].
      rewrite Ht1. cbn [obind]. rewrite Hcs. cbn [obind]. reflexivity. }
    assert (Hnew : right es ps (upd t1 id (mkTD (td_size td1) (isaturating_sub (as_isize (td_size td1)) (as_isize (inline_below es p))) (td_unique td1) (td_children td1))) id).
    { intros p' td' Hp' Ht'. rewrite Hp in Hp'. inversion Hp'; subst p'.
      rewrite nth_upd, Nat.eqb_refl in Ht' by (eapply nth_error_lt; eauto). inversion Ht'; subst td'. cbn [td_rem].
      pose proof (@declared_le_total A A_dec es p). pose proof (@inline_below_le es p).
      rewrite Hsz, !as_isize_small by lia. apply isat_small; lia. }
    split; [|split].
    - eapply td_same_trans; [exact Hs1|]. now apply td_same_upd.
    - intros i Hi. destruct (Nat.eq_dec id i) as [<-|Hne]; [exact Hnew|].
      intros p' td' Hp' Ht'. rewrite nth_upd in Ht' by (eapply nth_error_lt; eauto).
      apply Nat.eqb_neq in Hne. rewrite Hne in Ht'. eapply Hk1; eauto.
    - intros j (q & Hq). destruct (Nat.eq_dec id j) as [<-|Hne]; [exact Hnew|].
      intros p' td' Hp' Ht'. rewrite nth_upd in Ht' by (eapply nth_error_lt; eauto).
      pose proof Hne as Hne'. apply Nat.eqb_neq in Hne. rewrite Hne in Ht'. eapply Hr1; eauto.
      destruct q as [|a q].
      { exfalso. apply Hne'. rewrite app_nil_r in Hq. eapply NoDup_nth_inj; eauto using ar_nodup. }
      assert (Hin : In (p ++ [a]) ps).
      { apply (arena_prefix Ha2 (q := q)). rewrite <- app_assoc. simpl. eapply nth_error_In; eauto. }
      apply In_nth_error in Hin as [c Hc].
      destruct (ar_parent Ha1 Hc) as (i' & td'' & k & Hi' & Ht'' & Hin & E).
      assert (i' = id) by (eapply NoDup_nth_inj; eauto using ar_nodup). subst i'.
      rewrite Ht in Ht''. inversion Ht''; subst td''.
      exists k, c, q. split; [auto|]. now rewrite E.
  Qed.

  (** ** Sums over paths *)
  Definition below (es : list (ev A)) (ps : list pth) (p : pth) : N :=
    sumN (map (fun q => if prefixb p q then shown es q else 0) ps).

  Lemma below_split es ps t i td p : arena_ok ps t -> nth_error t i = Some td -> nth_error ps i = Some p ->
    below es ps p = shown es p + sumN (map (fun kc => below es ps (p ++ [name (fst kc)])) (td_children td)).
  Proof.
    intros Ha Ht Hp. unfold below.
    rewrite (sumN_swap (fun (kc : key * nat) q => if prefixb (p ++ [name (fst kc)]) q then shown es q else 0)).
    assert (Hone : shown es p = sumN (map (fun q => if path_dec A_dec q p then shown es p else 0) ps)).
    { rewrite (@sumN_indicator _ (path_dec A_dec) p (shown es p) ps) by apply Ha.
      destruct (in_dec (path_dec A_dec) p ps) as [|n]; [reflexivity|]. exfalso. apply n. eapply nth_error_In; eauto. }
    rewrite Hone, <- sumN_map_add. apply sumN_map_ext. intros q Hq.
    destruct (prefixb p q) eqn:Epre.
    - apply prefixb_iff in Epre as [r ->]. destruct r as [|a r].
      + rewrite app_nil_r. destruct (path_dec A_dec p p) as [_|n]; [|contradiction].
        rewrite sumN_map_0; [lia|]. intros [k c] _. cbn [fst].
        replace p with (p ++ []) at 2 by apply app_nil_r. now rewrite prefixb_app.
      + destruct (path_dec A_dec (p ++ a :: r) p) as [E|_].
        { exfalso. rewrite <- (app_nil_r p) in E at 2. apply app_inv_head in E. discriminate. }
        rewrite (sumN_map_ext (g := fun kc : key * nat => if A_dec (name (fst kc)) a then shown es (p ++ a :: r) else 0)).
        * rewrite (@child_indicator A A_dec name K name_inj ps t i td p a _ Ha Ht Hp).
          destruct (in_dec (path_dec A_dec) (p ++ [a]) ps) as [|n]; [lia|]. exfalso. apply n.
          apply (arena_prefix Ha (q := r)). now rewrite <- app_assoc.
        * intros [k c] _. cbn [fst]. rewrite prefixb_app. cbn [FinishFacts.prefixb].
          destruct (A_dec (name k) a); reflexivity.
    - destruct (path_dec A_dec q p) as [->|_].
      { exfalso. rewrite (proj2 (prefixb_iff A_dec p p)) in Epre; [discriminate | exists []; now rewrite app_nil_r]. }
      rewrite sumN_map_0; [lia|]. intros [k c] _. cbn [fst].
      destruct (prefixb (p ++ [name k]) q) eqn:E; [|reflexivity]. exfalso.
      apply prefixb_iff in E as [r ->]. rewrite (proj2 (prefixb_iff A_dec p _)) in Epre; [discriminate|].
      rewrite <- app_assoc. eauto.
  Qed.

  Lemma shown_le es p : shown es p <= declared es p.
  Proof. unfold Spec.shown. destruct p; lia. Qed.

  Lemma declared_total es ps t : arena_ok ps t -> data_ok es ps t ->
    sumN (map (declared es) ps) = total_declared es.
  Proof.
    intros Ha Hd. unfold Spec.declared, total_declared.
    rewrite (sumN_swap (fun p e => if path_dec A_dec (ev_path e) p then ev_size e else 0)).
    apply sumN_map_ext. intros e He.
    rewrite (sumN_map_ext (g := fun p => if path_dec A_dec p (ev_path e) then ev_size e else 0)).
    - rewrite (@sumN_indicator _ (path_dec A_dec)) by apply Ha.
      destruct (in_dec (path_dec A_dec) (ev_path e) ps) as [|n]; [reflexivity|]. exfalso. apply n.
      eapply da_cover; eauto.
    - intros p _. destruct (path_dec A_dec (ev_path e) p), (path_dec A_dec p (ev_path e)); congruence.
  Qed.

  Lemma below_le es ps t p : arena_ok ps t -> data_ok es ps t -> below es ps p <= total_declared es.
  Proof.
    intros Ha Hd. rewrite <- (declared_total Ha Hd). unfold below. apply sumN_map_le. intros q _.
    pose proof (@shown_le es q). destruct (prefixb p q); lia.
  Qed.

  (** ** tree_write (debug mode; release follows) *)
  Definition wline (es : list (ev A)) (p : pth) : string :=
    warning_line (map astr p) (declared es p) (Z.of_N (inline_below es p)).

  Definition astr_ok : Prop := forall a b, astr a = astr b -> a = b.

  Lemma tw_node_ok es ps t i td p : arena_ok ps t -> data_ok es ps t -> total_declared es < two63 ->
    right es ps t i -> nth_error t i = Some td -> nth_error ps i = Some p ->
    exists L, tw_node Debug td (map astr p) = Some (FG [] 0 (shown es p), concat_str (map (wline es) L)) /\
      ((L = [] /\ ~ misdeclared es p) \/ (L = [p] /\ misdeclared es p)).
  Proof.
    intros Ha Hd Htot Hr Ht Hp. unfold tw_node. rewrite (Hr _ _ Hp Ht).
    destruct (da_size Hd Hp Ht) as [Hsz _].
    pose proof (@declared_le_total A A_dec es p). pose proof (@inline_below_le es p).
    destruct (Z.ltb_spec 0 (Z.of_N (declared es p) - Z.of_N (inline_below es p))) as [Hlt|Hge].
    - exists []. destruct p as [|a p]; cbn [map].
      + split; [reflexivity|]. left. split; [auto|]. unfold Spec.misdeclared. tauto.
      + split.
        * do 3 f_equal. unfold Spec.shown. lia.
        * left. split; [auto|]. unfold Spec.misdeclared. lia.
    - destruct (Z.ltb_spec (Z.of_N (declared es p) - Z.of_N (inline_below es p)) 0) as [Hneg|Hpos].
      + destruct p as [|a p].
        * exists []. cbn. split; [reflexivity|]. left. split; [auto|]. unfold Spec.misdeclared. tauto.
        * exists [a :: p]. cbn [andb negb map]. unfold inline_children_size.
          rewrite (Hr _ _ Hp Ht), Hsz, as_isize_small by lia.
          rewrite isub_exact.
          -- cbn [obind]. split.
             ++ f_equal. f_equal.
                ** unfold fg_default. f_equal. unfold Spec.shown. lia.
                ** cbn [map concat_str]. rewrite str_app_nil_r. unfold wline. cbn [map]. f_equal. lia.
             ++ right. split; [auto|]. unfold Spec.misdeclared. split; [discriminate | lia].
          -- unfold isize_min, isize_max. lia.
      + exists []. cbn [andb]. split.
        * unfold fg_default. do 3 f_equal. unfold Spec.shown. destruct p; lia.
        * left. split; [auto|]. unfold Spec.misdeclared. lia.
  Qed.

  (** What writing the subtree at path [p] returns. *)
  Record written (es : list (ev A)) (ps : list pth) (p : pth) (f : fg) (w : string) (L : list pth) : Prop := {
    wr_ok : fg_ok Debug K f;
    wr_sum : node_sum f = below es ps p;
    wr_size : astr_ok -> forall q, size_at f (map astr q) = shown es (p ++ q);
    wr_warn : w = concat_str (map (wline es) L);
    wr_in : forall q, In q L <-> In q ps /\ misdeclared es q /\ exists r, q = p ++ r;
    wr_sorted : (forall k k', K k -> K k' -> k_str k = k_str k' -> k = k') ->
      StronglySorted path_lt (map (map astr) L);
  }.

  Lemma shown_absent es ps t p : arena_ok ps t -> data_ok es ps t -> ~ In p ps -> shown es p = 0.
  Proof.
    intros Ha Hd Hno. pose proof (@shown_le es p). rewrite (@declared_absent A A_dec es p) in H; [lia|].
    intros e He E. apply Hno. rewrite <- E. eapply da_cover; eauto.
  Qed.

  Lemma path_lt_app p q r : path_lt (p ++ q) (p ++ r) <-> path_lt q r.
  Proof. induction p as [|a p IH]; simpl; [tauto|]. now rewrite path_lt_cons. Qed.

  Lemma tw_loop_ok es ps t g td p i : arena_ok ps t -> data_ok es ps t -> total_declared es < two63 ->
    nth_error t i = Some td -> nth_error ps i = Some p ->
    (forall k c, In (k, c) (td_children td) ->
       exists f w L, g c (map astr p ++ [k_str k]) = Some (f, w) /\ written es ps (p ++ [name k]) f w L) ->
    forall l, (forall k c, In (k, c) l -> In (k, c) (td_children td)) ->
    forall f w, fg_ok Debug K f ->
    node_sum f + sumN (map (fun kc => below es ps (p ++ [name (fst kc)])) l) < two64 ->
    exists f' w' L, tw_loop Debug g (map astr p) l f w = Some (f', (w ++ w')%string) /\
      fg_ok Debug K f' /\
      node_sum f' = node_sum f + sumN (map (fun kc => below es ps (p ++ [name (fst kc)])) l) /\
      (astr_ok -> forall q, size_at f' (map astr q) = size_at f (map astr q) +
         sumN (map (fun kc => match q with [] => 0 | a :: q' => if A_dec (name (fst kc)) a then shown es (p ++ [a] ++ q') else 0 end) l)) /\
      w' = concat_str (map (wline es) L) /\
      (forall q, In q L <-> In q ps /\ misdeclared es q /\ exists k c r, In (k, c) l /\ q = p ++ [name k] ++ r) /\
      ((forall k k', K k -> K k' -> k_str k = k_str k' -> k = k') -> StronglySorted klt l ->
        StronglySorted path_lt (map (map astr) L)).
  Proof.
    intros Ha Hd Htot Ht Hp Hg. induction l as [|[k c] l IH]; intros Hsub f w Hf Hbound; cbn [tw_loop map sumN fst] in *.
    - exists f, ""%string, []. rewrite str_app_nil_r. split; [reflexivity|]. split; [auto|].
      split; [lia|]. split; [intros; lia|]. split; [reflexivity|]. split; [|constructor].
      intros q. split; [intros [] | intros (_ & _ & k & c & r & [] & _)].
    - destruct (Hg k c (Hsub _ _ (or_introl eq_refl))) as (cf & cw & Lc & Eg & Hw).
      unfold key_deref. rewrite Eg. cbn [obind].
      assert (HKk : K k) by apply (ar_child Ha Ht (Hsub _ _ (or_introl eq_refl))).
      destruct (@fg_add_child_fits Debug K f k cf Hf (wr_ok Hw)) as [f1 E1]; [rewrite (wr_sum Hw); lia|].
      rewrite E1. cbn [obind].
      destruct (fg_add_child_spec Hf HKk (wr_ok Hw) E1) as [Hf1 Hsz1 Hsm1]. cbn [wrapeq] in Hsz1, Hsm1.
      rewrite (wr_sum Hw) in Hsm1.
      destruct (IH (fun k c H => Hsub k c (or_intror H)) f1 (w ++ cw)%string Hf1) as
        (f2 & w2 & L2 & E2 & Hf2 & Hsm2 & Hsz2 & Hw2 & Hin2 & Hsort2).
      { rewrite Hsm1. lia. }
      exists f2, (cw ++ w2)%string, (Lc ++ L2).
      rewrite E2, str_app_assoc. split; [reflexivity|]. split; [auto|]. split; [rewrite Hsm2, Hsm1; lia|].
      split; [|split; [|split]].
      + intros Hinj q. rewrite (Hsz2 Hinj), Hsz1. rewrite <- N.add_assoc. f_equal.
        destruct q as [|a q]; cbn [map child_at]; [lia|]. f_equal.
        rewrite <- astr_name. destruct (A_dec (name k) a) as [<-|Hne].
        * rewrite String.eqb_refl, (wr_size Hw Hinj). now rewrite <- app_assoc.
        * destruct (String.eqb_spec (astr (name k)) (astr a)) as [E|_]; [|reflexivity].
          apply Hinj in E. contradiction.
      + now rewrite map_app, concat_str_app, <- Hw2, <- (wr_warn Hw).
      + intros q. rewrite in_app_iff, (wr_in Hw), Hin2. split.
        * intros [(H1 & H2 & r & ->)|(H1 & H2 & k' & c' & r & Hin & ->)]; (split; [auto|]; split; [auto|]).
          -- exists k, c, r. split; [now left|]. now rewrite <- app_assoc.
          -- exists k', c', r. split; [now right | auto].
        * intros (H1 & H2 & k' & c' & r & [Hin|Hin] & ->).
          -- inversion Hin; subst. left. split; [auto|]. split; [auto|]. exists r. now rewrite <- app_assoc.
          -- right. split; [auto|]. split; [auto|]. eauto 6.
      + intros Hinj Hss. inversion Hss as [|? ? Hl Hx]; subst. rewrite map_app. apply ssorted_app; auto.
        * apply (wr_sorted Hw Hinj).
        * intros x y Hx1 Hy1. apply in_map_iff in Hx1 as (q1 & <- & Hq1). apply in_map_iff in Hy1 as (q2 & <- & Hq2).
          apply (wr_in Hw) in Hq1 as (_ & _ & r1 & ->). apply Hin2 in Hq2 as (_ & _ & k' & c' & r2 & Hin & ->).
          rewrite !map_app. rewrite <- app_assoc. apply path_lt_app. cbn. apply path_lt_head.
          rewrite !astr_name. rewrite Forall_forall in Hx. apply (Hx (k', c') Hin).
  Qed.

  Lemma tree_write_ok es ps t : arena_ok ps t -> data_ok es ps t -> total_declared es < two63 ->
    (forall i, right es ps t i) -> forall fuel id p, nth_error ps id = Some p -> (length t - id <= fuel)%nat ->
    exists f w L, tree_write Debug fuel t id (map astr p) = Some (f, w) /\ written es ps p f w L.
  Proof.
    intros Ha Hd Htot Hr. induction fuel as [|fuel IH]; intros id p Hp Hfuel.
    { destruct (arena_idx Ha Hp) as [td Ht]. apply nth_error_lt in Ht. lia. }
    destruct (arena_idx Ha Hp) as [td Ht].
    rewrite tree_write_eq. unfold tree_get. rewrite Ht. cbn [obind].
    destruct (tw_node_ok Ha Hd Htot (Hr id) Ht Hp) as (L0 & E0 & HL0). rewrite E0. cbn [obind].
    assert (Hperm : forall k c, In (k, c) (sort_by_key (td_children td)) <-> In (k, c) (td_children td)).
    { intros k c. split; apply Permutation_in; [apply sort_perm | symmetry; apply sort_perm]. }
    assert (Hsplit := @below_split es ps t id td p Ha Ht Hp).
    assert (Hsort : sumN (map (fun kc => below es ps (p ++ [name (fst kc)])) (sort_by_key (td_children td))) =
                    sumN (map (fun kc => below es ps (p ++ [name (fst kc)])) (td_children td))).
    { apply sumN_perm, Permutation_map, sort_perm. }
    pose proof (@below_le es ps t p Ha Hd) as Hle. pose proof two63_lt_two64 as H6364.
    assert (Hshow : shown es p < two64).
    { pose proof (@shown_le es p). pose proof (@declared_le_total A A_dec es p). lia. }
    assert (Hf0 : fg_ok Debug K (FG [] 0 (shown es p))).
    { constructor; simpl; auto; first [now constructor | now intros k f [] | apply two64_pos]. }
    assert (Hs0 : node_sum (FG [] 0 (shown es p)) = shown es p) by (simpl; lia).
    destruct (@tw_loop_ok es ps t (fun c s => tree_write Debug fuel t c s) td p id Ha Hd Htot Ht Hp) with
      (l := sort_by_key (td_children td)) (f := FG [] 0 (shown es p)) (w := concat_str (map (wline es) L0))
      as (f & w & L & E & Hf & Hsm & Hsz & Hw & Hin & Hss); auto.
    { intros k c Hin. destruct (ar_child Ha Ht Hin) as (_ & Hlt & p' & Hp' & Hc).
      rewrite Hp in Hp'. inversion Hp'; subst p'.
      destruct (IH c (p ++ [name k]) Hc) as (f & w & L & E & Hw); [lia|].
      exists f, w, L. split; [|auto]. rewrite map_app in E. cbn [map] in E. now rewrite astr_name in E. }
    { intros k c. apply Hperm. }
    { rewrite Hs0, Hsort, <- Hsplit. lia. }
    exists f, (concat_str (map (wline es) L0) ++ w)%string, (L0 ++ L). split; [exact E|]. split.
    - exact Hf.
    - rewrite Hsm, Hs0, Hsort. auto.
    - intros Hinj q. rewrite (Hsz Hinj). destruct q as [|a q].
      + cbn [map size_at fg_node_size]. rewrite sumN_map_0 by reflexivity. rewrite app_nil_r. lia.
      + cbn [map]. rewrite size_at_cons. cbn [fg_children map sumN].
        rewrite (sumN_perm (Permutation_map _ (sort_perm (td_children td)))).
        rewrite (@child_indicator A A_dec name K name_inj ps t id td p a _ Ha Ht Hp).
        destruct (in_dec (path_dec A_dec) (p ++ [a]) ps) as [Hyes|Hno]; [reflexivity|].
        symmetry. apply (@shown_absent es ps t _ Ha Hd). intros Hq. apply Hno.
        apply (arena_prefix Ha (q := q)). now rewrite <- app_assoc.
    - now rewrite Hw, map_app, concat_str_app.
    - intros q. rewrite in_app_iff, Hin. split.
      + intros [H|(H1 & H2 & k & c & r & _ & ->)].
        * destruct HL0 as [[-> _]|[-> Hm]]; [destruct H|]. destruct H as [<-|[]].
          split; [eapply nth_error_In; eauto|]. split; [auto|]. exists []. now rewrite app_nil_r.
        * split; [auto|]. split; [auto|]. eauto.
      + intros (H1 & H2 & r & ->). destruct r as [|a r].
        * left. rewrite app_nil_r in *. destruct HL0 as [[-> Hm]|[-> Hm]]; [contradiction | now left].
        * right. split; [auto|]. split; [auto|].
          assert (Hin' : In (p ++ [a]) ps) by (apply (arena_prefix Ha (q := r)); now rewrite <- app_assoc).
          apply In_nth_error in Hin' as [c Hc].
          destruct (ar_parent Ha Hc) as (i' & td'' & k & Hi' & Ht'' & Hin'' & E'').
          assert (i' = id) by (eapply NoDup_nth_inj; eauto using ar_nodup). subst i'.
          rewrite Ht in Ht''. inversion Ht''; subst td''.
          exists k, c, r. split; [now apply Hperm|]. now rewrite E''.
    - intros Hinj. rewrite map_app. apply ssorted_app.
      + destruct HL0 as [[-> _]|[-> _]]; cbn; repeat constructor.
      + apply Hss; auto. apply sort_sorted.
        pose proof (ar_keys Ha Ht) as Hnd.
        assert (HK : forall k j, In (k, j) (td_children td) -> K k).
        { intros k j H. apply (ar_child Ha Ht H). }
        revert Hnd HK. generalize (td_children td) as l. clear - Hinj.
        induction l as [|[k j] l IHl]; simpl; intros Hnd HK; [constructor|].
        inversion Hnd as [|? ? Hx Hl]; subst. constructor.
        * intros Hin. apply in_map_iff in Hin as ([k' j'] & E & Hin). simpl in E. apply Hx.
          assert (k' = k) by (apply Hinj; eauto). subst. apply (in_map fst) in Hin. exact Hin.
        * apply IHl; eauto.
      + intros x y Hx Hy. apply in_map_iff in Hx as (q1 & <- & Hq1). apply in_map_iff in Hy as (q2 & <- & Hq2).
        apply Hin in Hq2 as (_ & _ & k & c & r & _ & ->).
        destruct HL0 as [[-> _]|[-> _]]; [destruct Hq1|]. destruct Hq1 as [<-|[]].
        rewrite map_app. rewrite <- (app_nil_r (map astr p)) at 1. apply path_lt_app. reflexivity.
  Qed.

  (** ** Release mode computes the same *)
  Lemma tw_loop_release g g' stack l : (forall c s r, g c s = Some r -> g' c s = Some r) ->
    forall f w r, tw_loop Debug g stack l f w = Some r -> tw_loop Release g' stack l f w = Some r.
  Proof.
    intros Hg. induction l as [|[k c] l IH]; intros f w r; cbn [tw_loop]; [auto|].
    destruct (g c (stack ++ [key_deref k])) as [[cf cw]|] eqn:E; [|discriminate]. rewrite (Hg _ _ _ E). cbn [obind].
    destruct (fg_add_child Debug f k cf) as [f1|] eqn:E1; [|discriminate]. cbn [obind].
    rewrite (@fg_add_child_debug_release f k cf f1); [cbn [obind]; apply IH | apply fg_add_debug_release | auto].
  Qed.

  Lemma isub_debug_release a b c : isub Debug a b = Some c -> isub Release a b = Some c.
  Proof. unfold isub. destruct ((isize_min <=? a - b) && (a - b <=? isize_max))%Z; [auto|discriminate]. Qed.

  Lemma tree_write_release t fuel : forall id stack r,
    tree_write Debug fuel t id stack = Some r -> tree_write Release fuel t id stack = Some r.
  Proof.
    induction fuel as [|fuel IH]; intros id stack r; [discriminate|]. rewrite !tree_write_eq.
    destruct (tree_get t id) as [td|]; [|discriminate]. cbn [obind].
    destruct (tw_node Debug td stack) as [[f w]|] eqn:E; [|discriminate]. cbn [obind].
    assert (E' : tw_node Release td stack = Some (f, w)).
    { revert E. unfold tw_node, inline_children_size. destruct (0 <? td_rem td)%Z; [auto|].
      destruct ((td_rem td <? 0)%Z && negb match stack with [] => true | _ => false end); [|auto].
      destruct (isub Debug (as_isize (td_size td)) (td_rem td)) as [ic|] eqn:Ei; [|discriminate].
      now rewrite (isub_debug_release Ei). }
    rewrite E'. cbn [obind]. apply tw_loop_release. intros c s r'. apply IH.
  Qed.

  (** ** finish *)
  Lemma finish_ok es ps b : binv es ps b -> idle b -> total_declared es < two63 ->
    exists f w L, (forall m, finish m b = Some (mkOut f w)) /\ written es ps [] f w L.
  Proof.
    intros [Ha Hd Hr _] (Hc & Hs & He) Htot. unfold finish, finish_impl. rewrite Hs, Hc, He. cbn [ts_stack].
    rewrite Hr.
    destruct (@update_sizes_ok es ps Htot (S (length (b_trees b))) (b_trees b) 0%nat [] Ha Hd (ar_root Ha))
      with (t := b_trees b) as (t & E & Hsame & Hkeep & Hright); [lia | apply td_same_refl|].
    destruct (@tree_write_ok es ps t (arena_same Hsame Ha) (data_same Hsame Hd) Htot) with
      (fuel := S (length t)) (id := 0%nat) (p := @nil A) as (f & w & L & E' & Hw).
    - intros i. destruct (nth_error ps i) as [p|] eqn:Ep.
      + apply Hright. eauto.
      + intros p td Hp. congruence.
    - apply Ha.
    - lia.
    - exists f, w, L. split; [|auto]. cbn [map] in E'. intros m. rewrite E. cbn [obind]. destruct m; [rewrite E' | rewrite (tree_write_release E')]; reflexivity.
  Qed.
End Finish.
