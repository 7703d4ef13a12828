(** * finish() for any sizes (the counterpart of FinishFacts.v without a bound
    on the declared bytes). *)
From Coq Require Import Permutation Sorted.
From Verif Require Import Base BaseFacts KeyModel KeyFacts HMap FlameModel BuilderModel VisitorModel Spec FlameFacts WriteFacts ArenaFacts RunFacts FinishFacts WrapSpec WrapRun.

Lemma low64_eq n : low64 n = n mod two64.
Proof. reflexivity. Qed.

Lemma low64_lt n : low64 n < two64.
Proof. rewrite low64_eq. apply N.mod_lt. discriminate. Qed.

Lemma as_isize_low n : as_isize (n mod two64) = signed64 n.
Proof. unfold as_isize, signed64. rewrite low64_eq. reflexivity. Qed.

Lemma isat_clamp a b : isaturating_sub a b = clamp64 (a - b).
Proof.
  unfold isaturating_sub, clamp64, isize_min, isize_max. change (Z.of_N two63) with (2 ^ 63)%Z.
  destruct (Z.ltb_spec (a - b) (- 2 ^ 63)); [lia|]. destruct (Z.leb_spec (2 ^ 63) (a - b)); lia.
Qed.

Lemma signed64_range n : (- 2 ^ 63 <= signed64 n < 2 ^ 63)%Z.
Proof.
  unfold signed64. pose proof (low64_lt n). assert (two64 = 2 ^ 64) by reflexivity.
  destruct (N.ltb_spec (low64 n) (2 ^ 63)); lia.
Qed.

Lemma clamp64_range z : (- 2 ^ 63 <= clamp64 z < 2 ^ 63)%Z.
Proof. unfold clamp64. destruct (Z.ltb_spec z (- 2 ^ 63)); [lia|]. destruct (Z.leb_spec (2 ^ 63) z); lia. Qed.

(** What the warning quotes never overflows. *)
Lemma shortfall_range a b : (- 2 ^ 63 <= a < 2 ^ 63)%Z -> (- 2 ^ 63 <= b < 2 ^ 63)%Z -> (clamp64 (a - b) < 0)%Z ->
  (- 2 ^ 63 <= a - clamp64 (a - b) < 2 ^ 63)%Z.
Proof. unfold clamp64. destruct (Z.ltb_spec (a - b) (- 2 ^ 63)); [lia|]. destruct (Z.leb_spec (2 ^ 63) (a - b)); lia. Qed.

Lemma usum_release l : forall a, usum Release (a mod two64) l = Some ((a + sumN l) mod two64).
Proof.
  induction l as [|x l IH]; intros a; cbn [usum sumN].
  - now rewrite N.add_0_r.
  - rewrite uadd_release. cbn [obind]. rewrite N.add_mod_idemp_l by discriminate. rewrite IH. now rewrite N.add_assoc.
Qed.

Lemma usum_fit m l : (m = Debug -> sumN l < two64) -> usum m 0 l = Some (sumN l mod two64).
Proof.
  intros H. destruct m.
  - specialize (H eq_refl). rewrite usum_exact by lia. now rewrite N.mod_small by lia.
  - change 0 with (0 mod two64) at 1. now rewrite usum_release.
Qed.

Lemma usum_debug_some l : forall a r, usum Debug a l = Some r -> a < two64 -> a + sumN l < two64.
Proof.
  induction l as [|x l IH]; intros a r; cbn [usum sumN]; [rewrite N.add_0_r; auto|].
  destruct (uadd Debug a x) as [c|] eqn:E; [|discriminate]. cbn [obind]. apply uadd_debug_some in E as [-> Hlt].
  intros H _. apply IH in H; [|exact Hlt]. lia.
Qed.

Lemma sumN_mods_le {X} (g : X -> N) l : sumN (map (fun x => g x mod two64) l) <= sumN (map g l).
Proof. apply sumN_map_le. intros x _. apply N.mod_le. discriminate. Qed.

Lemma sumN_mods {X} (g : X -> N) l : sumN (map (fun x => g x mod two64) l) mod two64 = sumN (map g l) mod two64.
Proof.
  induction l as [|x l IH]; [reflexivity|]. cbn [map sumN].
  rewrite N.add_mod, IH, N.mod_mod, <- N.add_mod by discriminate. reflexivity.
Qed.

Lemma modes m : m = Debug \/ m = Release.
Proof. destruct m; auto. Qed.

Section WrapFinish.
  Variable A : Type.
  Variable A_dec : forall x y : A, {x = y} + {x <> y}.
  Variable name : key -> A.
  Variable K : key -> Prop.
  Hypothesis name_inj : forall k k', K k -> K k' -> name k = name k' -> k = k'.
  Variable astr : A -> string.
  Hypothesis astr_name : forall k, astr (name k) = k_str k.

  Notation pth := (list A).
  Notation arena_ok := (arena_ok name K).
  Notation data_w := (data_w A_dec).
  Notation own := (own_wrapped A_dec).
  Notation declared := (declared A_dec).
  Notation declared_below := (declared_below A_dec).
  Notation unique_at := (unique_at A_dec).
  Notation inline_below := (inline_below A_dec).
  Notation shown := (shown_wrapped A_dec).
  Notation misdeclared := (flagged_wrapped A_dec).
  Notation winv := (winv A_dec name K).
  Notation astr_ok := (astr_ok astr).
  Notation prefixb := (prefixb A_dec).

  Variable m : mode.

  Lemma wdata_same es ps t t' : Forall2 td_same t t' -> data_w es ps t -> data_w es ps t'.
  Proof.
    intros HF Hd. constructor; try apply Hd.
    intros i p td Hp Hi. destruct (Forall2_nth HF Hi) as (td0 & Hi0 & (E1 & E3 & _)).
    rewrite E1, E3. eapply dw_size; eauto.
  Qed.

  (** ** Children sums *)
  Lemma wchildren_sum es ps t i td p : arena_ok ps t -> data_w es ps t ->
    nth_error t i = Some td -> nth_error ps i = Some p ->
    sumN (map (fun kc => declared es (p ++ [name (fst kc)])) (td_children td)) = declared_below es p.
  Proof.
    intros Ha Hd Ht Hp. unfold Spec.declared.
    rewrite (sumN_swap (fun (kc : key * nat) e => if path_dec A_dec (ev_path e) (p ++ [name (fst kc)]) then ev_size e else 0)).
    unfold Spec.declared_below. apply sumN_map_ext. intros e He.
    pose proof (dw_nonroot Hd He) as Hnr. pose proof (dw_cover Hd He) as Hcov.
    destruct (exists_last Hnr) as (q & a & Eq). unfold child_of. rewrite Eq in *.
    rewrite removelast_last. destruct (q ++ [a]) eqn:Eqa; [contradiction|]. rewrite <- Eqa in *. clear l Eqa a0.
    destruct (path_dec A_dec q p) as [->|Hne].
    - rewrite (sumN_map_ext (g := fun kc : key * nat => if A_dec (name (fst kc)) a then ev_size e else 0)).
      + rewrite (@child_indicator A A_dec name K name_inj ps t i td p a (ev_size e) Ha Ht Hp).
        destruct (in_dec (path_dec A_dec) (p ++ [a]) ps); [reflexivity|contradiction].
      + intros [k c] _. cbn [fst].
        destruct (path_dec A_dec (p ++ [a]) (p ++ [name k])) as [E|E]; destruct (A_dec (name k) a) as [E'|E']; auto; exfalso.
        * apply snoc_inj in E as [_ E]. congruence.
        * apply E. now rewrite E'.
    - apply sumN_map_0. intros [k c] _. cbn [fst].
      destruct (path_dec A_dec (q ++ [a]) (p ++ [name k])) as [E|E]; [|reflexivity].
      apply snoc_inj in E as [E _]. contradiction.
  Qed.

  Lemma wget_sizes_ok es ps t td p l : arena_ok ps t -> data_w es ps t ->
    (forall k c, In (k, c) l -> In (k, c) (td_children td)) ->
    forall i, nth_error t i = Some td -> nth_error ps i = Some p ->
    get_sizes t l = Some (map (fun kc => declared es (p ++ [name (fst kc)]) mod two64) l).
  Proof.
    intros Ha Hd Hsub i Ht Hp. induction l as [|[k c] l IH]; [reflexivity|]. cbn [get_sizes map fst].
    destruct (ar_child Ha Ht (Hsub k c (or_introl eq_refl))) as (_ & _ & p' & Hp' & Hc).
    rewrite Hp in Hp'. inversion Hp'; subst p'.
    destruct (arena_idx Ha Hc) as [tc Htc]. unfold tree_get. rewrite Htc. cbn [obind].
    rewrite IH by (intros; apply Hsub; now right). cbn [obind].
    now destruct (dw_size Hd Hc Htc) as [-> _].
  Qed.

  (** ** update_sizes *)
  Definition wright (es : list (ev A)) (ps : list pth) (t : trees) (i : nat) : Prop :=
    forall p td, nth_error ps i = Some p -> nth_error t i = Some td ->
      td_rem td = own es p.

  Definition wupdated es ps t t' (S : nat -> Prop) : Prop :=
    Forall2 td_same t t' /\ (forall i, wright es ps t i -> wright es ps t' i) /\ (forall i, S i -> wright es ps t' i).

  Lemma wus_loop_ok es ps (f : nat -> trees -> option trees) t0 td i p :
    arena_ok ps t0 -> data_w es ps t0 -> nth_error t0 i = Some td -> nth_error ps i = Some p ->
    (forall c k t, In (k, c) (td_children td) -> Forall2 td_same t0 t ->
       exists t', f c t = Some t' /\ wupdated es ps t t' (fun j => exists q, nth_error ps j = Some (p ++ [name k] ++ q))) ->
    forall l, (forall k c, In (k, c) l -> In (k, c) (td_children td)) ->
    forall t, Forall2 td_same t0 t ->
    exists t', us_loop f l t = Some t' /\
      wupdated es ps t t' (fun j => exists k c q, In (k, c) l /\ nth_error ps j = Some (p ++ [name k] ++ q)).
  Proof.
    intros Ha Hd Ht Hp Hf. induction l as [|[k c] l IH]; intros Hsub t Hs; cbn [us_loop].
    - exists t. split; [reflexivity|]. split; [apply td_same_refl|]. split; [auto|].
      intros j (k & c & q & [] & _).
    - destruct (Hf c k t (Hsub _ _ (or_introl eq_refl)) Hs) as (t1 & E1 & Hs1 & Hk1 & Hr1).
      destruct (IH (fun k c H => Hsub k c (or_intror H)) t1 (td_same_trans Hs Hs1)) as (t2 & E2 & Hs2 & Hk2 & Hr2).
      exists t2. split; [rewrite E1; apply E2|]. split; [eapply td_same_trans; eauto|]. split; [auto|].
      intros j (k' & c' & q & [Hin|Hin] & Hq).
      + inversion Hin; subst. apply Hk2, Hr1. eauto.
      + apply Hr2. eauto 6.
  Qed.

  Lemma wupdate_sizes_ok es ps : (m = Debug -> forall q, inline_below es q < two64) -> forall fuel t0 id p,
    arena_ok ps t0 -> data_w es ps t0 ->
    nth_error ps id = Some p -> (length t0 - id <= fuel)%nat -> forall t, Forall2 td_same t0 t ->
    exists t', update_sizes m fuel id t = Some t' /\
      wupdated es ps t t' (fun j => exists q, nth_error ps j = Some (p ++ q)).
  Proof.
    intros Hfit. induction fuel as [|fuel IH]; intros t0 id p Ha Hd Hp Hfuel t Hs.
    { destruct (arena_idx Ha Hp) as [td Ht]. apply nth_error_lt in Ht. lia. }
    destruct (arena_idx Ha Hp) as [td0 Ht0].
    destruct (Forall2_nth' Hs Ht0) as (td & Ht & _).
    pose proof (arena_same Hs Ha) as Ha1. pose proof (wdata_same Hs Hd) as Hd1.
    destruct (@wus_loop_ok es ps (update_sizes m fuel) t td id p Ha1 Hd1 Ht Hp) with (l := td_children td) (t := t)
      as (t1 & E1 & Hs1 & Hk1 & Hr1); auto.
    { intros c k t1 Hin Hs1. destruct (ar_child Ha1 Ht Hin) as (_ & Hlt & p' & Hp' & Hc).
      rewrite Hp in Hp'. inversion Hp'; subst p'.
      destruct (IH t c (p ++ [name k]) Ha1 Hd1 Hc) with (t := t1) as (t2 & E2 & H2); auto.
      - rewrite <- (Forall2_len Hs). lia.
      - exists t2. split; [auto|]. destruct H2 as (? & ? & Hr). split; [auto|]. split; [auto|].
        intros j (q & Hq). apply Hr. exists q. now rewrite <- app_assoc. }
    { apply td_same_refl. }
    destruct (Forall2_nth' Hs1 Ht) as (td1 & Ht1 & (Es & Eu & Ec)).
    pose proof (arena_same Hs1 Ha1) as Ha2. pose proof (wdata_same Hs1 Hd1) as Hd2.
    destruct (dw_size Hd2 Hp Ht1) as [Hsz Hun].
    assert (Hcs : (if td_unique td1 then Some 0
                   else do sizes <- get_sizes t1 (td_children td1); usum m 0 sizes) = Some (inline_below es p mod two64)).
    { unfold Spec.inline_below. rewrite <- Hun. destruct (td_unique td1) eqn:Eun; [reflexivity|].
      rewrite (@wget_sizes_ok es ps t1 td1 p (td_children td1) Ha2 Hd2 (fun k c H => H) id Ht1 Hp). cbn [obind].
      rewrite usum_fit.
      2:{ intros Em. specialize (Hfit Em p). unfold Spec.inline_below in Hfit. rewrite <- Hun, ?Eun in Hfit.
          pose proof (@sumN_mods_le _ (fun kc : key * nat => declared es (p ++ [name (fst kc)])) (td_children td1)) as Hle.
          rewrite (@wchildren_sum es ps t1 id td1 p) in Hle by auto. lia. }
      rewrite (sumN_mods (fun kc : key * nat => declared es (p ++ [name (fst kc)]))).
      now rewrite (@wchildren_sum es ps t1 id td1 p). }
    eexists. split.
    { rewrite update_sizes_eq. unfold tree_get. rewrite Ht. cbn [obind]. rewrite E1. cbn [obind].
      rewrite Ht1. cbn [obind]. rewrite Hcs. cbn [obind]. reflexivity. }
    assert (Hnew : wright es ps (upd t1 id (mkTD (td_size td1) (isaturating_sub (as_isize (td_size td1)) (as_isize (inline_below es p mod two64))) (td_unique td1) (td_children td1))) id).
    { intros p' td' Hp' Ht'. rewrite Hp in Hp'. inversion Hp'; subst p'.
      rewrite nth_upd, Nat.eqb_refl in Ht' by (eapply nth_error_lt; eauto). inversion Ht'; subst td'. cbn [td_rem].
      rewrite Hsz, !as_isize_low. apply isat_clamp. }
    split; [|split].
    - eapply td_same_trans; [exact Hs1|]. now apply td_same_upd.
    - intros i Hi. destruct (Nat.eq_dec id i) as [<-|Hne]; [exact Hnew|].
      intros p' td' Hp' Ht'. rewrite nth_upd in Ht' by (eapply nth_error_lt; eauto).
      apply Nat.eqb_neq in Hne. rewrite Hne in Ht'. eapply Hk1; eauto.
    - intros j (q & Hq). destruct (Nat.eq_dec id j) as [<-|Hne]; [exact Hnew|].
      intros p' td' Hp' Ht'. rewrite nth_upd in Ht' by (eapply nth_error_lt; eauto).
      pose proof Hne as Hne'. apply Nat.eqb_neq in Hne. rewrite Hne in Ht'. eapply Hr1; eauto.
      destruct q as [|a q].
      { exfalso. apply Hne'. rewrite app_nil_r in Hq. eapply NoDup_nth_inj; eauto using ar_nodup. }
      assert (Hin : In (p ++ [a]) ps).
      { apply (arena_prefix Ha2 (q := q)). rewrite <- app_assoc. simpl. eapply nth_error_In; eauto. }
      apply In_nth_error in Hin as [c Hc].
      destruct (ar_parent Ha1 Hc) as (i' & td'' & k & Hi' & Ht'' & Hin & E).
      assert (i' = id) by (eapply NoDup_nth_inj; eauto using ar_nodup). subst i'.
      rewrite Ht in Ht''. inversion Ht''; subst td''.
      exists k, c, q. split; [auto|]. now rewrite E.
  Qed.

  (** ** Sums over paths *)
  Definition wbelow (es : list (ev A)) (ps : list pth) (p : pth) : N :=
    sumN (map (fun q => if prefixb p q then shown es q else 0) ps).

  Lemma wbelow_split es ps t i td p : arena_ok ps t -> nth_error t i = Some td -> nth_error ps i = Some p ->
    wbelow es ps p = shown es p + sumN (map (fun kc => wbelow es ps (p ++ [name (fst kc)])) (td_children td)).
  Proof.
    intros Ha Ht Hp. unfold wbelow.
    rewrite (sumN_swap (fun (kc : key * nat) q => if prefixb (p ++ [name (fst kc)]) q then shown es q else 0)).
    assert (Hone : shown es p = sumN (map (fun q => if path_dec A_dec q p then shown es p else 0) ps)).
    { rewrite (@sumN_indicator _ (path_dec A_dec) p (shown es p) ps) by apply Ha.
      destruct (in_dec (path_dec A_dec) p ps) as [|n]; [reflexivity|]. exfalso. apply n. eapply nth_error_In; eauto. }
    rewrite Hone, <- sumN_map_add. apply sumN_map_ext. intros q Hq.
    destruct (prefixb p q) eqn:Epre.
    - apply prefixb_iff in Epre as [r ->]. destruct r as [|a r].
      + rewrite app_nil_r. destruct (path_dec A_dec p p) as [_|n]; [|contradiction].
        rewrite sumN_map_0; [lia|]. intros [k c] _. cbn [fst].
        replace p with (p ++ []) at 2 by apply app_nil_r. now rewrite prefixb_app.
      + destruct (path_dec A_dec (p ++ a :: r) p) as [E|_].
        { exfalso. rewrite <- (app_nil_r p) in E at 2. apply app_inv_head in E. discriminate. }
        rewrite (sumN_map_ext (g := fun kc : key * nat => if A_dec (name (fst kc)) a then shown es (p ++ a :: r) else 0)).
        * rewrite (@child_indicator A A_dec name K name_inj ps t i td p a _ Ha Ht Hp).
          destruct (in_dec (path_dec A_dec) (p ++ [a]) ps) as [|n]; [lia|]. exfalso. apply n.
          apply (arena_prefix Ha (q := r)). now rewrite <- app_assoc.
        * intros [k c] _. cbn [fst]. rewrite prefixb_app. cbn [FinishFacts.prefixb].
          destruct (A_dec (name k) a); reflexivity.
    - destruct (path_dec A_dec q p) as [->|_].
      { exfalso. rewrite (proj2 (prefixb_iff A_dec p p)) in Epre; [discriminate | exists []; now rewrite app_nil_r]. }
      rewrite sumN_map_0; [lia|]. intros [k c] _. cbn [fst].
      destruct (prefixb (p ++ [name k]) q) eqn:E; [|reflexivity]. exfalso.
      apply prefixb_iff in E as [r ->]. rewrite (proj2 (prefixb_iff A_dec p _)) in Epre; [discriminate|].
      rewrite <- app_assoc. eauto.
  Qed.

  (** ** tree_write *)
  Definition wwline (es : list (ev A)) (p : pth) : string :=
    warning_line (map astr p) (low64 (declared es p)) (signed64 (declared es p) - own es p).

  Lemma wtw_node_ok es ps t i td p : arena_ok ps t -> data_w es ps t ->
    wright es ps t i -> nth_error t i = Some td -> nth_error ps i = Some p ->
    exists L, tw_node m td (map astr p) = Some (FG [] 0 (shown es p), concat_str (map (wwline es) L)) /\
      ((L = [] /\ ~ misdeclared es p) \/ (L = [p] /\ misdeclared es p)).
  Proof.
    intros Ha Hd Hr Ht Hp. unfold tw_node. rewrite (Hr _ _ Hp Ht).
    destruct (dw_size Hd Hp Ht) as [Hsz _].
    destruct (Z.ltb_spec 0 (own es p)) as [Hlt|Hge].
    - exists []. destruct p as [|a p]; cbn [map].
      + split; [reflexivity|]. left. split; [auto|]. unfold flagged_wrapped. tauto.
      + split; [reflexivity|]. left. split; [auto|]. unfold flagged_wrapped. lia.
    - destruct (Z.ltb_spec (own es p) 0) as [Hneg|Hpos].
      + destruct p as [|a p].
        * exists []. cbn. split; [reflexivity|]. left. split; [auto|]. unfold flagged_wrapped. tauto.
        * exists [a :: p]. cbn [andb negb map]. unfold inline_children_size.
          rewrite (Hr _ _ Hp Ht), Hsz, as_isize_low.
          rewrite isub_exact.
          -- cbn [obind]. split.
             ++ f_equal. f_equal.
                ** unfold fg_default. f_equal. unfold shown_wrapped. lia.
                ** cbn [map concat_str]. rewrite str_app_nil_r. unfold wwline. cbn [map]. reflexivity.
             ++ right. split; [auto|]. unfold flagged_wrapped. split; [discriminate | lia].
          -- pose proof (shortfall_range (signed64_range (declared es (a :: p))) (signed64_range (inline_below es (a :: p))) Hneg) as Hrng.
             unfold own_wrapped, isize_min, isize_max. change (Z.of_N two63) with (2 ^ 63)%Z. lia.
      + exists []. cbn [andb]. split.
        * unfold fg_default. do 3 f_equal. unfold shown_wrapped. destruct p; lia.
        * left. split; [auto|]. unfold flagged_wrapped. lia.
  Qed.

  (** What writing the subtree at path [p] returns. *)
  Record wwritten (es : list (ev A)) (ps : list pth) (p : pth) (f : fg) (w : string) (L : list pth) : Prop := {
    ww_ok : fg_ok m K f;
    ww_sum : wrapeq m (node_sum f) (wbelow es ps p);
    ww_size : astr_ok -> forall q, wrapeq m (size_at f (map astr q)) (shown es (p ++ q));
    ww_warn : w = concat_str (map (wwline es) L);
    ww_in : forall q, In q L <-> In q ps /\ misdeclared es q /\ exists r, q = p ++ r;
    ww_sorted : (forall k k', K k -> K k' -> k_str k = k_str k' -> k = k') ->
      StronglySorted path_lt (map (map astr) L);
  }.

  Lemma wshown_absent es ps t p : arena_ok ps t -> data_w es ps t -> ~ In p ps -> ~ In p (map (@removelast A) ps) -> own es p = 0%Z.
  Proof.
    intros Ha Hd Hno Hnp. destruct p as [|a p].
    { exfalso. apply Hno. eapply nth_error_In, (ar_root Ha). }
    unfold own_wrapped.
    rewrite (@declared_absent A A_dec es (a :: p)).
    2:{ intros e He E. apply Hno. rewrite <- E. eapply dw_cover; eauto. }
    replace (inline_below es (a :: p)) with 0; [reflexivity|]. symmetry.
    unfold Spec.inline_below. destruct (unique_at es (a :: p)); [reflexivity|].
    unfold Spec.declared_below. apply sumN_map_0. intros e He. unfold child_of.
    pose proof (dw_cover Hd He) as Hc. destruct (ev_path e) as [|b q] eqn:E; [reflexivity|].
    destruct (path_dec A_dec (removelast (b :: q)) (a :: p)) as [E'|]; [|reflexivity].
    exfalso. apply Hnp. rewrite <- E'. now apply in_map.
  Qed.

  Lemma wown_absent es ps t p : arena_ok ps t -> data_w es ps t -> ~ In p ps -> own es p = 0%Z.
  Proof.
    intros Ha Hd Hno. eapply wshown_absent; eauto. intros Hin. apply in_map_iff in Hin as (q & E & Hq).
    apply Hno. destruct q as [|b q] using rev_ind; [cbn in E; now subst|]. rewrite removelast_last in E. subst q.
    eapply arena_prefix; eauto.
  Qed.

  Lemma wshown_absent' es ps t p : arena_ok ps t -> data_w es ps t -> ~ In p ps -> shown es p = 0.
  Proof. intros Ha Hd Hno. unfold shown_wrapped. rewrite (wown_absent Ha Hd Hno). now destruct p. Qed.

  Lemma wbelow_le es ps p : wbelow es ps p <= wbelow es ps [].
  Proof. unfold wbelow. apply sumN_map_le. intros q _. cbn [FinishFacts.prefixb]. destruct (prefixb p q); lia. Qed.

  Lemma wshown_lt es p : shown es p < two64.
  Proof.
    unfold shown_wrapped. destruct p as [|a p]; [apply two64_pos|]. unfold own_wrapped.
    pose proof (clamp64_range (signed64 (declared es (a :: p)) - signed64 (inline_below es (a :: p)))).
    assert (two64 = 2 ^ 64) by reflexivity. lia.
  Qed.

  Lemma wtw_loop_ok es ps t g td p i : arena_ok ps t -> data_w es ps t ->
    nth_error t i = Some td -> nth_error ps i = Some p ->
    (forall k c, In (k, c) (td_children td) ->
       exists f w L, g c (map astr p ++ [k_str k]) = Some (f, w) /\ wwritten es ps (p ++ [name k]) f w L) ->
    forall l, (forall k c, In (k, c) l -> In (k, c) (td_children td)) ->
    forall f w, fg_ok m K f ->
    (m = Debug -> node_sum f + sumN (map (fun kc => wbelow es ps (p ++ [name (fst kc)])) l) < two64) ->
    exists f' w' L, tw_loop m g (map astr p) l f w = Some (f', (w ++ w')%string) /\
      fg_ok m K f' /\
      wrapeq m (node_sum f') (node_sum f + sumN (map (fun kc => wbelow es ps (p ++ [name (fst kc)])) l)) /\
      (astr_ok -> forall q, wrapeq m (size_at f' (map astr q)) (size_at f (map astr q) +
         sumN (map (fun kc => match q with [] => 0 | a :: q' => if A_dec (name (fst kc)) a then shown es (p ++ [a] ++ q') else 0 end) l))) /\
      w' = concat_str (map (wwline es) L) /\
      (forall q, In q L <-> In q ps /\ misdeclared es q /\ exists k c r, In (k, c) l /\ q = p ++ [name k] ++ r) /\
      ((forall k k', K k -> K k' -> k_str k = k_str k' -> k = k') -> StronglySorted klt l ->
        StronglySorted path_lt (map (map astr) L)).
  Proof.
    intros Ha Hd Ht Hp Hg. induction l as [|[k c] l IH]; intros Hsub f w Hf Hfit; cbn [tw_loop map sumN fst] in *.
    - exists f, ""%string, []. rewrite str_app_nil_r. split; [reflexivity|]. split; [auto|].
      split; [rewrite N.add_0_r; apply wrapeq_refl|]. split; [intros; rewrite N.add_0_r; apply wrapeq_refl|]. split; [reflexivity|]. split; [|constructor].
      intros q. split; [intros [] | intros (_ & _ & k & c & r & [] & _)].
    - destruct (Hg k c (Hsub _ _ (or_introl eq_refl))) as (cf & cw & Lc & Eg & Hw).
      unfold key_deref. rewrite Eg. cbn [obind].
      assert (HKk : K k) by apply (ar_child Ha Ht (Hsub _ _ (or_introl eq_refl))).
      assert (Ef1 : exists f1, fg_add_child m f k cf = Some f1).
      { pose proof (ww_sum Hw) as Hws. pose proof (ww_ok Hw) as Hwo. clear IH Hg Hw. destruct (modes m) as [Em|Em]; rewrite Em in *; [|apply fg_add_child_release].
        specialize (Hfit eq_refl). cbn [wrapeq] in Hws.
        apply (@fg_add_child_fits Debug K f k cf Hf Hwo). lia. }
      destruct Ef1 as [f1 E1].
      rewrite E1. cbn [obind].
      destruct (fg_add_child_spec Hf HKk (ww_ok Hw) E1) as [Hf1 Hsz1 Hsm1].
      destruct (IH (fun k c H => Hsub k c (or_intror H)) f1 (w ++ cw)%string Hf1) as
        (f2 & w2 & L2 & E2 & Hf2 & Hsm2 & Hsz2 & Hw2 & Hin2 & Hsort2).
      { intros Em. specialize (Hfit Em). rewrite Em in Hsm1. pose proof (ww_sum Hw) as Hws. rewrite Em in Hws. cbn [wrapeq] in Hsm1, Hws. lia. }
      exists f2, (cw ++ w2)%string, (Lc ++ L2).
      rewrite E2, str_app_assoc. split; [reflexivity|]. split; [auto|]. split.
      { eapply wrapeq_trans; [exact Hsm2|]. rewrite N.add_assoc. apply wrapeq_add; [|apply wrapeq_refl].
        eapply wrapeq_trans; [exact Hsm1|]. apply wrapeq_add; [apply wrapeq_refl | apply (ww_sum Hw)]. }
      split; [|split; [|split]].
      + intros Hinj q. eapply wrapeq_trans; [apply (Hsz2 Hinj)|]. rewrite N.add_assoc. apply wrapeq_add; [|apply wrapeq_refl].
        eapply wrapeq_trans; [apply Hsz1|]. apply wrapeq_add; [apply wrapeq_refl|].
        destruct q as [|a q]; cbn [map child_at]; [apply wrapeq_refl|].
        rewrite <- astr_name. destruct (A_dec (name k) a) as [<-|Hne].
        * rewrite String.eqb_refl. eapply wrapeq_trans; [apply (ww_size Hw Hinj)|]. rewrite <- app_assoc. apply wrapeq_refl.
        * destruct (String.eqb_spec (astr (name k)) (astr a)) as [E|_]; [|apply wrapeq_refl].
          apply Hinj in E. contradiction.
      + now rewrite map_app, concat_str_app, <- Hw2, <- (ww_warn Hw).
      + intros q. rewrite in_app_iff, (ww_in Hw), Hin2. split.
        * intros [(H1 & H2 & r & ->)|(H1 & H2 & k' & c' & r & Hin & ->)]; (split; [auto|]; split; [auto|]).
          -- exists k, c, r. split; [now left|]. now rewrite <- app_assoc.
          -- exists k', c', r. split; [now right | auto].
        * intros (H1 & H2 & k' & c' & r & [Hin|Hin] & ->).
          -- inversion Hin; subst. left. split; [auto|]. split; [auto|]. exists r. now rewrite <- app_assoc.
          -- right. split; [auto|]. split; [auto|]. eauto 6.
      + intros Hinj Hss. inversion Hss as [|? ? Hl Hx]; subst. rewrite map_app. apply ssorted_app; auto.
        * apply (ww_sorted Hw Hinj).
        * intros x y Hx1 Hy1. apply in_map_iff in Hx1 as (q1 & <- & Hq1). apply in_map_iff in Hy1 as (q2 & <- & Hq2).
          apply (ww_in Hw) in Hq1 as (_ & _ & r1 & ->). apply Hin2 in Hq2 as (_ & _ & k' & c' & r2 & Hin & ->).
          rewrite !map_app. rewrite <- app_assoc. apply path_lt_app. cbn. apply path_lt_head.
          rewrite !astr_name. rewrite Forall_forall in Hx. apply (Hx (k', c') Hin).
  Qed.

  Lemma wtree_write_ok es ps t : arena_ok ps t -> data_w es ps t -> (m = Debug -> wbelow es ps [] < two64) ->
    (forall i, wright es ps t i) -> forall fuel id p, nth_error ps id = Some p -> (length t - id <= fuel)%nat ->
    exists f w L, tree_write m fuel t id (map astr p) = Some (f, w) /\ wwritten es ps p f w L.
  Proof.
    intros Ha Hd Hfit Hr. induction fuel as [|fuel IH]; intros id p Hp Hfuel.
    { destruct (arena_idx Ha Hp) as [td Ht]. apply nth_error_lt in Ht. lia. }
    destruct (arena_idx Ha Hp) as [td Ht].
    rewrite tree_write_eq. unfold tree_get. rewrite Ht. cbn [obind].
    destruct (wtw_node_ok Ha Hd (Hr id) Ht Hp) as (L0 & E0 & HL0). rewrite E0. cbn [obind].
    assert (Hperm : forall k c, In (k, c) (sort_by_key (td_children td)) <-> In (k, c) (td_children td)).
    { intros k c. split; apply Permutation_in; [apply sort_perm | symmetry; apply sort_perm]. }
    assert (Hsplit := @wbelow_split es ps t id td p Ha Ht Hp).
    assert (Hsort : sumN (map (fun kc => wbelow es ps (p ++ [name (fst kc)])) (sort_by_key (td_children td))) =
                    sumN (map (fun kc => wbelow es ps (p ++ [name (fst kc)])) (td_children td))).
    { apply sumN_perm, Permutation_map, sort_perm. }
    pose proof (@wshown_lt es p) as Hshow.
    assert (Hf0 : fg_ok m K (FG [] 0 (shown es p))).
    { constructor; simpl; auto; first [now constructor | now intros k f [] | apply two64_pos | apply wrapeq_refl]. }
    assert (Hs0 : node_sum (FG [] 0 (shown es p)) = shown es p) by (simpl; lia).
    destruct (@wtw_loop_ok es ps t (fun c s => tree_write m fuel t c s) td p id Ha Hd Ht Hp) with
      (l := sort_by_key (td_children td)) (f := FG [] 0 (shown es p)) (w := concat_str (map (wwline es) L0))
      as (f & w & L & E & Hf & Hsm & Hsz & Hw & Hin & Hss); auto.
    { intros k c Hin. destruct (ar_child Ha Ht Hin) as (_ & Hlt & p' & Hp' & Hc).
      rewrite Hp in Hp'. inversion Hp'; subst p'.
      destruct (IH c (p ++ [name k]) Hc) as (f & w & L & E & Hw); [lia|].
      exists f, w, L. split; [|auto]. rewrite map_app in E. cbn [map] in E. now rewrite astr_name in E. }
    { intros k c. apply Hperm. }
    { intros Em. rewrite Hs0, Hsort, <- Hsplit. pose proof (@wbelow_le es ps p). specialize (Hfit Em). lia. }
    exists f, (concat_str (map (wwline es) L0) ++ w)%string, (L0 ++ L). split; [exact E|]. split.
    - exact Hf.
    - rewrite Hs0, Hsort, <- Hsplit in Hsm. exact Hsm.
    - intros Hinj q. eapply wrapeq_trans; [apply (Hsz Hinj)|]. apply wrapeq_of_eq. destruct q as [|a q].
      + cbn [map size_at fg_node_size]. rewrite sumN_map_0 by reflexivity. rewrite app_nil_r. lia.
      + cbn [map]. rewrite size_at_cons. cbn [fg_children map sumN].
        rewrite (sumN_perm (Permutation_map _ (sort_perm (td_children td)))).
        rewrite (@child_indicator A A_dec name K name_inj ps t id td p a _ Ha Ht Hp).
        destruct (in_dec (path_dec A_dec) (p ++ [a]) ps) as [Hyes|Hno]; [reflexivity|].
        symmetry. apply (@wshown_absent' es ps t _ Ha Hd). intros Hq. apply Hno.
        apply (arena_prefix Ha (q := q)). now rewrite <- app_assoc.
    - now rewrite Hw, map_app, concat_str_app.
    - intros q. rewrite in_app_iff, Hin. split.
      + intros [H|(H1 & H2 & k & c & r & _ & ->)].
        * destruct HL0 as [[-> _]|[-> Hm]]; [destruct H|]. destruct H as [<-|[]].
          split; [eapply nth_error_In; eauto|]. split; [auto|]. exists []. now rewrite app_nil_r.
        * split; [auto|]. split; [auto|]. eauto.
      + intros (H1 & H2 & r & ->). destruct r as [|a r].
        * left. rewrite app_nil_r in *. destruct HL0 as [[-> Hm]|[-> Hm]]; [contradiction | now left].
        * right. split; [auto|]. split; [auto|].
          assert (Hin' : In (p ++ [a]) ps) by (apply (arena_prefix Ha (q := r)); now rewrite <- app_assoc).
          apply In_nth_error in Hin' as [c Hc].
          destruct (ar_parent Ha Hc) as (i' & td'' & k & Hi' & Ht'' & Hin'' & E'').
          assert (i' = id) by (eapply NoDup_nth_inj; eauto using ar_nodup). subst i'.
          rewrite Ht in Ht''. inversion Ht''; subst td''.
          exists k, c, r. split; [now apply Hperm|]. now rewrite E''.
    - intros Hinj. rewrite map_app. apply ssorted_app.
      + destruct HL0 as [[-> _]|[-> _]]; cbn; repeat constructor.
      + apply Hss; auto. apply sort_sorted.
        pose proof (ar_keys Ha Ht) as Hnd.
        assert (HK : forall k j, In (k, j) (td_children td) -> K k).
        { intros k j H. apply (ar_child Ha Ht H). }
        revert Hnd HK. generalize (td_children td) as l. clear - Hinj.
        induction l as [|[k j] l IHl]; simpl; intros Hnd HK; [constructor|].
        inversion Hnd as [|? ? Hx Hl]; subst. constructor.
        * intros Hin. apply in_map_iff in Hin as ([k' j'] & E & Hin). simpl in E. apply Hx.
          assert (k' = k) by (apply Hinj; eauto). subst. apply (in_map fst) in Hin. exact Hin.
        * apply IHl; eauto.
      + intros x y Hx Hy. apply in_map_iff in Hx as (q1 & <- & Hq1). apply in_map_iff in Hy as (q2 & <- & Hq2).
        apply Hin in Hq2 as (_ & _ & k & c & r & _ & ->).
        destruct HL0 as [[-> _]|[-> _]]; [destruct Hq1|]. destruct Hq1 as [<-|[]].
        rewrite map_app. rewrite <- (app_nil_r (map astr p)) at 1. apply path_lt_app. reflexivity.
  Qed.

  (** ** finish *)
  Lemma wfinish_ok es ps b : winv es ps b -> idle b -> (m = Debug -> forall q, inline_below es q < two64) -> (m = Debug -> wbelow es ps [] < two64) ->
    exists f w L, finish m b = Some (mkOut f w) /\ wwritten es ps [] f w L.
  Proof.
    intros [Ha Hd Hr _] (Hc & Hs & He) Hfi Hfs. unfold finish, finish_impl. rewrite Hs, Hc, He. cbn [ts_stack].
    rewrite Hr.
    destruct (@wupdate_sizes_ok es ps Hfi (S (length (b_trees b))) (b_trees b) 0%nat [] Ha Hd (ar_root Ha))
      with (t := b_trees b) as (t & E & Hsame & Hkeep & Hright); [lia | apply td_same_refl|].
    destruct (@wtree_write_ok es ps t (arena_same Hsame Ha) (wdata_same Hsame Hd) Hfs) with
      (fuel := S (length t)) (id := 0%nat) (p := @nil A) as (f & w & L & E' & Hw).
    - intros i. destruct (nth_error ps i) as [p|] eqn:Ep.
      + apply Hright. eauto.
      + intros p td Hp. congruence.
    - apply Ha.
    - lia.
    - exists f, w, L. split; [|auto]. cbn [map] in E'. rewrite E. cbn [obind]. rewrite E'. reflexivity.
  Qed.
End WrapFinish.
