(** * Lemmas for property C64: what is seen of well-typed memory are well-typed values. *)
From Verif Require Import Base BaseFacts KeyModel KeyFacts HMap FlameModel BuilderModel BuilderFacts VisitorModel Spec LayoutModel ImplModel ImplSpec ImplFacts
  StoreFacts LockModel LockSpec LockFacts SnapshotModel SnapshotSpec SnapshotFacts SnapshotRun SnapshotProps ChangeFacts DashModel DashSpec DashProps MixModel MixSpec MixRun MixFacts MixTypedSpec.

#[local] Arguments key_new : simpl never.

(** ** What is in the program is visited *)
Fixpoint inlines (p : vprog) : nat :=
  match p with
  | VRet | VCrash => 0
  | VInline _ _ b r => S (inlines b + inlines r)
  | VUnique _ _ b r => inlines b + inlines r
  | VShared _ _ _ b r1 r2 => inlines b + inlines r1 + inlines r2
  end.
Definition probe : vprog := VInline (key_new "probe") 0 VRet VRet.
Lemma inlines_fill i p : forall g g', (forall j, g j = VRet) -> (forall j, g' j = if N.eqb i j then probe else VRet) ->
  inlines (fill g' p) = (inlines (fill g p) + marks i p)%nat.
Proof.
  induction p as [| |k s b IHb r IHr|k s b IHb r IHr|k s x b IHb r1 IH1 r2 IH2]; intros g g' H H'; cbn [fill inlines marks]; try reflexivity.
  - rewrite (IHb g g'), (IHr g g') by assumption. lia.
  - rewrite (IHb g g'), (IHr g g') by assumption. lia.
  - rewrite H, H'. destruct (N.eqb i x); cbn [vseq inlines probe]; rewrite (IH1 g g') by assumption; lia.
Qed.
Lemma marks_visited m s sizes i : pointer s = false -> (i < length sizes)%nat -> unvisited m s sizes i ->
  marks (N.of_nat i) (visit_shape m unseen s (placeholders 0 sizes)) = 0%nat.
Proof.
  intros Hs Hi U. set (p := visit_shape m unseen s (placeholders 0 sizes)).
  set (qs := repeat VRet (length sizes)). set (qs' := repeat VRet i ++ probe :: repeat VRet (length sizes - S i)).
  assert (L : length qs = length sizes) by apply repeat_length.
  assert (L' : length qs' = length sizes) by (unfold qs'; rewrite app_length; cbn [length]; rewrite !repeat_length; lia).
  assert (N0 : forall j n, nth j (repeat VRet n) VRet = VRet) by (intros j n; revert j; induction n; intros [|j]; cbn; auto).
  assert (G : forall j, pick qs j = VRet) by (intros j; unfold pick, qs; apply N0).
  assert (G' : forall j, pick qs' j = if N.eqb (N.of_nat i) j then probe else VRet).
  { intros j. unfold pick, qs'. destruct (N.eqb_spec (N.of_nat i) j) as [<-|Hj].
    - rewrite Nat2N.id, app_nth2, repeat_length, Nat.sub_diag by (rewrite repeat_length; lia). reflexivity.
    - destruct (Nat.lt_ge_cases (N.to_nat j) i) as [Hl|Hl].
      + rewrite app_nth1 by (rewrite repeat_length; lia). apply N0.
      + rewrite app_nth2 by (rewrite repeat_length; lia). rewrite repeat_length. destruct (N.to_nat j - i)%nat as [|d] eqn:Ed; [lia|]. cbn [nth]. apply N0. }
  specialize (U qs qs' L L'). rewrite !shape_filled in U by assumption. fold p in U.
  assert (Q : forall j, j <> i -> nth_error qs j = nth_error qs' j).
  { intros j Hj. unfold qs, qs'. destruct (Nat.lt_ge_cases j i) as [Hl|Hl].
    - rewrite nth_error_app1 by (rewrite repeat_length; lia). rewrite !nth_error_repeat by lia. reflexivity.
    - rewrite nth_error_app2 by (rewrite repeat_length; lia). rewrite repeat_length. destruct (j - i)%nat as [|d] eqn:Ed; [lia|]. cbn [nth_error].
      destruct (Nat.lt_ge_cases j (length sizes)) as [Hs2|Hs2].
      + rewrite !nth_error_repeat by lia. reflexivity.
      + transitivity (@None vprog); [|symmetry]; apply nth_error_None; rewrite repeat_length; lia. }
  specialize (U Q). pose proof (@inlines_fill (N.of_nat i) p (pick qs) (pick qs') G G') as X. rewrite <- U in X. lia.
Qed.

Section Seen.
  Variable content_type : lock -> N * bool.
  Variable slot_type : lock -> dash * tinfo.
  Variable capacity_of entries_of : lock -> N.
  Variable M : xmemory -> Prop.
  Variable m : mode.
  Hypothesis HM : forall g, M g -> xmem_typed content_type slot_type capacity_of entries_of g.
  Notation xty := (xtyped content_type slot_type capacity_of).

  Definition keeps (P : value -> Prop) (v : xvalue) (w : value) : Prop := (forall g, M g -> xmem_all P g) -> P (xoutline v) -> P w.
  (** What a value looks like. *)
  Record like (v : xvalue) (w : value) : Prop := {
    lk_typed : typed w;
    lk_size : size_of_val w = xsize v;
    lk_drop : drop_of w = drop_of (xoutline v);
    lk_manual : keeps manual_free v w;
    lk_map : keeps map_free v w;
    lk_silent : silent w = silent (xoutline v);
    lk_counted : (forall g, M g -> xmem_all manual_free g) -> manual_free (xoutline v) -> keeps counted v w }.

  Lemma xvalue_induction (P : xvalue -> Prop) :
    (forall s cs, Forall P cs -> P (XPlain s cs)) -> (forall t l a, P (XLock t l a)) -> (forall t l, P (XOnce t l)) ->
    (forall t t' ps x, P (XWeak t t' ps x)) -> (forall kd t e ls, P (XDash kd t e ls)) -> forall v, P v.
  Proof.
    intros H1 H2 H3 H4 H5. fix go 1. intros [s cs|t l a|t l|t t' ps x|kd t e ls]; [|apply H2|apply H3|apply H4|apply H5]. apply H1. induction cs as [|c cs IH]; constructor; [apply go | exact IH].
  Qed.

  Lemma nil_contained t : contained t [].

  Proof. split; [apply N.le_0_l | constructor]. Qed.
  Lemma outline_typed v : xty v -> typed (xoutline v).
  Proof.
    induction v as [s cs IH|t l a|t l|t t' ps x|kd t e ls] using xvalue_induction; intros H; inversion H as [? ? Hs Hok Hcs| | |? ? ? ? Hw|? ? ? ? H1 H2 H3 H4 H5]; subst; cbn [xoutline].
    - constructor; [exact Hok|]. rewrite Forall_map. rewrite Forall_forall in *. auto.
    - constructor; [apply nil_contained | constructor].
    - constructor; [apply nil_contained | constructor].
    - constructor; [|constructor]. cbn [shape_ok] in *. tauto.
    - assert (B : buffer e 0 0) by (unfold buffer; rewrite N.mul_0_l; pose proof two63_lt_two64; repeat split; lia).
      destruct kd; (constructor; [|constructor]); cbn [shape_ok entries]; (split; [split; assumption|]); (split; [first [exact I | constructor]|]); exact B.
  Qed.
  Lemma outline_like v : xty v -> like v (xoutline v).
  Proof. intros H. constructor; [now apply outline_typed | reflexivity | reflexivity | intros ? X; exact X | intros ? X; exact X | reflexivity | intros ? ? ? X; exact X]. Qed.

  Lemma like_alike cs ws : Forall2 like cs ws -> Forall2 alike (map xoutline cs) ws.
  Proof. induction 1 as [|c w cs ws H _ IH]; cbn; constructor; auto. split; [rewrite (lk_size H); reflexivity | rewrite (lk_drop H); reflexivity]. Qed.
  Lemma like_sizes cs ws : Forall2 like cs ws -> map xsize cs = map size_of_val ws.
  Proof. induction 1 as [|c w cs ws H _ IH]; cbn; [reflexivity|]. now rewrite (lk_size H), IH. Qed.
  Lemma combine_map {A B C} (f : A -> B) (g : A -> C) l : combine (map f l) (map g l) = map (fun a => (f a, g a)) l.
  Proof. induction l; cbn; congruence. Qed.

  Lemma keeps_children P cs ws : Forall2 (keeps P) cs ws -> (forall g, M g -> xmem_all P g) -> Forall P (map xoutline cs) -> Forall P ws.
  Proof. intros H HA. induction H; cbn; intros X; inversion X; subst; constructor; auto. Qed.
  Lemma like_plain s cs ws : match s with SCell _ _ | SOnce _ _ | SWeak _ _ => False | _ => True end -> shape_ok s (map xoutline cs) -> Forall2 like cs ws -> like (XPlain s cs) (Node s ws).
  Proof.
    intros Hs Hok H. assert (T : Forall typed ws) by (clear - H; induction H as [|c w cs ws H _ IH]; constructor; auto; apply (lk_typed H)).
    assert (KM : Forall2 (keeps manual_free) cs ws) by (clear - H; induction H as [|c w cs ws H _ IH]; constructor; auto; apply (lk_manual H)).
    assert (KP : Forall2 (keeps map_free) cs ws) by (clear - H; induction H as [|c w cs ws H _ IH]; constructor; auto; apply (lk_map H)).
    pose proof (like_sizes H) as Z. pose proof (Forall2_len H) as L.
    constructor.
    - constructor; [eapply shape_ok_alike; [exact (like_alike H) | exact Hok] | exact T].
    - unfold xsize. cbn [xoutline]. destruct s; cbn [size_of_val shape_info]; try reflexivity. unfold len. now rewrite map_length, L.
    - cbn [xoutline]. destruct s; reflexivity.
    - intros HA. cbn [xoutline manual_free]. intros [X1 X2]. split; [exact X1|]. apply and_map in X2. apply and_map. eapply keeps_children; eauto.
    - intros HA. cbn [xoutline map_free]. intros [X1 X2]. split; [|apply and_map in X2; apply and_map; eapply keeps_children; eauto].
      destruct s; auto; destruct cs; try discriminate X1; inversion H; reflexivity.
    - destruct s; reflexivity.
    - intros HA HP HC. cbn [xoutline manual_free counted] in *. destruct HP as [_ HP]. intros [X1 X2]. apply and_map in HP. apply and_map in X2.
      assert (W : Forall manual_free ws) by (eapply keeps_children; eauto).
      split; [|apply and_map; clear - H HA HP HC X2; induction H as [|c w cs ws H _ IH]; [constructor|]; inversion HP; inversion X2; subst; constructor; [exact (lk_counted H HA ltac:(assumption) HC ltac:(assumption)) | auto]].
      assert (S : Forall (fun c => silent c = false) (map xoutline cs) -> Forall (fun c => silent c = false) ws).
      { clear - H. induction H as [|c w cs ws H _ IH]; intros X; [constructor|]. inversion X; subst. constructor; [now rewrite (lk_silent H) | auto]. }
      destruct s; cbn [counted_node] in *; try exact I; auto;
        try (destruct cs; try discriminate X1; inversion H; reflexivity); destruct X1 as [X1 X3]; split; auto.
  Qed.

  (** The entries of a shard. *)
  Definition as_sub (w : value) : sub := (size_of_val w, visit m unseen w).
  Record entries_like (kd : dash) (e : tinfo) (es : list entry) (ws : list value) : Prop := {
    el_subs : match kd with IsMap => flat_map (fun en => [en_key en; en_val en]) es | IsSet => map en_key es end = map as_sub ws;
    el_fit : match kd with IsMap => entries e ws | IsSet => elems e ws end;
    el_typed : Forall typed ws;
    el_manual : (forall g, M g -> xmem_all manual_free g) -> Forall manual_free ws;
    el_map : (forall g, M g -> xmem_all map_free g) -> Forall map_free ws;
    el_counted : (forall g, M g -> xmem_all manual_free g) -> (forall g, M g -> xmem_all counted g) -> Forall counted ws }.
  Lemma entries_app e a b : entries e a -> entries e b -> entries e (a ++ b).
  Proof. induction a as [|c|k v a IH] using pair_ind; cbn [entries app]; intros H1 H2; [exact H2 | contradiction|]. split; [apply H1 | apply IH; [apply H1 | exact H2]]. Qed.
  Lemma entries_like_app kd e es1 es2 ws1 ws2 : entries_like kd e es1 ws1 -> entries_like kd e es2 ws2 -> entries_like kd e (es1 ++ es2) (ws1 ++ ws2).
  Proof.
    intros [A1 A2 A3 A4 A5 A6] [B1 B2 B3 B4 B5 B6]. constructor.
    - destruct kd; rewrite ?flat_map_app, map_app; [now rewrite A1, B1 | rewrite map_app, A1, B1; reflexivity].
    - destruct kd; [now apply entries_app | apply Forall_app; now split].
    - apply Forall_app; auto.
    - intros H; apply Forall_app; auto.
    - intros H; apply Forall_app; auto.
    - intros H H'; apply Forall_app; auto.
  Qed.
  Lemma entries_like_nil kd e : entries_like kd e [] [].
  Proof. constructor; try constructor; destruct kd; cbn; try constructor. Qed.

  Lemma sized_dash kd e es ws : entries_like kd e es ws -> len ws = match kd with IsMap => 2 * len es | IsSet => len es end.
  Proof.
    intros [A _ _ _ _ _]. unfold len. rewrite <- (map_length as_sub ws), <- A. destruct kd; [|now rewrite map_length].
    clear A. induction es as [|en es IH]; [reflexivity|]. cbn [flat_map app length] in *. rewrite !Nat2N.inj_succ, IH. lia.
  Qed.

  Lemma told_like kd t e ls ens ws : Forall2 (fun l es => N.of_nat (length es) = entries_of l) ls ens -> entries_like kd e (concat ens) ws ->
    ptr_size <= t_size t -> t_drop t = true -> (forall l, In l ls -> entries_of l <= capacity_of l) ->
    sumN (map capacity_of ls) < two64 -> sumN (map capacity_of ls) * t_size e < two63 ->
    exists w, visit_told m kd t e (map capacity_of ls) ens (map capacity_of ls) (map entries_of ls) = visit m unseen w /\
      like (XDash kd t e ls) w.
  Proof.
    intros HL HE Hp Hd Hle Hc Hm.
    assert (HN : sumN (map entries_of ls) = len (concat ens)).
    { clear - HL. induction HL as [|l es ls ens E _ IH]; [reflexivity|]. cbn [map sumN concat]. unfold len in *. rewrite app_length, IH, <- E. lia. }
    assert (HS : sumN (map entries_of ls) <= sumN (map capacity_of ls)).
    { clear - Hle. induction ls as [|l ls IH]; [reflexivity|]. cbn [map sumN]. pose proof (Hle l (or_introl eq_refl)). specialize (IH (fun l' h => Hle l' (or_intror h))). lia. }
    pose proof (sized_dash HE) as HW. destruct HE as [A1 A2 A3 A4 A5 A6].
    exists (Node (match kd with IsMap => SDashMap t e (sumN (map capacity_of ls)) | IsSet => SDashSet t e (sumN (map capacity_of ls)) end) ws). split.
    - unfold visit_told. rewrite !DashProps.usum_exact by lia. cbn [obind N.add]. rewrite HN. rewrite visit_node. change (subs_of m unseen ws) with (map as_sub ws). rewrite <- A1.
      destruct kd; cbn [visit_shape].
      + rewrite entries_kv. unfold impl_dash_map. rewrite A1. replace (len (map as_sub ws) / 2) with (len (concat ens)); [reflexivity|].
        unfold len at 2. rewrite map_length. change (N.of_nat (length ws)) with (len ws). rewrite HW. rewrite N.mul_comm, N.div_mul by discriminate. reflexivity.
      + rewrite entries_set. unfold impl_dash_set. rewrite A1. replace (len (map as_sub ws)) with (len (concat ens)); [reflexivity|].
        unfold len at 2. rewrite map_length. change (N.of_nat (length ws)) with (len ws). now rewrite HW.
    - constructor.
      + constructor; [|exact A3]. destruct kd; cbn [shape_ok]; (split; [split; assumption|]); (split; [exact A2|]); unfold buffer.
        * rewrite HW, N.mul_comm, N.div_mul by discriminate. rewrite <- HN. auto.
        * rewrite HW, <- HN. auto.
      + destruct kd; reflexivity.
      + destruct kd; reflexivity.
      + intros HA _. destruct kd; cbn [manual_free]; (split; [exact I|]); apply and_map; auto.
      + intros HA _. destruct kd; cbn [map_free]; (split; [exact I|]); apply and_map; auto.
      + destruct kd; reflexivity.
      + intros HA _ HC _. destruct kd; cbn [counted counted_node]; (split; [exact I|]); apply and_map; auto.
  Qed.

  Definition sees (v : xvalue) (q : vprog) : Prop := xty v -> exists w, q = visit m unseen w /\ like v w.

  Lemma plain_seen s cs qs : length qs = length cs ->
    (forall i c q, nth_error cs i = Some c -> nth_error qs i = Some q -> ~ unvisited m s (map xsize cs) i -> sees c q) ->
    sees (XPlain s cs) (visit_shape m unseen s (combine (map xsize cs) qs)).
  Proof.
    intros L H HT. inversion HT as [? ? Hs Hok Hcs| | | |]; subst.
    destruct (pointer s) eqn:Ep.
    { assert (cs = []) as -> by (destruct s; try discriminate; [cbn [shape_ok] in Hok; destruct Hok as [Hok _]; now destruct cs | contradiction]).
      destruct qs; [|discriminate]. exists (Node s []). split; [reflexivity|]. apply (like_plain Hs Hok). constructor. }
    set (p := visit_shape m unseen s (placeholders 0 (map xsize cs))).
    destruct (@nth_Forall2 _ _ like (fun i w => (0 < marks (N.of_nat i) p)%nat -> nth_error qs i = Some (visit m unseen w)) cs) as (ws & W1 & W2).
    { intros i c Hc. assert (Tc : xty c) by (rewrite Forall_forall in Hcs; apply Hcs; eapply nth_error_In; eauto).
      destruct (Nat.eq_dec (marks (N.of_nat i) p) 0) as [Z|Z]; [exists (xoutline c); split; [now apply outline_like | lia]|].
      assert (Hi : (i < length cs)%nat) by (apply nth_error_Some; congruence).
      destruct (nth_error qs i) as [q|] eqn:Eq; [|apply nth_error_None in Eq; lia].
      assert (U : ~ unvisited m s (map xsize cs) i); [|destruct (H i c q Hc Eq U Tc) as (w & -> & Hw); exists w; auto].
      intros U. apply Z. apply marks_visited; [exact Ep | now rewrite map_length | exact U]. }
    exists (Node s ws). split; [|now apply like_plain].
    rewrite visit_node. unfold subs_of. rewrite <- combine_map, <- (like_sizes W1). rewrite !shape_filled by (rewrite ?map_length; auto; symmetry; apply (Forall2_len W1)).
    fold p. apply fill_ext. intros i Hi. unfold pick.
    destruct (nth_error ws (N.to_nat i)) as [w|] eqn:Ew.
    - rewrite (nth_error_nth (map (visit m unseen) ws) (N.to_nat i) VRet (x := visit m unseen w)) by (rewrite nth_error_map, Ew; reflexivity).
      apply nth_error_nth. apply (W2 _ _ Ew). now rewrite N2Nat.id.
    - apply nth_error_None in Ew. rewrite !nth_overflow; [reflexivity | rewrite map_length; exact Ew | rewrite L, (Forall2_len W1); exact Ew].
  Qed.

  Lemma cell_seen (once : bool) t l w g : M g -> like (x_content g l) w -> fst (content_type l) <= t_size t -> (snd (content_type l) = true -> t_drop t = true) ->
    forall v, v = (if once then XOnce t l else XLock t l ReadOnly) -> like v (Node (if once then SOnce t true else SCell t true) [w]).
  Proof.
    intros Hg Hw F1 F2 v Ev. destruct (HM Hg) as [HM1 _]. destruct (HM1 l) as (T1 & T2 & T3).
    assert (C : contained t [w]).
    { split; [cbn [map sumN]; rewrite (lk_size Hw), T2; lia|]. repeat constructor. rewrite (lk_drop Hw). auto. }
    constructor.
    - constructor; [destruct once; exact C | constructor; [apply (lk_typed Hw) | constructor]].
    - subst v. destruct once; reflexivity.
    - subst v. destruct once; reflexivity.
    - intros HA _. destruct (HA _ Hg) as [HA1 _]. pose proof (lk_manual Hw HA (HA1 l)). destruct once; cbn; auto.
    - intros HA _. destruct (HA _ Hg) as [HA1 _]. pose proof (lk_map Hw HA (HA1 l)). destruct once; cbn; auto.
    - subst v. destruct once; reflexivity.
    - intros HA _ HC _. destruct (HA _ Hg) as [HA1 _]. destruct (HC _ Hg) as [HC1 _]. pose proof (lk_counted Hw HA (HA1 l) HC (HC1 l)). destruct once; cbn; auto.
  Qed.
  Lemma lock_like t l a w : like (XLock t l ReadOnly) w -> like (XLock t l a) w.
  Proof. intros [H1 H2 H3 H4 H5 H6 H7]. constructor; auto. Qed.

  Theorem shown_seen : forall v q, shown M m False v q -> sees v q
  with yielded_seen : forall kd l es, yielded M m False kd l es -> forall e, slot_type l = (kd, e) ->
    N.of_nat (length es) = entries_of l /\ exists ws, entries_like kd e es ws
  with these_seen : forall kd kvs es, these M m False kd kvs es -> forall e, (forall k v, In (k, v) kvs -> slot_fits content_type slot_type capacity_of kd e k v) ->
    (forall P, (forall g, M g -> xmem_all P g) -> forall k v, In (k, v) kvs -> P (xoutline k) /\ P (xoutline v)) ->
    length es = length kvs /\ exists ws, entries_like kd e es ws.
  Proof.
    - intros v q H. destruct H as [s cs qs L H|t l a g q Hg Ha Hp Hq|t l a [[]|Z]|t l g q Hg Ha Hp Hq|t l [[]|Z]|t t' ps x Z|t t' ps x [[]|Z]|kd t e ls caps ens caps' lens F1 F2 F3 F4].
      + apply plain_seen; [exact L|]. intros i c q Hc Hq U. apply shown_seen, (H i c q Hc Hq U).
      + apply shown_seen in Hq. intros HT. inversion HT as [|? ? ? F1 F2| | |]; subst. destruct (HM Hg) as [HM1 _]. destruct (HM1 l) as (T1 & T2 & T3).
        destruct (Hq T1) as (w & -> & Hw). exists (Node (SCell t true) [w]). split; [cbn [visit visit_shape map]; now rewrite (lk_size Hw)|].
        apply lock_like. exact (@cell_seen false t l w g Hg Hw F1 F2 _ eq_refl).
      + intros HT. exists (Node (SCell t false) []). split; [reflexivity | exact (outline_like HT)].
      + apply shown_seen in Hq. intros HT. inversion HT as [| |? ? F1 F2| |]; subst. destruct (HM Hg) as [HM1 _]. destruct (HM1 l) as (T1 & T2 & T3).
        destruct (Hq T1) as (w & -> & Hw). exists (Node (SOnce t true) [w]). split; [cbn [visit visit_shape map]; now rewrite (lk_size Hw)|].
        exact (@cell_seen true t l w g Hg Hw F1 F2 _ eq_refl).
      + intros HT. exists (Node (SOnce t false) []). split; [reflexivity | exact (outline_like HT)].
      + intros HT. exists (Node (SWeak t (Some (t', ps, x))) []). split; [reflexivity|]. inversion HT; subst.
        constructor; [constructor; [assumption | constructor] | reflexivity | reflexivity | intros _ _; cbn; auto | intros _ _; cbn; auto | reflexivity | intros _ _ _ _; cbn; auto].
      + intros HT. exists (Node (SWeak t None) []). split; [reflexivity | exact (outline_like HT)].
      + intros HT. inversion HT as [| | | |? ? ? ? H1 H2 H3 H4 H5]; subst.
        assert (A : forall w ls ns, Forall2 (answered M False w) ls ns -> ns = map (match w with Capacity => capacity_of | Length => entries_of end) ls).
        { clear - HM. intros w ls ns. induction 1 as [|l n ls ns X _ IH]; [reflexivity|]. cbn [map]. rewrite IH. f_equal.
          destruct X as [[]|(g & Hg & _ & ->)]. destruct (HM Hg) as (_ & _ & _ & T). destruct (T l) as (T1 & T2 & _). destruct w; assumption. }
        assert (B : Forall2 (fun l es => N.of_nat (length es) = entries_of l) ls ens /\ exists ws, entries_like kd e (concat ens) ws).
        { clear - F2 H3 yielded_seen. induction F2 as [|l es ls ens Y _ IH].
          - split; [constructor|]. exists []. apply entries_like_nil.
          - destruct (yielded_seen _ _ _ Y e (H3 l (or_introl eq_refl))) as (N1 & ws1 & W1). destruct IH as (N2 & ws2 & W2); [intros l' h; apply H3; now right|].
            split; [now constructor|]. exists (ws1 ++ ws2). cbn [concat]. now apply entries_like_app. }
        destruct B as (B1 & ws & B2). rewrite (A _ _ _ F1), (A _ _ _ F3), (A _ _ _ F4).
        apply told_like with (ws := ws); try assumption.
        intros l Hl. clear - F2 Hl HM. induction F2 as [|l0 es ls ens Y _ IH]; [destruct Hl|]. destruct Hl as [->|Hl]; [|auto].
        destruct Y as [? ? []|kd l g es Hg _ _]. destruct (HM Hg) as (_ & _ & _ & T). apply (T l).
    - intros kd l es H. destruct H as [kd l []|kd l g es Hg Ha Ht]. intros e He. destruct (HM Hg) as (_ & _ & T1 & T2).
      destruct (@these_seen _ _ _ Ht e) as (N1 & ws & W).
      + intros k v Hin. pose proof (T1 l k v Hin) as X. rewrite He in X. exact X.
      + intros P HA k v Hin. destruct (HA _ Hg) as (_ & _ & HA3). eapply HA3; eauto.
      + destruct (T2 l) as (_ & T3 & _). split; [now rewrite N1 | eauto].
    - intros kd kvs es H. destruct H as [kd|kd k v kvs id qk qv es Hk Hv Hs]; intros e Hfit Hall.
      + split; [reflexivity|]. exists []. apply entries_like_nil.
      + destruct (@these_seen _ _ _ Hs e) as (N1 & ws & W); [intros; apply Hfit; now right | intros P HA k0 v0 Hin; apply Hall; auto; now right|].
        split; [cbn; now rewrite N1|]. apply shown_seen in Hk. pose proof (Hfit k v (or_introl eq_refl)) as X.
        change (mkEntry id (xsize k, qk) (xsize v, qv) :: es) with ([mkEntry id (xsize k, qk) (xsize v, qv)] ++ es).
        destruct kd; cbn [slot_fits] in X.
        * destruct X as (X1 & X2 & X3). specialize (Hv eq_refl). apply shown_seen in Hv. destruct (Hk X1) as (wk & -> & Wk). destruct (Hv X2) as (wv & -> & Wv).
          exists ([wk; wv] ++ ws). apply entries_like_app; [|exact W]. constructor; cbn [flat_map app map en_key en_val entries].
          -- unfold as_sub. now rewrite (lk_size Wk), (lk_size Wv).
          -- rewrite (lk_size Wk), (lk_size Wv). auto.
          -- constructor; [apply (lk_typed Wk) | constructor; [apply (lk_typed Wv) | constructor]].
          -- intros HA. destruct (Hall _ HA k v (or_introl eq_refl)) as [P1 P2]. constructor; [exact (lk_manual Wk HA P1) | constructor; [exact (lk_manual Wv HA P2) | constructor]].
          -- intros HA. destruct (Hall _ HA k v (or_introl eq_refl)) as [P1 P2]. constructor; [exact (lk_map Wk HA P1) | constructor; [exact (lk_map Wv HA P2) | constructor]].
          -- intros HA HC. destruct (Hall _ HA k v (or_introl eq_refl)) as [P1 P2]. destruct (Hall _ HC k v (or_introl eq_refl)) as [Q1 Q2].
             constructor; [exact (lk_counted Wk HA P1 HC Q1) | constructor; [exact (lk_counted Wv HA P2 HC Q2) | constructor]].
        * destruct X as (X1 & X2 & X3). destruct (Hk X1) as (wk & -> & Wk).
          exists ([wk] ++ ws). apply entries_like_app; [|exact W]. constructor; cbn [flat_map app map en_key en_val].
          -- unfold as_sub. now rewrite (lk_size Wk).
          -- constructor; [|constructor]. rewrite (lk_size Wk), (lk_drop Wk). auto.
          -- constructor; [apply (lk_typed Wk) | constructor].
          -- intros HA. destruct (Hall _ HA k v (or_introl eq_refl)) as [P1 _]. constructor; [exact (lk_manual Wk HA P1) | constructor].
          -- intros HA. destruct (Hall _ HA k v (or_introl eq_refl)) as [P1 _]. constructor; [exact (lk_map Wk HA P1) | constructor].
          -- intros HA HC. destruct (Hall _ HA k v (or_introl eq_refl)) as [P1 _]. destruct (Hall _ HC k v (or_introl eq_refl)) as [Q1 _].
             constructor; [exact (lk_counted Wk HA P1 HC Q1) | constructor].
  Qed.
End Seen.
