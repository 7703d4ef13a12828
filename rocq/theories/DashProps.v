(** * What visits of changing [DashMap]s see: at rest, keys, ends, declarations. *)
From Coq Require Import Wellfounded.
From Verif Require Import Base BaseFacts KeyModel KeyFacts HMap FlameModel BuilderModel VisitorModel LayoutModel Spec ImplModel ImplFacts LockFacts DashModel DashSpec DashFacts.

#[local] Arguments key_new : simpl never.

(** ** Answers *)
Lemma reads_from {A} (f : shard -> A) k i H l H' : reads f k i H l H' ->
  length l = k /\ incl H' H /\
  forall j x, nth_error l j = Some x -> exists s sh, In s H /\ nth_error s (i + j) = Some sh /\ x = f sh.
Proof.
  induction 1 as [i H|k i s H l H' R IH|k i s H x l H' E R IH].
  - split; [reflexivity|]. split; [apply incl_refl|]. intros [|j] x E; discriminate E.
  - destruct IH as (L & I & F). split; [exact L|]. split; [now apply incl_tl|].
    intros j x E. destruct (F j x E) as (s' & sh & G1 & G2). exists s', sh. split; [now right | exact G2].
  - destruct IH as (L & I & F). split; [cbn; now rewrite L|]. split; [exact I|].
    intros [|j] y Ey.
    + cbn in Ey. injection Ey as <-. exists s, x. split; [now left|]. rewrite Nat.add_0_r. auto.
    + cbn in Ey. destruct (F j y Ey) as (s' & sh & G1 & G2 & G3). exists s', sh. rewrite <- Nat.add_succ_comm in *. auto.
Qed.

Lemma reads_rest {A} (f : shard -> A) s : forall k i H l H', reads f k i H l H' -> (forall x, In x H -> x = s) ->
  (k + i = length s)%nat -> l = map f (skipn i s).
Proof.
  induction 1 as [i H|k i s' H l H' R IH|k i s' H x l H' E R IH]; intros Hs Hk.
  - rewrite skipn_all2 by lia. reflexivity.
  - apply IH; auto. intros x Hx. apply Hs. now right.
  - assert (s' = s) by (apply Hs; now left). subst s'. rewrite IH by (auto; lia).
    assert (Esk : skipn i s = x :: skipn (S i) s).
    { clear - E. revert i E. induction s as [|y s IHs]; intros [|i] E; try discriminate E; [now injection E as -> | cbn [skipn]; now rewrite (IHs i E)]. }
    rewrite Esk. reflexivity.
Qed.

Lemma usum_exact m l : forall acc, acc + sumN l < two64 -> usum m acc l = Some (acc + sumN l).
Proof.
  induction l as [|a l IH]; intros acc H; cbn [usum sumN] in *; [f_equal; lia|].
  rewrite uadd_exact by lia. cbn [obind]. rewrite IH by lia. f_equal. lia.
Qed.

Lemma len_all s : sumN (map sh_len s) = len (all_entries s).
Proof.
  unfold all_entries, len. induction s as [|sh s IH]; [reflexivity|]. cbn [map sumN flat_map]. rewrite IH, app_length. unfold sh_len, len. lia.
Qed.

Lemma entries_kv ens : vseqs (map (visit_entry IsMap) ens) = fields_kv KEY_NAME VALUE_NAME (flat_map (fun en => [en_key en; en_val en]) ens).
Proof.
  induction ens as [|en ens IH]; [reflexivity|]. cbn [map vseqs flat_map app fields_kv visit_entry]. rewrite IH.
  unfold field, v_field, v_field_with. cbn [vseq]. reflexivity.
Qed.
Lemma entries_set ens : vseqs (map (visit_entry IsSet) ens) = fields_named DATA_NAME (map en_key ens).
Proof. unfold fields_named. rewrite map_map. reflexivity. Qed.

(** A map at rest is visited as ImplModel says. *)
Definition dash_at_rest (m : mode) (kd : dash) (t e : tinfo) (s : list shard) : vprog :=
  match kd with
  | IsMap => impl_dash_map m t e (len (all_entries s)) (dash_capacity s) (dash_values kd s)
  | IsSet => impl_dash_set m t e (dash_capacity s) (dash_values kd s)
  end.

Lemma told_rest m kd t e s H caps ens caps' lens : told (length s) H caps ens caps' lens -> (forall x, In x H -> x = s) ->
  dash_capacity s < two64 -> len (all_entries s) < two64 ->
  visit_told m kd t e caps ens caps' lens = dash_at_rest m kd t e s.
Proof.
  intros (H1 & H2 & H3 & H4 & R1 & R2 & R3 & R4) Hs Hc Hn.
  assert (I1 : forall x, In x H1 -> x = s) by (intros x Hx; apply Hs; now apply (reads_from R1)).
  assert (I2 : forall x, In x H2 -> x = s) by (intros x Hx; apply I1; now apply (reads_from R2)).
  assert (I3 : forall x, In x H3 -> x = s) by (intros x Hx; apply I2; now apply (reads_from R3)).
  rewrite (reads_rest R1 Hs), (reads_rest R2 I1), (reads_rest R3 I2), (reads_rest R4 I3) by lia. cbn [skipn].
  unfold visit_told. rewrite !usum_exact by (rewrite ?len_all; unfold dash_capacity in Hc; lia).
  cbn [obind]. rewrite <- flat_map_concat_map, len_all. fold (all_entries s). cbn [N.add].
  unfold dash_at_rest, impl_dash_map, impl_dash_set, dash_values. destruct kd.
  - rewrite entries_kv. reflexivity.
  - rewrite entries_set. unfold len. rewrite map_length. reflexivity.
Qed.

(** ** Keys *)
Lemma nodup_concat home (ens : list (list entry)) : forall i,
  (forall j l, nth_error ens j = Some l -> NoDup (map en_id l) /\ Forall (fun en => home (en_id en) = (i + j)%nat) l) ->
  NoDup (map en_id (concat ens)) /\ Forall (fun en => (i <= home (en_id en))%nat) (concat ens).
Proof.
  induction ens as [|l ens IH]; intros i H; [split; constructor|].
  destruct (H 0%nat l eq_refl) as [N1 F1]. rewrite Nat.add_0_r in F1.
  destruct (IH (S i)) as [N2 F2]. { intros j l' E. destruct (H (S j) l' E) as [A B]. split; [exact A|]. rewrite <- Nat.add_succ_comm in B. exact B. }
  cbn [concat]. split.
  - rewrite map_app. clear - N1 N2 F1 F2. induction l as [|en l IH]; [exact N2|]. cbn [map app] in *.
    inversion N1; inversion F1; subst. constructor; [|auto]. rewrite in_app_iff. intros [A|A]; [contradiction|].
    apply in_map_iff in A as (en' & E & A). rewrite Forall_forall in F2. specialize (F2 _ A). rewrite E in F2. lia.
  - apply Forall_app. split; [eapply Forall_impl; [|exact F1]; intros en E; cbn in *; lia|].
    eapply Forall_impl; [|exact F2]. intros en E. cbn in *. lia.
Qed.

Lemma told_keys home k H caps ens caps' lens : told k H caps ens caps' lens ->
  (forall s, In s H -> hashed home s /\ length s = k) ->
  NoDup (map en_id (concat ens)) /\
  (forall en, In en (concat ens) -> exists s sh, In s H /\ In sh s /\ In en (sh_entries sh)) /\
  (H <> [] -> forall id, stays H id -> In id (map en_id (concat ens))).
Proof.
  intros (H1 & H2 & H3 & H4 & R1 & R2 & _) Hh. destruct (reads_from R1) as (_ & I1 & _).
  destruct (reads_from R2) as (L2 & _ & F2). split; [|split].
  - apply (@nodup_concat home ens 0). intros j l E. destruct (F2 j l E) as (s & sh & G1 & G2 & ->).
    destruct (Hh s (I1 _ G1)) as [Hs _]. exact (Hs j sh G2).
  - intros en Hen. apply in_concat in Hen as (l & Hl & Hen). apply In_nth_error in Hl as [j E].
    destruct (F2 j l E) as (s & sh & G1 & G2 & ->). exists s, sh. split; [auto|]. split; [eapply nth_error_In; eauto | exact Hen].
  - intros Hne id Hst. assert (Hin : forall s, In s H -> exists sh en, nth_error s (home id) = Some sh /\ In en (sh_entries sh) /\ en_id en = id).
    { intros s Hs. destruct (Hst s Hs) as (sh & en & A & B & C). apply In_nth_error in A as [i Ei].
      destruct (Hh s Hs) as [Hhs _]. destruct (Hhs i sh Ei) as [_ Fh]. rewrite Forall_forall in Fh. specialize (Fh en B). rewrite C in Fh. subst i. eauto. }
    assert (Hk : (home id < k)%nat).
    { destruct H as [|s H]; [congruence|]. destruct (Hin s (or_introl eq_refl)) as (sh & _ & E & _).
      destruct (Hh s (or_introl eq_refl)) as [_ <-]. apply nth_error_Some. congruence. }
    destruct (nth_error ens (home id)) as [l|] eqn:E; [|apply nth_error_None in E; lia].
    destruct (F2 _ _ E) as (s & sh & G1 & G2 & ->). cbn [Nat.add] in G2. destruct (Hin s (I1 _ G1)) as (sh' & en & E' & B & C).
    assert (sh' = sh) by congruence. subst sh'. apply in_map_iff. exists en. split; [exact C|].
    apply in_concat. exists (sh_entries sh). split; [eapply nth_error_In; eauto | exact B].
Qed.

(** ** Ends *)
Section Ends.
Variables (m : mode) (kd : dash) (t e : tinfo).

#[local] Notation next := (next m kd t e).

Definition still (d d' : dstate) : Prop :=
  d_point d' = d_point d /\ d_open d' = d_open d /\ length (d_shards d') = length (d_shards d) /\
  forall i, guarded d = Some i -> nth_error (d_shards d') i = nth_error (d_shards d) i.

Lemma next_inv d d' : next d' d -> exists d1, still d d1 /\ visit_step m kd t e d1 = Some d'.
Proof.
  induction 1 as [d d' S|d d1 d' O N (d2 & (P1 & P2 & P3 & P4) & S)].
  - exists d. split; [repeat split; auto | exact S].
  - destruct O as (shs & -> & El & Eg). cbn [d_point d_open d_shards] in *. exists d2. split; [|exact S].
    split; [exact P1|]. split; [exact P2|]. split; [congruence|]. intros i Hi. rewrite <- (Eg i Hi). apply P4. exact Hi.
Qed.

Definition ends (d : dstate) : Prop := Acc next d.

Lemma ends_intro d : (forall d1 d', still d d1 -> visit_step m kd t e d1 = Some d' -> ends d') -> ends d.
Proof. intros H. constructor. intros d' N. apply next_inv in N as (d1 & S & V). exact (H d1 d' S V). Qed.

Lemma ends_stop d : d_point d = PStop -> ends d.
Proof. intros E. apply ends_intro. intros d1 d' (P & _) V. unfold visit_step in V. rewrite P, E in V. discriminate. Qed.
Lemma ends_leave n : forall d, d_point d = PLeave -> d_open d = n -> ends d.
Proof.
  induction n as [|n IH]; intros d E En; apply ends_intro; intros d1 d' (P & O & _) V; unfold visit_step in V; rewrite P, E, O, En in V.
  - injection V as <-. now apply ends_stop.
  - destruct (leave_scope (d_builder d1, d_outcome d1)) as [b o]. injection V as <-. now apply IH.
Qed.
Lemma ends_panic d b o : ends (d_panic d b o).
Proof. eapply ends_leave; reflexivity. Qed.
Lemma ends_calc d x f : (forall n, ends (f n)) -> ends (d_calc d x f).
Proof. intros H. destruct x; cbn; [auto | apply ends_panic]. Qed.
Lemma ends_unused d c n : d_point d = PUnused c n -> ends d.
Proof.
  intros E. apply ends_intro. intros d1 d' (P & _) V. unfold visit_step in V. rewrite P, E in V.
  assert (Some_inj : forall x y : dstate, Some x = Some y -> x = y) by congruence. apply Some_inj in V. subst d'.
  apply ends_calc. intros s. unfold d_run. destruct (run m (v_simple UNUSED_CAPACITY_NAME s) (d_builder d1)) as [b []];
    [eapply ends_leave; reflexivity | apply ends_panic | apply ends_panic].
Qed.
Lemma ends_len n : forall d c i acc, d_point d = PLen c i acc -> (length (d_shards d) - i = n)%nat -> ends d.
Proof.
  induction n as [|n IH]; intros d c i acc E En; apply ends_intro; intros d1 d' (P & _ & L & _) V; unfold visit_step in V; rewrite P, E in V;
    destruct (nth_error (d_shards d1) i) as [sh|] eqn:Ei; injection V as <-.
  - apply nth_some in Ei. lia.
  - eapply ends_unused. reflexivity.
  - apply ends_calc. intros a. apply nth_some in Ei. eapply IH; [reflexivity|]. cbn. lia.
  - eapply ends_unused. reflexivity.
Qed.
Lemma ends_cap2 n : forall d i acc, d_point d = PCap2 i acc -> (length (d_shards d) - i = n)%nat -> ends d.
Proof.
  induction n as [|n IH]; intros d i acc E En; apply ends_intro; intros d1 d' (P & _ & L & _) V; unfold visit_step in V; rewrite P, E in V;
    destruct (nth_error (d_shards d1) i) as [sh|] eqn:Ei; injection V as <-.
  - apply nth_some in Ei. lia.
  - eapply ends_len; reflexivity.
  - apply ends_calc. intros a. apply nth_some in Ei. eapply IH; [reflexivity|]. cbn. lia.
  - eapply ends_len; reflexivity.
Qed.
Lemma ends_entry k i : (forall d, length (d_shards d) = k -> d_point d = PNext (S i) -> ends d) ->
  forall n d j sh, length (d_shards d) = k -> d_point d = PEntry i j -> nth_error (d_shards d) i = Some sh -> (length (sh_entries sh) - j = n)%nat -> ends d.
Proof.
  intros Hnext. induction n as [|n IH]; intros d j sh Hk E Esh En; apply ends_intro; intros d1 d' (P & _ & L & G) V; unfold visit_step in V; rewrite P, E in V;
    rewrite (G i) in V by (unfold guarded; now rewrite E); rewrite Esh in V; destruct (nth_error (sh_entries sh) j) as [en|] eqn:Ej;
    assert (Some_inj : forall x y : dstate, Some x = Some y -> x = y) by congruence; apply Some_inj in V; subst d'.
  - apply nth_some in Ej. lia.
  - apply Hnext; [cbn; congruence | reflexivity].
  - apply nth_some in Ej. unfold d_run. destruct (run m (visit_entry kd en) (d_builder d1)) as [b []];
      [|apply ends_panic | apply ends_panic]. eapply IH; [cbn; congruence | reflexivity | | ]. { cbn. rewrite (G i); [exact Esh | unfold guarded; now rewrite E]. } lia.
  - apply Hnext; [cbn; congruence | reflexivity].
Qed.
Lemma ends_next n : forall k d i, length (d_shards d) = k -> d_point d = PNext i -> (k - i = n)%nat -> ends d.
Proof.
  induction n as [|n IH]; intros k d i Hk E En; apply ends_intro; intros d1 d' (P & _ & L & _) V; unfold visit_step in V; rewrite P, E in V;
    destruct (nth_error (d_shards d1) i) as [sh|] eqn:Ei; injection V as <-.
  - apply nth_some in Ei. lia.
  - eapply ends_cap2; reflexivity.
  - pose proof (nth_some Ei) as Hi. eapply (@ends_entry k i); [|cbn; congruence | reflexivity | exact Ei | reflexivity].
    intros d2 Hk2 E2. eapply IH; eauto. lia.
  - eapply ends_cap2; reflexivity.
Qed.
Lemma ends_cap1 n : forall d i acc, d_point d = PCap1 i acc -> (length (d_shards d) - i = n)%nat -> ends d.
Proof.
  induction n as [|n IH]; intros d i acc E En; apply ends_intro; intros d1 d' (P & _ & L & _) V; unfold visit_step in V; rewrite P, E in V;
    destruct (nth_error (d_shards d1) i) as [sh|] eqn:Ei; injection V as <-.
  - apply nth_some in Ei. lia.
  - apply ends_calc. intros s. unfold d_enter. destruct (enter_inline _ _ _ _) as [b []]; [eapply ends_next; reflexivity | apply ends_panic].
  - apply ends_calc. intros a. apply nth_some in Ei. eapply IH; [reflexivity|]. cbn. lia.
  - apply ends_calc. intros s. unfold d_enter. destruct (enter_inline _ _ _ _) as [b []]; [eapply ends_next; reflexivity | apply ends_panic].
Qed.
Lemma always_ends shs b : ends (d_start shs b).
Proof.
  apply ends_intro. intros d1 d' (P & _) V. unfold visit_step in V. rewrite P in V. cbn [d_start d_point] in V. injection V as <-.
  unfold d_enter. destruct (enter_inline _ _ _ _) as [b1 []]; [|apply ends_panic].
  apply ends_intro. intros d2 d' (P2 & _) V. unfold visit_step in V. rewrite P2 in V. cbn [d_point] in V. injection V as <-.
  unfold d_enter. destruct (enter_unique _ _ _ _) as [b2 []]; [|apply ends_panic]. eapply ends_cap1; reflexivity.
Qed.

(** The visit can always go on until it is finished. *)
Lemma can_step d : d_point d <> PStop -> (forall i j, d_point d = PEntry i j -> exists sh, nth_error (d_shards d) i = Some sh) ->
  exists d', visit_step m kd t e d = Some d'.
Proof.
  intros Hp He. unfold visit_step. destruct (d_point d) as [| |i acc|i|i j|i acc|c i acc|c n| |]; try congruence;
    try (destruct (nth_error (d_shards d) i); eauto; fail); eauto.
  - destruct (He i j eq_refl) as [sh ->]. destruct (nth_error (sh_entries sh) j); eauto.
  - destruct (d_open d); eauto. destruct (leave_scope _); eauto.
Qed.
End Ends.

(** ** Declarations *)
Definition grows (s s' : list shard) : Prop :=
  Forall2 (fun sh sh' => sh_cap sh' = sh_cap sh /\ sh_len sh <= sh_len sh') s s'.

Lemma grows_refl s : grows s s.
Proof. induction s; constructor; auto. split; [reflexivity | lia]. Qed.
Lemma grows_trans s s1 s2 : grows s s1 -> grows s1 s2 -> grows s s2.
Proof.
  intros H. revert s2. induction H as [|a b s s1 [E L] H IH]; intros s2 H2; inversion H2 as [|? c ? s2' [E' L'] H2']; subst; constructor; [|now apply IH].
  split; [congruence | lia].
Qed.

Lemma inserts_tail s H : only_inserts (s :: H) -> only_inserts H.
Proof. destruct H; [exact (fun _ => I) | intros [_ A]; exact A]. Qed.
Lemma inserts_later H : forall s, only_inserts (s :: H) -> forall s', In s' (s :: H) -> grows s s'.
Proof.
  induction H as [|s1 H IH]; intros s Hi s' Hs'.
  - destruct Hs' as [<-|[]]. apply grows_refl.
  - destruct Hi as [G Hi]. destruct Hs' as [<-|Hs']; [apply grows_refl|]. eapply grows_trans; [exact G | now apply IH].
Qed.
Lemma grows_caps s s' : grows s s' -> map sh_cap s' = map sh_cap s.
Proof. induction 1 as [|a b s s' [E _] H IH]; [reflexivity|]. cbn [map]. now rewrite E, IH. Qed.

Lemma reads_inserts {A} (f : shard -> A) k i H l H' : reads f k i H l H' -> only_inserts H -> only_inserts H'.
Proof. induction 1; auto. intros Hi. apply IHreads. eapply inserts_tail; eauto. Qed.

Lemma reads_const {A} (f : shard -> A) L : forall k i H l H', reads f k i H l H' -> (forall x, In x H -> map f x = L) ->
  (k + i = length L)%nat -> l = skipn i L.
Proof.
  induction 1 as [i H|k i s' H l H' R IH|k i s' H x l H' E R IH]; intros Hs Hk.
  - rewrite skipn_all2 by lia. reflexivity.
  - apply IH; auto. intros x Hx. apply Hs. now right.
  - rewrite IH by (auto; lia). assert (EL : nth_error L i = Some (f x)) by (rewrite <- (Hs s' (or_introl eq_refl)), nth_error_map, E; reflexivity).
    clear - EL. revert i EL. induction L as [|y L IHL]; intros [|i] EL; try discriminate EL; [now injection EL as -> | exact (IHL i EL)].
Qed.

Lemma grows_nth s s' i sh sh' : grows s s' -> nth_error s i = Some sh -> nth_error s' i = Some sh' -> sh_len sh <= sh_len sh'.
Proof.
  intros G. revert i. induction G as [|a b s s' [_ L] G IH]; intros [|i] E E'; try discriminate E.
  - injection E as ->. injection E' as ->. exact L.
  - eapply IH; eauto.
Qed.

(** What is read during an insert-only history is a lower bound for later. *)
Lemma reads_lower k i H ens H' : reads sh_entries k i H ens H' -> only_inserts H ->
  forall s', In s' H' -> forall j l sh', nth_error ens j = Some l -> nth_error s' (i + j) = Some sh' -> len l <= sh_len sh'.
Proof.
  induction 1 as [i H|k i s H l H' R IH|k i s H x l H' E R IH]; intros Hi s' Hs' j l0 sh' Ej Esh.
  - destruct j; discriminate Ej.
  - eapply IH; eauto. eapply inserts_tail; eauto.
  - destruct j as [|j].
    + injection Ej as <-. rewrite Nat.add_0_r in Esh. apply (@grows_nth s s' i x sh'); auto.
      eapply inserts_later; eauto. destruct (reads_from R) as (_ & I & _). now apply I.
    + cbn in Ej. eapply IH; eauto. now rewrite Nat.add_succ_comm.
Qed.

Lemma fits_entry kd e en : fits (snd (en_key en)) (Some (fst (en_key en))) -> fits (snd (en_val en)) (Some (fst (en_val en))) ->
  fst (en_key en) + match kd with IsMap => fst (en_val en) | IsSet => 0 end <= t_size e ->
  fits (visit_entry kd en) (Some (t_size e)).
Proof.
  intros Hk Hv Hs. destruct kd; unfold visit_entry, field, v_field, v_field_with; cbn [vseq fits option_map]; repeat split; auto; lia.
Qed.

Lemma fits_entries kd e ens : Forall (fun en => fits (visit_entry kd en) (Some (t_size e))) ens ->
  fits (vseqs (map (visit_entry kd) ens)) (Some (len ens * t_size e)).
Proof.
  induction 1 as [|en ens H Hs IH]; [exact I|]. cbn [map vseqs].
  replace (len (en :: ens) * t_size e) with (t_size e + len ens * t_size e) by (unfold len; cbn [length]; rewrite Nat2N.inj_succ; lia).
  now apply fits_vseq.
Qed.

Lemma sum_le (l l' : list N) : Forall2 N.le l l' -> sumN l <= sumN l'.
Proof. induction 1; cbn [sumN]; lia. Qed.

Lemma len_concat (ens : list (list entry)) : len (concat ens) = sumN (map len ens).
Proof. induction ens as [|l ens IH]; [reflexivity|]. cbn [concat map sumN]. rewrite <- IH. unfold len. rewrite app_length. lia. Qed.

Lemma Forall2_nth {A B} (R : A -> B -> Prop) l : forall l', length l = length l' ->
  (forall j a b, nth_error l j = Some a -> nth_error l' j = Some b -> R a b) -> Forall2 R l l'.
Proof.
  induction l as [|a l IH]; intros [|b l'] E H; try discriminate E; constructor.
  - apply (H 0%nat); reflexivity.
  - apply IH; [now injection E|]. intros j x y Hx Hy. apply (H (S j)); auto.
Qed.

Lemma told_fits m kd t e s H caps ens caps' lens : told (length s) (s :: H) caps ens caps' lens -> only_inserts (s :: H) ->
  (forall x, In x (s :: H) -> slots_ok kd e x /\ entries_fit x) -> ptr_size <= t_size t ->
  dash_capacity s * t_size e < two64 -> dash_capacity s < two64 ->
  well_declared (visit_told m kd t e caps ens caps' lens).
Proof.
  intros (H1 & H2 & H3 & H4 & R1 & R2 & R3 & R4) Hi Hok Hp Hc Hc'.
  assert (J1 : incl H1 (s :: H)) by apply (reads_from R1). assert (J2 : incl H2 (s :: H)) by (intros x Hx; apply J1; now apply (reads_from R2)).
  assert (J3 : incl H3 (s :: H)) by (intros x Hx; apply J2; now apply (reads_from R3)).
  assert (I1 : only_inserts H1) by (eapply reads_inserts; eauto).
  assert (HC : forall x, In x (s :: H) -> map sh_cap x = map sh_cap s) by (intros x Hx; apply grows_caps; eapply inserts_later; eauto).
  assert (HL : forall x, In x (s :: H) -> length x = length s).
  { intros x Hx. rewrite <- (map_length sh_cap x), (HC x Hx). apply map_length. }
  assert (E1 : caps = map sh_cap s) by (rewrite (@reads_const _ sh_cap (map sh_cap s) _ _ _ _ _ R1); auto; rewrite map_length; lia).
  assert (E3 : caps' = map sh_cap s).
  { rewrite (@reads_const _ sh_cap (map sh_cap s) _ _ _ _ _ R3); auto. rewrite map_length. lia. }
  destruct (reads_from R2) as (L2 & _ & F2). destruct (reads_from R4) as (L4 & _ & F4).
  assert (Hseen : Forall2 N.le (map len ens) lens).
  { apply Forall2_nth; [rewrite map_length; congruence|]. intros j a b Ha Hb. rewrite nth_error_map in Ha.
    destruct (nth_error ens j) as [l|] eqn:El; [|discriminate Ha]. injection Ha as <-. destruct (F4 j b Hb) as (x & sh & G1 & G2 & ->).
    eapply (reads_lower R2 I1); eauto. now apply (reads_from R3). }
  assert (Hcap : Forall2 N.le lens (map sh_cap s)).
  { apply Forall2_nth; [rewrite map_length; congruence|]. intros j a b Ha Hb. destruct (F4 j a Ha) as (x & sh & G1 & G2 & ->).
    cbn [Nat.add] in G2. destruct (Hok x (J3 _ G1)) as [Hs _]. unfold slots_ok in Hs. rewrite Forall_forall in Hs.
    destruct (Hs sh) as [Hle _]; [eapply nth_error_In; eauto|]. rewrite <- (HC x (J3 _ G1)), nth_error_map, G2 in Hb. injection Hb as <-. exact Hle. }
  apply sum_le in Hseen, Hcap. unfold dash_capacity in *. set (C := sumN (map sh_cap s)) in *.
  assert (Hn : len (concat ens) <= sumN lens) by (now rewrite len_concat).
  unfold well_declared, visit_told, enter_self, v_enter_self. cbn [fits option_map]. split; [exact I|]. split; [|exact I].
  split; [exact Hp|]. split; [|exact I].
  rewrite E1, E3, !usum_exact by (fold C; lia). cbn [obind N.add]. fold C. rewrite umul_exact by exact Hc. cbn [with_val fits option_map].
  split; [exact I|]. split; [|exact I]. unfold usaturating_sub.
  assert (Hle : (C - sumN lens) * t_size e <= C * t_size e) by (apply N.mul_le_mono_r; lia).
  rewrite umul_exact by lia. cbn [with_val].
  eapply fits_mono; [apply (@fits_vseq _ _ (len (concat ens) * t_size e) ((C - sumN lens) * t_size e))|].
  - apply fits_entries. rewrite Forall_forall. intros en Hen. apply in_concat in Hen as (l & Hl & Hen).
    apply In_nth_error in Hl as [j Ej]. destruct (F2 j l Ej) as (x & sh & G1 & G2 & ->). apply nth_error_In in G2.
    destruct (Hok x (J1 _ G1)) as [Hs Hf]. unfold slots_ok in Hs. rewrite Forall_forall in Hs. destruct (Hs sh G2) as [_ Hsz].
    rewrite Forall_forall in Hsz. unfold entries_fit in Hf. rewrite Forall_forall in Hf.
    destruct (Hf en) as [Hk Hv]; [unfold all_entries; apply in_flat_map; eauto|]. apply fits_entry; auto.
  - cbn. repeat split; auto. lia.
  - rewrite <- N.mul_add_distr_r. apply N.mul_le_mono_r. lia.
Qed.

(** ** Sessions *)
Lemma session_told m kd t e shs H out : dash_profile m kd t e shs H out ->
  exists caps ens caps' lens, told (length shs) H caps ens caps' lens /\ out = profile m [visit_told m kd t e caps ens caps' lens].
Proof.
  intros (b0 & d & b & o & Hr & G & F & ->). destruct (visit_is_told G F) as (caps & ens & caps' & lens & Ht & E).
  exists caps, ens, caps', lens. split; [exact Ht|]. unfold profile. cbn [visit_roots]. unfold visit_root. rewrite Hr, <- E.
  destruct (leave_scope (b, o)) as [b1 []]; reflexivity.
Qed.

(** ** Explicit runs *)
Section Drive.
Variables (m : mode) (kd : dash) (t e : tinfo).
Fixpoint drive (n : nat) (d : dstate) : dstate :=
  match n with
  | O => d
  | S n' => match visit_step m kd t e d with Some d' => drive n' d' | None => d end
  end.
Lemma goes_drive n : forall d H d', goes m kd t e (drive n d) H d' ->
  exists j, (j <= n)%nat /\ goes m kd t e d (repeat (d_shards d) j ++ H) d'.
Proof.
  induction n as [|n IH]; intros d H d' G; cbn [drive] in G; [exists 0%nat; auto|].
  destruct (visit_step m kd t e d) as [d1|] eqn:E; [|exists 0%nat; split; [lia | exact G]].
  destruct (IH _ _ _ G) as (j & Hj & G'). exists (S j). split; [lia|]. cbn [repeat app]. eapply goes_visit; [exact E|].
  rewrite <- (shards_step E). exact G'.
Qed.
End Drive.
