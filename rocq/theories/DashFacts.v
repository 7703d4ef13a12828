(** * Every run of a visit of a changing [DashMap] is a visit of what it was told. *)
From Verif Require Import Base BaseFacts KeyModel KeyFacts HMap FlameModel BuilderModel VisitorModel LayoutModel ImplModel LockFacts DashModel DashSpec.

#[local] Arguments key_new : simpl never.
#[local] Arguments enter_inline : simpl never.
#[local] Arguments enter_unique : simpl never.
#[local] Arguments leave_scope : simpl never.

Fixpoint leaves (k : nat) (r : builder * outcome) : builder * outcome :=
  match k with O => r | S k' => leaves k' (leave_scope r) end.

Ltac break_inner := match goal with |- context [match ?x with _ => _ end] =>
  lazymatch x with context [match _ with _ => _ end] => fail | _ => destruct x end end.

Section Visit.
Variables (m : mode) (kd : dash) (t e : tinfo).
Notation goes := (goes m kd t e).
Notation vstep := (visit_step m kd t e).

(** ** The programs left at each point *)
Definition t_unused (c n : N) : vprog := with_val (umul m (usaturating_sub c n) (t_size e)) (v_simple UNUSED_CAPACITY_NAME).
Definition t_len (c acc : N) (lens : list N) : vprog :=
  with_val (do n <- usum m acc lens; umul m (usaturating_sub c n) (t_size e)) (v_simple UNUSED_CAPACITY_NAME).
Definition t_cap2 (acc : N) (caps lens : list N) : vprog :=
  with_val (do c <- usum m acc caps; do n <- usum m 0 lens; umul m (usaturating_sub c n) (t_size e)) (v_simple UNUSED_CAPACITY_NAME).
Definition t_entries (ens : list entry) (caps lens : list N) : vprog :=
  vseq (vseqs (map (visit_entry kd) ens)) (t_cap2 0 caps lens).
Definition t_cap1 (acc : N) (caps : list N) (ens : list (list entry)) (caps' lens : list N) : vprog :=
  with_val (do c <- usum m acc caps; umul m c (t_size e)) (fun total =>
    VInline CAPACITY_NAME total (t_entries (concat ens) caps' lens) VRet).

Lemma visit_told_eq caps ens caps' lens : visit_told m kd t e caps ens caps' lens =
  enter_self t (VUnique PTR_NAME ptr_size (t_cap1 0 caps ens caps' lens) VRet).
Proof. reflexivity. Qed.

Lemma and_then_ret r : and_then r (run m VRet) = r.
Proof. destruct r as [b []]; reflexivity. Qed.

Lemma run_inline k s body b : run m (VInline k s body VRet) b =
  match enter_inline m b k s with (b', Panicked) => (b', Unwinding) | (b', Fine) => leave_scope (run m body b') end.
Proof. cbn [run]. destruct (enter_inline m b k s) as [b' []]; [apply and_then_ret | reflexivity]. Qed.
Lemma run_unique k s body b : run m (VUnique k s body VRet) b =
  match enter_unique m b k s with (b', Panicked) => (b', Unwinding) | (b', Fine) => leave_scope (run m body b') end.
Proof. cbn [run]. destruct (enter_unique m b k s) as [b' []]; [apply and_then_ret | reflexivity]. Qed.

(** What a finished run must amount to, seen from a state in the middle. *)
Definition amounts (d : dstate) (H : list (list shard)) (r : builder * outcome) : Prop :=
  let k := length (d_shards d) in
  let ends p := r = leaves (d_open d) (run m p (d_builder d)) in
  match d_point d with
  | PStop => r = (d_builder d, d_outcome d)
  | PLeave => r = leaves (d_open d) (d_builder d, d_outcome d)
  | PUnused c n => ends (t_unused c n)
  | PLen c i acc => exists lens H4, reads sh_len (k - i) i H lens H4 /\ ends (t_len c acc lens)
  | PCap2 i acc => exists caps lens H3 H4, reads sh_cap (k - i) i H caps H3 /\ reads sh_len k 0 H3 lens H4 /\ ends (t_cap2 acc caps lens)
  | PNext i => exists ens caps lens H2 H3 H4, reads sh_entries (k - i) i H ens H2 /\
      reads sh_cap k 0 H2 caps H3 /\ reads sh_len k 0 H3 lens H4 /\ ends (t_entries (concat ens) caps lens)
  | PEntry i j => forall sh, nth_error (d_shards d) i = Some sh -> exists ens caps lens H2 H3 H4, reads sh_entries (k - S i) (S i) H ens H2 /\
      reads sh_cap k 0 H2 caps H3 /\ reads sh_len k 0 H3 lens H4 /\ ends (t_entries (skipn j (sh_entries sh) ++ concat ens) caps lens)
  | PCap1 i acc => exists caps ens caps' lens H1 H2 H3 H4, reads sh_cap (k - i) i H caps H1 /\ reads sh_entries k 0 H1 ens H2 /\
      reads sh_cap k 0 H2 caps' H3 /\ reads sh_len k 0 H3 lens H4 /\ ends (t_cap1 acc caps ens caps' lens)
  | PPtr => exists caps ens caps' lens, told k H caps ens caps' lens /\ ends (VUnique PTR_NAME ptr_size (t_cap1 0 caps ens caps' lens) VRet)
  | PSelf => exists caps ens caps' lens, told k H caps ens caps' lens /\ ends (visit_told m kd t e caps ens caps' lens)
  end.

(** Before unwinding the outcome is [Done]. *)
Definition calm (d : dstate) : Prop := match d_point d with PLeave | PStop => True | _ => d_outcome d = Done end.

Lemma calm_step d d' : vstep d = Some d' -> calm d -> calm d'.
Proof.
  unfold visit_step, calm. destruct (d_point d) as [| |i acc|i|i j|i acc|c i acc|c n| |] eqn:E; intros H Hc;
    repeat (match type of H with context [match ?x with _ => _ end] => destruct x eqn:? end; try discriminate H);
    try discriminate H; injection H as <-; unfold d_enter, d_calc, d_run, d_goto, d_panic;
    cbn [d_point d_outcome]; repeat (break_inner; cbn [d_point d_outcome]); cbn [d_point d_outcome]; auto.
Qed.

Lemma shards_step d d' : vstep d = Some d' -> d_shards d' = d_shards d.
Proof.
  unfold visit_step. destruct (d_point d) as [| |i acc|i|i j|i acc|c i acc|c n| |]; intros H;
    repeat (match type of H with context [match ?x with _ => _ end] => destruct x eqn:? end; try discriminate H);
    try discriminate H; injection H as <-; unfold d_enter, d_calc, d_run, d_goto, d_panic;
    repeat (break_inner; cbn [d_shards]); reflexivity.
Qed.

Lemma goes_head d H d' : goes d H d' -> exists H', H = d_shards d :: H'.
Proof. intros G. destruct G; eauto. Qed.

(** Anything can be asked at the present moment. *)
Lemma reads_here {A} (f : shard -> A) s H : forall k i, (k + i = length s)%nat -> exists l, reads f k i (s :: H) l (s :: H).
Proof.
  induction k as [|k IH]; intros i Hk; [exists []; constructor|].
  destruct (nth_error s i) as [x|] eqn:E; [|apply nth_error_None in E; lia].
  destruct (IH (S i)) as [l Hl]; [lia|]. exists (f x :: l). now apply reads_now.
Qed.

Lemma nth_some {A} (l : list A) i x : nth_error l i = Some x -> (i < length l)%nat.
Proof. intros H. apply nth_error_Some. congruence. Qed.

Lemma sub_S k i : (i < k)%nat -> (k - i = S (k - S i))%nat. Proof. lia. Qed.

Lemma run_crash b : run m VCrash b = (b, Unwinding). Proof. reflexivity. Qed.

Lemma reads_past {A} (f : shard -> A) (s : list shard) i H : nth_error s i = None -> reads f (length s - i) i H [] H.
Proof. intros E. apply nth_error_None in E. replace (length s - i)%nat with 0%nat by lia. constructor. Qed.

(** Unwinding from the innermost visitor: the answers not asked for may be anything. *)
Lemma told_here (s : list shard) H : exists caps ens caps' lens, told (length s) (s :: H) caps ens caps' lens.
Proof.
  destruct (@reads_here _ sh_cap s H (length s) 0 ltac:(lia)) as [caps Hc].
  destruct (@reads_here _ sh_entries s H (length s) 0 ltac:(lia)) as [ens He].
  destruct (@reads_here _ sh_len s H (length s) 0 ltac:(lia)) as [lens Hl].
  exists caps, ens, caps, lens. exists (s :: H), (s :: H), (s :: H), (s :: H). auto.
Qed.

Lemma amounts_visit d d1 H r : vstep d = Some d1 -> calm d -> (exists H', H = d_shards d1 :: H') ->
  amounts d1 H r -> amounts d (d_shards d :: H) r.
Proof.
  intros Hs Hc [H' EH] Ha. pose proof (shards_step Hs) as Es. revert Hs Hc Ha.
  destruct d as [shs p open b o]. cbn [d_shards] in Es. unfold visit_step, amounts at 2, calm. cbn [d_shards d_point d_open d_builder d_outcome].
  set (k := length shs) in *.
  assert (Hd : exists caps ens caps' lens, told k H caps ens caps' lens) by (rewrite EH, Es; apply told_here).
  assert (Hcap : forall i, (i <= k)%nat -> exists l, reads sh_cap (k - i) i H l H)
    by (intros i Hi; rewrite EH, Es; apply reads_here; unfold k in *; lia).
  assert (Hen : forall i, (i <= k)%nat -> exists l, reads sh_entries (k - i) i H l H)
    by (intros i Hi; rewrite EH, Es; apply reads_here; unfold k in *; lia).
  assert (Hln : forall i, (i <= k)%nat -> exists l, reads sh_len (k - i) i H l H)
    by (intros i Hi; rewrite EH, Es; apply reads_here; unfold k in *; lia).
  destruct p as [| |i acc|i|i j|i acc|c i acc|c n| |]; intros Hs Hc Ha.
  - (* PSelf *)
    injection Hs as <-. subst o. unfold d_enter in Ha. rewrite (surjective_pairing (enter_inline m b (key_for_type_name (t_name t)) (t_size t))) in Ha.
    destruct (enter_inline m b (key_for_type_name (t_name t)) (t_size t)) as [b1 []] eqn:E; cbn [fst snd] in Ha.
    + unfold amounts in Ha. cbn [d_shards d_point d_open d_builder d_outcome] in Ha. destruct Ha as (caps & ens & caps' & lens & Ht & ->).
      exists caps, ens, caps', lens. split; [destruct Ht as (H1 & H2 & H3 & H4 & A & B); exists H1, H2, H3, H4; split; [now constructor | exact B]|].
      rewrite visit_told_eq. unfold enter_self, v_enter_self. rewrite run_inline, E. cbn [leaves]. reflexivity.
    + unfold amounts in Ha. cbn in Ha. subst r. destruct Hd as (caps & ens & caps' & lens & Ht).
      exists caps, ens, caps', lens. split; [destruct Ht as (H1 & H2 & H3 & H4 & A & B); exists H1, H2, H3, H4; split; [now constructor | exact B]|].
      rewrite visit_told_eq. unfold enter_self, v_enter_self. rewrite run_inline, E. reflexivity.
  - (* PPtr *)
    injection Hs as <-. subst o. unfold d_enter in Ha.
    destruct (enter_unique m b PTR_NAME ptr_size) as [b1 []] eqn:E.
    + unfold amounts in Ha. cbn [d_shards d_point d_open d_builder d_outcome] in Ha.
      destruct Ha as (caps & ens & caps' & lens & H1 & H2 & H3 & H4 & R1 & R2 & R3 & R4 & ->). rewrite Nat.sub_0_r in R1.
      exists caps, ens, caps', lens. split; [exists H1, H2, H3, H4; repeat split; auto; now constructor|].
      rewrite run_unique, E. reflexivity.
    + unfold amounts in Ha. cbn in Ha. subst r. destruct Hd as (caps & ens & caps' & lens & Ht).
      exists caps, ens, caps', lens. split; [destruct Ht as (H1 & H2 & H3 & H4 & A & B); exists H1, H2, H3, H4; split; [now constructor | exact B]|].
      rewrite run_unique, E. reflexivity.
  - (* PCap1 *)
    destruct (nth_error shs i) as [sh|] eqn:Ei; injection Hs as <-; subst o; unfold d_calc in Ha.
    + pose proof (nth_some Ei) as Hi. fold k in Hi. destruct (uadd m acc (sh_cap sh)) as [a|] eqn:Ea.
      * unfold amounts, d_goto in Ha. cbn [d_shards d_point d_open d_builder d_outcome] in Ha.
        destruct Ha as (caps & ens & caps' & lens & H1 & H2 & H3 & H4 & R1 & R2 & R3 & R4 & ->).
        exists (sh_cap sh :: caps), ens, caps', lens, H1, H2, H3, H4. fold k in R1. rewrite (sub_S Hi).
        split; [apply reads_now; [exact Ei | now constructor]|]. repeat split; auto.
        unfold t_cap1 at 2. cbn [usum obind]. rewrite Ea. reflexivity.
      * unfold amounts in Ha. cbn in Ha. subst r. destruct (Hcap (S i) ltac:(lia)) as [caps R1].
        destruct (Hen 0%nat ltac:(lia)) as [ens R2]. destruct (Hcap 0%nat ltac:(lia)) as [caps' R3]. destruct (Hln 0%nat ltac:(lia)) as [lens R4].
        rewrite Nat.sub_0_r in R2, R3, R4.
        exists (sh_cap sh :: caps), ens, caps', lens, H, H, H, H. rewrite (sub_S Hi).
        split; [apply reads_now; [exact Ei | now constructor]|]. repeat split; auto.
        unfold t_cap1. cbn [usum obind]. rewrite Ea. reflexivity.
    + pose proof (@reads_past _ sh_cap shs i H Ei) as R1. fold k in R1. destruct (umul m acc (t_size e)) as [total|] eqn:Et.
      * unfold d_enter in Ha. cbn [d_builder d_shards d_open d_outcome] in Ha. destruct (enter_inline m b CAPACITY_NAME total) as [b1 []] eqn:E.
        -- unfold amounts in Ha. cbn [d_shards d_point d_open d_builder d_outcome] in Ha.
           destruct Ha as (ens & caps' & lens & H2 & H3 & H4 & R2 & R3 & R4 & ->). rewrite Nat.sub_0_r in R2.
           exists [], ens, caps', lens, H, H2, H3, H4. split; [now constructor|]. repeat split; auto.
           unfold t_cap1. cbn [usum obind]. rewrite Et. cbn [with_val]. rewrite run_inline, E. reflexivity.
        -- unfold amounts in Ha. cbn in Ha. subst r.
           destruct (Hen 0%nat ltac:(lia)) as [ens R2]. destruct (Hcap 0%nat ltac:(lia)) as [caps' R3]. destruct (Hln 0%nat ltac:(lia)) as [lens R4].
           rewrite Nat.sub_0_r in R2, R3, R4. exists [], ens, caps', lens, H, H, H, H. split; [now constructor|]. repeat split; auto.
           unfold t_cap1. cbn [usum obind]. rewrite Et. cbn [with_val]. rewrite run_inline, E. reflexivity.
      * unfold amounts in Ha. cbn in Ha. subst r.
        destruct (Hen 0%nat ltac:(lia)) as [ens R2]. destruct (Hcap 0%nat ltac:(lia)) as [caps' R3]. destruct (Hln 0%nat ltac:(lia)) as [lens R4].
        rewrite Nat.sub_0_r in R2, R3, R4. exists [], ens, caps', lens, H, H, H, H. split; [now constructor|]. repeat split; auto.
        unfold t_cap1. cbn [usum obind]. rewrite Et. reflexivity.
  - (* PNext *)
    destruct (nth_error shs i) as [sh|] eqn:Ei; injection Hs as <-; subst o.
    + pose proof (nth_some Ei) as Hi. fold k in Hi. unfold amounts, d_goto in Ha. cbn [d_shards d_point d_open d_builder d_outcome] in Ha.
      destruct (Ha sh Ei) as (ens & caps & lens & H2 & H3 & H4 & R2 & R3 & R4 & ->). fold k in R2.
      exists (sh_entries sh :: ens), caps, lens, H2, H3, H4. rewrite (sub_S Hi). split; [apply reads_now; [exact Ei | now constructor]|]. auto.
    + unfold amounts, d_goto in Ha. cbn [d_shards d_point d_open d_builder d_outcome] in Ha.
      destruct Ha as (caps & lens & H3 & H4 & R3 & R4 & ->). rewrite Nat.sub_0_r in R3.
      exists [], caps, lens, H, H3, H4. split; [constructor; now apply reads_past|]. auto.
  - (* PEntry *)
    intros sh Ei. rewrite Ei in Hs. pose proof (nth_some Ei) as Hi. fold k in Hi. subst o.
    destruct (nth_error (sh_entries sh) j) as [en|] eqn:Ej; injection Hs as <-.
    + assert (Esk : skipn j (sh_entries sh) = en :: skipn (S j) (sh_entries sh)).
      { clear - Ej. revert Ej. generalize (sh_entries sh). induction j as [|j IH]; intros [|x l] Ej; try discriminate Ej.
        - injection Ej as ->. reflexivity. - cbn [skipn]. rewrite (IH l Ej). reflexivity. }
      unfold d_run in Ha. cbn [d_builder] in Ha. destruct (run m (visit_entry kd en) b) as [b1 o1] eqn:E.
      assert (Hun : o1 <> Done -> r = leaves open (b1, o1) -> exists ens caps lens H2 H3 H4,
         reads sh_entries (k - S i) (S i) (shs :: H) ens H2 /\ reads sh_cap k 0 H2 caps H3 /\ reads sh_len k 0 H3 lens H4 /\
         r = leaves open (run m (t_entries (skipn j (sh_entries sh) ++ concat ens) caps lens) b)).
      { intros Ho ->. destruct (Hen (S i) ltac:(lia)) as [ens R2]. destruct (Hcap 0%nat ltac:(lia)) as [caps R3]. destruct (Hln 0%nat ltac:(lia)) as [lens R4].
        rewrite Nat.sub_0_r in R3, R4. exists ens, caps, lens, H, H, H. split; [now constructor|]. repeat split; auto.
        unfold t_entries. rewrite Esk. cbn [app map vseqs]. rewrite !run_vseq, E. destruct o1; [congruence| |]; reflexivity. }
      destruct o1.
      * unfold amounts in Ha. cbn [d_shards d_point d_open d_builder d_outcome] in Ha.
        destruct (Ha sh Ei) as (ens & caps & lens & H2 & H3 & H4 & R2 & R3 & R4 & ->). fold k in R2.
        exists ens, caps, lens, H2, H3, H4. split; [now constructor|]. repeat split; auto.
        unfold t_entries at 2. rewrite Esk. cbn [app map vseqs]. unfold t_entries. rewrite !run_vseq, E. cbn [and_then]. reflexivity.
      * apply Hun; [discriminate | exact Ha].
      * apply Hun; [discriminate | exact Ha].
    + unfold amounts, d_goto in Ha. cbn [d_shards d_point d_open d_builder d_outcome] in Ha.
      destruct Ha as (ens & caps & lens & H2 & H3 & H4 & R2 & R3 & R4 & ->). fold k in R2.
      apply nth_error_None in Ej. rewrite (skipn_all2 _ Ej). exists ens, caps, lens, H2, H3, H4. split; [now constructor|]. auto.
  - (* PCap2 *)
    destruct (nth_error shs i) as [sh|] eqn:Ei; injection Hs as <-; subst o; unfold d_calc in Ha.
    + pose proof (nth_some Ei) as Hi. fold k in Hi. destruct (uadd m acc (sh_cap sh)) as [a|] eqn:Ea.
      * unfold amounts, d_goto in Ha. cbn [d_shards d_point d_open d_builder d_outcome] in Ha.
        destruct Ha as (caps & lens & H3 & H4 & R3 & R4 & ->). fold k in R3.
        exists (sh_cap sh :: caps), lens, H3, H4. rewrite (sub_S Hi). split; [apply reads_now; [exact Ei | now constructor]|]. split; auto.
        unfold t_cap2 at 2. cbn [usum obind]. rewrite Ea. reflexivity.
      * unfold amounts in Ha. cbn in Ha. subst r. destruct (Hcap (S i) ltac:(lia)) as [caps R3]. destruct (Hln 0%nat ltac:(lia)) as [lens R4].
        rewrite Nat.sub_0_r in R4. exists (sh_cap sh :: caps), lens, H, H. rewrite (sub_S Hi).
        split; [apply reads_now; [exact Ei | now constructor]|]. split; auto. unfold t_cap2. cbn [usum obind]. rewrite Ea. reflexivity.
    + unfold amounts, d_goto in Ha. cbn [d_shards d_point d_open d_builder d_outcome] in Ha.
      destruct Ha as (lens & H4 & R4 & ->). rewrite Nat.sub_0_r in R4.
      exists [], lens, H, H4. split; [constructor; now apply reads_past|]. auto.
  - (* PLen *)
    destruct (nth_error shs i) as [sh|] eqn:Ei; injection Hs as <-; subst o; unfold d_calc in Ha.
    + pose proof (nth_some Ei) as Hi. fold k in Hi. destruct (uadd m acc (len (sh_entries sh))) as [a|] eqn:Ea.
      * unfold amounts, d_goto in Ha. cbn [d_shards d_point d_open d_builder d_outcome] in Ha.
        destruct Ha as (lens & H4 & R4 & ->). fold k in R4.
        exists (sh_len sh :: lens), H4. rewrite (sub_S Hi). split; [apply reads_now; [exact Ei | now constructor]|].
        unfold t_len at 2. cbn [usum obind]. unfold sh_len. rewrite Ea. reflexivity.
      * unfold amounts in Ha. cbn in Ha. subst r. destruct (Hln (S i) ltac:(lia)) as [lens R4].
        exists (sh_len sh :: lens), H. rewrite (sub_S Hi). split; [apply reads_now; [exact Ei | now constructor]|].
        unfold t_len. cbn [usum obind]. unfold sh_len. rewrite Ea. reflexivity.
    + unfold amounts, d_goto in Ha. cbn [d_shards d_point d_open d_builder d_outcome] in Ha. subst r.
      exists [], H. split; [constructor; now apply reads_past|]. reflexivity.
  - (* PUnused *)
    assert (Some_inj : forall x y : dstate, Some x = Some y -> x = y) by congruence. apply Some_inj in Hs. subst d1. subst o. unfold d_calc in Ha. unfold t_unused. destruct (umul m (usaturating_sub c n) (t_size e)) as [s|].
    + unfold d_run in Ha. cbn [d_builder with_val] in *. destruct (run m (v_simple UNUSED_CAPACITY_NAME s) b) as [b1 []]; exact Ha.
    + exact Ha.
  - (* PLeave *)
    destruct open as [|n].
    + injection Hs as <-. exact Ha.
    + destruct (leave_scope (b, o)) as [b1 o1] eqn:E. injection Hs as <-. unfold amounts in Ha. cbn in Ha.
      cbn [leaves]. rewrite E. exact Ha.
  - discriminate Hs.
Qed.

Lemma amounts_others d d1 H r : others d d1 -> amounts d1 H r -> amounts d (d_shards d :: H) r.
Proof.
  intros (shs & -> & El & Eg). destruct d as [shs0 p open b o]. unfold amounts, guarded in *. cbn [d_shards d_point d_open d_builder d_outcome] in *.
  rewrite El. destruct p as [| |i acc|i|i j|i acc|c i acc|c n| |]; auto.
  - intros (caps & ens & caps' & lens & (H1 & H2 & H3 & H4 & A & B) & E). exists caps, ens, caps', lens. split; [|exact E].
    exists H1, H2, H3, H4. split; [now constructor | exact B].
  - intros (caps & ens & caps' & lens & (H1 & H2 & H3 & H4 & A & B) & E). exists caps, ens, caps', lens. split; [|exact E].
    exists H1, H2, H3, H4. split; [now constructor | exact B].
  - intros (caps & ens & caps' & lens & H1 & H2 & H3 & H4 & A & B). exists caps, ens, caps', lens, H1, H2, H3, H4. split; [now constructor | exact B].
  - intros (ens & caps & lens & H2 & H3 & H4 & A & B). exists ens, caps, lens, H2, H3, H4. split; [now constructor | exact B].
  - intros Ha sh Esh. rewrite <- (Eg i eq_refl) in Esh. destruct (Ha sh Esh) as (ens & caps & lens & H2 & H3 & H4 & A & B).
    exists ens, caps, lens, H2, H3, H4. split; [now constructor | exact B].
  - intros (caps & lens & H3 & H4 & A & B). exists caps, lens, H3, H4. split; [now constructor | exact B].
  - intros (lens & H4 & A & B). exists lens, H4. split; [now constructor | exact B].
Qed.

Lemma goes_amounts d H d' : goes d H d' -> calm d -> d_point d' = PStop -> amounts d H (d_builder d', d_outcome d').
Proof.
  intros G. induction G as [d|d d1 H d' S G IH|d d1 H d' S G IH]; intros Hc Hd.
  - unfold amounts. now rewrite Hd.
  - eapply amounts_visit; eauto; [eapply goes_head; eauto|]. apply IH; auto. eapply calm_step; eauto.
  - eapply amounts_others; eauto. apply IH; auto. destruct S as (shs & -> & _). exact Hc.
Qed.

Lemma visit_is_told shs b H d' b' o : goes (d_start shs b) H d' -> finished d' b' o ->
  exists caps ens caps' lens, told (length shs) H caps ens caps' lens /\
    (b', o) = run m (visit_told m kd t e caps ens caps' lens) b.
Proof.
  intros G (Hp & <- & <-). exact (goes_amounts G eq_refl Hp).
Qed.
End Visit.
