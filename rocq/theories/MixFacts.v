(** * Lemmas for property C64: what a visit was told of a value. *)
From Verif Require Import Base BaseFacts KeyModel KeyFacts HMap FlameModel BuilderModel BuilderFacts VisitorModel Spec LayoutModel ImplModel ImplSpec ImplFacts
  StoreFacts LockModel LockSpec LockFacts SnapshotModel SnapshotSpec SnapshotFacts SnapshotRun DashModel DashSpec MixModel MixSpec MixRun.

#[local] Arguments key_new : simpl never.

Lemma shape_filled m s sizes qs : pointer s = false -> length qs = length sizes ->
  visit_shape m unseen s (combine sizes qs) = fill (pick qs) (visit_shape m unseen s (placeholders 0 sizes)).
Proof.
  intros Hs HL. rewrite fill_shape by exact Hs. f_equal. rewrite <- (@fill_placeholders sizes qs []) by (now symmetry). reflexivity.
Qed.
Lemma pick_nth qs i q : nth_error qs (N.to_nat i) = Some q -> pick qs i = q.
Proof. intros H. unfold pick. now apply nth_error_nth. Qed.
Lemma unvisited_pointer m s sizes i : pointer s = true -> unvisited m s sizes i.
Proof. intros H qs qs' _ _ _. destruct s as [| | | | | | | | | | | | | | | | | | | | | | | | | | | | |? [[[? ?] ?]|]]; try discriminate; reflexivity. Qed.
Lemma unvisited_marks m s sizes i : pointer s = false -> marks (N.of_nat i) (visit_shape m unseen s (placeholders 0 sizes)) = 0%nat -> unvisited m s sizes i.
Proof.
  intros Hs Z qs qs' H1 H2 Hj. rewrite !shape_filled by assumption. apply fill_ext. intros j Hm. unfold pick.
  assert (Hne : N.to_nat j <> i) by (intros <-; rewrite N2Nat.id in Z; lia). specialize (Hj _ Hne).
  destruct (nth_error qs (N.to_nat j)) eqn:E1; symmetry in Hj.
  - now rewrite (nth_error_nth _ _ _ E1), (nth_error_nth _ _ _ Hj).
  - apply nth_error_None in E1, Hj. now rewrite !nth_overflow by assumption.
Qed.

Section Told.
  Variable M : xmemory -> Prop.
  Variable m : mode.
  Variable E : Prop.
  Notation shows := (shown M m E).

  Lemma xcalls_told n cs p q : (forall k v q', (k < n)%nat -> tells M m E k (ximplementation m v) q' -> shows v q') ->
    (forall i, (marks i p <= 1)%nat) -> tells M m E n (xcalls cs p) q ->
    exists f, (forall i c, nth_error cs (N.to_nat i) = Some c -> (0 < marks i p)%nat -> shows c (f i)) /\
      (forall i, nth_error cs (N.to_nat i) = None -> f i = VRet) /\ q = fill f p.
  Proof.
    intros IHn. revert q.
    induction p as [| |k s b IHb r IHr|k s b IHb r IHr|k s x b _ r IHr r2 _]; cbn [marks xcalls fill]; intros q H1 H.
    - inversion H; subst. exists (fun _ => VRet). split; [intros; lia|]. auto.
    - inversion H; subst. exists (fun _ => VRet). split; [intros; lia|]. auto.
    - inversion H as [| |? ? ? ? ? b' r' Hb Hr| | | | | | | | | | | | |]; subst.
      destruct (IHb b' ltac:(intros i; specialize (H1 i); lia) Hb) as (fb & Hfb & Hnb & ->).
      destruct (IHr r' ltac:(intros i; specialize (H1 i); lia) Hr) as (fr & Hfr & Hnr & ->).
      exists (fun i => if Nat.eqb (marks i b) 0 then fr i else fb i). split; [|split].
      + intros i c Hc Hm. destruct (Nat.eqb_spec (marks i b) 0); [apply Hfr; auto; lia | apply Hfb; auto; lia].
      + intros i Hi. destruct (Nat.eqb (marks i b) 0); auto.
      + f_equal; apply fill_ext; intros i Hi; destruct (Nat.eqb_spec (marks i b) 0); auto; specialize (H1 i); lia.
    - inversion H as [| | |? ? ? ? ? b' r' Hb Hr| | | | | | | | | | | |]; subst.
      destruct (IHb b' ltac:(intros i; specialize (H1 i); lia) Hb) as (fb & Hfb & Hnb & ->).
      destruct (IHr r' ltac:(intros i; specialize (H1 i); lia) Hr) as (fr & Hfr & Hnr & ->).
      exists (fun i => if Nat.eqb (marks i b) 0 then fr i else fb i). split; [|split].
      + intros i c Hc Hm. destruct (Nat.eqb_spec (marks i b) 0); [apply Hfr; auto; lia | apply Hfb; auto; lia].
      + intros i Hi. destruct (Nat.eqb (marks i b) 0); auto.
      + f_equal; apply fill_ext; intros i Hi; destruct (Nat.eqb_spec (marks i b) 0); auto; specialize (H1 i); lia.
    - assert (H1r : forall i, (marks i r <= 1)%nat) by (intros i; specialize (H1 i); lia).
      assert (Hx : marks x r = 0%nat) by (specialize (H1 x); rewrite N.eqb_refl in H1; lia).
      destruct (nth_error cs (N.to_nat x)) as [c|] eqn:Ec.
      + inversion H as [| | | | | | | | |n' ? ? q1 r' Hv Hr| | | | | |]; subst.
        destruct (IHr r' H1r Hr) as (fr & Hfr & Hnr & ->).
        exists (fun i => if N.eqb i x then q1 else fr i). split; [|split].
        * intros i c' Hc' Hm. destruct (N.eqb_spec i x) as [->|]; [|apply Hfr; auto; lia].
          replace c' with c by congruence. apply (IHn n'); [lia | exact Hv].
        * intros i Hi. destruct (N.eqb_spec i x) as [->|]; [congruence | auto].
        * rewrite N.eqb_refl. f_equal. apply fill_ext. intros i Hi. destruct (N.eqb_spec i x) as [->|]; [lia | reflexivity].
      + destruct (IHr q H1r H) as (fr & Hfr & Hnr & ->).
        exists fr. split; [|split]; auto.
        * intros i c Hc Hm. apply Hfr; auto. destruct (N.eqb_spec i x) as [->|]; [congruence | lia].
        * now rewrite (Hnr _ Ec).
  Qed.

  Fixpoint xbare (p : vprog) : Prop :=
    match p with
    | VRet | VCrash => True
    | VInline _ _ b r | VUnique _ _ b r => xbare b /\ xbare r
    | VShared _ _ _ b r1 r2 => b = VRet /\ r1 = r2 /\ xbare r1
    end.
  Lemma xpointers_told n p q : xbare p -> tells M m E n (xpointers p) q -> q = p.
  Proof.
    revert q. induction p as [| |k s b IHb r IHr|k s b IHb r IHr|k s x b _ r IHr r2 _]; cbn [xpointers xbare]; intros q Hp H; inversion H; subst; try reflexivity.
    - destruct Hp. f_equal; auto.
    - destruct Hp. f_equal; auto.
    - destruct Hp as (-> & <- & Hp). f_equal; auto.
  Qed.

  Lemma list_told n cs p q : (forall k v q', (k < n)%nat -> tells M m E k (ximplementation m v) q' -> shows v q') ->
    (forall i, (marks i p <= 1)%nat) -> tells M m E n (xcalls cs p) q ->
    exists qs, length qs = length cs /\ (forall i c q, nth_error cs i = Some c -> nth_error qs i = Some q -> (0 < marks (N.of_nat i) p)%nat -> shows c q) /\ q = fill (pick qs) p.
  Proof.
    intros IHn H1 H. destruct (xcalls_told IHn H1 H) as (f & F1 & F2 & ->).
    exists (map (fun i => f (N.of_nat i)) (seq 0 (length cs))). rewrite map_length, seq_length. split; [reflexivity|]. split.
    - intros i c q Hc Hq Hm. rewrite nth_error_map in Hq. assert (L : (i < length cs)%nat) by (apply nth_error_Some; congruence).
      rewrite (nth_error_nth' _ 0%nat) in Hq by (now rewrite seq_length). rewrite seq_nth in Hq by exact L. cbn in Hq. injection Hq as <-. apply F1; [now rewrite Nat2N.id | exact Hm].
    - apply fill_ext. intros i Hi. destruct (nth_error cs (N.to_nat i)) as [c|] eqn:Ec.
      + symmetry. apply pick_nth. assert (L : (N.to_nat i < length cs)%nat) by (apply nth_error_Some; congruence).
        rewrite nth_error_map, (nth_error_nth' _ 0%nat) by (now rewrite seq_length). rewrite seq_nth by exact L. cbn. now rewrite N2Nat.id.
      + rewrite (F2 _ Ec). unfold pick. rewrite nth_overflow; [reflexivity|]. rewrite map_length, seq_length. now apply nth_error_None.
  Qed.

  Lemma then_ret n v q : (forall k v q', (k < n)%nat -> tells M m E k (ximplementation m v) q' -> shows v q') -> tells M m E n (XVisit v XRet) q -> shows v q.
  Proof.
    intros IHn H. inversion H as [| | | | | | | | |n' ? ? q1 r' Hv Hr| | | | | |]; subst. inversion Hr; subst. rewrite vseq_ret. apply (IHn n'); auto.
  Qed.
  Lemma xopened_told n field c q : (forall k v q', (k < n)%nat -> tells M m E k (ximplementation m v) q' -> shows v q') ->
    tells M m E n (xopened field c) q -> exists w, shows c w /\ q = (if field then VInline DATA_NAME (xsize c) w VRet else w).
  Proof.
    intros IHn H. unfold xopened in H. destruct field.
    - inversion H as [| |? ? ? ? ? b' r' Hb Hr| | | | | | | | | | | | |]; subst. inversion Hr; subst. apply then_ret in Hb; eauto.
    - apply then_ret in H; eauto.
  Qed.

  (** ** [DashMap]s *)
  Lemma sum_told n w ls k : forall acc q, tells M m E n (XSum w ls acc k) q ->
    exists ns, Forall2 (answered M E w) ls ns /\
      match usum m acc ns with Some a => tells M m E n (k a) q | None => q = VCrash /\ E end.
  Proof.
    induction ls as [|l ls IH]; intros acc q H.
    - inversion H; subst. exists []. split; [constructor|]. cbn [usum]. assumption.
    - inversion H as [| | | | | | | | | |? ? ? ? ? ? c a ? HA HU HT|? ? ? ? ? ? c HE HA HU| | | |]; subst.
      + apply IH in HT as (ns & F & X). exists (c :: ns). split; [now constructor|]. cbn [usum]. now rewrite HU.
      + exists (c :: map (fun _ => 0) ls). split.
        * constructor; [exact HA|]. clear - HE. induction ls; constructor; [now left | assumption].
        * cbn [usum]. now rewrite HU.
  Qed.
  Lemma entries_told n kd es : (forall k v q', (k < n)%nat -> tells M m E k (ximplementation m v) q' -> shows v q') ->
    forall q, tells M m E n (xentries kd es) q -> exists ens, these M m E kd es ens /\ q = vseqs (map (visit_entry kd) ens).
  Proof.
    intros IHn. induction es as [|[k v] es IH]; intros q H; cbn [xentries] in H.
    - inversion H; subst. exists []. split; [constructor | reflexivity].
    - destruct kd.
      + inversion H as [| |? ? ? ? ? b' r' Hb Hr| | | | | | | | | | | | |]; subst. inversion Hr as [| |? ? ? ? ? b2 r2 Hb2 Hr2| | | | | | | | | | | | |]; subst.
        apply IH in Hr2 as (ens & H1 & ->). apply then_ret in Hb; [|exact IHn]. apply then_ret in Hb2; [|exact IHn].
        exists (mkEntry 0 (xsize k, b') (xsize v, b2) :: ens). split; [constructor; auto | reflexivity].
      + inversion H as [| |? ? ? ? ? b' r' Hb Hr| | | | | | | | | | | | |]; subst.
        apply IH in Hr as (ens & H1 & ->). apply then_ret in Hb; [|exact IHn].
        exists (mkEntry 0 (xsize k, b') (xsize v, VRet) :: ens). split; [constructor; auto; discriminate | reflexivity].
  Qed.
  Lemma vseqs_cat l1 l2 : vseqs (l1 ++ l2) = vseq (vseqs l1) (vseqs l2).
  Proof. induction l1 as [|p l1 IH]; [reflexivity|]. cbn [app vseqs]. now rewrite IH, LockFacts.vseq_assoc. Qed.
  Lemma iter_told n kd rest : (forall k v q', (k < n)%nat -> tells M m E k (ximplementation m v) q' -> shows v q') ->
    forall ls q, tells M m E n (XIter kd ls rest) q ->
    exists ens r, Forall2 (yielded M m E kd) ls ens /\ tells M m E n rest r /\ q = vseq (vseqs (map (visit_entry kd) (concat ens))) r.
  Proof.
    intros IHn. induction ls as [|l ls IH]; intros q H.
    - inversion H; subst. exists [], q. repeat split; [constructor | assumption].
    - inversion H as [| | | | | | | | | | | | |? ? ? ? ? g q1 r1 HM HA HT HR|? ? ? ? ? r1 HE HR|]; subst.
      + apply IH in HR as (ens & r & F & T & ->). apply entries_told in HT as (es & Y & ->); [|exact IHn].
        exists (es :: ens), r. split; [constructor; [eapply yi_all; eauto | exact F]|]. split; [exact T|].
        cbn [concat]. now rewrite map_app, vseqs_cat, LockFacts.vseq_assoc.
      + apply IH in HR as (ens & r & F & T & ->). exists ([] :: ens), r. split; [constructor; [now apply yi_none | exact F]|]. split; [exact T | reflexivity].
  Qed.
  Lemma xdash_told n kd t e ls q : (forall k v q', (k < n)%nat -> tells M m E k (ximplementation m v) q' -> shows v q') ->
    tells M m E n (xdash m kd t e ls) q -> shows (XDash kd t e ls) q.
  Proof.
    intros IHn H. unfold xdash in H.
    inversion H as [| |? ? ? ? ? b' r' Hb Hr| | | | | | | | | | | | |]; subst. inversion Hr; subst.
    inversion Hb as [| | |? ? ? ? ? b2 r2 Hb2 Hr2| | | | | | | | | | | |]; subst. inversion Hr2; subst.
    apply sum_told in Hb2 as (caps & F1 & X).
    assert (D : E -> forall w, exists ns, Forall2 (answered M E w) ls ns).
    { intros HE w. exists (map (fun _ => 0) ls). clear - HE. induction ls; constructor; [now left | assumption]. }
    assert (DY : E -> exists ens, Forall2 (yielded M m E kd) ls ens).
    { intros HE. exists (map (fun _ => []) ls). clear - HE. induction ls; constructor; [now constructor | assumption]. }
    assert (C : E -> b2 = VCrash -> (do c <- usum m 0 caps; umul m c (t_size e)) = None -> shows (XDash kd t e ls) (VInline (key_for_type_name (t_name t)) (t_size t) (VUnique PTR_NAME ptr_size b2 VRet) VRet)).
    { intros HE -> Hc. destruct (D HE Capacity) as [caps' F3]. destruct (D HE Length) as [lens F4]. destruct (DY HE) as [ens F2].
      pose proof (@sw_dash M m E kd t e ls caps ens caps' lens F1 F2 F3 F4) as S. unfold visit_told in S. rewrite Hc in S. exact S. }
    destruct (usum m 0 caps) as [c|] eqn:Ec; [|destruct X as [-> HE]; now apply C].
    destruct (umul m c (t_size e)) as [total|] eqn:Et; cbn [xwith] in X.
    2:{ inversion X; subst. apply C; auto. }
    inversion X as [| |? ? ? ? ? b3 r3 Hb3 Hr3| | | | | | | | | | | | |]; subst. inversion Hr3; subst.
    apply iter_told in Hb3 as (ens & r & F2 & T & ->); [|exact IHn].
    apply sum_told in T as (caps' & F3 & X3).
    assert (Y : exists lens, Forall2 (answered M E Length) ls lens /\
      r = with_val (do c <- usum m 0 caps'; do n <- usum m 0 lens; umul m (usaturating_sub c n) (t_size e)) (v_simple UNUSED_CAPACITY_NAME)).
    { destruct (usum m 0 caps') as [c'|] eqn:Ec'.
      - apply sum_told in X3 as (lens & F4 & X4). exists lens. split; [exact F4|]. destruct (usum m 0 lens) as [k|]; [|apply X4]. cbn.
        destruct (umul m (usaturating_sub c' k) (t_size e)) as [s|]; cbn [xwith with_val] in *; [|now inversion X4].
        inversion X4 as [| |? ? ? ? ? b4 r4 Hb4 Hr4| | | | | | | | | | | | |]; subst. inversion Hb4; inversion Hr4; subst. reflexivity.
      - destruct X3 as [-> HE]. destruct (D HE Length) as [lens F4]. exists lens. split; [exact F4 | reflexivity]. }
    destruct Y as (lens & F4 & ->). pose proof (@sw_dash M m E kd t e ls caps ens caps' lens F1 F2 F3 F4) as S. unfold visit_told in S. rewrite Ec in S. cbn in S. rewrite Et in S. exact S.
  Qed.

  Theorem value_told n : forall v q, tells M m E n (ximplementation m v) q -> shows v q.
  Proof.
    induction n as [n IHn] using lt_wf_ind. intros v q H.
    assert (IHn' : forall k v q', (k < n)%nat -> tells M m E k (ximplementation m v) q' -> shows v q') by (intros; eapply IHn; eauto).
    destruct v as [s cs|t l a|t l|t t' ps x|kd t e ls].
    - destruct (pointer s) eqn:Es.
      + assert (H' : q = visit_shape m unseen s []).
        { apply (@xpointers_told n); [destruct s as [| | | | | | | | | | | | | | | | | | | | | | | | | | | | |? [[[? ?] ?]|]]; try discriminate; cbn; tauto | destruct s; try discriminate; exact H]. }
        replace q with (visit_shape m unseen s (combine (map xsize cs) (map (fun _ => VRet) cs))) by (rewrite H'; destruct s; try discriminate; reflexivity).
        apply sw_plain; [now rewrite map_length|]. intros i c q0 _ _ U. exfalso. apply U. now apply unvisited_pointer.
      + assert (H' : tells M m E n (xcalls cs (visit_shape m unseen s (placeholders 0 (map xsize cs)))) q) by (destruct s; try discriminate; exact H).
        apply list_told in H' as (qs & L & W & ->); [|exact IHn'|].
        * rewrite <- shape_filled by (try exact Es; now rewrite map_length). apply sw_plain; [exact L|].
          intros i c q0 Hc Hq U. apply (W i c q0 Hc Hq).
          destruct (marks (N.of_nat i) (visit_shape m unseen s (placeholders 0 (map xsize cs)))) eqn:Z; [|lia]. exfalso. apply U. now apply unvisited_marks.
        * intros i. etransitivity; [apply marks_shape, Es|]. etransitivity; [apply marks_placeholders|]. destruct (i <? 0)%N; lia.
    - cbn [ximplementation] in H. inversion H as [| |? ? ? ? ? b' r' Hb Hr| | | | | | | | | | | | |]; subst. inversion Hr; subst.
      inversion Hb as [| | | | |? ? ? ? ? g q1 r1 G1 G2 G3 Hq Hr1|? ? ? ? ? r1 Z Hr1| | | | | | | | |]; subst; inversion Hr1; subst.
      + apply xopened_told in Hq as (w & Hw & ->); [|exact IHn']. exact (@sw_open M m E t l a g w G1 G2 G3 Hw).
      + now apply (@sw_shut M m E t l a).
    - cbn [ximplementation] in H. inversion H as [| |? ? ? ? ? b' r' Hb Hr| | | | | | | | | | | | |]; subst. inversion Hr; subst.
      inversion Hb as [| | | | |? ? ? ? ? g q1 r1 G1 G2 G3 Hq Hr1|? ? ? ? ? r1 Z Hr1| | | | | | | | |]; subst; inversion Hr1; subst.
      + apply xopened_told in Hq as (w & Hw & ->); [|exact IHn']. pose proof (@sw_set M m E t l g w G1 G2 G3 Hw) as S.
        unfold impl_once, enter_self, v_enter_self in S. cbn [map vseqs snd] in S. exact S.
      + now apply (@sw_unset M m E t l).
    - cbn [ximplementation] in H. inversion H as [| |? ? ? ? ? b' r' Hb Hr| | | | | | | | | | | | |]; subst. inversion Hr; subst.
      inversion Hb as [| | | | | | |? ? ? ? q1 r1 G1 Hq Hr1|? ? ? ? r1 Z Hr1| | | | | | |]; subst; inversion Hr1; subst.
      + change (tells M m E n (xpointers (impl_shared_ptr unseen t' ps x)) q1) in Hq. apply xpointers_told in Hq as ->; [|cbn; tauto]. rewrite vseq_ret. now apply (@sw_alive M m E t t' ps x).
      + now apply (@sw_dead M m E t t' ps x).
    - now apply (@xdash_told n).
  Qed.

  Lemma xmarks_inner_crash i n : marks 0 (visit_inner i (n, VShared DATA_NAME 0 0 VRet VRet VRet)) = 0%nat ->
    visit_inner i (n, VShared DATA_NAME 0 0 VRet VRet VRet) = VCrash.
  Proof.
    destruct i; cbn [visit_inner fst snd]; try match goal with |- context [with_val ?x _] => destruct x end; cbn; intros H; first [discriminate H | reflexivity | idtac].
  Qed.
  Lemma behind_told n i v q : tells M m E n (xbehind (Some (i, v))) q ->
    q = VCrash \/ exists w, shows v w /\ q = visit_inner i (xsize v, w).
  Proof.
    intros H. cbn [xbehind] in H.
    destruct (Nat.eq_dec (marks 0 (visit_inner i (xsize v, VShared DATA_NAME 0 0 VRet VRet VRet))) 0) as [Z|Z].
    { left. rewrite (xmarks_inner_crash Z) in H. now inversion H. }
    right. apply list_told in H as (qs & L & W & ->).
    - destruct qs as [|w [|]]; try discriminate. exists w. split; [apply (W 0%nat v w); [reflexivity | reflexivity | change (N.of_nat 0) with 0; lia]|].
      assert (E' : (xsize v, w) = fill_sub (pick [w]) (xsize v, VShared DATA_NAME 0 0 VRet VRet VRet)).
      { unfold fill_sub. cbn [fst snd fill]. now rewrite vseq_ret. }
      now rewrite E', <- fill_inner.
    - intros k u q' _. now apply value_told.
    - intros j. etransitivity; [apply marks_inner|]. cbn. destruct (j =? 0); lia.
  Qed.
End Told.
