(** * Proofs for C62: the profile. *)
From Coq Require Import Lia.
From Verif Require Import Base BaseFacts KeyModel HMap FlameModel BuilderModel VisitorModel Spec ImplModel LockModel LockSpec LockFacts PoolModel DropModel DropSpec DropFacts UnwindModel UnwindSpec UnwindFacts.

(** ** What a visit that may panic behind the target of a [Weak] does (as in LockFacts) *)
Inductive panic_stack : list frame -> list (bool * vprog) -> Prop :=
| ps_nil : panic_stack [] []
| ps_scope r r' st st' : resolves_or_panics r r' -> panic_stack st st' -> panic_stack (FScope r :: st) ((true, r') :: st')
| ps_guard l a r r' st st' : resolves_or_panics r r' -> panic_stack st st' -> panic_stack (FGuard l a r :: st) ((false, r') :: st')
| ps_arc x r r' st st' : resolves_or_panics r r' -> panic_stack st st' -> panic_stack (FArc x r :: st) ((false, r') :: st')
| ps_panics x r st st' : panic_stack st st' -> panic_stack (FArc x r :: st) ((false, VCrash) :: st').

Lemma rp_some p : exists q, resolves_or_panics p q.
Proof.
  induction p as [| |k s b [b' Hb] r [r' Hr]|k s b [b' Hb] r [r' Hr]|k s x b [b' Hb] r1 [r1' H1] r2 [r2' H2]|l a b [b' Hb] r [r' Hr]|l a b [b' Hb] r [r' Hr]|x b [b' Hb] r [r' Hr]];
    eexists; econstructor; eauto.
Qed.
Lemma panic_stack_some st : exists st', panic_stack st st'.
Proof.
  induction st as [|f st [st' IH]]; [eexists; constructor|].
  destruct f as [r|l a r|x r]; destruct (rp_some r) as [r' Hr]; eexists; econstructor; eauto.
Qed.

Definition means_panic (m : mode) (c : config) (res : builder * outcome) : Prop :=
  match c_control c with
  | Exec p => exists q st', resolves_or_panics p q /\ panic_stack (c_stack c) st' /\ back m st' (run m q (c_builder c)) = res
  | Unwind => exists st', panic_stack (c_stack c) st' /\ back m st' (c_builder c, Unwinding) = res
  | Gone => (c_builder c, Aborted) = res
  end.

Lemma means_panic_step m std c c' res : vstep m std c c' -> means_panic m c' res -> means_panic m c res.
Proof.
  intros H. destruct H; unfold means_panic; cbn [c_control c_stack c_builder].
  - intros (q & st' & H1 & H2 & H3). exists VRet, ((true, q) :: st'). split; [constructor|]. split; [now constructor|]. cbn. now rewrite H.
  - intros <-. destruct (rp_some rest) as [r' Hr]. destruct (panic_stack_some st) as [st' Hs].
    exists VRet, ((true, r') :: st'). split; [constructor|]. split; [now constructor|]. cbn. rewrite H. cbn. apply back_abort.
  - intros (q & st' & H1 & H2 & H3). exists VRet, ((false, q) :: st'). split; [constructor|]. split; [now constructor|]. exact H3.
  - intros (q & st' & H1 & H2 & H3). exists VRet, ((false, q) :: st'). split; [constructor|]. split; [now constructor|]. exact H3.
  - intros (st' & H2 & H3). exists VCrash, st'. split; [constructor|]. split; [exact H2 | exact H3].
  - intros (st' & H2 & H3). destruct (rp_some rest) as [r' Hr]. exists ((true, r') :: st'). split; [now constructor|]. cbn. now rewrite H.
  - intros <-. destruct (rp_some rest) as [r' Hr]. destruct (panic_stack_some st) as [st' Hs].
    exists ((true, r') :: st'). split; [now constructor|]. cbn. rewrite H. cbn. apply back_abort.
  - intros (st' & H2 & H3). destruct (rp_some rest) as [r' Hr]. exists ((false, r') :: st'). split; [now constructor|]. exact H3.
  - intros (st' & H2 & H3). destruct (rp_some rest) as [r' Hr]. exists ((false, r') :: st'). split; [now constructor|]. exact H3.
  - intros (q & st' & H1 & H2 & H3). inversion H2; subst. exists (VInline k n q r'), st'0. split; [now constructor|]. split; [assumption|].
    cbn [run back] in *. now rewrite H.
  - intros (st' & H2 & H3). destruct (rp_some (LInline k n body rest)) as [q Hq]. exists q, st'. split; [exact Hq|]. split; [exact H2|].
    inversion Hq; subst. cbn [run]. now rewrite H.
  - intros (q & st' & H1 & H2 & H3). inversion H2; subst. exists (VUnique k n q r'), st'0. split; [now constructor|]. split; [assumption|].
    cbn [run back] in *. now rewrite H.
  - intros (st' & H2 & H3). destruct (rp_some (LUnique k n body rest)) as [q Hq]. exists q, st'. split; [exact Hq|]. split; [exact H2|].
    inversion Hq; subst. cbn [run]. now rewrite H.
  - intros (q & st' & H1 & H2 & H3). inversion H2; subst. destruct (rp_some r2) as [r2' Hr2].
    exists (VShared k n x q r' r2'), st'0. split; [now constructor|]. split; [assumption|]. cbn [run back] in *. now rewrite H.
  - intros (q & st' & H1 & H2 & H3). destruct (rp_some r1) as [r1' Hr1]. destruct (rp_some body) as [b0 Hb0].
    exists (VShared k n x b0 r1' q), st'. split; [now constructor|]. split; [assumption|]. cbn [run]. now rewrite H.
  - intros (st' & H2 & H3). destruct (rp_some (LShared k n x body r1 r2)) as [q Hq]. exists q, st'. split; [exact Hq|]. split; [exact H2|].
    inversion Hq; subst. cbn [run]. now rewrite H.
  - intros (q & st' & H1 & H2 & H3). inversion H2; subst. exists (vseq q r'), st'0. split; [now constructor|]. split; [assumption|].
    rewrite run_vseq. reflexivity.
  - intros (q & st' & H1 & H2 & H3). exists q, st'. split; [now apply rp_try_not|]. auto.
  - intros (q & st' & H1 & H2 & H3). inversion H2; subst. exists (vseq q r'), st'0. split; [now constructor|]. split; [assumption|].
    rewrite run_vseq. reflexivity.
  - intros (q & st' & H1 & H2 & H3). inversion H2; subst.
    + exists (vseq q r'), st'0. split; [now apply rp_upgrade_ok|]. split; [assumption|]. rewrite run_vseq. reflexivity.
    + exists (vseq q VCrash), st'0. split; [now apply rp_upgrade_panics|]. split; [assumption|]. rewrite run_vseq. reflexivity.
  - intros (q & st' & H1 & H2 & H3). exists q, st'. split; [now apply rp_upgrade_not|]. auto.
Qed.

(** ** With the destructors *)
Definition means_u (m : mode) (d : ustate) (res : builder * outcome) : Prop :=
  means_panic m (u_conf d) res \/
  running (u_conf d) /\ (u_todo d <> [] \/ u_raised d = true) /\ means_panic m (with_control (u_conf d) Unwind) res.
Lemma means_shared m c s res : means_panic m (with_shared c s) res <-> means_panic m c res.
Proof. destruct c as [s0 b k st]. reflexivity. Qed.
Lemma means_u_same m c todo r c' todo' r' res :
  c_builder c' = c_builder c -> c_control c' = c_control c -> c_stack c' = c_stack c -> (todo <> [] \/ r = true) ->
  means_u m (mkU c' todo' r') res -> means_u m (mkU c todo r) res.
Proof.
  destruct c as [s b k st], c' as [s' b' k' st']. cbn [c_builder c_control c_stack]. intros -> -> -> Ht. unfold means_u, running, with_control, means_panic.
  cbn [u_conf u_todo u_raised c_shared c_builder c_control c_stack]. intros [H|(H1 & H2 & H3)]; [left; exact H | right; auto].
Qed.
Lemma means_u_step m std dtor d d' res : ustep m std dtor d d' -> orderly d -> means_u m d' res ->
  (about_to_panic d /\ panicking d) \/ means_u m d res.
Proof.
  intros HS O M. ucases HS; try (right; eapply means_u_same; [.. | exact M]; [reflexivity | reflexivity | reflexivity | left; discriminate]).
  - right. destruct M as [M|(_ & [M|M] & _)]; cbn [u_todo u_raised] in *; [|congruence|discriminate]. left. cbn [u_conf] in *. eapply means_panic_step; eauto.
  - right. destruct M as [M|([p Ep] & _ & M)]; cbn [u_conf] in *; [left; eapply means_panic_step; eauto|].
    destruct HD as [D1 D2]. left. destruct HV; cbn [c_shared c_control] in *; try contradiction; try discriminate.
    + unfold means_panic, with_control in *. cbn [c_control c_stack c_builder u_conf] in *. destruct M as (st' & H1 & H2).
      exists VRet, ((false, VCrash) :: st'). split; [constructor|]. split; [now constructor|]. exact H2.
    + exfalso. unfold set_strong in D2. cbn [strong] in D2. destruct (N.eqb x x0); [discriminate | contradiction].
  - left. split; [split; [reflexivity | eexists; reflexivity] | exact HP].
  - right. right. cbn [u_conf u_todo u_raised]. split; [apply (or_exec O); now left|]. split; [now right|].
    destruct M as [M|([p Ep] & _)]; [exact M | discriminate].
Qed.
Lemma means_over m d : u_over d -> means_u m d (result_of (u_conf d)).
Proof.
  intros (_ & _ & Ho). left. destruct (u_conf d) as [s' b' k st]. unfold over, means_panic, result_of in *. cbn [c_control c_stack c_builder] in *.
  destruct k as [q| |]; [|destruct st; [|contradiction]; exists []; split; [constructor | reflexivity] | reflexivity].
  destruct q, st; try contradiction. exists VRet, []. repeat split; constructor.
Qed.
(** A panic during unwinding ends the process. *)
Lemma again_gone m std dtor d d' : uruns m std dtor d d' -> c_control (u_conf d) = Gone -> u_todo d = [] -> u_raised d = false -> c_control (u_conf d') = Gone.
Proof.
  induction 1 as [d|d d' d'' H _ IH|c todo r s' d'' H _ IH]; intros E1 E2 E3; [exact E1| |apply IH; assumption].
  exfalso. ucases H; cbn [u_conf u_todo u_raised] in *; try discriminate; destruct HV; discriminate.
Qed.
Lemma means_u_runs m std dtor d d' : uruns m std dtor d d' -> orderly d -> forall res, means_u m d' res ->
  (exists d1, uruns m std dtor d d1 /\ uruns m std dtor d1 d' /\ about_to_panic d1 /\ panicking d1 /\ c_control (u_conf d') = Gone) \/ means_u m d res.
Proof.
  induction 1 as [d|d d' d'' H HR IH|c todo r s' d'' H HR IH]; intros O res M; [now right| |].
  - destruct (IH (orderly_step H O) res M) as [(d1 & R1 & A)|M']; [left; exists d1; split; [eapply ur_step; eauto | exact A]|].
    destruct (means_u_step H O M') as [[A P]|M'']; [|now right]. left. exists d. split; [apply ur_refl|]. split; [eapply ur_step; eauto|]. split; [exact A|]. split; [exact P|].
    destruct A as (A1 & todo & A2). destruct d as [c0 t0 r0]. cbn [u_todo u_raised] in A1, A2. subst. inversion H; subst; [contradiction|].
    eapply again_gone; [exact HR | reflexivity | reflexivity | reflexivity].
  - assert (O' : orderly (mkU (with_shared c s') todo r)) by (destruct O; now constructor).
    destruct (IH O' res M) as [(d1 & R1 & A)|M']; [left; exists d1; split; [eapply ur_other; eauto | exact A]|]. right.
    unfold means_u in *. cbn [u_conf u_todo u_raised] in *. destruct c as [s b k st]. exact M'.
Qed.
Lemma C62_outcome_lemma : forall m std dtor s b p d, uruns m std dtor (u_start s b p) d -> u_over d ->
  (exists d1, uruns m std dtor (u_start s b p) d1 /\ uruns m std dtor d1 d /\ about_to_panic d1 /\ panicking d1 /\ c_control (u_conf d) = Gone) \/
  exists q, resolves_or_panics p q /\ run m q b = result_of (u_conf d).
Proof.
  intros m std dtor s b p d HR HO. destruct (means_u_runs HR (@start_orderly s b p) (means_over m HO)) as [H|[M|(_ & [M|M] & _)]];
    [now left| |cbn in M; congruence|discriminate].
  right. destruct M as (q & st' & H1 & H2 & H3). cbn [c_stack u_conf u_start start] in H2. inversion H2; subst. exists q. split; [exact H1 | exact H3].
Qed.
Lemma C62_profile_lemma : forall m std dtor s b p d, uruns m std dtor (u_start s b p) d -> u_over d -> c_control (u_conf d) <> Gone ->
  exists q, resolves_or_panics p q /\ run m q b = result_of (u_conf d).
Proof. intros m std dtor s b p d HR HO HG. destruct (C62_outcome_lemma HR HO) as [(d1 & _ & _ & _ & _ & E)|H]; [contradiction | exact H]. Qed.
Lemma gone_over m std dtor d d' : uruns m std dtor d d' -> (c_control (u_conf d) = Gone -> u_todo d = [] /\ u_raised d = false) ->
  c_control (u_conf d') = Gone -> u_todo d' = [] /\ u_raised d' = false.
Proof.
  induction 1 as [d|d d' d'' H _ IH|c todo r s' d'' H _ IH]; intros E1; [exact E1| |apply IH; exact E1]. apply IH. clear IH.
  ucases H; cbn [u_conf u_todo u_raised with_shared with_control gone c_control] in *; intros E; try (destruct (E1 E); discriminate); auto; try discriminate.
  exfalso. eapply (proj1 (vstep_dies_alive HV HD)), E.
Qed.
Lemma C62_aborts_lemma : forall m std dtor s b p d, uruns m std dtor (u_start s b p) d -> c_control (u_conf d) = Gone ->
  (exists d1, uruns m std dtor (u_start s b p) d1 /\ uruns m std dtor d1 d /\ about_to_panic d1 /\ panicking d1) \/
  exists q b', resolves_or_panics p q /\ run m q b = (b', Aborted).
Proof.
  intros m std dtor s b p d HR E. assert (HO : u_over d).
  { unfold u_over, over. destruct (gone_over HR) as [E1 E2]; [cbn; discriminate | exact E|]. rewrite E. auto. }
  destruct (C62_outcome_lemma HR HO) as [(d1 & R1 & R2 & A & P & _)|(q & R & H)]; [left; eauto|]. right. exists q, (c_builder (u_conf d)). split; [exact R|].
  rewrite H. unfold result_of. now rewrite E.
Qed.

(** A visit that panics behind a [Weak] is a visit that panics. *)
Lemma cut_vseq p p' q q' : cut p p' -> cut q q' -> cut (vseq p q) (vseq p' q').
Proof.
  intros H Hq. induction H as [p|p|k s b b' r r' H1 IH1 H2 IH2|k s b b' r r' H1 IH1 H2 IH2|k s x b b' r1 r1' r2 r2' H1 IH1 H2 IH2 H3 IH3]; cbn [vseq]; try (now constructor).
  induction p; cbn [vseq]; try exact Hq; constructor; auto using cut_same.
Qed.
Lemma rp_cut p q : resolves_or_panics p q -> exists q0, resolves p q0 /\ cut q0 q.
Proof.
  induction 1 as [| |k s b b' r r' H1 (c1 & R1 & C1) H2 (c2 & R2 & C2)|k s b b' r r' H1 (c1 & R1 & C1) H2 (c2 & R2 & C2)
    |k s x b b' r1 r1' r2 r2' H1 (c1 & R1 & C1) H2 (c2 & R2 & C2) H3 (c3 & R3 & C3)|l a b b' r r' H1 (c1 & R1 & C1) H2 (c2 & R2 & C2)|l a b r r' H2 (c2 & R2 & C2)
    |l a b b' r r' H1 (c1 & R1 & C1) H2 (c2 & R2 & C2)|x b b' r r' H1 (c1 & R1 & C1) H2 (c2 & R2 & C2)|x b r r' H2 (c2 & R2 & C2)|x b b' r H1 (c1 & R1 & C1)].
  - exists VRet. split; constructor.
  - exists VCrash. split; constructor.
  - eexists. split; [eapply r_inline; eassumption | eapply cut_inline; eassumption].
  - eexists. split; [eapply r_unique; eassumption | eapply cut_unique; eassumption].
  - eexists. split; [eapply r_shared; eassumption | eapply cut_shared; eassumption].
  - eexists. split; [eapply r_try_ok; eassumption | eapply cut_vseq; eassumption].
  - exists c2. split; [now apply r_try_not | exact C2].
  - eexists. split; [eapply r_wait; eassumption | eapply cut_vseq; eassumption].
  - eexists. split; [eapply r_upgrade_ok; eassumption | eapply cut_vseq; eassumption].
  - exists c2. split; [now apply r_upgrade_not | exact C2].
  - destruct (resolves_some r) as [r' Hr]. eexists. split; [apply r_upgrade_ok; [exact R1 | exact Hr] | apply cut_vseq; [exact C1 | apply cut_here]].
Qed.

(** A panic is not lost. *)
Lemma panicking_step m std dtor d d' : ustep m std dtor d d' -> panicking d -> panicking d' \/ c_control (u_conf d') = Gone.
Proof.
  unfold panicking. intros H P. ucases H; cbn [u_conf u_todo u_raised with_shared with_control gone c_control In] in *.
  - destruct P as [P|[P|[]]]; [discriminate|]. destruct (unwind_stays HV P); auto.
  - destruct P as [P|[P|[]]]; [discriminate|]. destruct (unwind_stays HV P); auto.
  - left. destruct P as [P|[P|[P|P]]]; try discriminate; auto.
  - left. destruct P as [P|[P|[P|P]]]; try discriminate; auto 8.
  - left. destruct P as [P|[P|[P|P]]]; try discriminate; auto 8.
  - left. destruct P as [P|[P|[P|P]]]; try discriminate; auto.
  - left. destruct P as [P|[P|[P|P]]]; try discriminate; auto.
  - left. destruct P as [P|[P|[P|P]]]; try discriminate; auto.
  - left. destruct P as [P|[P|[P|P]]]; try discriminate; auto 8.
  - left. destruct P as [P|[P|[P|P]]]; try discriminate; auto.
  - left. destruct P as [P|[P|[P|P]]]; try discriminate; auto 8.
  - left. destruct P as [P|[P|[P|P]]]; try discriminate; auto.
  - auto.
  - auto.
  - auto.
  - auto.
  - left. right. right. right. left. reflexivity.
  - auto.
  - auto.
Qed.
Lemma gone_idle d : orderly d -> c_control (u_conf d) = Gone -> u_todo d = [] /\ u_raised d = false.
Proof.
  intros O E. split.
  - destruct (u_todo d) eqn:X; [reflexivity|]. exfalso. apply (or_gone O); [rewrite X; discriminate | exact E].
  - destruct (u_raised d) eqn:X; [|reflexivity]. destruct (or_exec O (or_introl X)) as [p Y]. congruence.
Qed.
Lemma panicking_runs m std dtor d d' : uruns m std dtor d d' -> orderly d -> panicking d -> panicking d' \/ c_control (u_conf d') = Gone.
Proof.
  induction 1 as [d|d d' d'' H HR IH|c todo r s' d'' H _ IH]; intros O P; [now left| |apply IH; [destruct O; now constructor | exact P]].
  destruct (panicking_step H P) as [P'|E]; [apply IH; [eapply orderly_step; eauto | exact P']|]. right.
  destruct (gone_idle (orderly_step H O) E) as [X1 X2]. eapply again_gone; eauto.
Qed.
