(** * Lemmas for property C52: from steps to one state. *)
From Verif Require Import Base BaseFacts KeyModel KeyFacts HMap FlameModel BuilderModel BuilderFacts VisitorModel Spec LayoutModel ImplModel ImplSpec ImplFacts
  StoreFacts LockModel LockSpec LockFacts SnapshotModel SnapshotSpec SnapshotFacts SnapshotRun ChangeModel ChangeSpec.

#[local] Arguments key_new : simpl never.

Lemma mvalue_induction (P : mvalue -> Prop) :
  (forall s cs, Forall P cs -> P (MPlain s cs)) -> (forall t l a, P (MLock t l a)) ->
  (forall t l, P (MOnce t l)) -> (forall t t' ps x, P (MWeak t t' ps x)) -> forall v, P v.
Proof.
  intros H1 H2 H3 H4. fix go 1. intros [s cs|t l a|t l|t t' ps x]; [|apply H2|apply H3|apply H4].
  apply H1. induction cs as [|c cs IH]; constructor; [apply go | exact IH].
Qed.

Section Big.
  Variable M : memory -> Prop.
  Variable m : mode.

  (** ** Big steps *)
  Inductive big : code -> builder -> builder * outcome -> Prop :=
  | bg_ret b : big CRet b (b, Done)
  | bg_crash b : big CCrash b (b, Unwinding)
  | bg_inline k s body rest b b1 r r' : enter_inline m b k s = (b1, Fine) -> big body b1 r -> after (leave_scope r) rest r' ->
      big (CInline k s body rest) b r'
  | bg_inline_panic k s body rest b b1 : enter_inline m b k s = (b1, Panicked) -> big (CInline k s body rest) b (b1, Unwinding)
  | bg_unique k s body rest b b1 r r' : enter_unique m b k s = (b1, Fine) -> big body b1 r -> after (leave_scope r) rest r' ->
      big (CUnique k s body rest) b r'
  | bg_unique_panic k s body rest b b1 : enter_unique m b k s = (b1, Panicked) -> big (CUnique k s body rest) b (b1, Unwinding)
  | bg_shared k s x rest b b1 g r r' : enter_shared m b k s x = (b1, Fine, true) -> M g -> big (behind (m_object g x)) b1 r ->
      after (leave_scope r) rest r' -> big (CShared k s x rest) b r'
  | bg_shared_again k s x rest b b1 r : enter_shared m b k s x = (b1, Fine, false) -> big rest b1 r -> big (CShared k s x rest) b r
  | bg_shared_panic k s x rest b b1 ret : enter_shared m b k s x = (b1, Panicked, ret) -> big (CShared k s x rest) b (b1, Unwinding)
  | bg_try l a field rest b g r r' : M g -> LockModel.available (locks (m_shared g) l) a -> poisoned (locks (m_shared g) l) = false ->
      big (opened field (m_content g l)) b r -> after r rest r' -> big (CTry l a field rest) b r'
  | bg_try_fails l a field rest b g r : M g -> held (locks (m_shared g) l) <> [] \/ poisoned (locks (m_shared g) l) = true ->
      big rest b r -> big (CTry l a field rest) b r
  | bg_upgrade x body rest b g r r' : M g -> strong (m_shared g) x <> [] -> big body b r -> after r rest r' -> big (CUpgrade x body rest) b r'
  | bg_dead x body rest b g r : M g -> strong (m_shared g) x = [] -> big rest b r -> big (CUpgrade x body rest) b r
  | bg_visit v rest b r r' : big (implementation m v) b r -> after r rest r' -> big (CVisit v rest) b r'
  with after : builder * outcome -> code -> builder * outcome -> Prop :=
  | af_done b rest r : big rest b r -> after (b, Done) rest r
  | af_stop b o rest : o <> Done -> after (b, o) rest (b, o).

  Scheme big_mind := Induction for big Sort Prop
  with after_mind := Induction for after Sort Prop.
  Combined Scheme big_after_ind from big_mind, after_mind.

  (** What the open frames do with a result. *)
  Fixpoint closes (st : list cframe) (r res : builder * outcome) : Prop :=
    match st with
    | [] => r = res
    | KScope rest :: st' => exists r', after (leave_scope r) rest r' /\ closes st' r' res
    | KGuard _ _ rest :: st' | KArc _ rest :: st' | KThen rest :: st' => exists r', after r rest r' /\ closes st' r' res
    end.
  Definition amounts (c : cconf) (res : builder * outcome) : Prop :=
    match k_control c with
    | Run p => exists r, big p (k_builder c) r /\ closes (k_stack c) r res
    | Unwinds => closes (k_stack c) (k_builder c, Unwinding) res
    | Lost => (k_builder c, Aborted) = res
    end.

  Lemma closes_abort st b : closes st (b, Aborted) (b, Aborted).
  Proof. induction st as [|[rest|l a rest|x rest|rest] st IH]; cbn [closes leave_scope]; [reflexivity| | | |]; exists (b, Aborted); (split; [now constructor | exact IH]). Qed.

  Lemma amounts_step std c c' res : M (k_mem c) -> cstep m std c c' -> amounts c' res -> amounts c res.
  Proof.
    intros HM H. destruct H; unfold amounts; cbn [k_control k_stack k_builder k_mem closes] in *.
    - intros (r & H1 & H2). exists (b, Done). split; [constructor|]. exists r. cbn [leave_scope]. rewrite H. split; [now constructor | exact H2].
    - intros <-. exists (b, Done). split; [constructor|]. exists (b', Aborted). cbn [leave_scope]. rewrite H. split; [now constructor | apply closes_abort].
    - intros (r & H1 & H2). exists (b, Done). split; [constructor|]. exists r. split; [now constructor | exact H2].
    - intros (r & H1 & H2). exists (b, Done). split; [constructor|]. exists r. split; [now constructor | exact H2].
    - intros (r & H1 & H2). exists (b, Done). split; [constructor|]. exists r. split; [now constructor | exact H2].
    - intros H. exists (b, Unwinding). split; [constructor | exact H].
    - intros H1. exists (b', Unwinding). cbn [leave_scope]. rewrite H. split; [now constructor | exact H1].
    - intros <-. exists (b', Aborted). cbn [leave_scope]. rewrite H. split; [now constructor | apply closes_abort].
    - intros H1. exists (b, Unwinding). split; [now constructor | exact H1].
    - intros H1. exists (b, Unwinding). split; [now constructor | exact H1].
    - intros H1. exists (b, Unwinding). split; [now constructor | exact H1].
    - intros (r & H1 & r' & H2 & H3). exists r'. split; [eapply bg_inline; eauto | exact H3].
    - intros H1. exists (b', Unwinding). split; [now apply bg_inline_panic | exact H1].
    - intros (r & H1 & r' & H2 & H3). exists r'. split; [eapply bg_unique; eauto | exact H3].
    - intros H1. exists (b', Unwinding). split; [now apply bg_unique_panic | exact H1].
    - intros (r & H1 & r' & H2 & H3). exists r'. split; [eapply bg_shared; eauto | exact H3].
    - intros (r & H1 & H2). exists r. split; [eapply bg_shared_again; eauto | exact H2].
    - intros H1. exists (b', Unwinding). split; [eapply bg_shared_panic; eauto | exact H1].
    - intros (r & H1 & r' & H2 & H3). exists r'. split; [eapply bg_try; eauto | exact H3].
    - intros (r & H1 & H2). exists r. split; [eapply bg_try_fails; eauto | exact H2].
    - intros (r & H1 & r' & H2 & H3). exists r'. split; [eapply bg_upgrade; eauto | exact H3].
    - intros (r & H1 & H2). exists r. split; [eapply bg_dead; eauto | exact H2].
    - intros (r & H1 & r' & H2 & H3). exists r'. split; [eapply bg_visit; eauto | exact H3].
  Qed.

  Lemma ended_amounts c : ended c -> amounts c (result c).
  Proof.
    destruct c as [g b [p| |] st]; unfold ended, amounts, result; cbn [k_control k_stack k_builder]; intros H.
    - destruct p, st; try contradiction. exists (b, Done). split; [constructor | reflexivity].
    - destruct st; [reflexivity | contradiction].
    - reflexivity.
  Qed.
  Lemma passes_amounts std c c' res : passes M m std c c' -> amounts c' res -> amounts c res.
  Proof.
    intros H Hc. induction H as [c H|c c' c'' H1 H2 H3 IH|g g' b k st c'' H1 H2 H3 IH]; [exact Hc | |].
    - eapply amounts_step; eauto.
    - exact (IH Hc).
  Qed.
  Theorem passes_big std g b v c : passes M m std (begin g b v) c -> ended c -> big (CVisit v CRet) b (result c).
  Proof.
    intros H E. pose proof (passes_amounts H (ended_amounts E)) as (r & H1 & H2). cbn [begin k_stack closes k_builder] in *. now subst r.
  Qed.

  (** ** What a run of code saw of the locks

      [sees E n p q]: [q] is [p] with the answers of the locks filled in; what
      is behind shared pointers is left out.  [n] bounds the nesting of values. *)
  Inductive sees (E : Prop) : nat -> code -> vprog -> Prop :=
  | se_ret n : sees E n CRet VRet
  | se_crash n : sees E n CCrash VCrash
  | se_inline n k s b r b' r' : sees E n b b' -> sees E n r r' -> sees E n (CInline k s b r) (VInline k s b' r')
  | se_unique n k s b r b' r' : sees E n b b' -> sees E n r r' -> sees E n (CUnique k s b r) (VUnique k s b' r')
  | se_shared n k s x r r' : sees E n r r' -> sees E n (CShared k s x r) (VShared k s x VRet r' r')
  | se_try n l a field r g q r' : M g -> LockModel.available (locks (m_shared g) l) a -> poisoned (locks (m_shared g) l) = false ->
      sees E n (opened field (m_content g l)) q -> sees E n r r' -> sees E n (CTry l a field r) (vseq q r')
  | se_try_fails n l a field r r' : E \/ (exists g, M g /\ (held (locks (m_shared g) l) <> [] \/ poisoned (locks (m_shared g) l) = true)) ->
      sees E n r r' -> sees E n (CTry l a field r) r'
  | se_upgrade n x b r g q r' : M g -> strong (m_shared g) x <> [] -> sees E n b q -> sees E n r r' -> sees E n (CUpgrade x b r) (vseq q r')
  | se_dead n x b r r' : E \/ (exists g, M g /\ strong (m_shared g) x = []) -> sees E n r r' -> sees E n (CUpgrade x b r) r'
  | se_visit n v r q r' : sees E n (implementation m v) q -> sees E (S n) r r' -> sees E (S n) (CVisit v r) (vseq q r').

  Lemma sees_mono (E E' : Prop) n p q : (E -> E') -> sees E n p q -> forall n', (n <= n')%nat -> sees E' n' p q.
  Proof.
    intros HE H. induction H; intros n' Hn; try (econstructor; eauto; fail).
    - apply se_try_fails; [tauto | auto].
    - apply se_dead; [tauto | auto].
    - destruct n' as [|n']; [lia|]. apply se_visit; [apply IHsees1; lia | apply IHsees2; lia].
  Qed.

  Lemma sees_calls (E : Prop) cs p : E -> Forall (fun c => exists n q, sees E n (implementation m c) q) cs -> exists n q, sees E n (calls cs p) q.
  Proof.
    intros HE Hc. induction p as [| |k s b (n1 & q1 & H1) r (n2 & q2 & H2)|k s b (n1 & q1 & H1) r (n2 & q2 & H2)|k s x b _ r (n1 & q1 & H1) r2 _]; cbn [calls].
    - exists 0%nat, VRet. constructor.
    - exists 0%nat, VCrash. constructor.
    - exists (Nat.max n1 n2), (VInline k s q1 q2). constructor; eapply sees_mono; eauto; lia.
    - exists (Nat.max n1 n2), (VUnique k s q1 q2). constructor; eapply sees_mono; eauto; lia.
    - destruct (nth_error cs (N.to_nat x)) as [c|] eqn:Ec; [|eauto]. apply nth_error_In in Ec. rewrite Forall_forall in Hc.
      destruct (Hc _ Ec) as (n2 & q2 & H2). exists (S (Nat.max n1 n2)), (vseq q2 q1). constructor; eapply sees_mono; eauto; lia.
  Qed.
  Lemma sees_pointers (E : Prop) p n : exists q, sees E n (pointer_calls p) q.
  Proof.
    induction p as [| |k s b (q1 & H1) r (q2 & H2)|k s b (q1 & H1) r (q2 & H2)|k s x b _ r (q1 & H1) r2 _]; cbn [pointer_calls]; eexists; econstructor; eauto.
  Qed.
  Lemma sees_value (E : Prop) v : E -> exists n q, sees E n (implementation m v) q.
  Proof.
    intros HE. induction v as [s cs IH|t l a|t l|t t' ps x] using mvalue_induction.
    - destruct (pointer s) eqn:Es.
      + destruct (@sees_pointers E (visit_shape m unseen s []) 0%nat) as [q Hq]. exists 0%nat, q. destruct s; try discriminate; exact Hq.
      + destruct (@sees_calls E cs (visit_shape m unseen s (placeholders 0 (map msize cs))) HE IH) as (n & q & Hq). exists n, q. destruct s; try discriminate; exact Hq.
    - exists 0%nat, (VInline (key_for_type_name (t_name t)) (t_size t) VRet VRet). constructor; [apply se_try_fails; [now left | constructor] | constructor].
    - exists 0%nat, (VInline (key_for_type_name (t_name t)) (t_size t) VRet VRet). constructor; [apply se_try_fails; [now left | constructor] | constructor].
    - exists 0%nat, (VInline (key_for_type_name (t_name t)) (t_size t) VRet VRet). constructor; [apply se_dead; [now left | constructor] | constructor].
  Qed.
  Lemma sees_some (E : Prop) p : E -> exists n q, sees E n p q.
  Proof.
    intros HE. induction p as [| |k s b (n1 & q1 & H1) r (n2 & q2 & H2)|k s b (n1 & q1 & H1) r (n2 & q2 & H2)|k s x r (n1 & q1 & H1)|l a f r (n1 & q1 & H1)
      |x b _ r (n1 & q1 & H1)|v r (n1 & q1 & H1)].
    - exists 0%nat, VRet. constructor.
    - exists 0%nat, VCrash. constructor.
    - exists (Nat.max n1 n2), (VInline k s q1 q2). constructor; eapply sees_mono; eauto; lia.
    - exists (Nat.max n1 n2), (VUnique k s q1 q2). constructor; eapply sees_mono; eauto; lia.
    - exists n1, (VShared k s x VRet q1 q1). now constructor.
    - exists n1, q1. apply se_try_fails; [now left | exact H1].
    - exists n1, q1. apply se_dead; [now left | exact H1].
    - destruct (@sees_value E v HE) as (n2 & q2 & H2). exists (S (Nat.max n1 n2)), (vseq q2 q1). constructor; eapply sees_mono; eauto; lia.
  Qed.
End Big.
