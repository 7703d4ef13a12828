(** * Lemmas for property C52: guards, progress. *)
From Verif Require Import Base BaseFacts KeyModel KeyFacts HMap FlameModel BuilderModel BuilderFacts VisitorModel Spec LayoutModel ImplModel
  LockModel LockSpec LockFacts SnapshotModel ChangeModel ChangeSpec.

#[local] Arguments key_new : simpl never.

(** The guards and references of a stack, as in LockModel. *)
Fixpoint plain_stack (st : list cframe) : list LockModel.frame :=
  match st with
  | [] => []
  | KScope _ :: st' => FScope LRet :: plain_stack st'
  | KGuard l a _ :: st' => FGuard l a LRet :: plain_stack st'
  | KArc x _ :: st' => FArc x LRet :: plain_stack st'
  | KThen _ :: st' => plain_stack st'
  end.
Definition steady (c : cconf) : Prop := k_control c <> Lost -> consistent (m_shared (k_mem c)) (plain_stack (k_stack c)).

Lemma steady_step m std c c' : cstep m std c c' -> steady c -> steady c'.
Proof.
  intros H S. unfold steady in *. destruct H; cbn [k_control k_mem k_stack plain_stack m_shared set_shared_state] in *; intros HA; try congruence;
    (assert (S' := S ltac:(discriminate)));
    try (apply consistent_scope in S'); try (apply consistent_scope); auto using consistent_acquire, consistent_upgrade.
  all: first [eapply consistent_release; eassumption | eapply consistent_drop; eassumption | idtac].
Qed.
Lemma steady_change g g' b k st : change g g' -> steady (mkC g b k st) -> steady (mkC g' b k st).
Proof.
  intros H S HA. specialize (S HA). cbn [k_mem k_stack] in *. destruct H as [g s Hs|g l t v Hl|g x o]; cbn [m_shared set_shared_state]; auto. eapply consistent_other; eauto.
Qed.
Lemma steady_passes M m std c c' : passes M m std c c' -> steady c -> steady c'.
Proof.
  induction 1 as [c _|c c' c'' _ H _ IH|g g' b k st c'' _ H _ IH]; intros S; [exact S | apply IH; eapply steady_step; eauto | apply IH; eapply steady_change; eauto].
Qed.
Lemma begin_steady g b v : (forall l, lock_ok (locks (m_shared g) l)) -> holds_nothing (m_shared g) -> steady (begin g b v).
Proof. intros H1 H2 _. apply (@start_sound _ b LRet H1 H2). discriminate. Qed.

Lemma steady_guard c l a : steady c -> k_control c <> Lost -> inside c l a -> In (Visit, a) (held (locks (m_shared (k_mem c)) l)) /\ lock_ok (locks (m_shared (k_mem c)) l).
Proof.
  intros S HL (rest & Hin). specialize (S HL). destruct S as [S1 S2 S3]. split; [|apply S1]. apply guards_in. rewrite S2. apply (@inside_guards _ l a LRet).
  clear - Hin. induction (k_stack c) as [|f st IH]; [destruct Hin|]. destruct Hin as [->|Hin]; [cbn; now left|]. destruct f; cbn; auto.
Qed.

Lemma guard_stable c g' l a : steady c -> k_control c <> Lost -> inside c l a -> change (k_mem c) g' -> m_content g' l = m_content (k_mem c) l.
Proof.
  intros S HL Hin H. destruct (steady_guard S HL Hin) as [G1 G2]. inversion H as [? s Hs|? l0 t v Hl|? x o]; subst; try reflexivity.
  cbn [m_content]. destruct (N.eqb_spec l l0) as [<-|]; [|reflexivity]. exfalso. apply G2 in Hl. rewrite Hl in G1. destruct G1 as [[= ]|[]].
Qed.

Lemma progress m std c : ended c \/ exists c', cstep m std c c'.
Proof.
  destruct c as [g b k st]. destruct k as [p| |]; [|destruct st as [|[rest|l a rest|x rest|rest] st]|left; exact I].
  - destruct p as [| |k s body rest|k s body rest|k s x rest|l a field rest|x body rest|v rest].
    + destruct st as [|[rest|l a rest|x rest|rest] st]; [left; exact I | | | |]; right.
      * destruct (exit_impl b) as [b' [|]] eqn:E; eexists; [eapply k_exit; eassumption | eapply k_exit_abort; eassumption].
      * eexists; apply k_unlock.
      * eexists; apply k_drop_arc.
      * eexists; apply k_return.
    + right. eexists; apply k_crash.
    + right. destruct (enter_inline m b k s) as [b' [|]] eqn:E; eexists; [eapply k_inline; eassumption | eapply k_inline_panic; eassumption].
    + right. destruct (enter_unique m b k s) as [b' [|]] eqn:E; eexists; [eapply k_unique; eassumption | eapply k_unique_panic; eassumption].
    + right. destruct (enter_shared m b k s x) as [[b' [|]] [|]] eqn:E; eexists; [eapply k_shared; eassumption | eapply k_shared_again; eassumption | |]; eapply k_shared_panic; exact E.
    + right. destruct (poisoned (locks (m_shared g) l)) eqn:Ep; [eexists; apply k_try_fails; auto|].
      destruct (avail_dec (locks (m_shared g) l) a) as [Ha|Ha]; eexists; [apply k_try; assumption | apply k_try_fails; left; eapply unavailable_held, Ha].
    + right. destruct (strong (m_shared g) x) eqn:Es; eexists; [eapply k_upgrade_dead; eassumption | apply k_upgrade; congruence].
    + right. eexists; apply k_visit.
  - left; exact I.
  - right. destruct (exit_impl b) as [b' [|]] eqn:E; eexists; [eapply k_unwind_exit; eassumption | eapply k_unwind_abort; eassumption].
  - right. eexists; apply k_unwind_unlock.
  - right. eexists; apply k_unwind_arc.
  - right. eexists; apply k_unwind_then.
Qed.
