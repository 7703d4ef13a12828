(** * Lemmas for property C64: from steps to answers. *)
From Verif Require Import Base BaseFacts KeyModel KeyFacts HMap FlameModel BuilderModel BuilderFacts VisitorModel Spec LayoutModel ImplModel ImplFacts
  StoreFacts LockModel LockSpec LockFacts SnapshotModel SnapshotSpec SnapshotFacts SnapshotRun DashModel DashSpec MixModel MixSpec.

#[local] Arguments key_new : simpl never.

Lemma xvalue_induction (P : xvalue -> Prop) :
  (forall s cs, Forall P cs -> P (XPlain s cs)) -> (forall t l a, P (XLock t l a)) ->
  (forall t l, P (XOnce t l)) -> (forall t t' ps x, P (XWeak t t' ps x)) -> (forall kd t e ls, P (XDash kd t e ls)) -> forall v, P v.
Proof.
  intros H1 H2 H3 H4 H5. fix go 1. intros [s cs|t l a|t l|t t' ps x|kd t e ls]; [|apply H2|apply H3|apply H4|apply H5].
  apply H1. induction cs as [|c cs IH]; constructor; [apply go | exact IH].
Qed.

Section XBig.
  Variable M : xmemory -> Prop.
  Variable m : mode.

  (** ** Big steps *)
  Inductive xbig : xcode -> builder -> builder * outcome -> Prop :=
  | xb_ret b : xbig XRet b (b, Done)
  | xb_crash b : xbig XCrash b (b, Unwinding)
  | xb_inline k s body rest b b1 r r' : enter_inline m b k s = (b1, Fine) -> xbig body b1 r -> xafter (leave_scope r) rest r' ->
      xbig (XInline k s body rest) b r'
  | xb_inline_panic k s body rest b b1 : enter_inline m b k s = (b1, Panicked) -> xbig (XInline k s body rest) b (b1, Unwinding)
  | xb_unique k s body rest b b1 r r' : enter_unique m b k s = (b1, Fine) -> xbig body b1 r -> xafter (leave_scope r) rest r' ->
      xbig (XUnique k s body rest) b r'
  | xb_unique_panic k s body rest b b1 : enter_unique m b k s = (b1, Panicked) -> xbig (XUnique k s body rest) b (b1, Unwinding)
  | xb_shared k s x rest b b1 g r r' : enter_shared m b k s x = (b1, Fine, true) -> M g -> xbig (xbehind (x_object g x)) b1 r ->
      xafter (leave_scope r) rest r' -> xbig (XShared k s x rest) b r'
  | xb_shared_again k s x rest b b1 r : enter_shared m b k s x = (b1, Fine, false) -> xbig rest b1 r -> xbig (XShared k s x rest) b r
  | xb_shared_panic k s x rest b b1 ret : enter_shared m b k s x = (b1, Panicked, ret) -> xbig (XShared k s x rest) b (b1, Unwinding)
  | xb_try l a field rest b g r r' : M g -> LockModel.available (locks (x_shared g) l) a -> poisoned (locks (x_shared g) l) = false ->
      xbig (xopened field (x_content g l)) b r -> xafter r rest r' -> xbig (XTry l a field rest) b r'
  | xb_try_fails l a field rest b g r : M g -> held (locks (x_shared g) l) <> [] \/ poisoned (locks (x_shared g) l) = true ->
      xbig rest b r -> xbig (XTry l a field rest) b r
  | xb_upgrade x body rest b g r r' : M g -> strong (x_shared g) x <> [] -> xbig body b r -> xafter r rest r' -> xbig (XUpgrade x body rest) b r'
  | xb_dead x body rest b g r : M g -> strong (x_shared g) x = [] -> xbig rest b r -> xbig (XUpgrade x body rest) b r
  | xb_visit v rest b r r' : xbig (ximplementation m v) b r -> xafter r rest r' -> xbig (XVisit v rest) b r'
  | xb_sum w l ls acc k b g n r : M g -> LockModel.available (locks (x_shared g) l) ReadOnly -> uadd m acc (count w (x_table g l)) = Some n ->
      xbig (XSum w ls n k) b r -> xbig (XSum w (l :: ls) acc k) b r
  | xb_sum_overflow w l ls acc k b g : M g -> LockModel.available (locks (x_shared g) l) ReadOnly -> uadd m acc (count w (x_table g l)) = None ->
      xbig (XSum w (l :: ls) acc k) b (b, Unwinding)
  | xb_sum_done w acc k b r : xbig (k acc) b r -> xbig (XSum w [] acc k) b r
  | xb_iter kd l ls rest b g r r' : M g -> LockModel.available (locks (x_shared g) l) ReadOnly ->
      xbig (xentries kd (tb_entries (x_table g l))) b r -> xafter r (XIter kd ls rest) r' -> xbig (XIter kd (l :: ls) rest) b r'
  | xb_iter_done kd rest b r : xbig rest b r -> xbig (XIter kd [] rest) b r
  with xafter : builder * outcome -> xcode -> builder * outcome -> Prop :=
  | xa_done b rest r : xbig rest b r -> xafter (b, Done) rest r
  | xa_stop b o rest : o <> Done -> xafter (b, o) rest (b, o).

  Scheme xbig_mind := Induction for xbig Sort Prop
  with xafter_mind := Induction for xafter Sort Prop.
  Combined Scheme xbig_after_ind from xbig_mind, xafter_mind.

  Fixpoint xcloses (st : list xframe) (r res : builder * outcome) : Prop :=
    match st with
    | [] => r = res
    | YScope rest :: st' => exists r', xafter (leave_scope r) rest r' /\ xcloses st' r' res
    | YGuard _ _ rest :: st' | YArc _ rest :: st' | YThen rest :: st' => exists r', xafter r rest r' /\ xcloses st' r' res
    | YShard kd _ ls rest :: st' => exists r', xafter r (XIter kd ls rest) r' /\ xcloses st' r' res
    end.
  Definition xamounts (c : xconf) (res : builder * outcome) : Prop :=
    match xk_control c with
    | XRun p => exists r, xbig p (xk_builder c) r /\ xcloses (xk_stack c) r res
    | XUnwinds => xcloses (xk_stack c) (xk_builder c, Unwinding) res
    | XLost => (xk_builder c, Aborted) = res
    end.

  Lemma xcloses_abort st b : xcloses st (b, Aborted) (b, Aborted).
  Proof. induction st as [|[rest|l a rest|x rest|rest|kd l ls rest] st IH]; cbn [xcloses leave_scope]; [reflexivity| | | | |]; exists (b, Aborted); (split; [now constructor | exact IH]). Qed.

  Lemma xamounts_step std c c' res : M (xk_mem c) -> xstep m std c c' -> xamounts c' res -> xamounts c res.
  Proof.
    intros HM H. destruct H; unfold xamounts; cbn [xk_control xk_stack xk_builder xk_mem xcloses] in *.
    - intros (r & H1 & H2). exists (b, Done). split; [constructor|]. exists r. cbn [leave_scope]. rewrite H. split; [now constructor | exact H2].
    - intros <-. exists (b, Done). split; [constructor|]. exists (b', Aborted). cbn [leave_scope]. rewrite H. split; [now constructor | apply xcloses_abort].
    - intros (r & H1 & H2). exists (b, Done). split; [constructor|]. exists r. split; [now constructor | exact H2].
    - intros (r & H1 & H2). exists (b, Done). split; [constructor|]. exists r. split; [now constructor | exact H2].
    - intros (r & H1 & H2). exists (b, Done). split; [constructor|]. exists r. split; [now constructor | exact H2].
    - intros (r & H1 & r' & H2 & H3). exists (b, Done). split; [constructor|]. exists r'. split; [|exact H3]. constructor. eapply xb_iter; eauto.
    - intros (r & H1 & H2). exists (b, Done). split; [constructor|]. exists r. split; [constructor; now apply xb_iter_done | exact H2].
    - intros H. exists (b, Unwinding). split; [constructor | exact H].
    - intros H1. exists (b', Unwinding). cbn [leave_scope]. rewrite H. split; [now constructor | exact H1].
    - intros <-. exists (b', Aborted). cbn [leave_scope]. rewrite H. split; [now constructor | apply xcloses_abort].
    - intros H1. exists (b, Unwinding). split; [now constructor | exact H1].
    - intros H1. exists (b, Unwinding). split; [now constructor | exact H1].
    - intros H1. exists (b, Unwinding). split; [now constructor | exact H1].
    - intros H1. exists (b, Unwinding). split; [now constructor | exact H1].
    - intros (r & H1 & r' & H2 & H3). exists r'. split; [eapply xb_inline; eauto | exact H3].
    - intros H1. exists (b', Unwinding). split; [now apply xb_inline_panic | exact H1].
    - intros (r & H1 & r' & H2 & H3). exists r'. split; [eapply xb_unique; eauto | exact H3].
    - intros H1. exists (b', Unwinding). split; [now apply xb_unique_panic | exact H1].
    - intros (r & H1 & r' & H2 & H3). exists r'. split; [eapply xb_shared; eauto | exact H3].
    - intros (r & H1 & H2). exists r. split; [eapply xb_shared_again; eauto | exact H2].
    - intros H1. exists (b', Unwinding). split; [eapply xb_shared_panic; eauto | exact H1].
    - intros (r & H1 & r' & H2 & H3). exists r'. split; [eapply xb_try; eauto | exact H3].
    - intros (r & H1 & H2). exists r. split; [eapply xb_try_fails; eauto | exact H2].
    - intros (r & H1 & r' & H2 & H3). exists r'. split; [eapply xb_upgrade; eauto | exact H3].
    - intros (r & H1 & H2). exists r. split; [eapply xb_dead; eauto | exact H2].
    - intros (r & H1 & r' & H2 & H3). exists r'. split; [eapply xb_visit; eauto | exact H3].
    - intros (r & H1 & H2). exists r. split; [eapply xb_sum; eauto | exact H2].
    - intros H1. exists (b, Unwinding). split; [eapply xb_sum_overflow; eauto | exact H1].
    - intros (r & H1 & H2). exists r. split; [now apply xb_sum_done | exact H2].
    - intros (r & H1 & r' & H2 & H3). exists r'. split; [eapply xb_iter; eauto | exact H3].
    - intros (r & H1 & H2). exists r. split; [now apply xb_iter_done | exact H2].
  Qed.

  Lemma xended_amounts c : xended c -> xamounts c (xresult c).
  Proof.
    destruct c as [g b [p| |] st]; unfold xended, xamounts, xresult; cbn [xk_control xk_stack xk_builder]; intros H.
    - destruct p, st; try contradiction. exists (b, Done). split; [constructor | reflexivity].
    - destruct st; [reflexivity | contradiction].
    - reflexivity.
  Qed.
  Lemma xpasses_amounts std c c' res : xpasses M m std c c' -> xamounts c' res -> xamounts c res.
  Proof.
    intros H Hc. induction H as [c H|c c' c'' H1 H2 H3 IH|g g' b k st c'' H1 H2 H3 IH]; [exact Hc | |].
    - eapply xamounts_step; eauto.
    - exact (IH Hc).
  Qed.
  Theorem xpasses_big std g b v c : xpasses M m std (xbegin g b v) c -> xended c -> xbig (XVisit v XRet) b (xresult c).
  Proof.
    intros H E. pose proof (xpasses_amounts H (xended_amounts E)) as (r & H1 & H2). cbn [xbegin xk_stack xcloses xk_builder] in *. now subst r.
  Qed.

  (** ** What a run of code was told *)
  Variable E : Prop.
  Inductive tells : nat -> xcode -> vprog -> Prop :=
  | tl_ret n : tells n XRet VRet
  | tl_crash n : E -> tells n XCrash VCrash
  | tl_inline n k s b r b' r' : tells n b b' -> tells n r r' -> tells n (XInline k s b r) (VInline k s b' r')
  | tl_unique n k s b r b' r' : tells n b b' -> tells n r r' -> tells n (XUnique k s b r) (VUnique k s b' r')
  | tl_shared n k s x r r' : tells n r r' -> tells n (XShared k s x r) (VShared k s x VRet r' r')
  | tl_try n l a field r g q r' : M g -> LockModel.available (locks (x_shared g) l) a -> poisoned (locks (x_shared g) l) = false ->
      tells n (xopened field (x_content g l)) q -> tells n r r' -> tells n (XTry l a field r) (vseq q r')
  | tl_try_fails n l a field r r' : E \/ (exists g, M g /\ (held (locks (x_shared g) l) <> [] \/ poisoned (locks (x_shared g) l) = true)) ->
      tells n r r' -> tells n (XTry l a field r) r'
  | tl_upgrade n x b r q r' : (exists g, M g /\ strong (x_shared g) x <> []) -> tells n b q -> tells n r r' -> tells n (XUpgrade x b r) (vseq q r')
  | tl_dead n x b r r' : E \/ (exists g, M g /\ strong (x_shared g) x = []) -> tells n r r' -> tells n (XUpgrade x b r) r'
  | tl_visit n v r q r' : tells n (ximplementation m v) q -> tells (S n) r r' -> tells (S n) (XVisit v r) (vseq q r')
  | tl_sum n w l ls acc k c a q : answered M E w l c -> uadd m acc c = Some a -> tells n (XSum w ls a k) q -> tells n (XSum w (l :: ls) acc k) q
  | tl_sum_overflow n w l ls acc k c : E -> answered M E w l c -> uadd m acc c = None -> tells n (XSum w (l :: ls) acc k) VCrash
  | tl_sum_done n w acc k q : tells n (k acc) q -> tells n (XSum w [] acc k) q
  | tl_iter n kd l ls rest g q r : M g -> LockModel.available (locks (x_shared g) l) ReadOnly ->
      tells n (xentries kd (tb_entries (x_table g l))) q -> tells n (XIter kd ls rest) r -> tells n (XIter kd (l :: ls) rest) (vseq q r)
  | tl_iter_skip n kd l ls rest r : E -> tells n (XIter kd ls rest) r -> tells n (XIter kd (l :: ls) rest) r
  | tl_iter_done n kd rest q : tells n rest q -> tells n (XIter kd [] rest) q.

  Lemma tells_le n p q : tells n p q -> forall n', (n <= n')%nat -> tells n' p q.
  Proof.
    intros H. induction H; intros n' Hn; try (econstructor; eauto; fail).
    destruct n' as [|n']; [lia|]. apply tl_visit; [apply IHtells1; lia | apply IHtells2; lia].
  Qed.
  Lemma tells_le' n n' p q : tells n p q -> (n <= n')%nat -> tells n' p q.
  Proof. intros. eapply tells_le; eauto. Qed.

  Lemma tells_calls cs p : E -> Forall (fun c => exists n q, tells n (ximplementation m c) q) cs -> exists n q, tells n (xcalls cs p) q.
  Proof.
    intros HE Hc. induction p as [| |k s b (n1 & q1 & H1) r (n2 & q2 & H2)|k s b (n1 & q1 & H1) r (n2 & q2 & H2)|k s x b _ r (n1 & q1 & H1) r2 _]; cbn [xcalls].
    - exists 0%nat, VRet. constructor.
    - exists 0%nat, VCrash. now constructor.
    - exists (Nat.max n1 n2), (VInline k s q1 q2). constructor; eapply tells_le; eauto; lia.
    - exists (Nat.max n1 n2), (VUnique k s q1 q2). constructor; eapply tells_le; eauto; lia.
    - destruct (nth_error cs (N.to_nat x)) as [c|] eqn:Ec; [|eauto]. apply nth_error_In in Ec. rewrite Forall_forall in Hc.
      destruct (Hc _ Ec) as (n2 & q2 & H2). exists (S (Nat.max n1 n2)), (vseq q2 q1). constructor; eapply tells_le; eauto; lia.
  Qed.
  Lemma tells_pointers p n : E -> exists q, tells n (xpointers p) q.
  Proof.
    intros HE. induction p as [| |k s b (q1 & H1) r (q2 & H2)|k s b (q1 & H1) r (q2 & H2)|k s x b _ r (q1 & H1) r2 _]; cbn [xpointers]; eexists; econstructor; eauto.
  Qed.
  Lemma tells_sum w ls k : E -> (forall a, exists n q, tells n (k a) q) -> forall acc, exists n q, tells n (XSum w ls acc k) q.
  Proof.
    intros HE Hk. induction ls as [|l ls IH]; intros acc.
    - destruct (Hk acc) as (n & q & H). exists n, q. now constructor.
    - destruct (uadd m acc 0) as [a|] eqn:Ea.
      + destruct (IH a) as (n & q & H). exists n, q. eapply tl_sum; eauto. now left.
      + exists 0%nat, VCrash. eapply tl_sum_overflow; eauto. now left.
  Qed.
  Lemma tells_iter kd ls rest : E -> (exists n q, tells n rest q) -> exists n q, tells n (XIter kd ls rest) q.
  Proof.
    intros HE (n & q & H). induction ls as [|l ls (n1 & q1 & IH)]; [exists n, q; now constructor|]. exists n1, q1. now apply tl_iter_skip.
  Qed.
  Lemma tells_dash kd t e ls : E -> exists n q, tells n (xdash m kd t e ls) q.
  Proof.
    intros HE. unfold xdash.
    assert (X : exists n q, tells n (XSum Capacity ls 0 (fun c => xwith (umul m c (t_size e)) (fun total =>
            XInline CAPACITY_NAME total (XIter kd ls (XSum Capacity ls 0 (fun c' => XSum Length ls 0 (fun n =>
                    xwith (umul m (usaturating_sub c' n) (t_size e)) (fun s => XInline UNUSED_CAPACITY_NAME s XRet XRet))))) XRet))) q).
    { apply tells_sum; [exact HE|]. intros c. destruct (umul m c (t_size e)) as [total|]; cbn [xwith]; [|exists 0%nat, VCrash; now constructor].
      destruct (@tells_iter kd ls (XSum Capacity ls 0 (fun c' => XSum Length ls 0 (fun n =>
                    xwith (umul m (usaturating_sub c' n) (t_size e)) (fun s => XInline UNUSED_CAPACITY_NAME s XRet XRet)))) HE) as (n & q & H).
      { apply tells_sum; [exact HE|]. intros c'. apply tells_sum; [exact HE|]. intros k.
        destruct (umul m (usaturating_sub c' k) (t_size e)); cbn [xwith]; [|exists 0%nat, VCrash; now constructor].
        exists 0%nat, (VInline UNUSED_CAPACITY_NAME n VRet VRet). repeat constructor. }
      exists n, (VInline CAPACITY_NAME total q VRet). repeat constructor. exact H. }
    destruct X as (n & q & H). exists n, (VInline (key_for_type_name (t_name t)) (t_size t) (VUnique PTR_NAME ptr_size q VRet) VRet). repeat constructor. exact H.
  Qed.
  Lemma tells_value v : E -> exists n q, tells n (ximplementation m v) q.
  Proof.
    intros HE. induction v as [s cs IH|t l a|t l|t t' ps x|kd t e ls] using xvalue_induction.
    - destruct (pointer s) eqn:Es.
      + destruct (@tells_pointers (visit_shape m unseen s []) 0%nat HE) as [q Hq]. exists 0%nat, q. destruct s; try discriminate; exact Hq.
      + destruct (@tells_calls cs (visit_shape m unseen s (placeholders 0 (map xsize cs))) HE IH) as (n & q & Hq). exists n, q. destruct s; try discriminate; exact Hq.
    - exists 0%nat, (VInline (key_for_type_name (t_name t)) (t_size t) VRet VRet). constructor; [apply tl_try_fails; [now left | constructor] | constructor].
    - exists 0%nat, (VInline (key_for_type_name (t_name t)) (t_size t) VRet VRet). constructor; [apply tl_try_fails; [now left | constructor] | constructor].
    - exists 0%nat, (VInline (key_for_type_name (t_name t)) (t_size t) VRet VRet). constructor; [apply tl_dead; [now left | constructor] | constructor].
    - now apply tells_dash.
  Qed.
  Lemma tells_some p : E -> exists n q, tells n p q.
  Proof.
    intros HE. induction p as [| |k s b (n1 & q1 & H1) r (n2 & q2 & H2)|k s b (n1 & q1 & H1) r (n2 & q2 & H2)|k s x r (n1 & q1 & H1)|l a f r (n1 & q1 & H1)
      |x b _ r (n1 & q1 & H1)|v r (n1 & q1 & H1)|w ls acc k IH|kd ls r IH].
    - exists 0%nat, VRet. constructor.
    - exists 0%nat, VCrash. now constructor.
    - exists (Nat.max n1 n2), (VInline k s q1 q2). constructor; eapply tells_le; eauto; lia.
    - exists (Nat.max n1 n2), (VUnique k s q1 q2). constructor; eapply tells_le; eauto; lia.
    - exists n1, (VShared k s x VRet q1 q1). now constructor.
    - exists n1, q1. apply tl_try_fails; [now left | exact H1].
    - exists n1, q1. apply tl_dead; [now left | exact H1].
    - destruct (@tells_value v HE) as (n2 & q2 & H2). exists (S (Nat.max n1 n2)), (vseq q2 q1). constructor; eapply tells_le; eauto; lia.
    - now apply tells_sum.
    - now apply tells_iter.
  Qed.
End XBig.
