(** * Lemmas for property C65: from steps to answers. *)
From Verif Require Import Base BaseFacts KeyModel KeyFacts HMap FlameModel BuilderModel BuilderFacts VisitorModel Spec LayoutModel ImplModel ImplFacts SizeOfModel
  StoreFacts LockModel LockSpec LockFacts SnapshotModel SnapshotSpec SnapshotFacts SnapshotRun DashModel DashSpec MixModel MixSpec MixRun MixFacts SizeMixModel SizeMixSpec.

#[local] Arguments key_new : simpl never.

Lemma run_so_vseq m p q : forall nk s, run_so m (vseq p q) nk s = (do s <- run_so m p nk s; run_so m q nk s).
Proof.
  induction p as [| |k n b IHb r IHr|k n b IHb r IHr|k n x b IHb r1 IH1 r2 IH2]; intros nk s; cbn [vseq run_so obind]; try reflexivity.
  - destruct (so_enter_inline m s k n nk) as [s1|]; cbn [obind]; [|reflexivity]. destruct (run_so m b NKInline s1) as [s2|]; cbn [obind]; [apply IHr | reflexivity].
  - destruct (run_so m b NKUnique _) as [s2|]; cbn [obind]; [apply IHr | reflexivity].
  - cbn [so_enter_shared]. apply IH2.
Qed.

Section Told.
  Variable M : xmemory -> Prop.
  Variable m : mode.
  Variable E : Prop.

  (** [p], visited from [nk] and [s] on, was told a visit that comes to [r]. *)
  Definition comes (p : xcode) (nk : node_kind) (s : N) (r : option N) : Prop :=
    (r = None -> E) /\ exists n q, tells M m E n p q /\ run_so m q nk s = r.
  Definition comes_after (r : option N) (p : xcode) (nk : node_kind) (r' : option N) : Prop :=
    match r with Some s => comes p nk s r' | None => r' = None /\ E end.

  Lemma after_E r p nk r' : comes_after r p nk r' -> r' = None -> E.
  Proof. destruct r; cbn; [intros [H _]; exact H | tauto]. Qed.
  (** Two parts, one after the other. *)
  Lemma after_tells r p nk r' : comes_after r p nk r' -> exists n q, tells M m E n p q /\ (do s <- r; run_so m q nk s) = r'.
  Proof.
    destruct r as [s|]; cbn [comes_after obind]; [intros (_ & n & q & H1 & H2); eauto|].
    intros [-> HE]. destruct (@tells_some M m E p HE) as (n & q & H). eauto.
  Qed.

  Lemma comes_ret nk s : comes XRet nk s (Some s).
  Proof. split; [discriminate|]. exists 0%nat, VRet. split; [constructor | reflexivity]. Qed.
  Lemma comes_crash nk s : E -> comes XCrash nk s None.
  Proof. intros HE. split; [auto|]. exists 0%nat, VCrash. split; [now constructor | reflexivity]. Qed.
  Lemma comes_inline k n body rest nk s s1 r r' : so_enter_inline m s k n nk = Some s1 -> comes body NKInline s1 r ->
    comes_after (option_map so_exit r) rest nk r' -> comes (XInline k n body rest) nk s r'.
  Proof.
    intros H1 (HE & n1 & q1 & H2 & H3) H4. split; [exact (after_E H4)|]. destruct (after_tells H4) as (n2 & q2 & H5 & H6).
    exists (Nat.max n1 n2), (VInline k n q1 q2). split; [constructor; eapply tells_le; eauto; lia|]. cbn [run_so]. rewrite H1. cbn [obind]. rewrite H3.
    rewrite <- H6. destruct r; reflexivity.
  Qed.
  Lemma comes_inline_panic k n body rest nk s : E -> so_enter_inline m s k n nk = None -> comes (XInline k n body rest) nk s None.
  Proof.
    intros HE H. split; [auto|]. destruct (@tells_some M m E (XInline k n body rest) HE) as (i & q & Hq). exists i, q. split; [exact Hq|].
    inversion Hq; subst. cbn [run_so]. now rewrite H.
  Qed.
  Lemma comes_unique k n body rest nk s r r' : comes body NKUnique (so_enter_unique s k n nk) r ->
    comes_after (option_map so_exit r) rest nk r' -> comes (XUnique k n body rest) nk s r'.
  Proof.
    intros (HE & n1 & q1 & H2 & H3) H4. split; [exact (after_E H4)|]. destruct (after_tells H4) as (n2 & q2 & H5 & H6).
    exists (Nat.max n1 n2), (VUnique k n q1 q2). split; [constructor; eapply tells_le; eauto; lia|]. cbn [run_so]. rewrite H3.
    rewrite <- H6. destruct r; reflexivity.
  Qed.
  Lemma comes_shared k n x rest nk s s' r : so_enter_shared s k n x nk = (s', false) -> comes rest nk s' r -> comes (XShared k n x rest) nk s r.
  Proof.
    intros H1 (HE & n1 & q1 & H2 & H3). split; [exact HE|]. exists n1, (VShared k n x VRet q1 q1). split; [now constructor|]. cbn [run_so]. now rewrite H1.
  Qed.
  Lemma comes_seq body rest nk s r r' n1 q1 (p : xcode) : tells M m E n1 body q1 -> run_so m q1 nk s = r -> comes_after r rest nk r' ->
    (forall n q2, tells M m E n body q1 -> tells M m E n rest q2 -> exists n', tells M m E n' p (vseq q1 q2)) -> comes p nk s r'.
  Proof.
    intros H1 H2 H3 H. split; [exact (after_E H3)|]. destruct (after_tells H3) as (n2 & q2 & H5 & H6).
    destruct (H (Nat.max n1 n2) q2) as (n' & H'); [eapply tells_le; eauto; lia | eapply tells_le; eauto; lia|]. exists n', (vseq q1 q2). split; [exact H'|].
    now rewrite run_so_vseq, H2, H6.
  Qed.
  Lemma comes_try l a field rest nk s g r r' : M g -> LockModel.available (locks (x_shared g) l) a -> poisoned (locks (x_shared g) l) = false ->
    comes (xopened field (x_content g l)) nk s r -> comes_after r rest nk r' -> comes (XTry l a field rest) nk s r'.
  Proof.
    intros Hg Ha Hp (_ & n1 & q1 & H1 & H2) H3. eapply comes_seq; [exact H1 | exact H2 | exact H3|]. intros n q2 A B. exists n. eapply tl_try; eauto.
  Qed.
  Lemma comes_try_fails l a field rest nk s g r : M g -> held (locks (x_shared g) l) <> [] \/ poisoned (locks (x_shared g) l) = true ->
    comes rest nk s r -> comes (XTry l a field rest) nk s r.
  Proof. intros Hg H (HE & n & q & H1 & H2). split; [exact HE|]. exists n, q. split; [apply tl_try_fails; [right; eauto | exact H1] | exact H2]. Qed.
  Lemma comes_upgrade x body rest nk s g r r' : M g -> strong (x_shared g) x <> [] -> comes body nk s r -> comes_after r rest nk r' -> comes (XUpgrade x body rest) nk s r'.
  Proof.
    intros Hg Ha (_ & n1 & q1 & H1 & H2) H3. eapply comes_seq; [exact H1 | exact H2 | exact H3|]. intros n q2 A B. exists n. eapply tl_upgrade; eauto.
  Qed.
  Lemma comes_dead x body rest nk s g r : M g -> strong (x_shared g) x = [] -> comes rest nk s r -> comes (XUpgrade x body rest) nk s r.
  Proof. intros Hg H (HE & n & q & H1 & H2). split; [exact HE|]. exists n, q. split; [apply tl_dead; [right; eauto | exact H1] | exact H2]. Qed.
  Lemma comes_visit v rest nk s r r' : comes (ximplementation m v) nk s r -> comes_after r rest nk r' -> comes (XVisit v rest) nk s r'.
  Proof.
    intros (_ & n1 & q1 & H1 & H2) H3. eapply comes_seq; [exact H1 | exact H2 | exact H3|]. intros n q2 A B. exists (S n). constructor; [exact A | eapply tells_le; eauto].
  Qed.
  Lemma comes_sum w l ls acc k nk s g n r : M g -> LockModel.available (locks (x_shared g) l) ReadOnly -> uadd m acc (count w (x_table g l)) = Some n ->
    comes (XSum w ls n k) nk s r -> comes (XSum w (l :: ls) acc k) nk s r.
  Proof.
    intros Hg Ha Hn (HE & i & q & H1 & H2). split; [exact HE|]. exists i, q. split; [|exact H2]. eapply tl_sum; [|exact Hn | exact H1]. right. exists g. split; [exact Hg|]. split; [exact Ha|].
    destruct w; reflexivity.
  Qed.
  Lemma comes_sum_overflow w l ls acc k nk s g : E -> M g -> LockModel.available (locks (x_shared g) l) ReadOnly -> uadd m acc (count w (x_table g l)) = None ->
    comes (XSum w (l :: ls) acc k) nk s None.
  Proof.
    intros HE Hg Ha Hn. split; [auto|]. exists 0%nat, VCrash. split; [|reflexivity]. eapply tl_sum_overflow; [exact HE | | exact Hn]. right. exists g. split; [exact Hg|]. split; [exact Ha|].
    destruct w; reflexivity.
  Qed.
  Lemma comes_sum_done w acc k nk s r : comes (k acc) nk s r -> comes (XSum w [] acc k) nk s r.
  Proof. intros (HE & n & q & H1 & H2). split; [exact HE|]. exists n, q. split; [now constructor | exact H2]. Qed.
  Lemma comes_iter kd l ls rest nk s g r r' : M g -> LockModel.available (locks (x_shared g) l) ReadOnly ->
    comes (xentries kd (tb_entries (x_table g l))) nk s r -> comes_after r (XIter kd ls rest) nk r' -> comes (XIter kd (l :: ls) rest) nk s r'.
  Proof.
    intros Hg Ha (_ & n1 & q1 & H1 & H2) H3. eapply comes_seq; [exact H1 | exact H2 | exact H3|]. intros n q2 A B. exists n. eapply tl_iter; eauto.
  Qed.
  Lemma comes_iter_done kd rest nk s r : comes rest nk s r -> comes (XIter kd [] rest) nk s r.
  Proof. intros (HE & n & q & H1 & H2). split; [exact HE|]. exists n, q. split; [now constructor | exact H2]. Qed.

  Fixpoint zcloses (st : list zframe) (nk : node_kind) (r res : option N) : Prop :=
    match st with
    | [] => r = res
    | ZScope nk' rest :: st' => exists r', comes_after (option_map so_exit r) rest nk' r' /\ zcloses st' nk' r' res
    | ZGuard _ _ rest :: st' | ZArc _ rest :: st' | ZThen rest :: st' => exists r', comes_after r rest nk r' /\ zcloses st' nk r' res
    | ZShard kd _ ls rest :: st' => exists r', comes_after r (XIter kd ls rest) nk r' /\ zcloses st' nk r' res
    end.
  Definition zamounts (c : zconf) (res : option N) : Prop :=
    match z_control c with
    | ZRun p => exists r, comes p (z_kind c) (z_size c) r /\ zcloses (z_stack c) (z_kind c) r res
    | ZUnwinds => E /\ zcloses (z_stack c) (z_kind c) None res
    end.

  Lemma zamounts_step std c c' res : M (z_mem c) -> zstep m std c c' -> zamounts c' res -> zamounts c res.
  Proof.
    intros HM H. destruct H; unfold zamounts; cbn [z_control z_stack z_size z_kind z_mem zcloses option_map] in *.
    - intros (r & H1 & H2). exists (Some s). split; [apply comes_ret|]. exists r. split; [exact H1 | exact H2].
    - intros (r & H1 & H2). exists (Some s). split; [apply comes_ret|]. exists r. split; [exact H1 | exact H2].
    - intros (r & H1 & H2). exists (Some s). split; [apply comes_ret|]. exists r. split; [exact H1 | exact H2].
    - intros (r & H1 & H2). exists (Some s). split; [apply comes_ret|]. exists r. split; [exact H1 | exact H2].
    - intros (r & H1 & r' & H2 & H3). exists (Some s). split; [apply comes_ret|]. exists r'. split; [|exact H3]. eapply comes_iter; eauto.
    - intros (r & H1 & H2). exists (Some s). split; [apply comes_ret|]. exists r. split; [now apply comes_iter_done | exact H2].
    - intros [HE H]. exists None. split; [now apply comes_crash | exact H].
    - intros [HE H]. split; [exact HE|]. exists None. split; [now split | exact H].
    - intros [HE H]. split; [exact HE|]. exists None. split; [now split | exact H].
    - intros [HE H]. split; [exact HE|]. exists None. split; [now split | exact H].
    - intros [HE H]. split; [exact HE|]. exists None. split; [now split | exact H].
    - intros [HE H]. split; [exact HE|]. exists None. split; [now split | exact H].
    - intros (r & H1 & r' & H2 & H3). exists r'. split; [eapply comes_inline; eauto | exact H3].
    - intros [HE H1]. exists None. split; [now apply comes_inline_panic | exact H1].
    - intros (r & H1 & r' & H2 & H3). exists r'. split; [eapply comes_unique; eauto | exact H3].
    - intros (r & H1 & H2). exists r. split; [eapply comes_shared; eauto | exact H2].
    - intros (r & H1 & r' & H2 & H3). exists r'. split; [eapply comes_try; eauto | exact H3].
    - intros (r & H1 & H2). exists r. split; [eapply comes_try_fails; eauto | exact H2].
    - intros (r & H1 & r' & H2 & H3). exists r'. split; [eapply comes_upgrade; eauto | exact H3].
    - intros (r & H1 & H2). exists r. split; [eapply comes_dead; eauto | exact H2].
    - intros (r & H1 & r' & H2 & H3). exists r'. split; [eapply comes_visit; eauto | exact H3].
    - intros (r & H1 & H2). exists r. split; [eapply comes_sum; eauto | exact H2].
    - intros [HE H1]. exists None. split; [eapply comes_sum_overflow; eauto | exact H1].
    - intros (r & H1 & H2). exists r. split; [now apply comes_sum_done | exact H2].
    - intros (r & H1 & r' & H2 & H3). exists r'. split; [eapply comes_iter; eauto | exact H3].
    - intros (r & H1 & H2). exists r. split; [now apply comes_iter_done | exact H2].
  Qed.
  Lemma zended_amounts c : (zresult c = None -> E) -> zended c -> zamounts c (zresult c).
  Proof.
    destruct c as [g s nk [p|] st]; unfold zended, zamounts, zresult; cbn [z_control z_stack z_size z_kind]; intros HE H.
    - destruct p, st; try contradiction. exists (Some s). split; [apply comes_ret | reflexivity].
    - destruct st; [|contradiction]. split; [auto | reflexivity].
  Qed.
  Lemma zpasses_amounts std c c' res : zpasses M m std c c' -> zamounts c' res -> zamounts c res.
  Proof.
    intros H Hc. induction H as [c H|c c' c'' H1 H2 H3 IH|g g' s nk k st c'' H1 H2 H3 IH]; [exact Hc | |].
    - eapply zamounts_step; eauto.
    - exact (IH Hc).
  Qed.
  Theorem zpasses_shown std g v c : zpasses M m std (zbegin g v) c -> zended c -> (zresult c = None -> E) ->
    exists q, shown M m E v q /\ size_of_unique_allocated_data m q = zresult c.
  Proof.
    intros H He HE. pose proof (zpasses_amounts H (zended_amounts HE He)) as (r & (_ & n & q & H1 & H2) & H3). cbn [zbegin z_stack zcloses z_size z_kind] in *. subst r.
    inversion H1; subst. match goal with X : tells M m E _ XRet _ |- _ => inversion X; subst end.
    eexists. split; [eapply value_told; eassumption|]. unfold size_of_unique_allocated_data. rewrite vseq_ret in H3. rewrite H3. destruct (zresult c); reflexivity.
  Qed.
End Told.
