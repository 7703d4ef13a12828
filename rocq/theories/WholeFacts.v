(** * Proofs for C55. *)
From Coq Require Import Lia.
From Verif Require Import Base BaseFacts KeyModel HMap FlameModel BuilderModel VisitorModel ImplModel LockModel ChangeModel ChangeFacts ChangeRun GlobalModel GlobalSpec GlobalFacts WholeModel.

Section Whole.
  Variable (M : memory -> Prop) (m : mode) (std : lock -> bool) (statics : groot -> mvalue) (me : tid).
  Notation goes := (goes M m std statics me).
  Notation wstep := (wstep m std statics me).

  Lemma goes_first s H s' : goes s H s' -> M (w_mem s).
  Proof. now destruct 1. Qed.

  (** Only the registry produces events. *)
  Lemma goes_registry progs H0 s H s' : goes s H s' -> gexec progs H0 (w_reg s) -> gexec progs (H0 ++ H) (w_reg s').
  Proof.
    intros HG. revert H0. induction HG as [s HM|s e s' H s'' HM HS _ IH]; intros H0 H1; [now rewrite app_nil_r|].
    rewrite app_assoc. apply IH. clear IH.
    destruct HS as [| | |s s' [ ]]; cbn [w_reg] in *; try (rewrite app_nil_r; exact H1); eapply gexec_step; eauto.
  Qed.

  (** From any point of the loop to its end. *)
  Definition rest_of (b' : builder) (s : process) (H : list gevent) : Prop :=
    match w_phase s with
    | Asks b => exists n l g, In (Ret me n Snapshot (RList l)) H /\ profiles M m std g b (map statics l) b' Done true
    | Next rs b => profiles M m std (w_mem s) b (map statics rs) b' Done true
    | Within rs b k st => exists c b2, passes M m std (mkC (w_mem s) b k st) c /\ ended c /\
        leave_scope (result c) = (b2, Done) /\ profiles M m std (k_mem c) b2 (map statics rs) b' Done true
    | Stopped _ _ => False
    end.
  Lemma goes_profiles b' s H s' : goes s H s' -> w_phase s' = Next [] b' -> rest_of b' s H.
  Proof.
    induction 1 as [s HM|s e s' H s'' HM HS HG IH]; intros E.
    - unfold rest_of. rewrite E. cbn. constructor.
    - specialize (IH E). clear E HG. destruct HS as [r e r' g ph HR Hne|r n l r' g b HR|r g g' ph HC|s s' [r g x rs b b1 HR|r g x rs b b1 HR
        |r g rs b k st g' b1 k' st' HC|r g rs b k st b1 He Hl|r g rs b k st b1 o He Hl Ho]];
        unfold rest_of in *; cbn [w_phase w_mem] in *.
      + destruct ph; auto. destruct IH as (n & l & g1 & Hin & IH). exists n, l, g1. split; [apply in_or_app; now right | exact IH].
      + exists n, l, g. split; [now left | exact IH].
      + destruct ph as [b|rs b|rs b k st|b o]; cbn [app]; auto.
        * eapply pr_change; eauto.
        * destruct IH as (c & b2 & HP & IH). exists c, b2. split; [eapply ps_other; eauto | exact IH].
      + destruct IH as (c & b2 & HP & He & Hl & IH). cbn [map].
        change true with (match Done with Done => true | _ => false end).
        eapply pr_visit; eauto. discriminate.
      + contradiction.
      + destruct IH as (c & b2 & HP & IH). exists c, b2. split; [eapply ps_visit; eauto | exact IH].
      + exists (mkC g b k st), b1. split; [now apply ps_end|]. auto.
      + contradiction.
  Qed.

  (** From any point to a panic. *)
  Definition rest_stop (b' : builder) (s : process) (H : list gevent) : Prop :=
    match w_phase s with
    | Asks b => exists n l1 x l2 g, In (Ret me n Snapshot (RList (l1 ++ x :: l2))) H /\ profiles M m std g b (map statics (l1 ++ [x])) b' Done false
    | Next rs b => exists l1 x l2, rs = l1 ++ x :: l2 /\ profiles M m std (w_mem s) b (map statics (l1 ++ [x])) b' Done false
    | Within rs b k st => exists c b2 o, passes M m std (mkC (w_mem s) b k st) c /\ ended c /\
        leave_scope (result c) = (b2, o) /\
        (o = Unwinding /\ b' = b2 \/
         o = Done /\ exists l1 x l2, rs = l1 ++ x :: l2 /\ profiles M m std (k_mem c) b2 (map statics (l1 ++ [x])) b' Done false)
    | Stopped b o => b = b' /\ o = Unwinding
    end.
  Lemma goes_stops b' s H s' : goes s H s' -> w_phase s' = Stopped b' Unwinding -> rest_stop b' s H.
  Proof.
    induction 1 as [s HM|s e s' H s'' HM HS HG IH]; intros E.
    - unfold rest_stop. rewrite E. cbn. auto.
    - specialize (IH E). clear E HG. destruct HS as [r e r' g ph HR Hne|r n l r' g b HR|r g g' ph HC|s s' [r g x rs b b1 HR|r g x rs b b1 HR
        |r g rs b k st g' b1 k' st' HC|r g rs b k st b1 He Hl|r g rs b k st b1 o He Hl Ho]];
        unfold rest_stop in *; cbn [w_phase w_mem] in *.
      + destruct ph; auto. destruct IH as (n & l1 & x & l2 & g1 & Hin & IH). exists n, l1, x, l2, g1. split; [apply in_or_app; now right | exact IH].
      + destruct IH as (l1 & x & l2 & -> & IH). exists n, l1, x, l2, g. split; [now left | exact IH].
      + destruct ph as [b|rs b|rs b k st|b o]; cbn [app]; auto.
        * destruct IH as (l1 & x & l2 & -> & IH). exists l1, x, l2. split; [reflexivity|]. eapply pr_change; eauto.
        * destruct IH as (c & b2 & o & HP & IH). exists c, b2, o. split; [eapply ps_other; eauto | exact IH].
      + destruct IH as (c & b2 & o & HP & He & Hl & [[-> ->]|(-> & l1 & y & l2 & -> & IH)]).
        * exists [], x, rs. split; [reflexivity|]. cbn [app map].
          change false with (match Unwinding with Done => true | _ => false end). eapply pr_visit; eauto; [discriminate | constructor].
        * exists (x :: l1), y, l2. split; [reflexivity|]. cbn [app map].
          change false with (match Done with Done => false | _ => false end). eapply pr_visit; eauto. discriminate.
      + destruct IH as [-> _]. exists [], x, rs. split; [reflexivity|]. cbn [app map]. eapply pr_refused; eauto. constructor.
      + destruct IH as (c & b2 & o & HP & IH). exists c, b2, o. split; [eapply ps_visit; eauto | exact IH].
      + exists (mkC g b k st), b1, Done. split; [now apply ps_end|]. auto.
      + destruct IH as [-> ->]. exists (mkC g b k st), b', Unwinding. split; [now apply ps_end|]. auto.
  Qed.

  (** The profiling thread is done with the registry when it leaves [Asks]. *)
  Lemma list_last {A} (x : A) a b c : ~ In x a -> a ++ [x] = b ++ x :: c -> a = b /\ c = [].
  Proof.
    revert b. induction a as [|y a IH]; intros [|z b] Hx E; cbn in *.
    - injection E as <-. auto.
    - injection E as <- E. destruct b; discriminate.
    - injection E as <- E. exfalso. apply Hx. now left.
    - injection E as <- E. destruct (IH b ltac:(tauto) E) as [-> ->]. auto.
  Qed.
  Lemma no_snapshot pre : ~ In Snapshot (map Register pre).
  Proof. rewrite in_map_iff. intros (x & E & _). discriminate. Qed.

  (** What the snapshot contains. *)
  Lemma asked_point pre progs H r S n l : progs me = map Register pre ++ [Snapshot] -> ginv progs H r S ->
    In (mkInst me n Snapshot (RList l)) S ->
    (exists reg : list (tid * groot), l = map snd reg /\
       map snd (filter (fun x : tid * groot => Nat.eqb (fst x) me) reg) = pre /\
       forall t, exists rest, registrations (progs t) = map snd (filter (fun x : tid * groot => Nat.eqb (fst x) t) reg) ++ rest) /\
    (match pc_op (th_pc (g_threads r me)), pc_res (th_pc (g_threads r me)) with Some o, None => [o] | _, _ => [] end) ++ th_todo (g_threads r me) = [].
  Proof.
    intros HP I Hin. destruct (@snapshot_res _ _ _ _ _ (gi_seq I) Hin) as (S1 & S2 & ES & El & _).
    injection El as ->. pose proof (gi_prog I me) as E. rewrite HP, ES, filter_app, map_app in E. cbn [filter] in E.
    cbn [i_tid] in E. rewrite Nat.eqb_refl in E. cbn [map i_op] in E. rewrite <- app_assoc in E. cbn [app] in E.
    destruct (list_last (@no_snapshot pre) E) as [E1 E2]. apply app_eq_nil in E2. destruct E2 as [_ E2]. split; [|exact E2].
    exists (tagged S1). split; [now rewrite tagged_roots|]. split.
    - rewrite tagged_thread, <- E1. clear. unfold registrations. induction pre as [|x pre IH]; cbn; [reflexivity | now rewrite IH].
    - intros t. rewrite tagged_thread. pose proof (gi_prog I t) as Et. rewrite ES, filter_app, map_app in Et.
      rewrite Et, <- app_assoc, registrations_app. eexists. reflexivity.
  Qed.

  Definition asked (s : process) : Prop :=
    match w_phase s with Asks _ => True | _ => th_pc (g_threads (w_reg s) me) = Idle /\ th_todo (g_threads (w_reg s) me) = [] end.
  Lemma gstep_idle r e r' : gstep r e r' -> th_pc (g_threads r me) = Idle /\ th_todo (g_threads r me) = [] ->
    th_pc (g_threads r' me) = Idle /\ th_todo (g_threads r' me) = [].
  Proof.
    intros HS [H1 H2]. destruct HS; cbn [set_pc g_threads]; unfold upd; destruct (Nat.eqb me t) eqn:Q; auto;
      apply Nat.eqb_eq in Q; subst t; congruence.
  Qed.
  Lemma wstep_asked pre progs H0 s e s' : progs me = map Register pre ++ [Snapshot] -> gexec progs H0 (w_reg s) ->
    wstep s e s' -> asked s -> asked s'.
  Proof.
    intros HP HX HS HA. destruct HS as [r e r' g ph HR Hne|r n l r' g b HR|r g g' ph HC|s s' [ ]];
      unfold asked in *; cbn [w_phase w_reg] in *; auto.
    - destruct ph; auto; eapply gstep_idle; eauto.
    - destruct (gexec_inv HX) as [S I]. inversion HR as [| | | | | | | |t o res Hpc]; subst.
      assert (Hin : In (mkInst me (th_done (g_threads r me)) Snapshot (RList l)) S) by (apply (gi_effect I); rewrite Hpc; reflexivity).
      destruct (asked_point HP I Hin) as [_ E]. rewrite Hpc in E. cbn in E.
      cbn [g_threads]. unfold upd. rewrite Nat.eqb_refl. cbn. auto.
  Qed.
  Lemma goes_asked pre progs H0 s H s' : progs me = map Register pre ++ [Snapshot] -> gexec progs H0 (w_reg s) -> asked s ->
    goes s H s' -> asked s'.
  Proof.
    intros HP HX HA HG. revert H0 HX HA. induction HG as [s HM|s e s' H s'' HM HS HG IH]; intros H0 HX HA; [exact HA|].
    apply (IH (H0 ++ e)); [|eapply wstep_asked; eauto].
    eapply (@goes_registry progs H0 s e s'); [|exact HX]. rewrite <- (app_nil_r e). eapply go_step; [exact HM | exact HS | apply go_end; eapply goes_first; eauto].
  Qed.
End Whole.

(** A visit as part of a schedule. *)
Lemma goes_app M m std statics me s H s' H' s'' : goes M m std statics me s H s' -> goes M m std statics me s' H' s'' ->
  goes M m std statics me s (H ++ H') s''.
Proof.
  induction 1 as [s HM|s e s1 H s2 HM HS HG IH]; intros X; [exact X|].
  rewrite <- app_assoc. eapply go_step; [exact HM | exact HS | apply IH; exact X].
Qed.
Lemma passes_goes M m std statics me r rs c c' : passes M m std c c' ->
  goes M m std statics me (mkP r (k_mem c) (Within rs (k_builder c) (k_control c) (k_stack c))) []
    (mkP r (k_mem c') (Within rs (k_builder c') (k_control c') (k_stack c'))).
Proof.
  induction 1 as [c HM|[g b k st] [g1 b1 k1 st1] c'' HM HC HP IH|g g' b k st c'' HM HC HP IH]; cbn [k_mem k_builder k_control k_stack] in *.
  - now apply go_end.
  - change (@nil gevent) with ([] ++ @nil gevent). eapply go_step; [exact HM | apply w_own, w_visit; exact HC | exact IH].
  - change (@nil gevent) with ([] ++ @nil gevent). eapply go_step; [exact HM | apply w_change; exact HC | exact IH].
Qed.
