(** * Facts about the global registry. *)
From Verif Require Import Base KeyModel HMap FlameModel BuilderModel VisitorModel FlameFacts GlobalModel GlobalSpec.

Definition in_critical (p : pc) : bool :=
  match p with Locked _ | PushRead _ _ | Copying _ | Unlocking _ _ => true | _ => false end.

(** The operation in progress. *)
Definition pc_op (p : pc) : option gop :=
  match p with
  | Idle => None
  | Waiting o | Locked o | Unlocking o _ | Returning o _ => Some o
  | PushRead r _ => Some (Register r)
  | Copying _ => Some Snapshot
  end.

(** The result, once the operation has taken effect. *)
Definition pc_res (p : pc) : option gres :=
  match p with Unlocking _ r | Returning _ r => Some r | _ => None end.

Lemma sequential_app S : forall v v1 S' v2, sequential v S v1 -> sequential v1 S' v2 -> sequential v (S ++ S') v2.
Proof.
  induction S as [|i S IH]; intros v v1 S' v2 H1 H2; cbn [sequential app] in *; [now subst|].
  destruct H1 as [Hr H1]. split; [exact Hr|]. eapply IH; eauto.
Qed.

Record ginv (progs : tid -> list gop) (H : list gevent) (s : gstate) (S : list inst) : Prop := {
  gi_seq : sequential [] S (g_roots s);
  gi_lin : linearization H S;
  gi_lock : forall t, in_critical (th_pc (g_threads s t)) = true <-> g_lock s = Some t;
  gi_push : forall t r v, th_pc (g_threads s t) = PushRead r v -> v = g_roots s;
  gi_copy : forall t acc, th_pc (g_threads s t) = Copying acc -> exists rest, g_roots s = acc ++ rest;
  gi_current : forall t o, pc_op (th_pc (g_threads s t)) = Some o -> In (Inv t (th_done (g_threads s t)) o) H;
  gi_effect : forall t o r, pc_op (th_pc (g_threads s t)) = Some o -> pc_res (th_pc (g_threads s t)) = Some r ->
    In (mkInst t (th_done (g_threads s t)) o r) S;
  gi_bound : forall i, In i S -> (i_num i < th_done (g_threads s (i_tid i)))%nat \/
    (i_num i = th_done (g_threads s (i_tid i)) /\ pc_res (th_pc (g_threads s (i_tid i))) <> None);
  gi_hist : forall t n o, In (Inv t n o) H -> (n < th_done (g_threads s t))%nat \/
    (n = th_done (g_threads s t) /\ pc_op (th_pc (g_threads s t)) = Some o);
  gi_prog : forall t, progs t = map i_op (filter (fun i => Nat.eqb (i_tid i) t) S) ++
    (match pc_op (th_pc (g_threads s t)), pc_res (th_pc (g_threads s t)) with Some o, None => [o] | _, _ => [] end) ++
    th_todo (g_threads s t);
}.

Lemma before_app {A} (l l' : list A) x y : before l x y -> before (l ++ l') x y.
Proof. intros (l1 & l2 & l3 & ->). exists l1, l2, (l3 ++ l'). now rewrite <- app_assoc; cbn; rewrite <- app_assoc; cbn. Qed.

Lemma before_last {A} (l : list A) x y : In x l -> before (l ++ [y]) x y.
Proof. intros Hx. apply in_split in Hx as (l1 & l2 & ->). exists l1, l2, []. now rewrite <- app_assoc. Qed.

Lemma before_snoc {A} (l : list A) x y z : before (l ++ [z]) x y -> before l x y \/ (y = z /\ In x l).
Proof.
  intros (l1 & l2 & l3 & E). destruct l3 as [|w l3 _] using rev_ind.
  - right. assert (E' : l ++ [z] = (l1 ++ x :: l2) ++ [y]) by (rewrite E, <- app_assoc; reflexivity).
    apply app_inj_tail in E' as [-> ->]. split; [reflexivity|]. apply in_or_app. right. now left.
  - left. assert (E' : l ++ [z] = (l1 ++ x :: l2 ++ y :: l3) ++ [w]).
    { rewrite E, <- app_assoc. cbn. now rewrite <- app_assoc. }
    apply app_inj_tail in E' as [-> _]. exists l1, l2, l3. reflexivity.
Qed.

Lemma before_in_r {A} (l : list A) x y : before l x y -> In y l.
Proof. intros (l1 & l2 & l3 & ->). apply in_or_app. right. right. apply in_or_app. right. now left. Qed.
Lemma before_in_l {A} (l : list A) x y : before l x y -> In x l.
Proof. intros (l1 & l2 & l3 & ->). apply in_or_app. right. now left. Qed.

(** Extending the history only. *)
Lemma lin_inv H S t n o : linearization H S -> (forall i, In i S -> i_tid i = t -> i_num i <> n) ->
  linearization (H ++ [Inv t n o]) S.
Proof.
  intros [L1 L2 L3 L4] Hnew. constructor.
  - exact L1.
  - intros i Hi. apply L2. apply in_app_iff in Hi as [Hi|[Hi|[]]]; [exact Hi | discriminate].
  - intros i Hi. apply in_or_app. left. now apply L3.
  - intros i j Hj Hb. apply before_snoc in Hb as [Hb|[E _]]; [now apply L4|].
    inversion E. exfalso. apply (Hnew j Hj); auto.
Qed.

Lemma lin_ret H S t n o r : linearization H S -> In (mkInst t n o r) S -> linearization (H ++ [Ret t n o r]) S.
Proof.
  intros [L1 L2 L3 L4] Hin. constructor.
  - exact L1.
  - intros i Hi. apply in_app_iff in Hi as [Hi|[Hi|[]]]; [now apply L2|]. inversion Hi. destruct i; cbn in *. now subst.
  - intros i Hi. apply in_or_app. left. now apply L3.
  - intros i j Hj Hb. apply before_snoc in Hb as [Hb|[E _]]; [now apply L4 | discriminate].
Qed.

(** A linearization point. *)
Lemma lin_point H S t n o r : linearization H S -> (forall i, In i S -> i_tid i = t -> i_num i <> n) ->
  In (Inv t n o) H -> linearization H (S ++ [mkInst t n o r]).
Proof.
  intros [L1 L2 L3 L4] Hnew Hin. constructor.
  - rewrite map_app. cbn [map i_tid i_num]. apply NoDup_snoc; [exact L1|].
    intros Hc. apply in_map_iff in Hc as (i & E & Hi). inversion E; subst. now apply (Hnew i Hi).
  - intros i Hi. apply in_or_app. left. now apply L2.
  - intros i Hi. apply in_app_iff in Hi as [Hi|[<-|[]]]; [now apply L3 | exact Hin].
  - intros i j Hj Hb. apply in_app_iff in Hj as [Hj|[<-|[]]].
    + apply before_app, L4; auto.
    + apply before_last, L2. now apply before_in_l in Hb.
Qed.

Ltac upd_cases t' t := unfold upd in *; destruct (Nat.eqb_spec t' t) as [->|?]; cbn [th_pc th_todo th_done pc_op pc_res in_critical] in *.

(** A step of thread [t] that changes neither registry, history nor effects. *)
Lemma ginv_local progs H s S t p lk :
  ginv progs H s S ->
  pc_op p = pc_op (th_pc (g_threads s t)) -> pc_res p = pc_res (th_pc (g_threads s t)) ->
  (forall t', in_critical (th_pc (upd (g_threads s) t (mkT (th_todo (g_threads s t)) p (th_done (g_threads s t))) t')) = true <-> lk = Some t') ->
  (forall r v, p = PushRead r v -> v = g_roots s) ->
  (forall acc, p = Copying acc -> exists rest, g_roots s = acc ++ rest) ->
  ginv progs H (set_pc (mkG (g_roots s) lk (g_threads s)) t p) S.
Proof.
  intros [I1 I2 I3 I4 I5 I6 I7 I8 I9 I10] Hop Hres Hlk Hp Hc. unfold set_pc. constructor; cbn [g_roots g_lock g_threads].
  - exact I1.
  - exact I2.
  - exact Hlk.
  - intros t' r v. upd_cases t' t; eauto.
  - intros t' acc. upd_cases t' t; eauto.
  - intros t' o. upd_cases t' t; [rewrite Hop|]; eauto.
  - intros t' o r. upd_cases t' t; [rewrite Hop, Hres|]; eauto.
  - intros i Hi. specialize (I8 i Hi). unfold upd. destruct (Nat.eqb_spec (i_tid i) t) as [E|]; cbn [th_pc th_done]; [rewrite E in I8; now rewrite Hres | exact I8].
  - intros t' n o Hi. specialize (I9 t' n o Hi). upd_cases t' t; [rewrite Hop|]; exact I9.
  - intros t'. rewrite (I10 t'). upd_cases t' t; [rewrite Hop, Hres|]; reflexivity.
Qed.

(** A linearization point of thread [t]. *)
Lemma ginv_point progs H s S t o r p v' :
  ginv progs H s S ->
  pc_op (th_pc (g_threads s t)) = Some o -> pc_res (th_pc (g_threads s t)) = None ->
  in_critical (th_pc (g_threads s t)) = true ->
  p = Unlocking o r ->
  seq_apply (g_roots s) o = (v', r) ->
  ginv progs H (set_pc (mkG v' (g_lock s) (g_threads s)) t p) (S ++ [mkInst t (th_done (g_threads s t)) o r]).
Proof.
  intros [I1 I2 I3 I4 I5 I6 I7 I8 I9 I10] Hop Hres Hcrit -> Hseq.
  assert (Hfresh : forall i, In i S -> i_tid i = t -> i_num i <> th_done (g_threads s t)).
  { intros i Hi E C. destruct (I8 i Hi) as [Hlt|[_ Hr]]; rewrite E in *; [lia | congruence]. }
  assert (Hother : forall t', t' <> t -> in_critical (th_pc (g_threads s t')) = false).
  { intros t' Hne. destruct (in_critical (th_pc (g_threads s t'))) eqn:E; [|reflexivity].
    apply I3 in E. apply I3 in Hcrit. congruence. }
  unfold set_pc. constructor; cbn [g_roots g_lock g_threads].
  - eapply sequential_app; [exact I1|]. cbn [sequential i_op i_res]. rewrite Hseq. auto.
  - apply lin_point; auto.
  - intros t'. rewrite <- I3. upd_cases t' t; [rewrite Hcrit|]; tauto.
  - intros t' r' v. upd_cases t' t; [discriminate|]. intros E. specialize (Hother t' n). rewrite E in Hother. discriminate.
  - intros t' acc. upd_cases t' t; [discriminate|]. intros E. specialize (Hother t' n). rewrite E in Hother. discriminate.
  - intros t' o'. upd_cases t' t; [intros E; inversion E; subst|]; auto.
  - intros t' o' r'. upd_cases t' t.
    + intros E1 E2. inversion E1; inversion E2; subst. apply in_or_app. right. now left.
    + intros E1 E2. apply in_or_app. left. auto.
  - intros i Hi. apply in_app_iff in Hi as [Hi|[<-|[]]].
    + specialize (I8 i Hi). unfold upd. destruct (Nat.eqb_spec (i_tid i) t) as [E|]; cbn [th_pc th_done pc_res]; [|exact I8].
      rewrite E in I8. destruct I8 as [I8|[I8 _]]; [now left | right; split; [exact I8|discriminate]].
    + right. cbn [i_num i_tid]. unfold upd. rewrite Nat.eqb_refl. cbn [th_done th_pc pc_res]. split; [reflexivity|discriminate].
  - intros t' n o' Hi. specialize (I9 t' n o' Hi). upd_cases t' t; [rewrite Hop in I9|]; exact I9.
  - intros t'. rewrite (I10 t'), filter_app, map_app. cbn [filter i_tid]. upd_cases t' t.
    + rewrite Hop, Hres, Nat.eqb_refl. cbn [map i_op]. rewrite <- !app_assoc. reflexivity.
    + destruct (Nat.eqb_spec t t'); [congruence|]. cbn [map]. rewrite app_nil_r. reflexivity.
Qed.

Lemma others_not_critical progs H s S t : ginv progs H s S -> in_critical (th_pc (g_threads s t)) = true ->
  forall t', t' <> t -> in_critical (th_pc (g_threads s t')) = false.
Proof.
  intros I Hc t' Hne. destruct (in_critical (th_pc (g_threads s t'))) eqn:E; [|reflexivity].
  apply (gi_lock I) in E. apply (gi_lock I) in Hc. congruence.
Qed.

(** Changing the position inside the critical section keeps the lock owner. *)
Lemma same_lock progs H s S t p : ginv progs H s S ->
  in_critical p = in_critical (th_pc (g_threads s t)) -> forall t',
  in_critical (th_pc (upd (g_threads s) t (mkT (th_todo (g_threads s t)) p (th_done (g_threads s t))) t')) = true <-> g_lock s = Some t'.
Proof. intros I Hp t'. rewrite <- (gi_lock I). upd_cases t' t; [rewrite Hp|]; tauto. Qed.

Lemma gstep_inv progs H s S e s' : ginv progs H s S -> gstep s e s' -> exists S', ginv progs (H ++ e) s' S'.
Proof.
  intros I Hs. inversion Hs as [t o os Epc Etodo|t o Epc Elk|t r Epc|t r v Epc|t Epc|t acc x Epc Enth|t acc Epc Enth|t o res Epc|t o res Epc];
    subst; clear Hs; rewrite ?app_nil_r.
  - (* call *)
    exists S. destruct I as [I1 I2 I3 I4 I5 I6 I7 I8 I9 I10]. constructor; cbn [g_roots g_lock g_threads].
    + exact I1.
    + apply lin_inv; [exact I2|]. intros i Hi E C. destruct (I8 i Hi) as [Hlt|[_ Hr]]; rewrite E in *; [lia|].
      rewrite Epc in Hr. now apply Hr.
    + intros t'. rewrite <- I3. upd_cases t' t; [rewrite Epc; cbn|]; tauto.
    + intros t' r v. upd_cases t' t; [discriminate | eauto].
    + intros t' acc. upd_cases t' t; [discriminate | eauto].
    + intros t' o'. upd_cases t' t; intros E; apply in_or_app; [right; inversion E; now left | left; eauto].
    + intros t' o' r. upd_cases t' t; [discriminate | eauto].
    + intros i Hi. specialize (I8 i Hi). unfold upd. destruct (Nat.eqb_spec (i_tid i) t) as [E|]; cbn [th_pc th_done pc_res]; [|exact I8].
      rewrite E, Epc in I8. exact I8.
    + intros t' n o' Hi. apply in_app_iff in Hi as [Hi|[Hi|[]]].
      * specialize (I9 t' n o' Hi). upd_cases t' t; [|exact I9]. rewrite Epc in I9. destruct I9 as [I9|[_ I9]]; [now left | discriminate].
      * inversion Hi; subst. unfold upd. rewrite Nat.eqb_refl. cbn. auto.
    + intros t'. rewrite (I10 t'). upd_cases t' t; [|reflexivity]. rewrite Epc, Etodo. reflexivity.
  - (* lock *)
    exists S. apply ginv_local; auto; try (rewrite Epc; reflexivity); try discriminate.
    intros t'. upd_cases t' t; [tauto|]. split; intros E; [|congruence].
    exfalso. apply (gi_lock I) in E. congruence.
  - exists S. destruct s as [rts lk ths]. apply (@ginv_local progs H (mkG rts lk ths) S t (PushRead r rts) lk); auto; cbn [g_threads g_roots] in *;
      try (rewrite Epc; reflexivity); try discriminate.
    + apply (@same_lock progs H (mkG rts lk ths) S t (PushRead r rts) I). cbn [g_threads]. now rewrite Epc.
    + intros r' v' E. now inversion E.
  - rewrite (gi_push I Epc). eexists. eapply ginv_point; eauto; rewrite Epc; reflexivity.
  - exists S. destruct s as [rts lk ths]. apply (@ginv_local progs H (mkG rts lk ths) S t (Copying []) lk); auto; cbn [g_threads g_roots] in *;
      try (rewrite Epc; reflexivity); try discriminate.
    + apply (@same_lock progs H (mkG rts lk ths) S t (Copying []) I). cbn [g_threads]. now rewrite Epc.
    + intros acc E. inversion E; subst. exists rts. reflexivity.
  - exists S. destruct s as [rts lk ths]. apply (@ginv_local progs H (mkG rts lk ths) S t (Copying (acc ++ [x])) lk); auto; cbn [g_threads g_roots] in *;
      try (rewrite Epc; reflexivity); try discriminate.
    + apply (@same_lock progs H (mkG rts lk ths) S t (Copying (acc ++ [x])) I). cbn [g_threads]. now rewrite Epc.
    + intros acc' E. inversion E; subst. destruct (gi_copy I Epc) as [rest Er]. cbn [g_roots] in Er. subst rts.
      rewrite nth_error_app2, Nat.sub_diag in Enth by lia. destruct rest as [|y rest]; [discriminate|]. cbn in Enth. inversion Enth; subst.
      exists rest. now rewrite <- app_assoc.
  - destruct (gi_copy I Epc) as [rest Er]. assert (Eacc : g_roots s = acc).
    { rewrite Er in Enth. rewrite nth_error_app2, Nat.sub_diag in Enth by lia. destruct rest; [|discriminate]. now rewrite Er, app_nil_r. }
    clear Er rest. destruct s as [rts lk ths]. cbn [g_roots g_threads] in *. subst rts. eexists.
    apply (@ginv_point progs H (mkG acc lk ths) S t Snapshot (RList acc) _ acc); auto; cbn [g_threads]; rewrite Epc; reflexivity.
  - exists S. apply ginv_local; auto; try (rewrite Epc; reflexivity); try discriminate.
    intros t'. assert (Hc : in_critical (th_pc (g_threads s t)) = true) by now rewrite Epc.
    upd_cases t' t; [split; discriminate|]. rewrite (others_not_critical I Hc n). split; discriminate.
  - (* return *)
    exists S. destruct I as [I1 I2 I3 I4 I5 I6 I7 I8 I9 I10]. constructor; cbn [g_roots g_lock g_threads].
    + exact I1.
    + apply lin_ret; [exact I2|]. apply I7; rewrite Epc; reflexivity.
    + intros t'. rewrite <- I3. upd_cases t' t; [rewrite Epc; cbn|]; tauto.
    + intros t' r v. upd_cases t' t; [discriminate | eauto].
    + intros t' acc. upd_cases t' t; [discriminate | eauto].
    + intros t' o'. upd_cases t' t; intros E; [discriminate | apply in_or_app; left; eauto].
    + intros t' o' r. upd_cases t' t; [discriminate | eauto].
    + intros i Hi. specialize (I8 i Hi). unfold upd. destruct (Nat.eqb_spec (i_tid i) t) as [E|]; cbn [th_pc th_done pc_res]; [|exact I8].
      rewrite E in I8. left. lia.
    + intros t' n o' Hi. apply in_app_iff in Hi as [Hi|[Hi|[]]]; [|discriminate].
      specialize (I9 t' n o' Hi). upd_cases t' t; [|exact I9]. left. lia.
    + intros t'. rewrite (I10 t'). upd_cases t' t; [|reflexivity]. rewrite Epc. reflexivity.
Qed.

Lemma ginv_init progs : ginv progs [] (g_init progs) [].
Proof.
  constructor; cbn [g_init g_roots g_lock g_threads th_pc th_todo th_done pc_op pc_res in_critical]; try discriminate; try contradiction; auto.
  - reflexivity.
  - constructor; try contradiction. constructor.
  - intros t. split; discriminate.
Qed.

Lemma gexec_inv progs H s : gexec progs H s -> exists S, ginv progs H s S.
Proof.
  induction 1 as [|H s e s' Hx [S I] Hs]; [exists []; apply ginv_init | eapply gstep_inv; eauto].
Qed.

(** ** Consequences *)
Definition regs_of (S : list inst) : list groot := registrations (map i_op S).

Lemma registrations_app a b : registrations (a ++ b) = registrations a ++ registrations b.
Proof. unfold registrations. induction a as [|o a IH]; cbn; [reflexivity|]. now rewrite IH, app_assoc. Qed.

Lemma regs_of_app a b : regs_of (a ++ b) = regs_of a ++ regs_of b.
Proof. unfold regs_of. now rewrite map_app, registrations_app. Qed.

Lemma sequential_regs S : forall v v', sequential v S v' -> v' = v ++ regs_of S.
Proof.
  induction S as [|i S IH]; intros v v' H; cbn [sequential] in H.
  - now rewrite app_nil_r.
  - destruct H as [_ H]. apply IH in H. rewrite H. unfold regs_of, registrations. cbn [map flat_map]. destruct (i_op i); cbn; [now rewrite <- app_assoc|reflexivity].
Qed.

Lemma sequential_split S1 i S2 : forall v v', sequential v (S1 ++ i :: S2) v' ->
  i_res i = snd (seq_apply (v ++ regs_of S1) (i_op i)).
Proof.
  induction S1 as [|j S1 IH]; intros v v' H; cbn [sequential app] in H.
  - rewrite app_nil_r. apply H.
  - destruct H as [_ H]. apply IH in H. rewrite H. f_equal. f_equal. unfold regs_of, registrations. cbn [map flat_map].
    destruct (i_op j); cbn; [now rewrite <- app_assoc|reflexivity].
Qed.

Lemma snapshot_res S v t n res : sequential [] S v -> In (mkInst t n Snapshot res) S ->
  exists S1 S2, S = S1 ++ mkInst t n Snapshot res :: S2 /\ res = RList (regs_of S1) /\ v = regs_of S1 ++ regs_of S2.
Proof.
  intros Hs Hin. apply in_split in Hin as (S1 & S2 & ->). exists S1, S2. split; [reflexivity|].
  pose proof (@sequential_split _ _ _ _ _ Hs) as E. cbn in E. split; [exact E|].
  apply sequential_regs in Hs. rewrite Hs. rewrite regs_of_app. reflexivity.
Qed.

(** Thread-tagged registrations. *)
Definition tagged (S : list inst) : list (tid * groot) :=
  flat_map (fun i => match i_op i with Register r => [(i_tid i, r)] | Snapshot => [] end) S.

Lemma tagged_roots S : map snd (tagged S) = regs_of S.
Proof.
  unfold tagged, regs_of, registrations. induction S as [|i S IH]; cbn; [reflexivity|]. rewrite map_app, IH. now destruct (i_op i).
Qed.

Lemma tagged_thread S t : map snd (filter (fun x : tid * groot => Nat.eqb (fst x) t) (tagged S)) =
  registrations (map i_op (filter (fun i => Nat.eqb (i_tid i) t) S)).
Proof.
  induction S as [|i S IH]; [reflexivity|].
  change (tagged (i :: S)) with (match i_op i with Register r => [(i_tid i, r)] | Snapshot => [] end ++ tagged S).
  rewrite filter_app, map_app, IH. cbn [filter]. destruct (i_op i) as [r|] eqn:E.
  - cbn [filter fst]. destruct (Nat.eqb (i_tid i) t); [|reflexivity]. cbn [map registrations flat_map]. now rewrite E.
  - cbn [filter map app]. destruct (Nat.eqb (i_tid i) t); [|reflexivity]. cbn [map registrations flat_map]. now rewrite E.
Qed.

(** ** Visits *)
Lemma register_free w r : w_held w = false -> register_root w r = Some (mkW (w_roots w ++ [r]) false).
Proof. intros E. unfold register_root, w_lock. now rewrite E. Qed.

Lemma grun_erase m p : forall w b, w_held w = false ->
  exists more, grun m p w b = Some (mkW (w_roots w ++ more) false, run m (erase p) b).
Proof.
  assert (Hthen : forall body rest,
    (forall w b, w_held w = false -> exists more, grun m body w b = Some (mkW (w_roots w ++ more) false, run m (erase body) b)) ->
    (forall w b, w_held w = false -> exists more, grun m rest w b = Some (mkW (w_roots w ++ more) false, run m (erase rest) b)) ->
    forall w b, w_held w = false -> exists more,
      g_then (g_leave (grun m body w b)) (grun m rest) =
      Some (mkW (w_roots w ++ more) false, and_then (leave_scope (run m (erase body) b)) (run m (erase rest)))).
  { intros body rest Hb Hr w b Hw. destruct (Hb w b Hw) as [m1 E1]. rewrite E1. cbn [g_leave obind g_then].
    destruct (leave_scope (run m (erase body) b)) as [b1 [| |]]; cbn [and_then]; try (exists m1; reflexivity).
    destruct (Hr (mkW (w_roots w ++ m1) false) b1 eq_refl) as [m2 E2]. rewrite E2. exists (m1 ++ m2). cbn. now rewrite app_assoc. }
  induction p as [| |r rest IH|k s body IHb rest IHr|k s body IHb rest IHr|k s x body IHb r1 IH1 r2 IH2]; intros w b Hw; cbn [grun erase run].
  - exists []. rewrite app_nil_r. destruct w as [l h]. cbn in *. now subst h.
  - exists []. rewrite app_nil_r. destruct w as [l h]. cbn in *. now subst h.
  - rewrite register_free by exact Hw. cbn [obind]. destruct (IH (mkW (w_roots w ++ [r]) false) b eq_refl) as [more E]. rewrite E.
    exists (r :: more). cbn [w_roots]. now rewrite <- app_assoc.
  - destruct (enter_inline m b k s) as [b1 [|]]; [now apply Hthen|]. exists []. rewrite app_nil_r. destruct w as [l h]. cbn in *. now subst h.
  - destruct (enter_unique m b k s) as [b1 [|]]; [now apply Hthen|]. exists []. rewrite app_nil_r. destruct w as [l h]. cbn in *. now subst h.
  - destruct (enter_shared m b k s x) as [[b1 [|]] [|]]; [now apply Hthen|now apply IH2| |];
      exists []; rewrite app_nil_r; destruct w as [l h]; cbn in *; now subst h.
Qed.

Lemma g_visit_root_erase m p w b : w_held w = false ->
  exists more, g_visit_root m p w b = Some (mkW (w_roots w ++ more) false, visit_root m (erase p) b).
Proof.
  intros Hw. unfold g_visit_root, visit_root. destruct (root_visitor b) as [b1 [|]].
  - destruct (@grun_erase m p w b1 Hw) as [more E]. rewrite E. exists more. reflexivity.
  - exists []. rewrite app_nil_r. destruct w as [l h]. cbn in *. now subst h.
Qed.

Lemma g_visit_list_erase m code l : forall i w b, w_held w = false ->
  exists more, g_visit_list m code i l w b = Some (mkW (w_roots w ++ more) false, visit_in_order m (programs code i l) b).
Proof.
  induction l as [|r l IH]; intros i w b Hw; cbn [g_visit_list programs visit_in_order].
  - exists []. rewrite app_nil_r. destruct w as [l h]. cbn in *. now subst h.
  - destruct (@g_visit_root_erase m (code i r) w b Hw) as [m1 E1]. rewrite E1. cbn [g_then obind].
    destruct (visit_root m (erase (code i r)) b) as [b1 [| |]]; cbn [and_then]; try (exists m1; reflexivity).
    destruct (IH (S i) (mkW (w_roots w ++ m1) false) b1 eq_refl) as [m2 E2]. rewrite E2. exists (m1 ++ m2). cbn. now rewrite app_assoc.
Qed.
