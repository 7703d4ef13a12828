(** * Lemmas for property C64: what is looked at is guarded at that moment. *)
From Verif Require Import Base BaseFacts KeyModel KeyFacts HMap FlameModel BuilderModel BuilderFacts VisitorModel Spec LayoutModel ImplModel
  LockModel LockSpec LockFacts SnapshotModel DashModel DashSpec MixModel MixSpec MixGuard.

#[local] Arguments key_new : simpl never.

(** The code only visits values in [V] and only follows pointers in [P]. *)
Fixpoint xdecent (V : xvalue -> Prop) (P : ptr -> Prop) (p : xcode) : Prop :=
  match p with
  | XRet | XCrash => True
  | XInline _ _ b r | XUnique _ _ b r => xdecent V P b /\ xdecent V P r
  | XShared _ _ x r => P x /\ xdecent V P r
  | XTry _ _ _ r => xdecent V P r
  | XUpgrade x b r => xdecent V (fun y => P y \/ y = x) b /\ xdecent V P r
  | XVisit v r => V v /\ xdecent V P r
  | XSum _ _ _ k => forall n, xdecent V P (k n)
  | XIter _ _ r => xdecent V P r
  end.
Lemma xdecent_mono (V V' : xvalue -> Prop) : (forall u, V u -> V' u) -> forall p (P P' : ptr -> Prop), (forall x, P x -> P' x) -> xdecent V P p -> xdecent V' P' p.
Proof.
  intros HV. induction p as [| |k n b IHb r IHr|k n b IHb r IHr|k n x r IHr|l a f r IHr|x b IHb r IHr|v r IHr|w ls acc k IHk|kd ls r IHr]; intros P P' HP H; cbn in *; auto;
    try (destruct H as [H1 H2]; split; eauto; fail); try (eapply IHr; eauto; fail).
  - destruct H as [H1 H2]. split; [|now apply (IHr P)]. eapply IHb; [|exact H1]. cbn. intros y [Hy|Hy]; auto.
  - intros n. eapply IHk; eauto.
Qed.

Section Visit.
Variables (M : xmemory -> Prop) (root : xvalue).
(** As [xmay_look], [xmay_follow], with the guards that are on the stack. *)
Definition xvals (g : xmemory) (st : list xframe) (u : xvalue) : Prop :=
  xpart_of u root \/ (exists l a rest, In (YGuard l a rest) st /\ xpart_of u (x_content g l)) \/
  (exists kd l ls rest e w, In (YShard kd l ls rest) st /\ In e (tb_entries (x_table g l)) /\ of_entry w e /\ xpart_of u w) \/
  (exists g' x i w, M g' /\ x_object g' x = Some (i, w) /\ xpart_of u w).
Definition xptrs (g : xmemory) (st : list xframe) (x : ptr) : Prop :=
  (exists u, xvals g st u /\ xowns u x) \/ (exists rest, In (YArc x rest) st).
Lemma xvals_cons g f st u : xvals g st u -> xvals g (f :: st) u.
Proof.
  intros [H|[(l & a & r & H1 & H2)|[(kd & l & ls & r & e & w & H1 & H2)|H]]]; [now left | right; left; exists l, a, r; split; [now right | exact H2] | | now right; right; right].
  right; right; left. exists kd, l, ls, r, e, w. split; [now right | exact H2].
Qed.
Lemma xptrs_cons g f st x : xptrs g st x -> xptrs g (f :: st) x.
Proof. intros [(u & H1 & H2)|(r & H)]; [left; exists u; split; [now apply xvals_cons | exact H2] | right; exists r; now right]. Qed.
Definition xcont (f : xframe) : xcode := match f with YScope r | YGuard _ _ r | YArc _ r | YThen r | YShard _ _ _ r => r end.
Fixpoint xstack_decent (g : xmemory) (st : list xframe) : Prop :=
  match st with [] => True | f :: st' => xdecent (xvals g st') (xptrs g st') (xcont f) /\ xstack_decent g st' end.
Definition xconf_decent (c : xconf) : Prop :=
  (match xk_control c with XRun p => xdecent (xvals (xk_mem c) (xk_stack c)) (xptrs (xk_mem c) (xk_stack c)) p | _ => True end) /\ xstack_decent (xk_mem c) (xk_stack c).

Lemma xdecent_cons g f st p : xdecent (xvals g st) (xptrs g st) p -> xdecent (xvals g (f :: st)) (xptrs g (f :: st)) p.
Proof. apply xdecent_mono; [intros u; apply xvals_cons | intros x; apply xptrs_cons]. Qed.

(** Only contents and tables count. *)
Definition kept (g g' : xmemory) (st : list xframe) : Prop :=
  (forall l a rest, In (YGuard l a rest) st -> x_content g' l = x_content g l) /\
  (forall kd l ls rest, In (YShard kd l ls rest) st -> x_table g' l = x_table g l).
Lemma kept_tail g g' f st : kept g g' (f :: st) -> kept g g' st.
Proof. intros [E1 E2]. split; [intros l a r H; apply (E1 l a r); now right | intros kd l ls r H; apply (E2 kd l ls r); now right]. Qed.
Lemma kept_set g s st : kept g (xset g s) st.
Proof. split; reflexivity. Qed.
Lemma xvals_mem g g' st u : kept g g' st -> xvals g st u -> xvals g' st u.
Proof.
  intros [E1 E2] [H|[(l & a & r & H1 & H2)|[(kd & l & ls & r & e & w & H1 & H2 & H3)|H]]]; [now left | right; left; exists l, a, r; split; [exact H1 | rewrite (E1 l a r H1); exact H2] | | now right; right; right].
  right; right; left. exists kd, l, ls, r, e, w. split; [exact H1|]. rewrite (E2 kd l ls r H1). now split.
Qed.
Lemma xptrs_mem g g' st x : kept g g' st -> xptrs g st x -> xptrs g' st x.
Proof. intros E [(u & H1 & H2)|H]; [left; exists u; split; [now apply (xvals_mem E) | exact H2] | now right]. Qed.
Lemma xdecent_mem g g' st p : kept g g' st -> xdecent (xvals g st) (xptrs g st) p -> xdecent (xvals g' st) (xptrs g' st) p.
Proof. intros E. apply xdecent_mono; [intros u; now apply xvals_mem | intros x; now apply xptrs_mem]. Qed.
Lemma xstack_mem g g' st : kept g g' st -> xstack_decent g st -> xstack_decent g' st.
Proof.
  induction st as [|f st IH]; intros E H; [exact I|]. destruct H as [H1 H2]. apply kept_tail in E. split; [now apply (xdecent_mem E) | now apply IH].
Qed.

(** The code of the implementations. *)
Lemma xcalls_decent (V : xvalue -> Prop) P cs p : (forall c, In c cs -> V c) -> xdecent V P (xcalls cs p).
Proof.
  intros H. induction p as [| |k n b IHb r IHr|k n b IHb r IHr|k n x b IHb r1 IHr1 r2 IHr2]; cbn; auto.
  destruct (nth_error cs (N.to_nat x)) as [c|] eqn:E; [|exact IHr1]. split; [apply H; eapply nth_error_In, E | exact IHr1].
Qed.
Lemma xwith_decent V P o f : (forall n, xdecent V P (f n)) -> xdecent V P (xwith o f).
Proof. intros H. destruct o; cbn; auto. Qed.
Lemma xentries_decent (V : xvalue -> Prop) P kd es : (forall e w, In e es -> of_entry w e -> V w) -> xdecent V P (xentries kd es).
Proof.
  induction es as [|[k v] es IH]; intros H; [exact I|].
  assert (X : V k) by (apply (H (k, v)); [now left | now left]). assert (Y : V v) by (apply (H (k, v)); [now left | now right]).
  assert (Z : xdecent V P (xentries kd es)) by (apply IH; intros e w He; apply H; now right).
  destruct kd; cbn; auto.
Qed.
Lemma ximplementation_decent m (V : xvalue -> Prop) (P : ptr -> Prop) v : V v -> (forall u c, V (XPlain u c) -> forall x, In x c -> V x) ->
  (forall x, xowns v x -> P x) -> xdecent V P (ximplementation m v).
Proof.
  intros Hv Hc Ho. destruct v as [s cs|t l a|t l|t t' ps x|kd t e ls]; try (cbn; auto; fail).
  - assert (A : forall sz, xdecent V P (xcalls cs (visit_shape m unseen s (placeholders 0 sz)))) by (intros sz; apply xcalls_decent; intros c; now apply (Hc s cs)).
    unfold ximplementation. destruct s; try apply A.
    + cbn. unfold impl_shared_ptr. cbn. repeat split; auto. apply Ho. reflexivity.
    + destruct target as [[[t' ps] x]|]; cbn; auto. unfold impl_shared_ptr. cbn. repeat split; auto. apply Ho. reflexivity.
  - cbn. unfold impl_shared_ptr. cbn. repeat split; auto.
  - cbn [ximplementation xdash xdecent]. split; [|exact I]. split; [|exact I]. intros n. apply xwith_decent. intros tot. cbn. split; [|exact I].
    intros c' n'. apply xwith_decent. cbn. auto.
Qed.

Lemma xvals_child g st s cs c : xvals g st (XPlain s cs) -> In c cs -> xvals g st c.
Proof.
  assert (A : forall v, xpart_of (XPlain s cs) v -> In c cs -> xpart_of c v).
  { intros v H Hc. induction H as [|s' cs' v Hv _ IH]; [apply (xpart_child s Hc), xpart_self | apply (xpart_child s' Hv), IH]. }
  intros [H|[(l & a & r & H1 & H2)|[(kd & l & ls & r & e & w & H1 & H2 & H3 & H4)|(g' & x & i & w & H1 & H2 & H3)]]] Hc;
    [left; auto | right; left; exists l, a, r; auto | right; right; left; exists kd, l, ls, r, e, w; auto | right; right; right; exists g', x, i, w; auto].
Qed.

Lemma xdecent_step m std c c' : M (xk_mem c) -> xstep m std c c' -> xconf_decent c -> xconf_decent c'.
Proof.
  intros HM S [HC HS]. unfold xconf_decent. destruct S; cbn [xk_control xk_mem xk_stack xstack_decent xcont] in *.
  (* pops that leave the memory *)
  all: try (destruct HS as [HR HS]; now split).
  all: try (now split).
  (* pops that release *)
  all: try (destruct HS as [HR HS]; split; [apply (xdecent_mem (kept_set g _ _)); exact HR | apply (xstack_mem (kept_set g _ _)); exact HS]; fail).
  all: try (destruct HS as [HR HS]; split; [exact I | apply (xstack_mem (kept_set g _ _)); exact HS]; fail).
  (* scopes *)
  all: try (cbn in HC; split; [apply xdecent_cons, HC | split; [apply HC | exact HS]]; fail).
  all: try (cbn in HC; split; [apply HC | exact HS]; fail).
  - (* the next shard *)
    destruct HS as [HR HS]. split; [|split; [apply (xdecent_mem (kept_set g _ _)); exact HR | apply (xstack_mem (kept_set g _ _)); exact HS]].
    apply xentries_decent. intros e w He Hw. right; right; left. exists kd, l2, ls, rest, e, w. split; [now left|]. split; [exact He|]. split; [exact Hw | apply xpart_self].
  - (* an allocation *)
    cbn in HC. destruct HC as [Hx HR]. split; [|now split]. unfold xbehind. destruct (x_object g x) as [[i v]|] eqn:E; [|exact I].
    apply xcalls_decent. intros c [<-|[]]. right; right; right. exists g, x, i, v. split; [exact HM|]. split; [exact E | apply xpart_self].
  - (* a lock *)
    cbn in HC. split; [|split; [apply (xdecent_mem (kept_set g _ _)); exact HC | apply (xstack_mem (kept_set g _ _)); exact HS]].
    assert (A : xvals (xset g (acquire (x_shared g) l Visit a)) (YGuard l a rest :: st) (x_content g l)).
    { right; left. exists l, a, rest. split; [now left | apply xpart_self]. }
    unfold xopened. destruct field; cbn; auto.
  - (* a reference *)
    cbn in HC. destruct HC as [HB HR]. split; [|split; [apply (xdecent_mem (kept_set g _ _)); exact HR | apply (xstack_mem (kept_set g _ _)); exact HS]].
    apply (xdecent_mem (kept_set g _ _)). eapply xdecent_mono; [| |exact HB]; [intros u; apply xvals_cons|].
    cbn. intros y [Hy| ->]; [now apply xptrs_cons | right; exists rest; now left].
  - (* a value *)
    cbn in HC. destruct HC as [HV HR]. split; [|now split]. apply ximplementation_decent; [now apply xvals_cons | intros u cs Hv c Hc; exact (xvals_child Hv Hc)|].
    intros x Hx. left. exists v. split; [now apply xvals_cons | exact Hx].
  - (* the first shard *)
    cbn in HC. split; [|split; [apply (xdecent_mem (kept_set g _ _)); exact HC | apply (xstack_mem (kept_set g _ _)); exact HS]].
    apply xentries_decent. intros e w He Hw. right; right; left. exists kd, l, ls, rest, e, w. split; [now left|]. split; [exact He|]. split; [exact Hw | apply xpart_self].
Qed.

Lemma xdecent_change g g' b k st : xchange g g' -> xsteady (mkXC g b k st) -> k <> XLost -> xconf_decent (mkXC g b k st) -> xconf_decent (mkXC g' b k st).
Proof.
  intros H S HL [HC HS]. assert (E : kept g g' st).
  { split.
    - intros l a rest Hin. apply (@held_stable (mkXC g b k st) g' l a); auto. apply (@inside_plain (mkXC g b k st)). now exists rest.
    - intros kd l ls rest Hin. apply (@held_stable (mkXC g b k st) g' l ReadOnly); auto. apply (@iterating_plain (mkXC g b k st)). now exists kd, ls, rest. }
  split; cbn [xk_control xk_mem xk_stack] in *; [destruct k; auto; now apply (xdecent_mem E) | now apply (xstack_mem E)].
Qed.

Lemma xlost_stack m std c c' : xstep m std c c' -> xk_control c' = XLost -> xk_stack c' = [].
Proof. intros S. destruct S; cbn; congruence. Qed.
Definition xlost_empty (c : xconf) : Prop := xk_control c = XLost -> xk_stack c = [].

Lemma xdecent_passes m std c c' : xpasses M m std c c' -> xsteady c -> xlost_empty c -> xconf_decent c -> xconf_decent c'.
Proof.
  induction 1 as [c _|c c' c'' HM H _ IH|g g' b k st c'' _ H _ IH]; intros S L D; [exact D | |].
  - apply IH; [eapply xsteady_step; eauto | exact (xlost_stack H) | eapply xdecent_step; eauto].
  - apply IH; [eapply xsteady_change; eauto | exact L|]. destruct k as [p| |]; try (eapply xdecent_change; eauto; discriminate).
    unfold xlost_empty in L. cbn in L. rewrite L by reflexivity. now split.
Qed.

Lemma xvals_may c u : xsteady c -> xk_control c <> XLost -> xvals (xk_mem c) (xk_stack c) u -> xmay_look M root (xk_mem c) u.
Proof.
  intros S HL [D|[(l & a & r & Hin & D)|[(kd & l & ls & r & e & w & Hin & D)|D]]]; [now left | | | now right; right; right].
  - right; left. exists l, a. split; [|exact D]. apply (xsteady_held S HL). apply inside_plain. now exists r.
  - right; right; left. exists l, e, w. split; [|exact D]. apply (xsteady_held S HL). apply iterating_plain. now exists kd, ls, r.
Qed.
End Visit.

Lemma xmay_look_lemma (M : xmemory -> Prop) m std g b v c u : (forall l, lock_ok (locks (x_shared g) l)) -> holds_nothing (x_shared g) ->
  xpasses M m std (xbegin g b v) c -> xlooks_at c u -> xmay_look M v (xk_mem c) u.
Proof.
  intros H1 H2 HP (rest & E). pose proof (@xbegin_steady g b v H1 H2) as S0. pose proof (xsteady_passes HP S0) as S.
  pose proof (@xdecent_passes M v m std _ _ HP S0) as [D _]; [discriminate | | ].
  { split; [|exact I]. cbn. split; [left; apply xpart_self | exact I]. }
  rewrite E in D. cbn in D. destruct D as [D _]. eapply xvals_may; eauto. congruence.
Qed.
Lemma xmay_follow_lemma (M : xmemory -> Prop) m std g b v c x : (forall l, lock_ok (locks (x_shared g) l)) -> holds_nothing (x_shared g) ->
  xpasses M m std (xbegin g b v) c -> xfollows c x -> xmay_follow M v (xk_mem c) x.
Proof.
  intros H1 H2 HP (k & n & rest & E). pose proof (@xbegin_steady g b v H1 H2) as S0. pose proof (xsteady_passes HP S0) as S.
  pose proof (@xdecent_passes M v m std _ _ HP S0) as [D _]; [discriminate | | ].
  { split; [|exact I]. cbn. split; [left; apply xpart_self | exact I]. }
  assert (HL : xk_control c <> XLost) by congruence.
  rewrite E in D. cbn in D. destruct D as [D _]. destruct D as [(u & D & O)|(r & Hin)].
  - left. exists u. split; [|exact O]. eapply xvals_may; eauto.
  - right. destruct (S HL) as [_ _ S3]. apply refs_in. rewrite S3.
    apply (@inside_refs _ x LRet). clear - Hin. induction (xk_stack c) as [|f st IH]; [destruct Hin|]. destruct Hin as [->|Hin]; [cbn; now left|]. destruct f; cbn; auto.
Qed.
