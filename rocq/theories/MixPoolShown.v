(** * Lemmas for property C66: what a participant sees was there; what a participant
    does at any moment; who holds what. *)
From Coq Require Import Lia.
From Verif Require Import Base BaseFacts KeyModel KeyFacts HMap FlameModel BuilderModel BuilderFacts VisitorModel Spec LayoutModel ImplModel SizeOfModel
  LockModel LockSpec LockFacts SnapshotModel DashModel DashSpec MixModel MixSpec MixTypedSpec MixGuard MixLooks PoolModel PoolSpec PoolFacts SizeMixModel SizeMixSpec SizeMixFacts SizeMixGuard
  MixPoolModel MixPoolSpec MixPoolFacts.

#[local] Arguments key_new : simpl never.

(** ** Moments *)
Definition as_seen (g h : xmemory) : Prop :=
  (forall l a, LockModel.available (locks (x_shared h) l) a -> LockModel.available (locks (x_shared g) l) a) /\
  (forall l, poisoned (locks (x_shared h) l) = poisoned (locks (x_shared g) l)) /\
  (forall l, held (locks (x_shared h) l) <> [] -> held (locks (x_shared g) l) <> []) /\
  (forall x, strong (x_shared h) x <> [] -> strong (x_shared g) x <> []) /\
  (forall x, strong (x_shared h) x = [] -> strong (x_shared g) x = []) /\
  untouched g h.
Lemma seen_moment (M : xmemory -> Prop) i h : seen_from i M h -> exists g, M g /\ as_seen g h.
Proof.
  intros (g & HM & (HL & HR) & C1 & C2 & C3). exists g. split; [exact HM|]. cbn [xview xset x_content x_object x_table x_shared] in *. unfold as_seen, untouched. repeat apply conj; try congruence.
  - intros l a. rewrite HL. apply view_available.
  - intros l. rewrite HL. reflexivity.
  - intros l. rewrite HL. cbn. intros H E. rewrite E in H. now apply H.
  - intros x. rewrite HR. cbn. intros H E. rewrite E in H. now apply H.
  - intros x. rewrite HR. cbn. intros H. now apply map_eq_nil in H.
Qed.

Section Transport.
  Variables (M M' : xmemory -> Prop) (m : mode) (E : Prop).
  Hypothesis HM : forall h, M' h -> exists g, M g /\ as_seen g h.

  Lemma answered_seen w l n : answered M' E w l n -> answered M E w l n.
  Proof.
    intros [He|(h & Hh & Ha & ->)]; [now left|]. destruct (HM Hh) as (g & Hg & A & _ & _ & _ & _ & _ & _ & T). right. exists g. split; [exact Hg|]. split; [now apply A|].
    now rewrite T.
  Qed.
  Fixpoint shown_moved v q (H : shown M' m E v q) {struct H} : shown M m E v q
  with yielded_moved kd l es (H : yielded M' m E kd l es) {struct H} : yielded M m E kd l es
  with these_moved kd kvs es (H : these M' m E kd kvs es) {struct H} : these M m E kd kvs es.
  Proof.
    - destruct H as [s cs qs Hl Hc|t l a h q Hh Ha Hp Hs|t l a Hx|t l h q Hh Ha Hp Hs|t l Hx|t t' ps x Hx|t t' ps x Hx|kd t e ls caps ens caps' lens H1 H2 H3 H4].
      + constructor; [exact Hl|]. intros i c q E1 E2 E3. exact (shown_moved c q (Hc i c q E1 E2 E3)).
      + destruct (HM Hh) as (g & Hg & A & B & _ & _ & _ & C & _). pose proof (shown_moved _ _ Hs) as R. rewrite <- C in R |- *.
        apply sw_open; [exact Hg | apply A; exact Ha | rewrite <- B; exact Hp | exact R].
      + apply sw_shut. destruct Hx as [He|(h & Hh & Hx)]; [left; exact He|]. destruct (HM Hh) as (g & Hg & _ & B & D & _). right. exists g. split; [exact Hg|].
        destruct Hx as [Hx|Hx]; [left; apply D; exact Hx | right; rewrite <- B; exact Hx].
      + destruct (HM Hh) as (g & Hg & A & B & _ & _ & _ & C & _). pose proof (shown_moved _ _ Hs) as R. rewrite <- C in R |- *.
        apply sw_set; [exact Hg | apply A; exact Ha | rewrite <- B; exact Hp | exact R].
      + apply sw_unset. destruct Hx as [He|(h & Hh & Hx)]; [left; exact He|]. destruct (HM Hh) as (g & Hg & _ & B & D & _). right. exists g. split; [exact Hg|].
        destruct Hx as [Hx|Hx]; [left; apply D; exact Hx | right; rewrite <- B; exact Hx].
      + apply sw_alive. destruct Hx as (h & Hh & Hx). destruct (HM Hh) as (g & Hg & _ & _ & _ & D & _). exists g. split; [exact Hg | apply D; exact Hx].
      + apply sw_dead. destruct Hx as [He|(h & Hh & Hx)]; [left; exact He|]. destruct (HM Hh) as (g & Hg & _ & _ & _ & _ & D & _). right. exists g. split; [exact Hg | apply D; exact Hx].
      + apply sw_dash.
        * clear - H1 HM. induction H1; constructor; [apply answered_seen; assumption | assumption].
        * clear - H2 yielded_moved. revert ls ens H2. fix IH 3. intros ls ens H2. destruct H2 as [|l es ls ens Y Ys]; constructor; [exact (yielded_moved _ _ _ Y) | exact (IH _ _ Ys)].
        * clear - H3 HM. induction H3; constructor; [apply answered_seen; assumption | assumption].
        * clear - H4 HM. induction H4; constructor; [apply answered_seen; assumption | assumption].
    - destruct H as [kd l He|kd l h es Hh Ha Ht].
      + apply yi_none; exact He.
      + destruct (HM Hh) as (g & Hg & A & _ & _ & _ & _ & _ & _ & T). pose proof (these_moved _ _ _ Ht) as R. rewrite <- T in R. eapply yi_all; [exact Hg | apply A; exact Ha | exact R].
    - destruct H as [kd|kd k v kvs id qk qv es Hk Hv Ht].
      + constructor.
      + constructor; [exact (shown_moved _ _ Hk) | intros X; exact (shown_moved _ _ (Hv X)) | exact (these_moved _ _ _ Ht)].
  Qed.
  Lemma objects_moved h : shown_objects M' m E h -> shown_objects M m E h.
  Proof.
    unfold shown_objects. apply Forall_impl. intros xp (g & i & v & q & Hh & Ho & Hs & Eq). destruct (HM Hh) as (g0 & Hg & _ & _ & _ & _ & _ & _ & O & _).
    exists g0, i, v, q. split; [exact Hg|]. split; [now rewrite O|]. split; [now apply shown_moved | exact Eq].
  Qed.
End Transport.

Lemma shown_there M i m E v q : shown (seen_from i M) m E v q -> shown M m E v q.
Proof. apply shown_moved. intros h. apply seen_moment. Qed.
Lemma objects_there M i m E h : shown_objects (seen_from i M) m E h -> shown_objects M m E h.
Proof. apply objects_moved. intros h0. apply seen_moment. Qed.
Lemma seen_as_there M i m vs ws : seen_as (seen_from i M) m vs ws -> seen_as M m vs ws.
Proof. unfold seen_as. induction 1 as [|v w vs ws [H1 H2] H IH]; constructor; [|exact IH]. split; [eapply shown_there; eauto | exact H2]. Qed.
Lemma seen_store_there M i m h : seen_store (seen_from i M) m h -> seen_store M m h.
Proof.
  unfold seen_store. apply Forall_impl. intros xo (h0 & v & Hh & Ho & Hs & Eq). destruct (seen_moment Hh) as (g & Hg & _ & _ & _ & _ & _ & _ & O & _).
  exists g, v. split; [exact Hg|]. split; [now rewrite O|]. split; [eapply shown_there; eauto | exact Eq].
Qed.
Lemma typed_there ct st cf ef (M : xmemory -> Prop) i : (forall g, M g -> xmem_typed ct st cf ef g) -> forall h, seen_from i M h -> xmem_typed ct st cf ef h.
Proof.
  intros HM h Hh. destruct (seen_moment Hh) as (g & Hg & _ & _ & _ & _ & _ & C & O & T). destruct (HM g Hg) as (H1 & H2 & H3 & H4).
  unfold xmem_typed. rewrite <- C, <- O, <- T. auto.
Qed.
Lemma all_there (P : value -> Prop) (M : xmemory -> Prop) i : (forall g, M g -> xmem_all P g) -> forall h, seen_from i M h -> xmem_all P h.
Proof.
  intros HM h Hh. destruct (seen_moment Hh) as (g & Hg & _ & _ & _ & _ & _ & C & O & T). destruct (HM g Hg) as (H1 & H2 & H3).
  unfold xmem_all. rewrite <- C, <- O, <- T. auto.
Qed.

(** ** Who holds what *)
Definition guard_of (d : doing) (l : lock) (a : access) : Prop :=
  match d with
  | DVisit _ _ st _ _ => (exists rest, In (YGuard l a rest) st) \/ (a = ReadOnly /\ exists kd ls rest, In (YShard kd l ls rest) st)
  | DSize _ _ _ st => (exists rest, In (ZGuard l a rest) st) \/ (a = ReadOnly /\ exists kd ls rest, In (ZShard kd l ls rest) st)
  | _ => False
  end.
Lemma guard_held g d l a : steady_one g d -> (match d with DGone _ => False | DVisit _ XLost _ _ _ => False | _ => True end) -> guard_of d l a ->
  In (Visit, a) (held (locks (x_shared g) l)).
Proof.
  intros S HL H. destruct d as [b roots calm|b k st roots calm|b|s nk k st]; cbn [guard_of] in H; try contradiction.
  - assert (HL' : xk_control (mkXC g b k st) <> XLost) by (intros E; cbn in E; subst; contradiction).
    destruct H as [H|[-> H]]; [exact (proj1 (xsteady_held S HL' (@inside_plain (mkXC g b k st) l a H))) | exact (proj1 (xsteady_held S HL' (@iterating_plain (mkXC g b k st) l H)))].
  - pose proof (@yconf_lost (mkZ g s nk k st)) as HL'.
    destruct H as [H|[-> H]].
    + apply (@zinside_y (mkZ g s nk k st)), inside_plain in H. exact (proj1 (xsteady_held S HL' H)).
    + apply (@ziterating_y (mkZ g s nk k st)), iterating_plain in H. exact (proj1 (xsteady_held S HL' H)).
Qed.
Lemma inside_guard P i l a : is_inside P i l a <-> exists d, nth_error (q_all P) i = Some d /\ guard_of d l a.
Proof.
  unfold is_inside, guard_of. split.
  - destruct (nth_error (q_all P) i) as [d|]; [|contradiction]. intros H. exists d. split; [reflexivity|]. destruct d; exact H.
  - intros (d & E & H). rewrite E. destruct d; exact H.
Qed.
Lemma alive P i d : nth_error (q_all P) i = Some d -> ~ is_gone P i -> (match d with DGone _ => False | DVisit _ XLost _ _ _ => False | _ => True end).
Proof. unfold is_gone. intros E H. rewrite E in H. destruct d as [| ? [] | |]; auto. Qed.
Lemma inside_held P i l a : steady P -> is_inside P i l a -> ~ is_gone P i -> In (Other i, a) (held (locks (x_shared (q_mem P)) l)).
Proof.
  intros S H G. apply inside_guard in H as (d & E & H). pose proof (guard_held (S i d E) (alive E G) H) as X. cbn [xview xset x_shared] in X.
  apply view_in_held in X. cbn in X. exact X.
Qed.
Lemma steady_lock_ok P i d l : steady P -> nth_error (q_all P) i = Some d -> ~ is_gone P i -> lock_ok (locks (x_shared (q_mem P)) l).
Proof.
  intros S E G. specialize (S i d E). pose proof (alive E G) as A. unfold steady_one in S.
  assert (X : lock_ok (locks (view i (x_shared (q_mem P))) l)).
  { destruct d as [b roots calm|b k st roots calm|b|s nk k st]; cbn [as_conf] in S; try contradiction.
    - apply (S ltac:(discriminate)).
    - assert (HL : k <> XLost) by (intros ->; contradiction). apply (S HL).
    - apply (S (@yconf_lost (mkZ (xview i (q_mem P)) s nk k st))). }
  destruct (view_view i (x_shared (q_mem P))) as [HL _]. rewrite <- HL. now apply view_lock_ok.
Qed.
Lemma alone s o o' a : lock_ok s -> In (o, Exclusive) (held s) -> In (o', a) (held s) -> o' = o /\ a = Exclusive.
Proof. intros H H1 H2. rewrite (H o H1) in H2. destruct H2 as [[= <- <-]|[]]. auto. Qed.

Lemma turn_untouched m std i P P' : xturn m std i P P' -> steady P -> untouched (q_mem P) (q_mem P').
Proof.
  intros H S. destruct H as [g all b v vs calm b1 Hn Hr|g all b v vs calm b1 Hn Hr|g all b k st vs calm g1 b1 k' st' g' Hn Hx Hs|g all b k st vs calm b2 o2 Hn He Hl Ho|g all b k st vs calm b2 Hn He Hl|g all s nk k st g1 s' nk' k' st' g' Hn Hx Hs];
    cbn [q_mem]; try apply untouched_refl.
  - destruct (xstep_effect Hx (S _ _ Hn)) as [_ (U1 & U2 & U3)]. destruct Hs as (_ & C1 & C2 & C3). cbn in *. repeat split; congruence.
  - destruct (zstep_effect Hx (S _ _ Hn)) as [_ (U1 & U2 & U3)]. destruct Hs as (_ & C1 & C2 & C3). cbn in *. repeat split; congruence.
Qed.
Lemma outside_kept n g g' l i a : xoutside n g g' -> (i < n)%nat -> lock_ok (locks (x_shared g) l) -> In (Other i, a) (held (locks (x_shared g) l)) ->
  x_content g' l = x_content g l /\ x_table g' l = x_table g l.
Proof.
  intros H Hi Hk Hin. destruct H as [g s Ho|g l0 t v Ht Hl|g x o|g l0 t tb Ht Hl|g l0 l2 t Ht Ha Hl]; cbn; auto.
  - split; [|reflexivity]. destruct (N.eqb_spec l l0) as [<-|]; [|reflexivity]. destruct (alone Hk Hl Hin) as [[= ->] _]. lia.
  - split; [reflexivity|]. destruct (N.eqb_spec l l0) as [<-|]; [|reflexivity]. destruct (alone Hk Hl Hin) as [[= ->] _]. lia.
Qed.

Lemma empty_nothing i s : consistent (view i s) [] -> (forall l a, ~ In (Other i, a) (held (locks s l))) /\ (forall x, ~ In (Other i) (strong s x)).
Proof.
  intros [O G R]. split.
  - intros l a Hin. assert (X : In (Visit, a) (held (locks (view i s) l))) by (apply view_in_held; exact Hin). apply in_guards in X. rewrite G in X. cbn in X. lia.
  - intros x Hin. assert (X : In Visit (strong (view i s) x)) by (apply view_in_strong; exact Hin). apply refs_in in X. rewrite R in X. cbn in X. lia.
Qed.
Lemma over_nothing P i : steady P -> is_over P i -> ~ is_gone P i ->
  (forall l a, ~ In (Other i, a) (held (locks (x_shared (q_mem P)) l))) /\ (forall x, ~ In (Other i) (strong (x_shared (q_mem P)) x)).
Proof.
  intros S H G. apply empty_nothing. destruct H as [(b & o & calm & H)|(r & H)]; [unfold session_over in H | unfold size_over in H];
    destruct (nth_error (q_all P) i) as [[b0 [|v vs] calm0|b0 k st vs calm0|b0|s nk k st]|] eqn:E; try contradiction.
  - exact (S i _ E ltac:(discriminate)).
  - elim G. unfold is_gone. now rewrite E.
  - destruct H as [He _]. pose proof (S i _ E (@yconf_lost _)) as C. cbn [yconf xk_mem xk_stack] in C.
    assert (X : st = []) by (unfold zended in He; cbn in He; destruct k as [[]|]; try contradiction; destruct st; auto; contradiction). subst st. exact C.
Qed.

(** Who holds what a participant waits for. *)
Lemma exclusive_inside g d l : steady_one g d -> (match d with DGone _ => False | DVisit _ XLost _ _ _ => False | _ => True end) ->
  In (Visit, Exclusive) (held (locks (x_shared g) l)) -> guard_of d l Exclusive.
Proof.
  assert (X : forall st, (0 < open_guards (xplain_stack st) l Exclusive)%nat -> exists rest, In (YGuard l Exclusive rest) st).
  { induction st as [|f st IH]; intros Ho; [cbn in Ho; lia|].
    assert (R : (0 < open_guards (xplain_stack st) l Exclusive)%nat -> exists rest, In (YGuard l Exclusive rest) (f :: st)).
    { intros X. destruct (IH X) as (rest & Hr). exists rest. now right. }
    destruct f as [r|l0 a r|x r|r|kd l0 ls r]; cbn [xplain_stack] in Ho; try (apply R; exact Ho).
    - rewrite open_guards_cons in Ho. destruct (N.eqb_spec l0 l) as [->|]; cbn [andb] in Ho; [|now apply R].
      destruct a; cbn in Ho; [exists r; now left | now apply R].
    - rewrite open_guards_cons in Ho. cbn [access_eqb] in Ho. rewrite andb_false_r in Ho. now apply R. }
  intros S HL Hin. apply in_guards in Hin. unfold steady_one in S. destruct d as [b roots calm|b k st roots calm|b|s nk k st]; cbn [as_conf guard_of] in *; try contradiction.
  - destruct (S ltac:(discriminate)) as [_ G _]. cbn [xk_mem xk_stack] in G. rewrite G in Hin. cbn in Hin. lia.
  - assert (HL' : xk_control (mkXC g b k st) <> XLost) by (intros E; cbn in E; subst; contradiction).
    destruct (S HL') as [_ G _]. cbn [xk_mem xk_stack] in G. rewrite G in Hin. left. now apply X.
  - destruct (S (@yconf_lost _)) as [_ G _]. cbn [yconf xk_mem xk_stack z_mem z_stack] in G. rewrite G in Hin. left.
    apply (@zinside_y (mkZ g s nk k st)). exact (X _ Hin).
Qed.
Lemma xview_xview i g : xsame (xview i (xview i g)) g. Proof. split; [apply view_view | cbn; auto]. Qed.

Lemma pool_waits m std P i : steady P -> (i < length (q_all P))%nat -> (forall j, ~ is_gone P j) ->
  is_over P i \/ (exists P', xturn m std i P P') \/
  (exists l t, asks_for P i l /\ In (Other t, Exclusive) (held (locks (x_shared (q_mem P)) l)) /\
     ((length (q_all P) <= t)%nat \/ is_inside P t l Exclusive)) \/
  (exists l, asks_for P i l /\ In (Visit, Exclusive) (held (locks (x_shared (q_mem P)) l))).
Proof.
  intros S Hi HG.
  assert (W : forall l o, asks_for P i l -> In (o, Exclusive) (held (locks (view i (x_shared (q_mem P))) l)) ->
    (exists l t, asks_for P i l /\ In (Other t, Exclusive) (held (locks (x_shared (q_mem P)) l)) /\
       ((length (q_all P) <= t)%nat \/ is_inside P t l Exclusive)) \/ (exists l, asks_for P i l /\ In (Visit, Exclusive) (held (locks (x_shared (q_mem P)) l)))).
  { intros l o Ha Ho. apply view_in_held in Ho. destruct (seat i o) as [|t]; [right; eauto|]. left. exists l, t. split; [exact Ha|]. split; [exact Ho|].
    destruct (Nat.le_gt_cases (length (q_all P)) t) as [|Ht]; [now left | right]. destruct (nth_error (q_all P) t) as [d|] eqn:Ed; [|apply nth_error_None in Ed; lia].
    apply inside_guard. exists d. split; [exact Ed|]. apply (exclusive_inside (S t d Ed) (alive Ed (HG t))). cbn [xview xset x_shared]. apply view_in_held. cbn. now rewrite Nat.eqb_refl || exact Ho. }
  destruct P as [g all]. cbn [q_all q_mem] in *. destruct (nth_error all i) as [d|] eqn:Ed; [|apply nth_error_None in Ed; lia].
  destruct d as [b [|v vs] calm|b k st vs calm|b|s nk k st].
  - left. left. exists b, Done, calm. unfold session_over. cbn [q_all]. rewrite Ed. auto.
  - right. left. destruct (root_visitor b) as [b1 [|]] eqn:E; eexists; [eapply xt_begin; eauto | eapply xt_refused; eauto].
  - right. destruct (xprogress m std (mkXC (xview i g) b k st)) as [E|[([g1 b' k' st'] & E)|(l & o & Hn & Ho)]].
    + left. assert (E' : xended (mkXC g b k st)) by exact E. destruct (leave_scope (xresult (mkXC g b k st))) as [b2 [| |]] eqn:El; eexists; try (eapply xt_abort; eauto; fail); (eapply xt_leave; [eassumption | exact E' | exact El | discriminate]).
    + left. eexists. eapply xt_visit; [exact Ed | exact E | apply (xview_xview i g1)].
    + right. apply (W l o); [|exact Ho]. unfold asks_for. cbn [q_all]. rewrite Ed. exact Hn.
  - elim (HG i). unfold is_gone. cbn [q_all]. now rewrite Ed.
  - destruct (zprogress m std (mkZ (xview i g) s nk k st)) as [E|[([g1 s' nk' k' st'] & E)|(l & o & Hn & Ho)]].
    + left. right. exists (zresult (mkZ g s nk k st)). unfold size_over. cbn [q_all q_mem]. rewrite Ed. split; [exact E | reflexivity].
    + right. left. eexists. eapply xt_size; [exact Ed | exact E | apply (xview_xview i g1)].
    + right. right. apply (W l o); [|exact Ho]. unfold asks_for. cbn [q_all]. rewrite Ed. exact Hn.
Qed.

(** Nobody but the participants and the others has anything. *)
Definition no_visit (s : shared) : Prop := forall l a, ~ In (Visit, a) (held (locks s l)).
Lemma in_remove_guard o a h x : In x (remove_guard o a h) -> In x h.
Proof. unfold remove_guard. induction h as [|[o1 a1] h IH]; [auto|]. cbn [remove_one fst snd]. destruct (owner_eqb _ _ && access_eqb _ _); cbn [In]; tauto. Qed.
Lemma acquire_only s l0 o a0 l o' a : o' <> o -> In (o', a) (held (locks (acquire s l0 o a0) l)) -> In (o', a) (held (locks s l)).
Proof. intros Ho. cbn. destruct (N.eqb_spec l l0) as [->|]; [|auto]. cbn. intros [[= E _]|Hin]; [congruence | exact Hin]. Qed.
Lemma release_only s l0 o a0 p l x : In x (held (locks (release s l0 o a0 p) l)) -> In x (held (locks s l)).
Proof. cbn. destruct (N.eqb_spec l l0) as [->|]; [|auto]. cbn. apply in_remove_guard. Qed.
Lemma effect_only o s s' o' l a : effect o s s' -> o' <> o -> In (o', a) (held (locks s' l)) -> In (o', a) (held (locks s l)).
Proof.
  intros H Ho. destruct H as [s|s l0 a0 Ha|s l0 a0 p Hin|s l0 l2 Ha Hin|s x Hx|s x Hin]; auto.
  - now apply acquire_only.
  - apply release_only.
  - intros X. apply release_only in X. now apply acquire_only in X.
Qed.
Lemma turn_no_visit m std i P P' : xturn m std i P P' -> steady P -> no_visit (x_shared (q_mem P)) -> no_visit (x_shared (q_mem P')).
Proof.
  intros H S N.
  assert (K : forall g g1 g', no_visit (x_shared g) -> effect Visit (x_shared (xview i g)) (x_shared g1) -> xsame (xview i g') g1 -> no_visit (x_shared g')).
  { intros g g1 g' Ng He ((HL & _) & _) l a Hin. apply (Ng l a). assert (X : In (Other i, a) (held (locks (view i (x_shared g')) l))) by (apply view_in_held; cbn; rewrite Nat.eqb_refl; exact Hin).
    cbn [xview xset x_shared] in HL. rewrite HL in X. assert (Ho : Other i <> Visit) by discriminate. pose proof (effect_only He Ho X) as Y. clear X. rename Y into X. cbn [xview xset x_shared] in X. apply view_in_held in X. cbn in X. now rewrite Nat.eqb_refl in X. }
  destruct H as [g all b v vs calm b1 Hn Hr|g all b v vs calm b1 Hn Hr|g all b k st vs calm g1 b1 k' st' g' Hn Hx Hs|g all b k st vs calm b2 o2 Hn He Hl Ho|g all b k st vs calm b2 Hn He Hl|g all s nk k st g1 s' nk' k' st' g' Hn Hx Hs];
    cbn [q_mem] in *; auto.
  - destruct (xstep_effect Hx (S _ _ Hn)) as [E _]. eapply K; eauto.
  - destruct (zstep_effect Hx (S _ _ Hn)) as [E _]. eapply K; eauto.
Qed.
Lemma outside_no_visit n g g' : xoutside n g g' -> no_visit (x_shared g) -> no_visit (x_shared g').
Proof.
  intros H N. destruct H as [g s Ho|g l0 t v Ht Hl|g x o|g l0 t tb Ht Hl|g l0 l2 t Ht Ha Hl]; auto.
  - destruct Ho as [s l t a Ht Ha|s l t a p Ht Hin|s l|s x t Ht Hx|s x t Ht Hin]; intros l' a' X; cbn [xset x_shared] in X; apply (N l' a').
    + now apply acquire_only in X.
    + now apply release_only in X.
    + cbn in X. destruct (N.eqb_spec l' l) as [->|]; exact X.
    + exact X.
    + exact X.
  - intros l' a' X. cbn [xset x_shared] in X. apply release_only, acquire_only in X; [|discriminate]. exact (N l' a' X).
Qed.
Lemma joint_no_visit M m std P P' : xjoint M m std P P' -> steady P -> no_visit (x_shared (q_mem P)) -> no_visit (x_shared (q_mem P')).
Proof.
  induction 1 as [P _|i P P' P'' _ H _ IH|g g' all P'' _ H _ IH]; intros S N; [exact N | apply IH; [eapply turn_steady; eauto | eapply turn_no_visit; eauto] |
    apply IH; [eapply outside_steady; eauto | eapply outside_no_visit; eauto]].
Qed.

(** ** What a participant does at any moment *)
Lemma joint_here M m std P P' : xjoint M m std P P' -> M (q_mem P).
Proof. intros H. destruct H; auto. Qed.
Lemma xpasses_here M m std c c' : xpasses M m std c c' -> M (xk_mem c').
Proof. induction 1; auto. Qed.
Lemma zpasses_here M m std c c' : zpasses M m std c c' -> M (z_mem c').
Proof. induction 1; auto. Qed.
Lemma xpasses_step M m std c c' c'' : xpasses M m std c c' -> xstep m std c' c'' -> M (xk_mem c'') -> xpasses M m std c c''.
Proof.
  induction 1 as [c Hc|c c1 c2 Hc Hs _ IH|g g' b k st c2 Hc Hs _ IH]; intros H1 H2.
  - eapply xp_visit; [exact Hc | exact H1 | now apply xp_end].
  - eapply xp_visit; [exact Hc | exact Hs | now apply IH].
  - eapply xp_other; [exact Hc | exact Hs | now apply IH].
Qed.
Lemma xpasses_other M m std c g g' b k st : xpasses M m std c (mkXC g b k st) -> xchange g g' -> M g' -> xpasses M m std c (mkXC g' b k st).
Proof.
  remember (mkXC g b k st) as c0 eqn:E. intros H. revert E. induction H as [c Hc|c c1 c2 Hc Hs _ IH|g0 g1 b0 k0 st0 c2 Hc Hs _ IH]; intros -> H1 H2.
  - eapply xp_other; [exact Hc | exact H1 | now apply xp_end].
  - eapply xp_visit; [exact Hc | exact Hs | now apply IH].
  - eapply xp_other; [exact Hc | exact Hs | now apply IH].
Qed.
Lemma zpasses_step M m std c c' c'' : zpasses M m std c c' -> zstep m std c' c'' -> M (z_mem c'') -> zpasses M m std c c''.
Proof.
  induction 1 as [c Hc|c c1 c2 Hc Hs _ IH|g g' s nk k st c2 Hc Hs _ IH]; intros H1 H2.
  - eapply zp_visit; [exact Hc | exact H1 | now apply zp_end].
  - eapply zp_visit; [exact Hc | exact Hs | now apply IH].
  - eapply zp_other; [exact Hc | exact Hs | now apply IH].
Qed.
Lemma zpasses_other M m std c g g' s nk k st : zpasses M m std c (mkZ g s nk k st) -> xchange g g' -> M g' -> zpasses M m std c (mkZ g' s nk k st).
Proof.
  remember (mkZ g s nk k st) as c0 eqn:E. intros H. revert E. induction H as [c Hc|c c1 c2 Hc Hs _ IH|g0 g1 s0 nk0 k0 st0 c2 Hc Hs _ IH]; intros -> H1 H2.
  - eapply zp_other; [exact Hc | exact H1 | now apply zp_end].
  - eapply zp_visit; [exact Hc | exact Hs | now apply IH].
  - eapply zp_other; [exact Hc | exact Hs | now apply IH].
Qed.

Definition at_rest (h : xmemory) : Prop := (forall l, lock_ok (locks (x_shared h) l)) /\ holds_nothing (x_shared h).
Lemma consistent_at_rest h : consistent (x_shared h) [] -> at_rest h.
Proof.
  intros [O G R]. split; [exact O|]. split.
  - intros l a Hin. apply in_guards in Hin. rewrite G in Hin. cbn in Hin. lia.
  - intros x Hin. apply refs_in in Hin. rewrite R in Hin. cbn in Hin. lia.
Qed.
Definition now_one (M : xmemory -> Prop) m std (i : nat) (j : job) (g : xmemory) (d : doing) : Prop :=
  match d, j with
  | DRoots _ vs _, Session _ roots => exists pre, roots = pre ++ vs
  | DVisit b k st vs _, Session _ roots => exists pre v h0 b1 h, roots = pre ++ v :: vs /\ at_rest h0 /\
      xpasses (seen_from i M) m std (xbegin h0 b1 v) (mkXC h b k st) /\ xsame h (xview i g)
  | DGone _, Session _ _ => True
  | DSize s nk k st, SizeOf v => exists h0 h, at_rest h0 /\ zpasses (seen_from i M) m std (zbegin h0 v) (mkZ h s nk k st) /\ xsame h (xview i g)
  | _, _ => False
  end.
Definition now_all (M : xmemory -> Prop) m std js (P : xpool) : Prop :=
  forall i d j, nth_error (q_all P) i = Some d -> nth_error js i = Some j -> now_one M m std i j (q_mem P) d.

Lemma now_quiet (M : xmemory -> Prop) m std i j g g' d : M g' -> quiet_or_change (xview i g) (xview i g') -> now_one M m std i j g d -> now_one M m std i j g' d.
Proof.
  intros HM Q. destruct d as [b vs calm|b k st vs calm|b|s nk k st], j as [b0 roots|v0]; cbn [now_one]; auto.
  - intros (pre & v & h0 & b1 & h & E & A & H & S). destruct Q as [Q|(t & Q1 & Q2)].
    + exists pre, v, h0, b1, h. repeat split; try assumption; try apply A. all: eapply xsame_trans; eauto.
    + destruct (same_xchange Q1 (xsame_sym S)) as (h1 & H1 & H2). assert (S1 : xsame h1 (xview i g')) by (eapply xsame_trans; [apply xsame_sym, H2 | exact Q2]).
      exists pre, v, h0, b1, h1. split; [exact E|]. split; [exact A|]. split; [|exact S1]. eapply xpasses_other; [exact H | exact H1 | exists g'; auto].
  - intros (h0 & h & A & H & S). destruct Q as [Q|(t & Q1 & Q2)].
    + exists h0, h. split; [exact A|]. split; [exact H|]. eapply xsame_trans; eauto.
    + destruct (same_xchange Q1 (xsame_sym S)) as (h1 & H1 & H2). assert (S1 : xsame h1 (xview i g')) by (eapply xsame_trans; [apply xsame_sym, H2 | exact Q2]).
      exists h0, h1. split; [exact A|]. split; [|exact S1]. eapply zpasses_other; [exact H | exact H1 | exists g'; auto].
Qed.
Lemma turn_now (M : xmemory -> Prop) m std js i P P' : xturn m std i P P' -> M (q_mem P) -> M (q_mem P') -> steady P -> now_all M m std js P -> now_all M m std js P'.
Proof.
  intros H HM HM' S N j d J Hd HJ. destruct (Nat.eq_dec i j) as [->|Hij].
  - destruct H as [g all b v vs calm b1 Hn Hr|g all b v vs calm b1 Hn Hr|g all b k st vs calm g1 b1 k' st' g' Hn Hx Hs|g all b k st vs calm b2 o2 Hn He Hl Ho|g all b k st vs calm b2 Hn He Hl|g all s nk k st g1 s' nk' k' st' g' Hn Hx Hs];
      cbn [q_all q_mem] in *; rewrite (nth_upd_eq _ Hn) in Hd; injection Hd as <-; pose proof (N _ _ _ Hn HJ) as N1; pose proof (S _ _ Hn) as S1; cbn [q_mem] in N1, S1; destruct J as [b0 roots|v0]; cbn [now_one] in *; try contradiction.
    + destruct N1 as (pre & E). exists pre, v, (xview j g), b1, (xview j g). split; [exact E|]. split; [apply consistent_at_rest; exact (S1 ltac:(discriminate))|].
      split; [apply xp_end; exists g; split; [exact HM | apply xsame_refl] | apply xsame_refl].
    + destruct N1 as (pre & E). exists (pre ++ [v]). rewrite E, <- app_assoc. reflexivity.
    + destruct N1 as (pre & v & h0 & bb & h & E & A & Hp & Sh). destruct (same_xstep Hx (xsame_sym Sh)) as (h1 & H1 & H2).
      assert (S2 : xsame h1 (xview j g')) by (eapply xsame_trans; [apply xsame_sym, H2 | apply xsame_sym, Hs]).
      exists pre, v, h0, bb, h1. split; [exact E|]. split; [exact A|]. split; [|exact S2]. eapply xpasses_step; [exact Hp | exact H1 | exists g'; auto].
    + destruct N1 as (pre & v & h0 & bb & h & E & _). exists (pre ++ [v]). rewrite E, <- app_assoc. reflexivity.
    + exact I.
    + destruct N1 as (h0 & h & A & Hp & Sh). destruct (same_zstep Hx (xsame_sym Sh)) as (h1 & H1 & H2).
      assert (S2 : xsame h1 (xview j g')) by (eapply xsame_trans; [apply xsame_sym, H2 | apply xsame_sym, Hs]).
      exists h0, h1. split; [exact A|]. split; [|exact S2]. eapply zpasses_step; [exact Hp | exact H1 | exists g'; auto].
  - assert (X : exists d0, nth_error (q_all P) j = Some d0).
    { assert (L : length (q_all P') = length (q_all P)) by (destruct H; cbn; apply upd_len). assert (j < length (q_all P))%nat by (rewrite <- L; apply nth_error_Some; congruence).
      destruct (nth_error (q_all P) j) eqn:E; [eauto | apply nth_error_None in E; lia]. }
    destruct X as (d0 & Hd0). destruct (turn_seen H S Hij Hd0) as [E Q]. rewrite Hd in E. injection E as ->. eapply now_quiet; [exact HM' | exact Q | exact (N _ _ _ Hd0 HJ)].
Qed.
Lemma joint_now (M : xmemory -> Prop) m std js P P' : xjoint M m std P P' -> steady P -> now_all M m std js P -> now_all M m std js P'.
Proof.
  induction 1 as [P _|i P P' P'' HM H HJ IH|g g' all P'' HM H HJ IH]; intros S N; [exact N| |].
  - apply IH; [eapply turn_steady; eauto|]. eapply turn_now; [exact H | exact HM | eapply joint_here; eauto | exact S | exact N].
  - apply IH; [eapply outside_steady; eauto|]. intros i d j Hd Hj. cbn [q_all q_mem] in *. assert (Hi : (i < length all)%nat) by (apply nth_error_Some; congruence).
    eapply now_quiet; [exact (joint_here HJ) | eapply xoutside_seen; [exact Hi | exact H] | exact (N _ _ _ Hd Hj)].
Qed.
Lemma start_now (M : xmemory -> Prop) m std g js : (forall l, lock_ok (locks (x_shared g) l)) -> all_idle (length js) (x_shared g) -> M g -> now_all M m std js (xpool_start g js).
Proof.
  intros Hk Hi HM i d j Hd Hj. pose proof (@start_steady g js Hk Hi i d Hd) as S. cbn [xpool_start q_all q_mem] in *. rewrite nth_error_map, Hj in Hd. injection Hd as <-.
  destruct j as [b roots|v]; cbn [job_start now_one].
  - exists []. reflexivity.
  - exists (xview i g), (xview i g). split; [apply consistent_at_rest; exact (S (@yconf_lost _))|]. split; [apply zp_end; exists g; split; [exact HM | apply xsame_refl] | apply xsame_refl].
Qed.
