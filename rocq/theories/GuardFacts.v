(** * Lemmas for C49 and C52: what is looked at is guarded at that moment. *)
From Verif Require Import Base BaseFacts KeyModel KeyFacts HMap FlameModel BuilderModel BuilderFacts VisitorModel Spec LayoutModel ImplModel
  LockModel LockSpec LockFacts SnapshotModel ChangeModel ChangeSpec ChangeGuard.

#[local] Arguments key_new : simpl never.

(** ** C49 *)
Definition rest_of (f : LockModel.frame) : lprog := match f with FScope r | FGuard _ _ r | FArc _ r => r end.
Section Only.
  Variables (only : lprog -> Prop) (mark : LockModel.frame -> Prop).
  Definition marked (st : list LockModel.frame) : Prop := exists f, In f st /\ mark f.
  Fixpoint stack_only (st : list LockModel.frame) : Prop :=
    match st with [] => True | f :: st' => (only (rest_of f) \/ marked st') /\ stack_only st' end.
  Definition conf_only (c : config) : Prop :=
    (match c_control c with Exec p => only p \/ marked (c_stack c) | _ => True end) /\ stack_only (c_stack c).
  Lemma marked_cons f st : marked st -> marked (f :: st).
  Proof. intros (f' & H1 & H2). exists f'. split; [now right | exact H2]. Qed.
  Lemma marked_here f st : mark f -> marked (f :: st).
  Proof. intros H. exists f. split; [now left | exact H]. Qed.
End Only.

Lemma only_in_step m std l k c c' : vstep m std c c' ->
  conf_only (only_in_lock l k) (fun f => match f with FGuard l' _ _ => l' = l | _ => False end) c ->
  conf_only (only_in_lock l k) (fun f => match f with FGuard l' _ _ => l' = l | _ => False end) c'.
Proof.
  intros S [HC HS]. unfold conf_only. destruct S; cbn [c_control c_stack stack_only rest_of] in *; try (now split).
  all: try (destruct HS as [HR HS]; now split).
  all: try (destruct HC as [HC|HC]; [cbn in HC; split; [left; tauto | split; [left; tauto | exact HS]]
                                     | split; [right; now apply marked_cons | split; [right; exact HC | exact HS]]]; fail).
  all: try (destruct HC as [HC|HC]; [cbn in HC; split; [left; tauto | exact HS] | split; [right; exact HC | exact HS]]; fail).
  all: destruct HC as [HC|HC]; [cbn in HC; destruct HC as [[->|HC] HR] | split; [right; now apply marked_cons | split; [right; exact HC | exact HS]]];
    [split; [right; now apply marked_here | split; [left; exact HR | exact HS]] | split; [left; exact HC | split; [left; exact HR | exact HS]]].
Qed.
Lemma only_through_step m std x k c c' : vstep m std c c' ->
  conf_only (only_through x k) (fun f => match f with FArc y _ => y = x | _ => False end) c ->
  conf_only (only_through x k) (fun f => match f with FArc y _ => y = x | _ => False end) c'.
Proof.
  intros S [HC HS]. unfold conf_only. destruct S; cbn [c_control c_stack stack_only rest_of] in *; try (now split).
  all: try (destruct HS as [HR HS]; now split).
  all: try (destruct HC as [HC|HC]; [cbn in HC; split; [left; tauto | split; [left; tauto | exact HS]]
                                     | split; [right; now apply marked_cons | split; [right; exact HC | exact HS]]]; fail).
  all: try (destruct HC as [HC|HC]; [cbn in HC; split; [left; tauto | exact HS] | split; [right; exact HC | exact HS]]; fail).
  all: destruct HC as [HC|HC]; [cbn in HC; destruct HC as [[->|HC] HR] | split; [right; now apply marked_cons | split; [right; exact HC | exact HS]]];
    [split; [right; now apply marked_here | split; [left; exact HR | exact HS]] | split; [left; exact HC | split; [left; exact HR | exact HS]]].
Qed.

Lemma only_runs m std (only : lprog -> Prop) mark n c c' :
  (forall c c', vstep m std c c' -> conf_only only mark c -> conf_only only mark c') -> runs m std n c c' -> conf_only only mark c -> conf_only only mark c'.
Proof. intros HS. induction 1 as [c|n c c' c'' S _ IH|n s s' b k st c'' O _ IH]; intros HI; eauto. Qed.

Lemma entering_not_in l k c p : c_control c = Exec p -> entering c k -> ~ only_in_lock l k p.
Proof. intros E. unfold entering. rewrite E. destruct p; cbn; tauto. Qed.
Lemma entering_not_through x k c p : c_control c = Exec p -> entering c k -> ~ only_through x k p.
Proof. intros E. unfold entering. rewrite E. destruct p; cbn; tauto. Qed.

Lemma content_guarded m std n s b p c l k : (forall l, lock_ok (locks s l)) -> holds_nothing s ->
  runs m std n (start s b p) c -> only_in_lock l k p -> entering c k ->
  exists a, In (Visit, a) (held (locks (c_shared c) l)).
Proof.
  intros H1 H2 HR HO HE. pose proof (only_runs (@only_in_step m std l k) HR) as [HC _].
  { split; [left; exact HO | exact I]. }
  destruct (c_control c) as [q| |] eqn:Ec; try (unfold entering in HE; rewrite Ec in HE; contradiction).
  destruct HC as [HC|([r|l' a r|y r] & Hin & HM)]; try contradiction; [now destruct (@entering_not_in l k c q Ec HE)|]. subst l'. exists a.
  destruct (@C49_guarded_lemma m std n s b p c H1 H2 HR) as (G1 & G2 & _). destruct a; [rewrite (G1 l ltac:(now exists r)); now left | apply (G2 l); now exists r].
Qed.
Lemma weak_guarded m std n s b p c x k : (forall l, lock_ok (locks s l)) -> holds_nothing s ->
  runs m std n (start s b p) c -> only_through x k p -> entering c k -> In Visit (strong (c_shared c) x).
Proof.
  intros H1 H2 HR HO HE. pose proof (only_runs (@only_through_step m std x k) HR) as [HC _].
  { split; [left; exact HO | exact I]. }
  destruct (c_control c) as [q| |] eqn:Ec; try (unfold entering in HE; rewrite Ec in HE; contradiction).
  destruct HC as [HC|([r|l' a r|y r] & Hin & HM)]; try contradiction; [now destruct (@entering_not_through x k c q Ec HE)|]. subst y.
  destruct (@C49_guarded_lemma m std n s b p c H1 H2 HR) as (_ & _ & G). apply G. now exists r.
Qed.

(** ** C52 *)
(** The code only visits values in [V] and only follows pointers in [P]. *)
Fixpoint decent (V : mvalue -> Prop) (P : ptr -> Prop) (p : code) : Prop :=
  match p with
  | CRet | CCrash => True
  | CInline _ _ b r | CUnique _ _ b r => decent V P b /\ decent V P r
  | CShared _ _ x r => P x /\ decent V P r
  | CTry _ _ _ r => decent V P r
  | CUpgrade x b r => decent V (fun y => P y \/ y = x) b /\ decent V P r
  | CVisit v r => V v /\ decent V P r
  end.
Lemma decent_mono (V V' : mvalue -> Prop) : (forall u, V u -> V' u) -> forall p (P P' : ptr -> Prop), (forall x, P x -> P' x) -> decent V P p -> decent V' P' p.
Proof.
  intros HV. induction p as [| |k n b IHb r IHr|k n b IHb r IHr|k n x r IHr|l a f r IHr|x b IHb r IHr|v r IHr]; intros P P' HP H; cbn in *; auto;
    try (destruct H as [H1 H2]; split; eauto; fail); try (eapply IHr; eauto; fail).
  destruct H as [H1 H2]. split; [|now apply (IHr P)]. eapply IHb; [|exact H1]. cbn. intros y [Hy|Hy]; auto.
Qed.

Section Visit.
Variables (M : memory -> Prop) (root : mvalue).
(** As [may_look], [may_follow], with the guards that are on the stack. *)
Definition vals (g : memory) (st : list cframe) (u : mvalue) : Prop :=
  part_of u root \/ (exists l a rest, In (KGuard l a rest) st /\ part_of u (m_content g l)) \/
  (exists g' x i w, M g' /\ m_object g' x = Some (i, w) /\ part_of u w).
Definition ptrs (g : memory) (st : list cframe) (x : ptr) : Prop :=
  (exists u, vals g st u /\ owns u x) \/ (exists rest, In (KArc x rest) st).
Lemma vals_cons g f st u : vals g st u -> vals g (f :: st) u.
Proof. intros [H|[(l & a & r & H1 & H2)|H]]; [now left | right; left; exists l, a, r; split; [now right | exact H2] | now right; right]. Qed.
Lemma ptrs_cons g f st x : ptrs g st x -> ptrs g (f :: st) x.
Proof. intros [(u & H1 & H2)|(r & H)]; [left; exists u; split; [now apply vals_cons | exact H2] | right; exists r; now right]. Qed.
Definition cont (f : cframe) : code := match f with KScope r | KGuard _ _ r | KArc _ r | KThen r => r end.
Fixpoint stack_decent (g : memory) (st : list cframe) : Prop :=
  match st with [] => True | f :: st' => decent (vals g st') (ptrs g st') (cont f) /\ stack_decent g st' end.
Definition conf_decent (c : cconf) : Prop :=
  (match k_control c with Run p => decent (vals (k_mem c) (k_stack c)) (ptrs (k_mem c) (k_stack c)) p | _ => True end) /\ stack_decent (k_mem c) (k_stack c).

Lemma decent_cons g f st p : decent (vals g st) (ptrs g st) p -> decent (vals g (f :: st)) (ptrs g (f :: st)) p.
Proof. apply decent_mono; [intros u; apply vals_cons | intros x; apply ptrs_cons]. Qed.

(** Only contents count. *)
Lemma vals_mem g g' st u : (forall l a rest, In (KGuard l a rest) st -> m_content g' l = m_content g l) -> vals g st u -> vals g' st u.
Proof. intros E [H|[(l & a & r & H1 & H2)|H]]; [now left | right; left; exists l, a, r; split; [exact H1 | rewrite (E l a r H1); exact H2] | now right; right]. Qed.
Lemma ptrs_mem g g' st x : (forall l a rest, In (KGuard l a rest) st -> m_content g' l = m_content g l) -> ptrs g st x -> ptrs g' st x.
Proof. intros E [(u & H1 & H2)|H]; [left; exists u; split; [now apply (vals_mem E) | exact H2] | now right]. Qed.
Lemma decent_mem g g' st p : (forall l a rest, In (KGuard l a rest) st -> m_content g' l = m_content g l) ->
  decent (vals g st) (ptrs g st) p -> decent (vals g' st) (ptrs g' st) p.
Proof. intros E. apply decent_mono; [intros u; now apply vals_mem | intros x; now apply ptrs_mem]. Qed.
Lemma stack_mem g g' st : (forall l a rest, In (KGuard l a rest) st -> m_content g' l = m_content g l) -> stack_decent g st -> stack_decent g' st.
Proof.
  induction st as [|f st IH]; intros E H; [exact I|]. destruct H as [H1 H2]. split.
  - apply (@decent_mem g g'); [|exact H1]. intros l a r Hin. apply (E l a r). now right.
  - apply IH; [|exact H2]. intros l a r Hin. apply (E l a r). now right.
Qed.

(** The code of the implementations. *)
Lemma calls_decent (V : mvalue -> Prop) P cs p : (forall c, In c cs -> V c) -> decent V P (calls cs p).
Proof.
  intros H. induction p as [| |k n b IHb r IHr|k n b IHb r IHr|k n x b IHb r1 IHr1 r2 IHr2]; cbn; auto.
  destruct (nth_error cs (N.to_nat x)) as [c|] eqn:E; [|exact IHr1]. split; [apply H; eapply nth_error_In, E | exact IHr1].
Qed.
Lemma implementation_decent m (V : mvalue -> Prop) (P : ptr -> Prop) v : V v -> (forall u c, V (MPlain u c) -> forall x, In x c -> V x) ->
  (forall x, owns v x -> P x) -> decent V P (implementation m v).
Proof.
  intros Hv Hc Ho. destruct v as [s cs|t l a|t l|t t' ps x]; try (cbn; auto; fail).
  - assert (A : forall sz, decent V P (calls cs (visit_shape m unseen s (placeholders 0 sz)))) by (intros sz; apply calls_decent; intros c; now apply (Hc s cs)).
    unfold implementation. destruct s; try apply A.
    + cbn. unfold impl_shared_ptr. cbn. repeat split; auto. apply Ho. reflexivity.
    + destruct target as [[[t' ps] x]|]; cbn; auto. unfold impl_shared_ptr. cbn. repeat split; auto. apply Ho. reflexivity.
  - cbn. unfold impl_shared_ptr. cbn. repeat split; auto.
Qed.

Lemma vals_child g st s cs c : vals g st (MPlain s cs) -> In c cs -> vals g st c.
Proof.
  assert (A : forall v, part_of (MPlain s cs) v -> In c cs -> part_of c v).
  { intros v H Hc. induction H as [|s' cs' v Hv _ IH]; [apply (part_child s Hc), part_self | apply (part_child s' Hv), IH]. }
  intros [H|[(l & a & r & H1 & H2)|(g' & x & i & w & H1 & H2 & H3)]] Hc; [left; auto | right; left; exists l, a, r; auto | right; right; exists g', x, i, w; auto].
Qed.

Lemma decent_step m std c c' : M (k_mem c) -> cstep m std c c' -> conf_decent c -> conf_decent c'.
Proof.
  intros HM S [HC HS]. unfold conf_decent. destruct S; cbn [k_control k_mem k_stack stack_decent cont] in *.
  (* pops that leave the memory *)
  all: try (destruct HS as [HR HS]; now split).
  all: try (now split).
  (* pops that release *)
  all: try (destruct HS as [HR HS]; split; [apply (@decent_mem g); [reflexivity | exact HR] | apply (@stack_mem g); [reflexivity | exact HS]]; fail).
  all: try (destruct HS as [HR HS]; split; [exact I | apply (@stack_mem g); [reflexivity | exact HS]]; fail).
  (* scopes *)
  all: try (cbn in HC; destruct HC as [HB HR]; split; [now apply decent_cons | now split]; fail).
  all: try (cbn in HC; destruct HC as [HB HR]; split; [exact HR | exact HS]; fail).
  - (* an allocation *)
    cbn in HC. destruct HC as [Hx HR]. split; [|now split]. unfold behind. destruct (m_object g x) as [[i v]|] eqn:E; [|exact I].
    apply calls_decent. intros c [<-|[]]. right; right. exists g, x, i, v. split; [exact HM|]. split; [exact E | apply part_self].
  - (* a lock *)
    cbn in HC. split; [|split; [apply (@decent_mem g); [reflexivity | exact HC] | apply (@stack_mem g); [reflexivity | exact HS]]].
    assert (A : vals (set_shared_state g (acquire (m_shared g) l Visit a)) (KGuard l a rest :: st) (m_content g l)).
    { right; left. exists l, a, rest. split; [now left | apply part_self]. }
    unfold opened. destruct field; cbn; auto.
  - (* a reference *)
    cbn in HC. destruct HC as [HB HR]. split; [|split; [apply (@decent_mem g); [reflexivity | exact HR] | apply (@stack_mem g); [reflexivity | exact HS]]].
    apply (@decent_mem g); [reflexivity|]. eapply decent_mono; [| |exact HB]; [intros u; apply vals_cons|].
    cbn. intros y [Hy| ->]; [now apply ptrs_cons | right; exists rest; now left].
  - (* a value *)
    cbn in HC. destruct HC as [HV HR]. split; [|now split]. apply implementation_decent; [now apply vals_cons | intros u cs Hv c Hc; exact (vals_child Hv Hc)|].
    intros x Hx. left. exists v. split; [now apply vals_cons | exact Hx].
Qed.

Lemma decent_change g g' b k st : change g g' -> steady (mkC g b k st) -> k <> Lost -> conf_decent (mkC g b k st) -> conf_decent (mkC g' b k st).
Proof.
  intros H S HL [HC HS]. assert (E : forall l a rest, In (KGuard l a rest) st -> m_content g' l = m_content g l).
  { intros l a rest Hin. apply (@guard_stable (mkC g b k st) g' l a); auto. now exists rest. }
  split; cbn [k_control k_mem k_stack] in *; [destruct k; auto; now apply (decent_mem E) | now apply (stack_mem E)].
Qed.

Lemma lost_stack m std c c' : cstep m std c c' -> k_control c' = Lost -> k_stack c' = [].
Proof. intros S. destruct S; cbn; congruence. Qed.
Definition lost_empty (c : cconf) : Prop := k_control c = Lost -> k_stack c = [].

Lemma decent_passes m std c c' : passes M m std c c' -> steady c -> lost_empty c -> conf_decent c -> conf_decent c'.
Proof.
  induction 1 as [c _|c c' c'' HM H _ IH|g g' b k st c'' _ H _ IH]; intros S L D; [exact D | |].
  - apply IH; [eapply steady_step; eauto | exact (lost_stack H) | eapply decent_step; eauto].
  - apply IH; [eapply steady_change; eauto | exact L|]. destruct k as [p| |]; try (eapply decent_change; eauto; discriminate).
    unfold lost_empty in L. cbn in L. rewrite L by reflexivity. now split.
Qed.
End Visit.

Lemma may_look_lemma (M : memory -> Prop) m std g b v c u : (forall l, lock_ok (locks (m_shared g) l)) -> holds_nothing (m_shared g) ->
  passes M m std (begin g b v) c -> looks_at c u -> may_look M v (k_mem c) u.
Proof.
  intros H1 H2 HP (rest & E). pose proof (@begin_steady g b v H1 H2) as S0. pose proof (steady_passes HP S0) as S.
  pose proof (@decent_passes M v m std _ _ HP S0) as [D _]; [discriminate | | ].
  { split; [|exact I]. cbn. split; [left; apply part_self | exact I]. }
  rewrite E in D. cbn in D. destruct D as [D _]. destruct D as [D|[(l & a & r & Hin & D)|D]]; [now left | | now right; right].
  right; left. exists l, a. split; [|exact D]. apply (@steady_guard c l a S); [congruence | now exists r].
Qed.
Lemma may_follow_lemma (M : memory -> Prop) m std g b v c x : (forall l, lock_ok (locks (m_shared g) l)) -> holds_nothing (m_shared g) ->
  passes M m std (begin g b v) c -> follows c x -> may_follow M v (k_mem c) x.
Proof.
  intros H1 H2 HP (k & n & rest & E). pose proof (@begin_steady g b v H1 H2) as S0. pose proof (steady_passes HP S0) as S.
  pose proof (@decent_passes M v m std _ _ HP S0) as [D _]; [discriminate | | ].
  { split; [|exact I]. cbn. split; [left; apply part_self | exact I]. }
  rewrite E in D. cbn in D. destruct D as [D _]. destruct D as [(u & D & O)|(r & Hin)].
  - left. exists u. split; [|exact O]. destruct D as [D|[(l & a & r & Hin & D)|D]]; [now left | | now right; right].
    right; left. exists l, a. split; [|exact D]. apply (@steady_guard c l a S); [congruence | now exists r].
  - right. assert (HL : k_control c <> Lost) by congruence. destruct (S HL) as [_ _ S3]. apply refs_in. rewrite S3.
    apply (@inside_refs _ x LRet). clear - Hin. induction (k_stack c) as [|f st IH]; [destruct Hin|]. destruct Hin as [->|Hin]; [cbn; now left|]. destruct f; cbn; auto.
Qed.
