(** * Lemmas for property C51: a visit with nothing else running shows the state as it is. *)
From Verif Require Import Base BaseFacts KeyModel KeyFacts HMap FlameModel BuilderModel BuilderFacts VisitorModel Spec LayoutModel ImplModel ImplSpec ImplFacts
  StoreFacts LockModel LockSpec LockFacts SnapshotModel SnapshotSpec SnapshotFacts SnapshotRun SnapshotProps.

#[local] Arguments key_new : simpl never.

(** ** The contents that are available *)
Fixpoint present (s : shared) (p : lprog) : vprog :=
  match p with
  | LRet => VRet
  | LCrash => VCrash
  | LInline k n b r => VInline k n (present s b) (present s r)
  | LUnique k n b r => VUnique k n (present s b) (present s r)
  | LShared k n x b r1 r2 => VShared k n x (present s b) (present s r1) (present s r2)
  | LTry l _ b r => if free s l then vseq (present s b) (present s r) else present s r
  | LWait _ _ b r => vseq (present s b) (present s r)
  | LUpgrade x b r => if alive s x then vseq (present s b) (present s r) else present s r
  end.

Section Present.
  Variable s : shared.
  Lemma present_lseq p q : present s (lseq p q) = vseq (present s p) (present s q).
  Proof.
    induction p as [| |k n b IHb r IHr|k n b IHb r IHr|k n x b IHb r1 IH1 r2 IH2|l a b IHb r IHr|l a b IHb r IHr|x b IHb r IHr]; cbn [lseq present vseq]; try congruence.
    - destruct (free s l); [now rewrite IHr, vseq_assoc | exact IHr].
    - now rewrite IHr, vseq_assoc.
    - destruct (alive s x); [now rewrite IHr, vseq_assoc | exact IHr].
  Qed.
  Lemma present_plug ls p : present s (plug ls p) = fill (pick (map (present s) ls)) p.
  Proof.
    induction p as [| |k n b IHb r IHr|k n b IHb r IHr|k n x b IHb r1 IH1 r2 IH2]; cbn [plug present fill]; try congruence.
    rewrite present_lseq, IH1. f_equal. unfold pick. change VRet with (present s LRet). now rewrite map_nth.
  Qed.
  Lemma present_embed lpt p : present s (embed lpt p) = retarget (fun x => present s (lpt x)) p.
  Proof. induction p; cbn [embed present retarget]; congruence. Qed.
  Lemma now_could_be v : could_be v (now s v).
  Proof.
    induction v as [sh cs IH|t l a c IH|t l c IH|t t' ps x] using lvalue_induction; cbn [now]; try (constructor; auto; fail).
    - constructor. induction IH; cbn; constructor; auto.
    - destruct (alive s x); constructor.
  Qed.
  Lemma now_store_could_be H : store_could_be H (now_store s H).
  Proof. induction H as [|[x [i v]] H IH]; constructor; [|exact IH]. repeat split. apply now_could_be. Qed.
  Lemma shape_pt m pt pt' sh cs : pointer sh = false -> visit_shape m pt sh cs = visit_shape m pt' sh cs.
  Proof. destruct sh; try discriminate; reflexivity. Qed.

  Lemma present_visit m lpt v : present s (l_visit m lpt v) = visit m (fun x => present s (lpt x)) (now s v).
  Proof.
    induction v as [sh cs IH|t l a c IH|t l c IH|t t' ps x] using lvalue_induction.
    - cbn [l_visit now]. rewrite visit_node. destruct (pointer sh) eqn:E.
      + assert (X : present s (embed lpt (visit_shape m unseen sh [])) = visit_shape m (fun x => present s (lpt x)) sh (subs_of m (fun x => present s (lpt x)) (map (now s) cs))).
        { rewrite present_embed, ret_shape. destruct sh; try discriminate; reflexivity. }
        destruct sh; try discriminate; exact X.
      + assert (X : present s (plug (map (l_visit m lpt) cs) (visit_shape m unseen sh (placeholders 0 (map lsize cs)))) =
                    visit_shape m (fun x => present s (lpt x)) sh (subs_of m (fun x => present s (lpt x)) (map (now s) cs))).
        { rewrite present_plug, fill_shape by exact E. rewrite (shape_pt m unseen (fun x => present s (lpt x))) by exact E. f_equal.
          pose proof (@fill_placeholders (map lsize cs) (map (present s) (map (l_visit m lpt) cs)) []) as F. cbn [app] in F. change (len []) with 0 in F.
          rewrite F by (rewrite !map_length; reflexivity). clear F.
          unfold subs_of. rewrite !map_map. induction IH as [|c cs Hc _ IHc]; cbn [map combine]; [reflexivity|]. rewrite IHc, Hc. f_equal. f_equal.
          symmetry. apply could_be_size, now_could_be. }
        destruct sh; try discriminate; cbn [l_shape]; rewrite !map_map; cbn [fst snd]; exact X.
    - cbn [l_visit now visit visit_shape map]. unfold l_cell, impl_cell, enter_self, v_enter_self, fields_named. cbn [present fst snd map vseqs].
      rewrite IH. rewrite (could_be_size (now_could_be c)). destruct (free s l); reflexivity.
    - cbn [l_visit now visit visit_shape map]. unfold l_once, impl_once, enter_self, v_enter_self. cbn [present fst snd map vseqs].
      rewrite IH. destruct (free s l); reflexivity.
    - cbn [l_visit now visit visit_shape map]. unfold l_weak, impl_weak, enter_self, v_enter_self. cbn [present]. rewrite present_embed.
      destruct (alive s x); [|reflexivity]. now rewrite vseq_ret.
  Qed.
  Lemma present_inner i n p : present s (l_inner i (n, p)) = visit_inner i (n, present s p).
  Proof.
    unfold l_inner. cbn [placeholders fst snd]. rewrite present_plug, fill_inner. unfold fill_sub. cbn [fst snd fill map]. now rewrite vseq_ret.
  Qed.
  Lemma now_find H x : find_obj (now_store s H) x = option_map (fun o => (fst o, now s (snd o))) (find_lobj H x).
  Proof. induction H as [|[y [i v]] H IH]; cbn [now_store map find_obj find_lobj fst snd]; [reflexivity|]. destruct (N.eqb x y); [reflexivity | exact IH]. Qed.
  Lemma present_visit_in m n H : forall v, present s (l_visit_in m n H v) = visit_in m n (now_store s H) (now s v).
  Proof.
    induction n as [|n IH]; intros v; cbn [l_visit_in visit_in]; rewrite present_visit; apply visit_ext; intros x; [reflexivity|].
    rewrite now_find. destruct (find_lobj H x) as [[i w]|]; [|reflexivity]. cbn [option_map fst snd].
    rewrite present_inner, IH. now rewrite (could_be_size (now_could_be w)).
  Qed.
End Present.

(** ** No lock is met inside its own content, given what was visited *)
Fixpoint nr (mine : list lock) (vis : list ptr) (p : lprog) : Prop :=
  match p with
  | LRet | LCrash => True
  | LInline _ _ b r | LUnique _ _ b r | LUpgrade _ b r => nr mine vis b /\ nr mine vis r
  | LShared _ _ x b r1 r2 => (ptr_mem x vis = false -> nr mine (x :: vis) b) /\ nr mine vis r1 /\ nr mine vis r2
  | LTry l _ b r | LWait l _ b r => ~ In l mine /\ nr (l :: mine) vis b /\ nr mine vis r
  end.
Lemma nr_mono p : forall mine vis vis', (forall x, ptr_mem x vis = true -> ptr_mem x vis' = true) -> nr mine vis p -> nr mine vis' p.
Proof.
  induction p as [| |k n b IHb r IHr|k n b IHb r IHr|k n x b IHb r1 IH1 r2 IH2|l a b IHb r IHr|l a b IHb r IHr|x b IHb r IHr]; cbn [nr]; intros mine vis vis' M; try tauto.
  - intros [H1 H2]. eauto.
  - intros [H1 H2]. eauto.
  - intros (H1 & H2 & H3). split; [|split; eauto]. intros E. eapply IHb; [|apply H1].
    + intros y. unfold ptr_mem in *. cbn [existsb]. intros [Y|Y]%orb_prop; [now rewrite Y | now rewrite M, orb_true_r].
    + destruct (ptr_mem x vis) eqn:F; [apply M in F; congruence | reflexivity].
  - intros (H1 & H2 & H3). split; [exact H1|]. split; eauto.
  - intros (H1 & H2 & H3). split; [exact H1|]. split; eauto.
  - intros [H1 H2]. eauto.
Qed.
Lemma nr_lseq p q : forall mine vis, nr mine vis p -> nr mine vis q -> nr mine vis (lseq p q).
Proof.
  induction p as [| |k n b IHb r IHr|k n b IHb r IHr|k n x b IHb r1 IH1 r2 IH2|l a b IHb r IHr|l a b IHb r IHr|x b IHb r IHr]; cbn [lseq nr]; intros mine vis; auto; intuition auto.
Qed.
Lemma nr_plug mine vis ls p : Forall (nr mine vis) ls -> nr mine vis (plug ls p).
Proof.
  intros H. induction p as [| |k s b IHb r IHr|k s b IHb r IHr|k s x b IHb r1 IH1 r2 IH2]; cbn [plug nr]; auto.
  apply nr_lseq; [|exact IH1]. destruct (nth_in_or_default (N.to_nat x) ls LRet) as [Hin | ->]; [|exact I]. rewrite Forall_forall in H. auto.
Qed.
Lemma nr_embed lpt p : forall mine vis, (forall x, ptr_mem x vis = false -> nr mine (x :: vis) (lpt x)) -> nr mine vis (embed lpt p).
Proof. induction p; intros mine vis H; cbn [embed nr]; auto. Qed.

Section Unique.
  Variable m : mode.
  Variable H : lstore.
  Definition fresh (vis : list ptr) (l : lock) : Prop :=
    forall x i w, ptr_mem x vis = false -> find_lobj H x = Some (i, w) -> ~ In l (locks_in w).
  Hypothesis H1 : forall x i w, find_lobj H x = Some (i, w) -> NoDup (locks_in w).
  Hypothesis H2 : forall x y i j v w l, x <> y -> find_lobj H x = Some (i, v) -> find_lobj H y = Some (j, w) -> In l (locks_in v) -> ~ In l (locks_in w).

  Definition clear_of (mine : list lock) (vis : list ptr) (v : lvalue) : Prop :=
    NoDup (locks_in v) /\ (forall l, In l (locks_in v) -> ~ In l mine) /\ (forall l, In l mine \/ In l (locks_in v) -> fresh vis l).

  Lemma nodup_app_inv {A} (a b : list A) : NoDup (a ++ b) -> NoDup a /\ NoDup b /\ forall x, In x a -> ~ In x b.
  Proof.
    induction a as [|x a IH]; cbn; intros X; [repeat split; auto; constructor|]. inversion X as [|? ? N1 N2]; subst. destruct (IH N2) as (Y1 & Y2 & Y3).
    split; [constructor; [|exact Y1]; intros Z; apply N1, in_or_app; auto|]. split; [exact Y2|]. intros y [->|Hy]; [intros Z; apply N1, in_or_app; auto | auto].
  Qed.

  Lemma nr_visit lpt v : forall mine vis,
    (forall mine x, (forall l, In l mine -> fresh vis l) -> ptr_mem x vis = false -> nr mine (x :: vis) (lpt x)) ->
    clear_of mine vis v -> nr mine vis (l_visit m lpt v).
  Proof.
    induction v as [sh cs IH|t l a c IH|t l c IH|t t' ps x] using lvalue_induction; intros mine vis Hl (C1 & C2 & C3); cbn [l_visit].
    - unfold l_shape. destruct (pointer sh) eqn:E.
      + assert (X : nr mine vis (embed lpt (visit_shape m unseen sh []))) by (apply nr_embed; intros x Hx; apply Hl; auto).
        destruct sh; try discriminate; exact X.
      + assert (X : nr mine vis (plug (map (l_visit m lpt) cs) (visit_shape m unseen sh (placeholders 0 (map lsize cs))))).
        { apply nr_plug. rewrite Forall_map. cbn [locks_in] in *. revert C1 C2 C3. clear E.
          induction IH as [|c cs Hc _ IHc]; intros C1 C2 C3; constructor; cbn [flat_map] in *; apply nodup_app_inv in C1 as (D1 & D2 & D3).
          - apply Hc; [exact Hl|]. split; [exact D1|]. split; [intros l Hin; apply C2, in_or_app; auto|]. intros l [Hin|Hin]; apply C3; [auto|]. right. apply in_or_app. auto.
          - apply IHc; [exact D2 | intros l Hin; apply C2, in_or_app; auto |]. intros l [Hin|Hin]; apply C3; [auto|]. right. apply in_or_app. auto. }
        destruct sh; try discriminate; rewrite !map_map; cbn [fst snd]; exact X.
    - cbn [locks_in] in *. inversion C1 as [|? ? N1 N2]; subst. cbn. split; [|auto]. split; [apply C2; now left|]. split; [|auto]. split; [|auto].
      apply IH; [exact Hl|]. split; [exact N2|]. split.
      + intros k Hk [<-|Hin]; [contradiction|]. eapply C2; [right; exact Hk | exact Hin].
      + intros k [[<-|Hin]|Hin]; apply C3; auto; [right; now left | right; now right].
    - cbn [locks_in] in *. inversion C1 as [|? ? N1 N2]; subst. cbn. split; [|auto]. split; [apply C2; now left|]. split; [|auto].
      apply IH; [exact Hl|]. split; [exact N2|]. split.
      + intros k Hk [<-|Hin]; [contradiction|]. eapply C2; [right; exact Hk | exact Hin].
      + intros k [[<-|Hin]|Hin]; apply C3; auto; [right; now left | right; now right].
    - cbn. split; [|auto]. split; [|auto]. split; [|auto]. split; [|auto]. intros Hx. apply Hl; auto.
  Qed.

  Lemma fresh_more vis x l : fresh vis l -> fresh (x :: vis) l.
  Proof. intros F y i w Hy. apply F. unfold ptr_mem in *. cbn [existsb] in Hy. now apply orb_false_iff in Hy. Qed.

  Lemma nr_visit_in n : forall v mine vis, clear_of mine vis v -> nr mine vis (l_visit_in m n H v).
  Proof.
    induction n as [|n IH]; intros v mine vis Hc; cbn [l_visit_in]; (apply nr_visit; [|exact Hc]); intros mine' x Hm Hx; [exact I|].
    destruct (find_lobj H x) as [[i w]|] eqn:E; [|exact I]. unfold l_inner. cbn [placeholders fst snd]. apply nr_plug. constructor; [|constructor].
    apply IH. split; [eapply H1; eauto|]. split.
    - intros l Hl Hin. eapply (Hm l Hin x i w); eauto.
    - intros l [Hin|Hin]; [apply fresh_more; auto|]. intros y j u Hy Ef. unfold ptr_mem in Hy. cbn [existsb] in Hy. apply orb_false_iff in Hy as [Hy _].
      apply N.eqb_neq in Hy. eapply (@H2 x y); eauto.
  Qed.
End Unique.

Lemma unique_store H : NoDup (locks_in_store H) ->
  (forall x i w, find_lobj H x = Some (i, w) -> NoDup (locks_in w)) /\
  (forall x y i j v w l, x <> y -> find_lobj H x = Some (i, v) -> find_lobj H y = Some (j, w) -> In l (locks_in v) -> ~ In l (locks_in w)).
Proof.
  assert (FI : forall K x i w, find_lobj K x = Some (i, w) -> incl (locks_in w) (locks_in_store K)).
  { induction K as [|[y o] K IH]; cbn [find_lobj locks_in_store flat_map fst snd]; intros x i w E; [discriminate|].
    destruct (N.eqb x y); [injection E as ->; apply incl_appl, incl_refl | apply incl_appr; eauto]. }
  induction H as [|[y [j u]] H IH]; cbn [locks_in_store flat_map fst snd find_lobj]; intros N; [split; intros; discriminate|].
  apply nodup_app_inv in N as (N1 & N2 & N3). destruct (IH N2) as [I1 I2]. split.
  - intros x i w E. destruct (N.eqb x y); [injection E as <- <-; exact N1 | eauto].
  - intros x z i k v w l Hxz E1 E2 Hl. destruct (N.eqb_spec x y) as [->|Hx], (N.eqb_spec z y) as [->|Hz]; try congruence.
    + injection E1 as <- <-. intros X. eapply N3; [exact Hl | eapply FI; eauto].
    + injection E2 as <- <-. intros X. eapply N3; [exact X | eapply FI; eauto].
    + eapply I2; [exact Hxz | eauto | eauto | exact Hl].
Qed.

(** ** The visit runs alone *)
Fixpoint stack_nr (vis : list ptr) (st : list LockModel.frame) : Prop :=
  match st with [] => True | f :: st' => nr (stack_locks st') vis (frame_rest f) /\ stack_nr vis st' end.
Lemma stack_nr_mono vis vis' st : (forall x, ptr_mem x vis = true -> ptr_mem x vis' = true) -> stack_nr vis st -> stack_nr vis' st.
Proof. intros M. induction st as [|f st IH]; cbn; [auto|]. intros [H1 H2]. split; [eapply nr_mono; eauto | auto]. Qed.

Record calm (s : shared) (c : config) : Prop := {
  k_poison : forall l, poisoned (locks (c_shared c) l) = poisoned (locks s l);
  k_held : forall l, held (locks (c_shared c) l) = stack_guards (c_stack c) l ++ held (locks s l);
  k_strong : forall x, other_refs (strong (c_shared c) x) = strong s x;
  k_refs : forall x, In Visit (strong (c_shared c) x) -> strong s x <> [];
  k_code : match c_control c with Exec p => nr (stack_locks (c_stack c)) (b_visited (c_builder c)) p | _ => False end;
  k_stack : stack_nr (b_visited (c_builder c)) (c_stack c) }.

Definition now_stack (s : shared) (st : list LockModel.frame) : list (bool * vprog) :=
  map (fun f => (match f with FScope _ => true | _ => false end, present s (frame_rest f))) st.
Definition means_now (m : mode) (s : shared) (c : config) (res : builder * outcome) : Prop :=
  match c_control c with
  | Exec p => back m (now_stack s (c_stack c)) (run m (present s p) (c_builder c)) = res
  | Unwind => back m (now_stack s (c_stack c)) (c_builder c, Unwinding) = res
  | Gone => (c_builder c, Aborted) = res
  end.
Lemma calm_strong s c x : calm s c -> (strong (c_shared c) x = [] <-> strong s x = []).
Proof.
  intros [_ _ H1 H2 _ _]. specialize (H1 x). specialize (H2 x). split.
  - intros E. rewrite <- H1, E. reflexivity.
  - intros E. rewrite E in *. destruct (strong (c_shared c) x) as [|[|t] r]; [reflexivity | exfalso; apply H2; [now left | reflexivity] | discriminate H1].
Qed.
Lemma unwind_now m std c c' s res : vstep m std c c' -> c_control c = Unwind -> means_now m s c' res -> means_now m s c res.
Proof.
  intros H E. destruct H; cbn [c_control] in E; try discriminate; unfold means_now; cbn [c_control c_stack c_builder now_stack map back frame_rest and_then leave_scope].
  - unfold now_stack. now rewrite H.
  - intros <-. rewrite H. apply back_abort.
  - auto.
  - auto.
Qed.
Lemma unwind_alone_now m std c c' s : alone m std c c' -> c_control c = Unwind \/ c_control c = Gone -> over c' -> means_now m s c (result_of c').
Proof.
  induction 1 as [c|c c' c'' H _ IH]; intros E Ho.
  - destruct c as [s' b k st]. unfold means_now, result_of, over in *. cbn [c_control c_stack c_builder] in *. destruct E as [-> | ->]; [|reflexivity].
    destruct st; [reflexivity | contradiction].
  - destruct E as [E|E]; [|destruct H; discriminate E].
    eapply unwind_now; [exact H | exact E |]. apply IH; [eapply unwind_stays; eauto | exact Ho].
Qed.

Definition vgrows (b b' : builder) : Prop := forall x, ptr_mem x (b_visited b) = true -> ptr_mem x (b_visited b') = true.
Lemma vgrows_eq b b' : b_visited b' = b_visited b -> vgrows b b'.
Proof. intros E x. now rewrite E. Qed.

Lemma calm_release s s0 b a rest st l k : calm s (mkConf s0 b k (FGuard l a rest :: st)) ->
  calm s (mkConf (release s0 l Visit a false) b (Exec rest) st).
Proof.
  intros [Q1 Q2 Q3 Q4 Q5 Q6]. cbn [c_control c_stack c_builder c_shared] in *. cbn [stack_nr frame_rest] in Q6. constructor; cbn [c_control c_stack c_shared c_builder]; try tauto.
  - intros l'. rewrite <- Q1. unfold release, set_lock. cbn [locks]. destruct (N.eqb_spec l' l) as [->|H]; cbn [poisoned]; [apply orb_false_r | reflexivity].
  - intros l'. specialize (Q2 l'). cbn [stack_guards flat_map] in Q2. fold (stack_guards st l') in Q2. unfold release, set_lock. cbn [locks].
    rewrite (N.eqb_sym l l') in Q2. destruct (N.eqb l' l) eqn:X; [apply N.eqb_eq in X; subst l' | exact Q2]. cbn [held]. rewrite Q2. cbn [app]. unfold remove_guard. cbn [remove_one fst snd owner_eqb].
    destruct a; reflexivity.
Qed.
Lemma calm_acquire s s0 b a body rest st l k : calm s (mkConf s0 b k st) -> nr (l :: stack_locks st) (b_visited b) body -> nr (stack_locks st) (b_visited b) rest ->
  calm s (mkConf (acquire s0 l Visit a) b (Exec body) (FGuard l a rest :: st)).
Proof.
  intros [Q1 Q2 Q3 Q4 Q5 Q6] Hb Hr. cbn [c_control c_stack c_builder c_shared] in *. constructor; cbn [c_control c_stack c_shared c_builder stack_nr frame_rest]; auto.
  - intros l'. rewrite <- Q1. unfold acquire, set_lock. cbn [locks]. destruct (N.eqb_spec l' l) as [->|H]; reflexivity.
  - intros l'. specialize (Q2 l'). cbn [stack_guards flat_map]. fold (stack_guards st l'). unfold acquire, set_lock. cbn [locks].
    rewrite (N.eqb_sym l l'). destruct (N.eqb_spec l' l) as [->|H]; [|exact Q2]. cbn [held]. rewrite Q2. reflexivity.
Qed.
Lemma calm_drop s s0 b rest st x k : calm s (mkConf s0 b k (FArc x rest :: st)) ->
  calm s (mkConf (set_strong s0 x (remove_one owner_eqb Visit (strong s0 x))) b (Exec rest) st).
Proof.
  intros [Q1 Q2 Q3 Q4 Q5 Q6]. cbn [c_control c_stack c_builder c_shared] in *. cbn [stack_nr frame_rest] in Q6. constructor; cbn [c_control c_stack c_shared c_builder]; try tauto.
  - intros y. rewrite <- Q3. unfold set_strong. cbn [strong]. destruct (N.eqb_spec y x) as [->|H]; auto using other_refs_remove.
  - intros y Hy. apply Q4. unfold set_strong in Hy. cbn [strong] in Hy. destruct (N.eqb y x) eqn:X; [apply N.eqb_eq in X; subst y; eapply remove_one_sub, Hy | exact Hy].
Qed.
Lemma calm_upgrade s s0 b body rest st x k : calm s (mkConf s0 b k st) -> strong s x <> [] -> nr (stack_locks st) (b_visited b) body -> nr (stack_locks st) (b_visited b) rest ->
  calm s (mkConf (set_strong s0 x (Visit :: strong s0 x)) b (Exec body) (FArc x rest :: st)).
Proof.
  intros [Q1 Q2 Q3 Q4 Q5 Q6] Hx Hb Hr. cbn [c_control c_stack c_builder c_shared] in *. constructor; cbn [c_control c_stack c_shared c_builder stack_nr frame_rest]; auto.
  - intros y. rewrite <- Q3. unfold set_strong. cbn [strong]. destruct (N.eqb_spec y x) as [->|H]; reflexivity.
  - intros y Hy. unfold set_strong in Hy. cbn [strong] in Hy. destruct (N.eqb y x) eqn:X; [apply N.eqb_eq in X; subst y; exact Hx | apply Q4, Hy].
Qed.
Lemma calm_code s s0 b b' p st k : calm s (mkConf s0 b k st) -> vgrows b b' -> nr (stack_locks st) (b_visited b') p -> calm s (mkConf s0 b' (Exec p) st).
Proof. intros [Q1 Q2 Q3 Q4 Q5 Q6] G H. constructor; auto. cbn. eapply stack_nr_mono; [exact G | exact Q6]. Qed.
Lemma calm_scope s s0 b b' p rest st k : calm s (mkConf s0 b k st) -> vgrows b b' -> nr (stack_locks st) (b_visited b') p -> nr (stack_locks st) (b_visited b) rest ->
  calm s (mkConf s0 b' (Exec p) (FScope rest :: st)).
Proof.
  intros [Q1 Q2 Q3 Q4 Q5 Q6] G H Hr. constructor; cbn; auto. split; [eapply nr_mono; eauto | eapply stack_nr_mono; [exact G | exact Q6]].
Qed.
Lemma calm_exit s s0 b b' rest st k : calm s (mkConf s0 b k (FScope rest :: st)) -> b_visited b' = b_visited b -> calm s (mkConf s0 b' (Exec rest) st).
Proof. intros [Q1 Q2 Q3 Q4 Q5 [Q6 Q7]] E. cbn in *. constructor; cbn in *; rewrite ?E; auto. Qed.

Lemma calm_step m std s c c' : settled s -> calm s c -> vstep m std c c' ->
  (calm s c' \/ c_control c' = Unwind \/ c_control c' = Gone) /\ forall res, means_now m s c' res -> means_now m s c res.
Proof.
  intros Hset Q H. pose proof (fun x => @calm_strong s c x Q) as SE. pose proof (k_code Q) as Q5.
  destruct H; cbn [c_control c_stack c_builder c_shared nr] in *; unfold means_now; cbn [c_control c_stack c_builder c_shared]; try contradiction.
  - pose proof (exit_visited b) as V. rewrite H in V. split; [left; eapply calm_exit; [exact Q | exact V]|]. intros res <-. cbn. now rewrite H.
  - split; [auto|]. intros res <-. cbn. rewrite H. cbn. apply back_abort.
  - split; [left; eapply calm_release, Q|]. intros res <-. reflexivity.
  - split; [left; eapply calm_drop, Q|]. intros res <-. reflexivity.
  - split; [auto|]. intros res <-. reflexivity.
  - pose proof (inline_visited m b k n) as V. rewrite H in V. cbn [fst] in V.
    split; [left; eapply calm_scope; [exact Q | now apply vgrows_eq | rewrite V |]; tauto|]. intros res <-. cbn [present run]. now rewrite H.
  - split; [auto|]. intros res <-. cbn [present run]. now rewrite H.
  - pose proof (unique_visited m b k n) as V. rewrite H in V. cbn [fst] in V.
    split; [left; eapply calm_scope; [exact Q | now apply vgrows_eq | rewrite V |]; tauto|]. intros res <-. cbn [present run]. now rewrite H.
  - split; [auto|]. intros res <-. cbn [present run]. now rewrite H.
  - pose proof (shared_visited m b k n x) as V. rewrite H in V. destruct V as [V0 V]. unfold seen in V0.
    split; [left; eapply calm_scope; [exact Q | apply (grows_cons V) | rewrite V | ]; tauto|]. intros res <-. cbn [present run]. now rewrite H.
  - pose proof (shared_visited m b k n x) as V. rewrite H in V.
    split; [left; eapply calm_code; [exact Q | now apply vgrows_eq | rewrite V; tauto]|]. intros res <-. cbn [present run]. now rewrite H.
  - split; [auto|]. intros res <-. cbn [present run]. now rewrite H.
  - split; [left; eapply calm_acquire; [exact Q | |]; tauto|]. intros res <-. cbn [present].
    pose proof (k_poison Q l) as P. pose proof (k_held Q l) as HH. cbn [c_shared c_stack] in P, HH. rewrite stack_guards_none in HH by tauto. cbn [app] in HH.
    assert (F : free s l = true).
    { unfold free. destruct (Hset l) as [E|[t E]]; rewrite E in HH |- *; [now rewrite <- P, H0|]. exfalso.
      destruct a; cbn [available] in H; rewrite HH in H; [discriminate | eapply H; now left]. }
    rewrite F, run_vseq. reflexivity.
  - split; [left; eapply calm_code; [exact Q | intros x; auto | tauto]|]. intros res <-. cbn [present].
    pose proof (k_poison Q l) as P. pose proof (k_held Q l) as HH. cbn [c_shared c_stack] in P, HH. rewrite stack_guards_none in HH by tauto. cbn [app] in HH.
    assert (F : free s l = false).
    { unfold free. rewrite HH in H. destruct (held (locks s l)); [|reflexivity]. destruct H as [H|H]; [congruence|]. now rewrite <- P, H. }
    now rewrite F.
  - split; [left; eapply calm_acquire; [exact Q | |]; tauto|]. intros res <-. cbn [present]. rewrite run_vseq. reflexivity.
  - assert (X : strong s x <> []) by (rewrite <- SE; exact H).
    split; [left; eapply calm_upgrade; [exact Q | exact X | |]; tauto|]. intros res <-. cbn [present]. unfold alive.
    destruct (strong s x); [congruence|]. rewrite run_vseq. reflexivity.
  - split; [left; eapply calm_code; [exact Q | intros y; auto | tauto]|]. intros res <-. cbn [present]. unfold alive. rewrite (proj1 (SE x) H). reflexivity.
Qed.

Lemma calm_alone m std s c c' : settled s -> alone m std c c' -> calm s c -> over c' -> means_now m s c (result_of c').
Proof.
  intros Hs. induction 1 as [c|c c' c'' H HA IH]; intros Q Ho.
  - destruct c as [s' b k st]. pose proof (k_code Q) as X. unfold means_now, result_of, over in *. cbn [c_control c_stack c_builder] in *.
    destruct k as [p| |]; try contradiction. destruct p, st; try contradiction. reflexivity.
  - destruct (calm_step Hs Q H) as [[Q'|E] M]; apply M; [now apply IH | eapply unwind_alone_now; eauto].
Qed.
Lemma calm_start s b p : holds_nothing s -> nr [] (b_visited b) p -> calm s (start s b p).
Proof.
  intros [_ Hn] Hp. constructor; cbn; auto; [|intros x Hx; exfalso; eapply Hn, Hx].
  intros x. unfold other_refs. specialize (Hn x). induction (strong s x) as [|o r IH]; [reflexivity|]. cbn.
  destruct (owner_eqb_spec o Visit) as [->|H]; [exfalso; apply Hn; now left|]. cbn. f_equal. apply IH. intros X. apply Hn. now right.
Qed.
Lemma start_clear h v vis : NoDup (locks_in v ++ locks_in_store h) -> clear_of h [] vis v.
Proof.
  intros N. apply nodup_app_inv in N as (N1 & N2 & N3). split; [exact N1|]. split; [intros l _ []|]. intros l [[]|Hl] x i w _ E Hw.
  eapply N3; [exact Hl|]. clear - E Hw. induction h as [|[y o] K IH]; cbn [find_lobj locks_in_store flat_map fst snd] in *; [discriminate|]. apply in_or_app.
  destruct (N.eqb x y); [injection E as ->; now left | right; auto].
Qed.

Lemma alone_now m std n h v s b c : settled s -> holds_nothing s -> NoDup (locks_in v ++ locks_in_store h) ->
  alone m std (start s b (l_visit_in m n h v)) c -> over c -> run m (visit_in m n (now_store s h) (now s v)) b = result_of c.
Proof.
  intros Hs Hn Hd HA Ho. rewrite <- present_visit_in. apply (@calm_alone m std s _ c Hs HA); [|exact Ho]. apply calm_start; [exact Hn|].
  pose proof (nodup_app_inv Hd) as (_ & D & _). destruct (unique_store D) as [U1 U2]. apply nr_visit_in; [exact U1 | exact U2 | now apply start_clear].
Qed.

(** The locks and reference counts are as before. *)
Lemma calm_stays m std s c c' : settled s -> alone m std c c' -> calm s c -> c_control c' = Exec LRet -> calm s c'.
Proof.
  intros Hs. induction 1 as [c|c c' c'' H HA IH]; intros Q E; [exact Q|].
  destruct (calm_step Hs Q H) as [[Q'|X] _]; [now apply IH|]. exfalso.
  assert (Y : c_control c'' = Unwind \/ c_control c'' = Gone).
  { clear - HA X. induction HA as [|c' c0 c'' H HA IH]; [exact X|]. apply IH. destruct X as [X|X]; [eapply unwind_stays; eauto | destruct H; discriminate X]. }
  destruct Y; congruence.
Qed.
Lemma alone_runs m std c c' : alone m std c c' -> exists n, runs m std n c c'.
Proof. induction 1 as [|c c' c'' H _ [n IH]]; [exists 0%nat; constructor | exists (S n); econstructor; eauto]. Qed.
Lemma alone_restored m std n h v s b c : settled s -> holds_nothing s -> NoDup (locks_in v ++ locks_in_store h) ->
  alone m std (start s b (l_visit_in m n h v)) c -> over c -> c_control c = Exec LRet ->
  (forall l, locks (c_shared c) l = locks s l) /\ (forall x, strong (c_shared c) x = strong s x).
Proof.
  intros Hs Hn Hd HA Ho E.
  assert (Q : calm s c).
  { eapply calm_stays; [exact Hs | exact HA | | exact E]. apply calm_start; [exact Hn|].
    pose proof (nodup_app_inv Hd) as (_ & D & _). destruct (unique_store D) as [U1 U2]. apply nr_visit_in; [exact U1 | exact U2 | now apply start_clear]. }
  assert (S : c_stack c = []) by (unfold over in Ho; rewrite E in Ho; destruct (c_stack c); [reflexivity | contradiction]).
  assert (Z : holds_nothing (c_shared c)).
  { destruct (alone_runs HA) as [k R]. eapply C49_released_lemma; [| |exact R | exact Ho | congruence].
    - intros l o Hin. destruct (Hs l) as [X|[t X]]; rewrite X in *; [destruct Hin|]. destruct Hin as [Y|[]]. injection Y as <-. reflexivity.
    - exact Hn. }
  destruct Q as [Q1 Q2 Q3 Q4 _ _]. split.
  - intros l. specialize (Q1 l). specialize (Q2 l). rewrite S in Q2. cbn in Q2. destruct (locks (c_shared c) l), (locks s l). cbn in *. congruence.
  - intros x. rewrite <- Q3. unfold other_refs. destruct Z as [_ Z]. specialize (Z x). induction (strong (c_shared c) x) as [|o r IH]; [reflexivity|]. cbn.
    destruct (owner_eqb_spec o Visit) as [->|H]; [exfalso; apply Z; now left|]. cbn. f_equal. apply IH. intros X. apply Z. now right.
Qed.

(** ** A session always comes to an end *)
Lemma runs_snoc m std n c c' c'' : runs m std n c c' -> vstep m std c' c'' -> runs m std (S n) c c''.
Proof.
  induction 1 as [c|n c c1 c' H R IH|n s s' b k st c' H R IH]; intros V; [econstructor; [exact V | constructor] | econstructor; eauto | eapply runs_other; eauto].
Qed.
Lemma visit_ends m std s b p : no_waiting p -> exists n c, runs m std n (start s b p) c /\ over c.
Proof.
  intros Hp. assert (X : forall k n c, runs m std n (start s b p) c -> (steps p - n <= k)%nat -> exists n c, runs m std n (start s b p) c /\ over c).
  { induction k as [|k IH]; intros n c R Hk; destruct (C49_never_waits_lemma Hp R) as [Hn [Ho|[c' V]]]; eauto; pose proof (runs_snoc R V) as R';
      destruct (C49_never_waits_lemma Hp R') as [Hn' _]; [lia|]. eapply IH; [exact R' | lia]. }
  eapply X; [constructor | reflexivity].
Qed.
Lemma session_ends m std ps : Forall no_waiting ps -> forall s b, exists b' o, session m std s b ps b' o.
Proof.
  induction 1 as [|p ps Hp _ IH]; intros s b; [do 2 eexists; constructor|].
  destruct (root_visitor b) as [b1 [|]] eqn:E.
  - destruct (@visit_ends m std s b1 p Hp) as (k & c & R & Ho). destruct (leave_scope (result_of c)) as [b2 o2] eqn:El. destruct (IH (c_shared c) b2) as (b' & o & S).
    destruct o2; [exists b', o; eapply ses_visit; eauto; discriminate | exists b', o; eapply ses_visit; eauto; discriminate | do 2 eexists; eapply ses_abort; eauto].
  - destruct (IH s b1) as (b' & o & S). exists b', o. eapply ses_refused; eauto.
Qed.
