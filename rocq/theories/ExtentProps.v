(** * Proofs for C57: output, values. *)
From Coq Require Import Lia Sorted.
From Verif Require Import Base BaseFacts KeyModel KeyFacts HMap FlameModel BuilderModel VisitorModel Spec FlameFacts WriteFacts ArenaFacts RunFacts FinishFacts BuilderFacts BuilderProps
  HeapFacts HeapProps SessionFacts LayoutModel ImplModel ImplSpec ImplFacts StoreProps PropertiesImpl ExtentModel ExtentSpec ExtentFacts.

Lemma sorted_nodup (L : list path) : StronglySorted path_lt L -> NoDup L.
Proof.
  induction 1 as [|p L H IH F]; constructor; [|exact IH]. intros Hin. rewrite Forall_forall in F. specialize (F p Hin). unfold path_lt in F.
  enough (X : path_cmp p p = Eq) by congruence. clear. induction p as [|a p IH]; cbn; [reflexivity|]. now rewrite str_cmp_refl.
Qed.
Lemma shown_touched es p : 0 < shown_s es p -> In p (stacks es).
Proof.
  intros H. apply in_stacks. unfold shown_s, shown in H. destruct p as [|a p]; [lia|]. set (q := a :: p) in *.
  assert (Hd : 0 < declared string_dec es q) by (fold declared_s in *; unfold declared_s in *; lia).
  clear H. unfold declared in Hd. induction es as [|e es IH]; cbn in Hd; [lia|].
  destruct (path_dec string_dec (ev_path e) q) as [E|_]; [exists e; split; [now left | exact E]|].
  destruct IH as (e' & H & E); [lia|]. exists e'. split; [now right | exact E].
Qed.
Lemma misdeclared_touched es ps b p : binv string_dec k_str made_by_new es ps b -> misdeclared_s es p -> In p (stacks es).
Proof.
  intros [Ha Hd _ Ho] H. pose proof (misdeclared_in Ha Hd H) as Hin. destruct (Ho p Hin) as [->|H']; [destruct H; contradiction | now apply in_stacks].
Qed.

Lemma C57_output_lemma : forall l, Forall (keys_in made_by_new) l -> total_declared (root_events l) < two63 ->
  exists o L W, (forall m, profile m l = Some o) /\
    fg_write (out_flamegraph o) = concat_str (map folded_line L) /\ out_warnings o = concat_str (map (warning_for (root_events l)) W) /\
    (length L + length W <= length (stacks (root_events l)))%nat /\ (length (stacks (root_events l)) <= length (root_events l))%nat /\
    (forall p, In p (map fst L ++ W) -> In p (stacks (root_events l)) /\ (length p <= list_max (map nesting l))%nat).
Proof.
  intros l HK Ht. destruct (C12_exact_lemma HK Ht) as (o & H1 & _ & (L & [HL1 HL2] & HL3 & _) & _).
  destruct (C13_warnings_lemma HK Ht) as (o' & W & H1' & HW1 & HW2 & HW3 & _).
  assert (o' = o) by (specialize (H1 Debug); specialize (H1' Debug); congruence). subst o'.
  destruct (@session_of l HK) as (b & ps & _ & Hb & _); [pose proof two63_lt_two64; lia|].
  assert (Hin : forall p, In p (map fst L ++ W) -> In p (stacks (root_events l))).
  { intros p Hp. apply in_app_or in Hp as [Hp|Hp]; [|eapply misdeclared_touched; [exact Hb | now apply HW3]].
    apply in_map_iff in Hp as ([q n] & <- & Hp). apply HL2 in Hp as (_ & Hp & E). cbn [fst]. apply shown_touched. now rewrite E. }
  exists o, L, W. repeat split; auto.
  - rewrite <- (map_length fst L), <- app_length. apply NoDup_incl_length; [|exact Hin].
    apply NoDup_app_intro; [now apply sorted_nodup | now apply sorted_nodup|].
    intros p Hp Hp'. apply in_map_iff in Hp as ([q n] & <- & Hp). apply HL2 in Hp as (Hq & Hn & E). cbn [fst] in *. apply HW3 in Hp' as [_ Hlt].
    unfold shown_s, shown in E. destruct q; [contradiction|]. lia.
  - apply stacks_le.
  - apply Hin in H. apply in_stacks in H as (e & He & <-). unfold root_events in He. destruct (trace_roots k_str l []) as [es v] eqn:E. eapply trace_roots_nesting; eauto.
Qed.

(** ** Values *)
Lemma indifferent_link1 pt i : (forall x, indifferent (pt x)) -> forall rest, indifferent rest -> indifferent (link1 pt i rest).
Proof.
  intros Hpt. revert i. fix IH 1. intros [u k s body|k s x] rest Hr; cbn [link1].
  - assert (Hb : indifferent ((fix go (l : list item) := match l with [] => VRet | j :: l' => link1 pt j (go l') end) body)).
    { induction body as [|j l IHl]; [exact I|]. apply IH. exact IHl. }
    destruct u; cbn [indifferent]; auto.
  - cbn [indifferent]. auto.
Qed.
Lemma indifferent_link n h : forall l, indifferent (link n h l).
Proof.
  induction n as [|n IH]; intros l; (induction l as [|i l IHl]; [exact I|]); change (link ?a h (i :: l)) with (link1 (fun x => match a with O => VCrash | S n' => match deref h x with Some o => link n' h o | None => VCrash end end) i (link a h l)).
  - apply indifferent_link1; [intros x; exact I | exact IHl].
  - apply indifferent_link1; [|exact IHl]. intros x. destruct (deref h x); [apply IH | exact I].
Qed.
Lemma fine_link n h roots : (length h <= n)%nat -> closed_heap h roots -> fine k_str (map (link n h) roots) [].
Proof.
  intros Hn Hc.
  assert (X : forall r2 vis, (forall r, In r r2 -> In r roots) -> fine k_str (map (link n h) r2) vis).
  { induction r2 as [|r r2 IH]; intros vis Hi; cbn [map fine]; [exact I|]. split; [|apply IH; intros r' H; apply Hi; now right].
    destruct (@link_traversal (reachable h roots) n h r vis [] NKRoot) as (e1 & v1 & a1 & E1 & _).
    - intros x Hx. eapply reach_root; [|exact Hx]. apply Hi. now left.
    - now apply reach_closed.
    - pose proof (unvisited_le h vis). lia.
    - now rewrite E1. }
  apply X. auto.
Qed.
Lemma C57_values_lemma : forall m n k h roots b, typed_store h -> plain_store h -> Forall typed roots -> Forall manual_free roots ->
  no_dangling h roots -> (length h <= n)%nat ->
  total_declared (root_events (again k (map (visit_in Debug n h) roots))) < two64 ->
  visit_roots m (again k (map (visit_in m n h) roots)) b_default = (b, Done) ->
  length (b_trees b) = S (length (stacks (root_events (map (visit_in m n h) roots)))) /\
  NoDup (b_visited b) /\ (forall x, In x (b_visited b) <-> visited_by (map (visit_in m n h) roots) x).
Proof.
  intros m n k h roots b Hh Hp Hr Hm Hd Hn Ht R. assert (EM : map (visit_in m n h) roots = map (visit_in Debug n h) roots).
  { now apply map_visit_in_mode. }
  rewrite EM in *. clear EM.
  assert (HK : Forall (keys_in made_by_new) (map (visit_in Debug n h) roots)).
  { rewrite map_visit_in by auto. apply link_keys_all; [now apply heap_of_keys|]. rewrite Forall_map. eapply Forall_impl; [|exact Hr]. intros v. apply items_in_keys. }
  assert (HF : fine k_str (map (visit_in Debug n h) roots) []).
  { rewrite map_visit_in by auto. apply fine_link; [now rewrite heap_of_length | now apply closed_store]. }
  assert (HI : Forall indifferent (map (visit_in Debug n h) roots)).
  { rewrite map_visit_in by auto. apply Forall_map, Forall_forall. intros v _. apply indifferent_link. }
  destruct (session_of (again_keys k HK) Ht) as (b1 & ps & Q & Hb & Hv & _). rewrite Q in R. inversion R; subst b1.
  rewrite (nodes Hb), Hv, stacks_again, vis_again by auto. split; [reflexivity|]. split.
  - destruct (trace_roots k_str (map (visit_in Debug n h) roots) []) as [es v] eqn:E. eapply trace_roots_vis; [exact E | constructor].
  - intros x. unfold visited_by, ptr_mem. rewrite existsb_exists. split; [intros H; exists x; split; [exact H | apply N.eqb_refl] | intros (y & H & E); apply N.eqb_eq in E; now subst].
Qed.
