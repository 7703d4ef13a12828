(** * Property C64: what a profile says while [DashMap]s are updated in place. *)
From Coq Require Import Permutation Sorted.
From Verif Require Import Base BaseFacts KeyModel KeyFacts HMap FlameModel BuilderModel VisitorModel Spec ParseFacts EventFacts SolidFacts LayoutModel ImplModel ImplSpec ImplFacts StoreFacts ReportSpec
  PropertiesReport PropertiesImpl LockModel LockSpec LockFacts SnapshotModel SnapshotRun ChangeFacts ChangeSession ChangeComplete DashModel DashSpec
  MixModel MixSpec MixRun MixFacts MixSession MixTypedSpec MixTyped MixCases.

#[local] Arguments key_new : simpl never.

Lemma size_bytes v : xsize v = bytes_of v.
Proof. destruct v as [s cs|t l a|t l|t t' ps x|[|] t e ls]; try reflexivity. unfold xsize. cbn [xoutline size_of_val]. destruct s; cbn; unfold len; rewrite ?map_length; reflexivity. Qed.
Lemma pointing_retarget f p : pointing f p = retarget f p.
Proof. induction p; cbn; congruence. Qed.

Section Values.
  Variable content_type : lock -> N * bool.
  Variable slot_type : lock -> dash * tinfo.
  Variable capacity_of entries_of : lock -> N.
  Variable M : xmemory -> Prop.
  Variable m : mode.
  Hypothesis HM : forall g, M g -> xmem_typed content_type slot_type capacity_of entries_of g.
  Notation xty := (xtyped content_type slot_type capacity_of).

  Definition same_object (xq : ptr * vprog) (xo : ptr * (inner * value)) : Prop :=
    fst xq = fst xo /\ snd xq = visit_inner (fst (snd xo)) (size_of_val (snd (snd xo)), visit m unseen (snd (snd xo))).
  Lemma objects_seen hq : shown_objects M m False hq -> exists h, Forall2 same_object hq h /\
    Forall (fun xo => exists g v, M g /\ x_object g (fst xo) = Some (fst (snd xo), v) /\ shown M m False v (visit m unseen (snd (snd xo))) /\ like M v (snd (snd xo))) h.
  Proof.
    unfold shown_objects. induction 1 as [|[x p] hq (g & i & v & q & Hg & Ho & Hs & E) _ (h & IH1 & IH2)]; [exists []; split; constructor|].
    cbn [fst snd] in *. destruct (HM Hg) as (_ & T & _). destruct (T _ _ _ Ho) as [_ Tv].
    destruct (shown_seen HM Hs Tv) as (w & -> & Hw).
    exists ((x, (i, w)) :: h). split.
    - constructor; [|exact IH1]. split; [reflexivity|]. cbn [fst snd]. now rewrite E, (lk_size Hw).
    - constructor; [|exact IH2]. exists g, v. auto.
  Qed.
  Lemma same_find hq h x : Forall2 same_object hq h ->
    object_at hq x = match find_obj h x with Some (i, w) => Some (visit_inner i (size_of_val w, visit m unseen w)) | None => None end.
  Proof.
    induction 1 as [|[y p] [y' [i w]] hq h [E1 E2] _ IH]; cbn [object_at find_obj fst snd] in *; [reflexivity|]. subst y' p. destruct (N.eqb x y); [reflexivity | exact IH].
  Qed.
  Lemma linked_visit hq h : Forall2 same_object hq h -> forall n w, linked n hq (visit m unseen w) = visit_in m n h w.
  Proof.
    intros H. unfold linked. assert (X : forall n x, target n hq x = pt_of m n h x).
    { induction n as [|n IH]; intros x; [reflexivity|]. cbn [target]. rewrite (same_find x H). destruct (find_obj h x) as [[i w]|] eqn:E.
      - rewrite (@pt_of_obj m n h x i w E). rewrite pointing_retarget. now apply retarget_ext.
      - cbn [pt_of]. now rewrite E. }
    intros n w. rewrite pointing_retarget, visit_in_pt. now apply retarget_ext.
  Qed.
  Lemma roots_seen roots qs : Forall2 (shown M m False) roots qs -> Forall xty roots ->
    exists ws, qs = map (visit m unseen) ws /\ Forall2 (fun v w => shown M m False v (visit m unseen w) /\ like M v w) roots ws.
  Proof.
    induction 1 as [|v q roots qs Hs _ IH]; intros HT; [exists []; split; constructor|]. inversion HT as [|? ? Tv Tr]; subst.
    destruct (shown_seen HM Hs Tv) as (w & -> & Hw). destruct (IH Tr) as (ws & -> & Hws). exists (w :: ws). split; [reflexivity|]. constructor; auto.
  Qed.

  Lemma values_state std g b roots b' o : Forall xty roots -> xprofiles M m std g b roots b' o true ->
    exists ws h n0, Forall2 (fun v w => shown M m False v (visit m unseen w) /\ like M v w) roots ws /\
      Forall (fun xo => exists g v, M g /\ x_object g (fst xo) = Some (fst (snd xo), v) /\ shown M m False v (visit m unseen (snd (snd xo))) /\ like M v (snd (snd xo))) h /\
      forall n, (n0 <= n)%nat -> visit_roots m (map (visit_in m n h) ws) b = (b', o) /\ all_done m (map (visit_in m n h) ws) b.
  Proof.
    intros HT HP. destruct (xsession_state (E := False) HP) as (qs & hq & n0 & H1 & H2 & H3); [discriminate|].
    destruct (roots_seen H1 HT) as (ws & -> & Hws). destruct (objects_seen H2) as (h & S1 & S2). exists ws, h, n0. split; [exact Hws|]. split; [exact S2|].
    intros n Hn. destruct (H3 n Hn) as [R1 R2]. rewrite map_map in R1, R2.
    assert (X : map (fun w => linked n hq (visit m unseen w)) ws = map (visit_in m n h) ws) by (apply map_ext; intros w; now apply linked_visit).
    rewrite X in R1, R2. auto.
  Qed.

  Lemma seen_values roots ws : Forall2 (fun v w => shown M m False v (visit m unseen w) /\ like M v w) roots ws -> seen_as M m roots ws /\ Forall typed ws /\
    ((forall g, M g -> xmem_all manual_free g) -> Forall manual_free (map xoutline roots) -> Forall manual_free ws) /\
    ((forall g, M g -> xmem_all map_free g) -> Forall map_free (map xoutline roots) -> Forall map_free ws).
  Proof.
    induction 1 as [|v w roots ws [H1 H2] _ (A & B & C & D)]; [repeat split; constructor|].
    split; [constructor; [split; [exact H1 | rewrite (lk_size H2); apply size_bytes] | exact A]|]. split; [constructor; [apply (lk_typed H2) | exact B]|]. split; intros HA HF; inversion HF as [|? ? F1 F2]; subst; constructor; auto.
    - now apply (lk_manual H2 HA).
    - now apply (lk_map H2 HA).
  Qed.
  Lemma seen_objects h : Forall (fun xo => exists g v, M g /\ x_object g (fst xo) = Some (fst (snd xo), v) /\ shown M m False v (visit m unseen (snd (snd xo))) /\ like M v (snd (snd xo))) h ->
    seen_store M m h /\ typed_store h /\ ((forall g, M g -> xmem_all manual_free g) -> plain_store h) /\
    ((forall g, M g -> xmem_all map_free g) -> Forall (fun xo => map_free (snd (snd xo))) h).
  Proof.
    induction 1 as [|[x [i w]] h (g & v & Hg & Ho & Hs & Hw) _ (A & B & C & D)]; [repeat split; constructor|]. cbn [fst snd] in *.
    split; [constructor; [exists g, v; cbn [fst snd]; repeat split; auto; rewrite (lk_size Hw); apply size_bytes | exact A]|].
    destruct (HM Hg) as (_ & T & _). destruct (T _ _ _ Ho) as [T1 T2].
    split; [constructor; [cbn [fst snd]; split; [|apply (lk_typed Hw)] | exact B]|].
    { unfold inner_ok in *. rewrite (lk_size Hw). exact T1. }
    split; intros HA; (constructor; [cbn [fst snd] | first [exact (C HA) | exact (D HA)]]).
    - apply (lk_manual Hw HA). destruct (HA _ Hg) as (_ & X & _). eapply X; eauto.
    - apply (lk_map Hw HA). destruct (HA _ Hg) as (_ & X & _). eapply X; eauto.
  Qed.
End Values.

(** ** C64: while [DashMap]s are only updated in place (entries may be replaced, and
    everything else may change): the builder ends up as after visiting well-typed
    values, put together from pieces each of which was there at some moment. *)
Theorem C64_values : forall content_type slot_type capacity_of entries_of (M : xmemory -> Prop) m std g b roots b' o,
  (forall g, M g -> xmem_typed content_type slot_type capacity_of entries_of g) ->
  Forall (xtyped content_type slot_type capacity_of) roots ->
  xprofiles M m std g b roots b' o true ->
  exists ws h n0, seen_as M m roots ws /\ seen_store M m h /\ Forall typed ws /\ typed_store h /\
    forall n, (n0 <= n)%nat -> visit_roots m (map (visit_in m n h) ws) b = (b', o).
Proof.
  intros ct st cf ef M m std g b roots b' o HM HT HP. destruct (values_state HM HT HP) as (ws & h & n0 & H1 & H2 & H3).
  destruct (seen_values H1) as (A & B & _). destruct (seen_objects HM H2) as (C & D & _). exists ws, h, n0. repeat split; auto. intros n Hn. apply (H3 n Hn).
Qed.
Print Assumptions C64_values.

(** ** C64: then the finished profile is the report (C46) of what was seen, in which
    every shared pointer leads to an allocation. *)
Theorem C64_report : forall content_type slot_type capacity_of entries_of (M : xmemory -> Prop) m std g roots b o,
  (forall g, M g -> xmem_typed content_type slot_type capacity_of entries_of g) -> (forall g, M g -> xmem_all manual_free g) ->
  Forall (xtyped content_type slot_type capacity_of) roots -> Forall manual_free (map xoutline roots) ->
  xprofiles M m std g b_default roots b o true ->
  exists ws h, seen_as M m roots ws /\ seen_store M m h /\ no_dangling h ws /\
    forall (alloc : ptr -> N) xs, (forall x i w, find_obj h x = Some (i, w) -> recorded_size i w (alloc x)) ->
    NoDup xs -> (forall x, In x xs <-> store_reachable h ws x) ->
    total_declared (full_report h ws alloc xs) < two63 ->
    o = Done /\ exists out, finish m b = Some out /\
      (forall p, size_at (out_flamegraph out) p = shown_s (full_report h ws alloc xs) p) /\
      (exists L, listing (shown_s (full_report h ws alloc xs)) L /\ fg_write (out_flamegraph out) = concat_str (map folded_line L)) /\
      (exists W, StronglySorted path_lt W /\ (forall p, In p W <-> misdeclared_s (full_report h ws alloc xs) p) /\
        out_warnings out = concat_str (map (warning_for (full_report h ws alloc xs)) W)).
Proof.
  intros ct st cf ef M m std g roots b o HM HA HT HR HP. destruct (values_state HM HT HP) as (ws & h & n0 & H1 & H2 & R).
  destruct (seen_values H1) as (A & T3 & B & _). destruct (seen_objects HM H2) as (C & T1 & D & _). specialize (B HA HR). specialize (D HA).
  assert (T5 : no_dangling h ws). { destruct (R n0 (le_n _)) as [_ RD]. eapply nothing_dangles; eauto. }
  exists ws, h. split; [exact A|]. split; [exact C|]. split; [exact T5|]. intros alloc xs Ha X1 X2 X3.
  set (n := Nat.max n0 (length h)). destruct (R n ltac:(lia)) as [R1 _].
  destruct (@C46_profile n h ws alloc T1 D T3 B T5 ltac:(lia) Ha xs X1 X2 X3) as (out & P1 & P2 & (L & P3 & P4 & _) & P5).
  specialize (P1 m). unfold profile in P1. rewrite R1 in P1.
  assert (Ho : o = Done).
  { clear - R1 P1. assert (V : forall l b b1 o1, visit_roots m l b = (b1, o1) -> o1 = Done \/ o1 = Aborted).
    { induction l as [|p l IH]; cbn [visit_roots]; intros b0 b1 o1 E; [injection E as <- <-; auto|].
      destruct (visit_root m p b0) as [b2 [| |]]; eauto. injection E as <- <-. auto. }
    destruct (V _ _ _ _ R1) as [E | ->]; [exact E | discriminate]. }
  subst o. split; [reflexivity|]. exists out. split; [exact P1|]. split; [exact P2|]. split; [eauto | exact P5].
Qed.
Print Assumptions C64_report.

(** ** C64: and there are no warnings. *)
Theorem C64_no_warnings : forall content_type slot_type capacity_of entries_of (M : xmemory -> Prop) m std g roots b o,
  (forall g, M g -> xmem_typed content_type slot_type capacity_of entries_of g) -> (forall g, M g -> xmem_all map_free g) ->
  Forall (xtyped content_type slot_type capacity_of) roots -> Forall map_free (map xoutline roots) ->
  xprofiles M m std g b_default roots b o true ->
  exists ws h n, seen_as M m roots ws /\ seen_store M m h /\
    (total_declared (root_events (map (visit_in Debug n h) ws)) < two63 ->
     exists out, finish m b = Some out /\ out_warnings out = EmptyString).
Proof.
  intros ct st cf ef M m std g roots b o HM HA HT HR HP. destruct (values_state HM HT HP) as (ws & h & n & H1 & H2 & R).
  destruct (seen_values H1) as (A & T3 & _ & B). destruct (seen_objects HM H2) as (C & T1 & _ & D). specialize (B HA HR). specialize (D HA).
  exists ws, h, n. split; [exact A|]. split; [exact C|]. intros Ht. destruct (R n (le_n _)) as [R1 _].
  destruct (@C35_no_warnings n h ws T1 T3 D B Ht) as (out & P). destruct (P m) as [P1 P2]. unfold profile in P1. rewrite R1 in P1.
  exists out. destruct o; try discriminate; auto.
Qed.
Print Assumptions C64_no_warnings.

(** ** The hypotheses can be met: during the visit of a map another thread replaces the
    value of an entry. *)
Definition xarc6 : xvalue := XPlain (SShared xt_arc 8 6) [].
Definition other_entry : xtable := mkTable 1 [(xkey, xarc6)].
Definition update_memory (g : xmemory) : Prop :=
  (forall l, x_content g l = xarc) /\
  (forall l, l <> 1 -> x_table g l = no_entry) /\ (x_table g 1 = one_entry \/ x_table g 1 = other_entry) /\
  (forall x, x_object g x = if N.eqb x 5 || N.eqb x 6 then Some (InArc 4, xnumber) else None).
Definition update_start : xmemory :=
  mkX (mkShared (fun _ => mkLock [] false) (fun _ => [Other 0])) (fun _ => xarc)
    (fun x => if N.eqb x 5 || N.eqb x 6 then Some (InArc 4, xnumber) else None)
    (fun l => if N.eqb l 1 then one_entry else no_entry).
Ltac xmem ::= split; [intros l; reflexivity | split; [intros l Hl; cbn; repeat (match goal with |- context [N.eqb ?a ?b] => destruct (N.eqb_spec a b) end); congruence | split; [cbn; auto | intros x; reflexivity]]].
Lemma updated_run : exists c, xpasses update_memory Debug (fun _ => true) (xbegin update_start (set_entered b_default true) xmap) c /\ xended c /\
  x_table (xk_mem c) 1 = other_entry /\
  exists b out, leave_scope (xresult c) = (b, Done) /\ finish Debug b = Some out /\ out_warnings out = EmptyString.
Proof.
  eexists. split; [unfold xbegin, xmap|].
  - do 4 xvstep.
    xother; [apply xc_shared, (@o_acquire _ 1 1%nat Exclusive); vm_compute; reflexivity|].
    xother; [apply (@xc_table _ 1 1%nat other_entry); vm_compute; now left|].
    xother; [apply xc_shared, (@o_release _ 1 1%nat Exclusive false); vm_compute; now left|].
    repeat xvstep. apply xp_end. xmem.
  - split; [exact I|]. split; [reflexivity|].
    eexists. eexists. split; [vm_compute; reflexivity|]. split; vm_compute; reflexivity.
Qed.
Definition update_content (l : lock) : N * bool := (8, true).
Definition update_slot (l : lock) : dash * tinfo := (IsMap, xt_entry).
Definition update_cap (l : lock) : N := 1.
Definition update_len (l : lock) : N := if N.eqb l 1 then 1 else 0.

Theorem C64_report_satisfiable :
  (forall g, update_memory g -> xmem_typed update_content update_slot update_cap update_len g) /\
  (forall g, update_memory g -> xmem_all manual_free g /\ xmem_all map_free g) /\
  Forall (xtyped update_content update_slot update_cap) [xmap] /\ Forall manual_free (map xoutline [xmap]) /\ Forall map_free (map xoutline [xmap]) /\
  (exists b, xprofiles update_memory Debug (fun _ => true) update_start b_default [xmap] b Done true).
Proof.
  assert (TK : forall y, y = xkey \/ y = xarc \/ y = xarc6 -> xtyped update_content update_slot update_cap y).
  { intros y [->|[->| ->]]; (constructor; [exact I | | constructor]); cbn; unfold ptr_size; repeat split; auto; lia. }
  split; [|split; [|split; [|split; [|split]]]].
  - intros g (H1 & H2 & H3 & H4). split; [|split; [|split]].
    + intros l. rewrite H1. split; [apply TK; auto|]. split; reflexivity.
    + intros x i v. rewrite H4. destruct (N.eqb x 5 || N.eqb x 6); [|discriminate]. intros [= <- <-].
      split; [|constructor; [exact I | reflexivity | constructor]]. split; [split; [exists 2; reflexivity | cbn; rewrite two63_val; lia]|]. exists 24. rewrite two63_val. split; [lia|].
      split; [exists 3; reflexivity|]. split; [exists 6; reflexivity|]. exists 16. cbn. repeat split; try lia. exists 4; reflexivity.
    + intros l k v. destruct (N.eq_dec l 1) as [->|Hl]; [|rewrite H2 by exact Hl; intros []].
      destruct H3 as [-> | ->]; intros [[= <- <-]|[]]; (split; [apply TK; auto|]); (split; [apply TK; auto|]); vm_compute; discriminate.
    + intros l. destruct (N.eq_dec l 1) as [->|Hl]; [destruct H3 as [-> | ->]; (split; [reflexivity|]); (split; [reflexivity|]); vm_compute; discriminate|].
      rewrite H2 by exact Hl. unfold update_len, update_cap. destruct (N.eqb_spec l 1); [congruence|]. (split; [reflexivity|]); (split; [reflexivity|]); lia.
  - assert (X : forall P : value -> Prop, P (xoutline xkey) -> P (xoutline xarc) -> P (xoutline xarc6) -> P (xoutline xnumber) -> forall g, update_memory g -> xmem_all P g).
    { intros P P1 P2 P3 P4 g (H1 & H2 & H3 & H4). split; [intros l; now rewrite H1|]. split.
      - intros x i v. rewrite H4. destruct (N.eqb x 5 || N.eqb x 6); [|discriminate]. now intros [= <- <-].
      - intros l k v. destruct (N.eq_dec l 1) as [->|Hl]; [|rewrite H2 by exact Hl; intros []]. destruct H3 as [-> | ->]; intros [[= <- <-]|[]]; auto. }
    intros g Hg. split; apply X; auto; cbn; auto.
  - constructor; [|constructor]. constructor; try reflexivity; vm_compute; discriminate.
  - repeat constructor.
  - repeat constructor.
  - destruct updated_run as (c & P & E & _ & b & out & L & _). exists b. change true with (match Done with Done => true | _ => false end) at 2.
    eapply xr_visit; [reflexivity | exact P | exact E | exact L | discriminate | apply xr_end].
Qed.
Print Assumptions C64_report_satisfiable.

(** The map of that run at its end, as it was seen: two slots, one entry. *)
Example C64_updated_shown : exists c b out,
  xpasses update_memory Debug (fun _ => true) (xbegin update_start (set_entered b_default true) xmap) c /\ xended c /\
  x_table update_start 1 = one_entry /\ x_table (xk_mem c) 1 = other_entry /\
  leave_scope (xresult c) = (b, Done) /\ finish Debug b = Some out /\ out_warnings out = EmptyString.
Proof.
  destruct updated_run as (c & P & E & T & b & out & L & F & W). exists c, b, out. repeat split; auto.
Qed.
