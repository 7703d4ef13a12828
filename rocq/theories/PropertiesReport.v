(** * C46: what every value reports, and under which stack. *)
From Coq Require Import Permutation Sorted.
From Verif Require Import Base BaseFacts KeyModel KeyFacts HMap FlameModel BuilderModel VisitorModel SizeOfModel Spec TraceFacts
  ParseFacts HeapFacts HeapProps PropertiesBuilder LayoutModel ImplModel ImplSpec ImplFacts StoreFacts StoreProps PropertiesImpl ReportSpec ReportFacts.

#[local] Arguments key_new : simpl never.

Lemma misdeclared_perm a b p : Permutation a b -> misdeclared_s a p <-> misdeclared_s b p.
Proof.
  intros H. destruct (perm_books H) as [[H1 H2] _]. unfold misdeclared_s, misdeclared.
  unfold declared_s, inline_below_s in *. now rewrite H1, H2.
Qed.

Lemma warning_perm a b p : Permutation a b -> warning_for a p = warning_for b p.
Proof. intros H. destruct (perm_books H) as [[H1 H2] _]. unfold warning_for. now rewrite H1, H2. Qed.

(** Profiles depend on the multiset of declared lines only. *)
Lemma profile_of_events : forall l es, Forall (keys_in made_by_new) l -> Permutation (root_events l) es -> total_declared es < two63 ->
  exists o, (forall m, profile m l = Some o) /\
    (forall p, size_at (out_flamegraph o) p = shown_s es p) /\
    (exists L, listing (shown_s es) L /\
      fg_write (out_flamegraph o) = concat_str (map folded_line L) /\
      forall m, fg_total_size m (out_flamegraph o) = Some (sumN (map snd L))) /\
    (exists W, StronglySorted path_lt W /\ (forall p, In p W <-> misdeclared_s es p) /\
      out_warnings o = concat_str (map (warning_for es) W)).
Proof.
  intros l es Hk HQ Ht. destruct (perm_books HQ) as [[B1 B2] Et]. rewrite <- Et in Ht.
  destruct (C12_exact Hk Ht) as (o & H1 & H2 & (L & H3 & H4 & H5) & _).
  destruct (C13_warnings Hk Ht) as (o' & W & W1 & W2 & W3 & W4 & _).
  assert (o' = o) as -> by (specialize (H1 Debug); specialize (W1 Debug); congruence).
  exists o. split; [exact H1|]. split; [intros p; rewrite H2; now apply shown_perm|]. split.
  - exists L. split; [|split; [exact H4 | exact H5]].
    unfold listing in *. destruct H3 as (G1 & G2). split; [exact G1|]. intros p k. rewrite <- (shown_perm p HQ). apply G2.
  - exists W. split; [exact W3|]. split.
    + intros p. rewrite W4. now apply misdeclared_perm.
    + rewrite W2. f_equal. apply map_ext. intros p. now apply warning_perm.
Qed.

(** Everything that is declared while visiting well-typed values (looking at
    nothing behind shared pointers): exactly the lines of their reports. *)
Theorem C46_own_report : forall m vs, Forall typed vs ->
  Permutation (root_events (map (visit m nowhere) vs)) (flat_map (report [] NKRoot) vs).
Proof. exact report_roots. Qed.
Print Assumptions C46_own_report.

(** Same, for values with shared parts: a finished profile shows at every stack
    what the reports put there; its text is the sorted listing of that. *)
Theorem C46_profile : forall n h roots (alloc : ptr -> N),
  typed_store h -> plain_store h -> Forall typed roots -> Forall manual_free roots ->
  no_dangling h roots -> (length h <= n)%nat ->
  (forall x i w, find_obj h x = Some (i, w) -> recorded_size i w (alloc x)) ->
  forall xs, NoDup xs -> (forall x, In x xs <-> store_reachable h roots x) ->
  total_declared (full_report h roots alloc xs) < two63 ->
  exists o, (forall m, profile m (map (visit_in m n h) roots) = Some o) /\
    (forall p, size_at (out_flamegraph o) p = shown_s (full_report h roots alloc xs) p) /\
    (exists L, listing (shown_s (full_report h roots alloc xs)) L /\
      fg_write (out_flamegraph o) = concat_str (map folded_line L) /\
      forall m, fg_total_size m (out_flamegraph o) = Some (sumN (map snd L))) /\
    (exists W, StronglySorted path_lt W /\ (forall p, In p W <-> misdeclared_s (full_report h roots alloc xs) p) /\
      out_warnings o = concat_str (map (warning_for (full_report h roots alloc xs)) W)).
Proof.
  intros n h roots alloc Hh Hp Hr Hm Hd Hn Ha xs Hnd Hxs Ht.
  destruct (@report_everything Debug n h roots alloc) as (xs' & Hnd' & Hxs' & HP); auto.
  assert (HX : Permutation xs' xs). { apply NoDup_Permutation; auto. intros x. now rewrite Hxs, Hxs'. }
  assert (HQ : Permutation (root_events (map (visit_in Debug n h) roots)) (full_report h roots alloc xs)).
  { rewrite HP. unfold full_report. apply Permutation_app_head. apply Permutation_flat_map. exact HX. }
  clear HP HX xs' Hnd' Hxs'.
  destruct (profile_of_events (@visit_in_keys Debug n h roots Hh Hr) HQ Ht) as (o & H1 & H2).
  exists o. split; [|exact H2]. intros m. rewrite (@map_visit_in_mode m Debug) by auto. apply H1.
Qed.
Print Assumptions C46_profile.

(** ** C07: stacks can be decoded iff no frame contains a separator.

    For any history of visits: the text of the profile can be decoded iff no
    stack it shows has a frame with a [;] or a newline in it. *)
Theorem C07_profile_decodable_iff : forall l, Forall (keys_in made_by_new) l -> total_declared (root_events l) < two63 ->
  exists o, (forall m, profile m l = Some o) /\
    ((exists L, parse_folded (fg_write (out_flamegraph o)) = Some L /\ listing (shown_s (root_events l)) L) <->
     forall p, 0 < shown_s (root_events l) p -> Forall frame_clean p).
Proof.
  intros l Hk Ht. destruct (C12_exact Hk Ht) as (o & H1 & _ & (L & H3 & H4 & _) & _). exists o. split; [exact H1|].
  rewrite H4, (decodable_iff H3). split; intros H p; [|auto].
  intros Hp. apply H; [|exact Hp]. intros ->. cbn in Hp. lia.
Qed.
Print Assumptions C07_profile_decodable_iff.

(** For values: type, field and variant names without separators suffice. *)
Theorem C07_values_decodable : forall n h roots (alloc : ptr -> N),
  typed_store h -> plain_store h -> Forall typed roots -> Forall manual_free roots ->
  no_dangling h roots -> (length h <= n)%nat ->
  (forall x i w, find_obj h x = Some (i, w) -> recorded_size i w (alloc x)) ->
  forall xs, NoDup xs -> (forall x, In x xs <-> store_reachable h roots x) ->
  total_declared (full_report h roots alloc xs) < two63 ->
  Forall frame_clean (flat_map all_names roots) ->
  Forall (fun xo => Forall frame_clean (inner_names (fst (snd xo)) ++ all_names (snd (snd xo)))) h ->
  exists o L, (forall m, profile m (map (visit_in m n h) roots) = Some o) /\
    parse_folded (fg_write (out_flamegraph o)) = Some L /\ listing (shown_s (full_report h roots alloc xs)) L.
Proof.
  intros n h roots alloc Hh Hp Hr Hm Hd Hn Ha xs Hnd Hxs Ht Hc Hch.
  destruct (@C46_profile n h roots alloc Hh Hp Hr Hm Hd Hn Ha xs Hnd Hxs Ht) as (o & H1 & _ & (L & H3 & H4 & _) & _).
  exists o. assert (HC : Forall clean_ev (full_report h roots alloc xs)).
  { unfold full_report. apply Forall_app. split.
    - clear - Hc. induction roots as [|r roots IH]; [constructor|]. cbn [flat_map] in *. apply Forall_app in Hc as [A B].
      apply Forall_app. split; [now apply clean_report | auto].
    - clear - Hch. induction xs as [|x xs IH]; [constructor|]. cbn [flat_map]. apply Forall_app. split; [|exact IH].
      destruct (find_obj h x) as [[i w]|] eqn:E; [|constructor]. rewrite Forall_forall in Hch. specialize (Hch _ (find_obj_in E)). cbn [fst snd] in Hch.
      apply Forall_app in Hch as [A B]. now apply clean_report_inner. }
  destruct (proj2 (decodable_iff H3)) as (L' & G1 & G2).
  { intros p _ Hs. destruct (shown_at_event Hs) as (e & He & <-). rewrite Forall_forall in HC. now apply HC. }
  exists L'. rewrite H4. auto.
Qed.
Print Assumptions C07_values_decodable.

(** The hypotheses hold of the running example; its report, line by line. *)
Lemma x_reachable_iff x : In x [1; 2; 3] <-> store_reachable x_store x_roots x.
Proof.
  split.
  - assert (R1 : store_reachable x_store x_roots 1) by (eapply sr_root; [left; reflexivity | cbn; auto]).
    assert (R2 : store_reachable x_store x_roots 2) by (eapply sr_root; [right; left; reflexivity | cbn; auto]).
    assert (R3 : store_reachable x_store x_roots 3) by (eapply (@sr_step _ _ 1); [exact R1 | reflexivity | cbn; auto]).
    intros [<-|[<-|[<-|[]]]]; assumption.
  - intros H. apply x_reachable in H. cbn. intuition auto.
Qed.

Example C46_satisfiable : typed_store x_store /\ plain_store x_store /\ Forall typed x_roots /\ Forall manual_free x_roots /\
  no_dangling x_store x_roots /\
  (forall x i w, find_obj x_store x = Some (i, w) -> recorded_size i w (x_alloc x)) /\
  (forall x, In x [1; 2; 3] <-> store_reachable x_store x_roots x) /\
  total_declared (full_report x_store x_roots x_alloc [1; 2; 3]) < two63 /\
  report [] NKRoot x_vec_string =
    let me := "alloc::vec::Vec<alloc::string::String>"%string in let s := "alloc::string::String"%string in
    [ mkEv [me] NKInline NKRoot 24;
      mkEv [me; "ptr"%string] NKUnique NKInline 8;
      mkEv [me; "ptr"; "unused_capacity"]%string NKInline NKUnique 24;
      mkEv [me; "ptr"%string; s] NKInline NKUnique 24;
      mkEv [me; "ptr"%string; s; "ptr"%string] NKUnique NKInline 8;
      mkEv [me; "ptr"%string; s; "ptr"; "capacity"]%string NKInline NKUnique 8;
      mkEv [me; "ptr"%string; s; "ptr"; "capacity"; "u8"]%string NKInline NKInline 3;
      mkEv [me; "ptr"%string; s; "ptr"; "capacity"; "unused_capacity"]%string NKInline NKInline 5;
      mkEv [me; "ptr"%string; s] NKInline NKUnique 24;
      mkEv [me; "ptr"%string; s; "ptr"%string] NKUnique NKInline 8;
      mkEv [me; "ptr"%string; s; "ptr"; "capacity"]%string NKInline NKUnique 0;
      mkEv [me; "ptr"%string; s; "ptr"; "capacity"; "u8"]%string NKInline NKInline 0;
      mkEv [me; "ptr"%string; s; "ptr"; "capacity"; "unused_capacity"]%string NKInline NKInline 0;
      mkEv [me; "ptr"%string; s] NKInline NKUnique 24;
      mkEv [me; "ptr"%string; s; "ptr"%string] NKUnique NKInline 8;
      mkEv [me; "ptr"%string; s; "ptr"; "capacity"]%string NKInline NKUnique 5;
      mkEv [me; "ptr"%string; s; "ptr"; "capacity"; "u8"]%string NKInline NKInline 5;
      mkEv [me; "ptr"%string; s; "ptr"; "capacity"; "unused_capacity"]%string NKInline NKInline 0 ].
Proof.
  destruct x_plain as (H1 & H2 & _). split; [apply x_store_typed|]. split; [exact H1|]. split; [apply x_roots_typed|]. split; [exact H2|].
  split; [apply x_no_dangling|]. split.
  { intros x i w E. apply recorded_exact; [| | |now apply x_alloc_size]; unfold x_store in E; cbn [find_obj] in E.
    - apply (find_obj_ok (proj1 (conj x_store_typed I)) (x := x) (w := w)). exact E.
    - destruct (x =? 1); [inversion E; exact I|]. destruct (x =? 2); [inversion E; exact I|]. destruct (x =? 3); [inversion E; exact I | discriminate].
    - destruct (x =? 1); [inversion E; discriminate|]. destruct (x =? 2); [inversion E; discriminate|]. destruct (x =? 3); [inversion E; discriminate | discriminate]. }
  split; [apply x_reachable_iff|]. split; vm_compute; reflexivity.
Qed.

Example C07_satisfiable : Forall frame_clean (flat_map all_names x_roots) /\
  Forall (fun xo => Forall frame_clean (inner_names (fst (snd xo)) ++ all_names (snd (snd xo)))) x_store /\
  ~ Forall frame_clean (all_names (Node (SSlice (mkT "[u8; 4]" 4 false)) [])).
Proof.
  split; [|split].
  - cbn. repeat (apply Forall_cons; [split; reflexivity|]). constructor.
  - apply Forall_forall. intros xo [<-|[<-|[<-|[]]]]; cbn; repeat (apply Forall_cons; [split; reflexivity|]); constructor.
  - cbn. intros H. inversion H as [|? ? [H1 _] _]. discriminate H1.
Qed.
