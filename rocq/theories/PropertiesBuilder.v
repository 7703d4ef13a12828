(** * Properties of the builder: C05 (builders), C10-C14, C22, C23, C41. *)
From Coq Require Import Permutation Sorted.
From Verif Require Import Base BaseFacts KeyModel KeyFacts HMap FlameModel BuilderModel VisitorModel Spec
  FlameFacts WriteFacts FlameExtra ArenaFacts RunFacts FinishFacts BuilderFacts EventFacts SolidFacts TraceFacts BuilderProps.

(** ** An example session used to show that hypotheses are satisfiable: two
    roots, a unique pointer, a pointer shared by both, a warning. *)
Definition ex_shared (k : string) (size : N) (x : ptr) : vprog :=
  VShared (key_new k) 8 x (VInline (key_new "Node") size (VInline (key_new "val") 4 VRet VRet) VRet) VRet VRet.
Definition ex_root1 : vprog :=
  VInline (key_new "A") 24
    (VUnique (key_new "ptr") 8 (VInline (key_new "T") 100 VRet VRet) (ex_shared "arc" 16 7)) VRet.
Definition ex_root2 : vprog :=
  VInline (key_new "B") 8 (vseq (ex_shared "x" 16 7) (ex_shared "y" 2 9)) VRet.
Definition ex_crash : vprog :=
  VInline (key_new "C") 50 (VUnique (key_new "ptr") 8 (VInline (key_new "U") 7 VCrash VRet) VRet) VRet.
Definition ex_roots : list vprog := [ex_root1; ex_crash; ex_root2].

Lemma ex_roots_keys : Forall (keys_in made_by_new) ex_roots.
Proof. repeat constructor; cbn [keys_in vseq ex_root1 ex_root2 ex_shared ex_crash]; unfold made_by_new; repeat split; eauto. Qed.

Lemma ex_roots_total : total_declared (root_events ex_roots) = 255.
Proof. vm_compute. reflexivity. Qed.

Definition lines (l : list string) : string := concat_str (map (fun s => (s ++ newline)%string) l).

Lemma ex_roots_output : option_map (observe_output Debug) (profile Debug ex_roots) =
  Some (lines ["A 8"; "A;arc 8"; "A;ptr 8"; "A;ptr;T 100"; "B;x 8"; "B;y 8"; "C 42"; "C;ptr 8"; "C;ptr;U 7"; "Node 10"; "Node;val 8"]%string,
        Some 215,
        lines ["Incorrect size declaration for node `B`, size of self: 8, size of inline children: 16"]%string).
Proof. vm_compute. reflexivity. Qed.

(** ** C05, builders: whatever the iteration orders of the hash maps were at
    any time during the same calls, the finished profile looks the same. *)
Theorem C05_builder_order : forall m evs b b',
  Forall (event_key_in made_by_new) evs -> sumN (map event_size evs) < two63 ->
  history m evs b 0 -> history m evs b' 0 ->
  option_map (observe_output m) (finish m b) = option_map (observe_output m) (finish m b').
Proof. exact builder_order_irrelevant. Qed.
Print Assumptions C05_builder_order.

Definition ex_events : list event :=
  [EvRoot; EvInline (key_new "A") 3; EvExit; EvInline (key_new "B") 4; EvExit; EvExit].

Example C05_builder_satisfiable : exists b b', b <> b' /\
  Forall (event_key_in made_by_new) ex_events /\ sumN (map event_size ex_events) < two63 /\
  history Debug ex_events b 0 /\ history Debug ex_events b' 0.
Proof.
  destruct (replay Debug ex_events b_default 0) as [[b0 live]|] eqn:E; [|exfalso; revert E; vm_compute; discriminate].
  assert (live = 0%nat) by (vm_compute in E; inversion E; reflexivity). subst live.
  assert (Hne : map (fun td => rev (td_children td)) (b_trees b0) <> map td_children (b_trees b0))
    by (vm_compute in E; inversion E; vm_compute; discriminate).
  assert (H : history Debug ex_events b0 0) by now apply replay_start.
  exists b0, (mkB (b_visited b0) (map (fun td => mkTD (td_size td) (td_rem td) (td_unique td) (rev (td_children td))) (b_trees b0))
               (b_current b0) (b_shared b0) (b_root b0) (b_entered b0)).
  split.
  { intros C. apply Hne. rewrite C at 2. cbn [b_trees]. rewrite map_map. reflexivity. }
  split; [repeat constructor; cbn [event_key_in]; unfold made_by_new; eauto|].
  split; [vm_compute; reflexivity|]. split; [exact H|].
  eapply history_reorder; [exact H|]. unfold reordered. cbn [b_visited b_trees b_current b_shared b_root b_entered].
  repeat (split; [reflexivity|]). clear. induction (b_trees b0); constructor; auto.
  unfold td_shuffled. cbn. repeat (split; [reflexivity|]). apply Permutation_rev.
Qed.

(** ** C10: every properly scoped history is accepted.

    After any root visits [l] (panicking ones included), the next visit [p] that
    does not itself panic returns normally, the builder can be used for another
    root afterwards, and [finish] returns normally. *)
Theorem C10_accepted : forall l p, crash_free p -> total_declared (root_events (l ++ [p])) < two63 ->
  exists b b' o, forall m,
    visit_roots m l b_default = (b, Done) /\ visit_root m p b = (b', Done) /\
    snd (root_visitor b') = Fine /\ finish m b' = Some o.
Proof. exact C10_accepted_lemma. Qed.
Print Assumptions C10_accepted.

(** Call by call: no allowed call panics (opening a root visitor while an
    earlier one was leaked is the only exception, see C11). *)
Theorem C10_no_call_panics : forall m evs b live e, history m evs b live -> allowed live e ->
  (e = EvRoot -> leaked evs = 0%nat) -> sumN (map event_size (evs ++ [e])) < two64 ->
  exists b' ret, step m b e = (b', Fine, ret).
Proof. exact history_step_ok. Qed.
Print Assumptions C10_no_call_panics.

(** With overflow checks off (release builds) this holds whatever the sizes. *)
Theorem C10_release : forall evs b live e, history Release evs b live -> allowed live e ->
  (e = EvRoot -> leaked evs = 0%nat) ->
  exists b' ret, step Release b e = (b', Fine, ret).
Proof. exact history_release. Qed.
Print Assumptions C10_release.

Example C10_satisfiable : crash_free ex_root2 /\ total_declared (root_events ([ex_root1; ex_crash] ++ [ex_root2])) < two63.
Proof. split; [cbn; tauto | vm_compute; reflexivity]. Qed.

(** ** C11: leaked visitors are always detected; otherwise [finish] succeeds. *)
Theorem C11_leak_detected : forall m m' evs b, history m evs b 0 -> (0 < leaked evs)%nat ->
  finish m' b = None /\ snd (root_visitor b) = Panicked.
Proof. exact leak_detected. Qed.
Print Assumptions C11_leak_detected.

Theorem C11_finish_iff : forall m m' evs b, history m evs b 0 -> sumN (map event_size evs) < two63 ->
  ((exists o, finish m' b = Some o) <-> leaked evs = 0%nat).
Proof.
  intros m m' evs b Hh Ht. split.
  - intros [o E]. destruct (Nat.eq_dec (leaked evs) 0) as [H0|H0]; [exact H0|].
    destruct (@leak_detected m m' evs b Hh) as [E' _]; [lia | congruence].
  - intros Hl. eapply balanced_finishes; eauto.
Qed.
Print Assumptions C11_finish_iff.

(** A builder with live visitors (the borrow checker forbids calling [finish]
    on it) would be refused too. *)
Theorem C11_live_refused : forall m m' evs b live, history m evs b live -> (0 < live)%nat ->
  finish m' b = None.
Proof.
  intros m m' evs b live Hh Hl. destruct (history_depth Hh) as [Hs Hd].
  unfold finish, finish_impl. destruct (b_shared b) as [|? ?] eqn:E1; [|reflexivity].
  destruct (ts_stack (b_current b)) as [|? ?] eqn:E2; [|reflexivity].
  destruct (b_entered b) eqn:E3; [reflexivity|].
  exfalso. unfold depth in Hd. rewrite E1, E2, E3 in Hd. cbn in Hd. lia.
Qed.
Print Assumptions C11_live_refused.

Example C11_satisfiable :
  let evs := [EvRoot; EvInline (key_new "A") 8; EvShared (key_new "p") 8 1; EvForget; EvExit; EvExit] in
  exists b, history Debug evs b 0 /\ leaked evs = 1%nat.
Proof.
  cbn zeta. eexists. split; [|reflexivity]. apply replay_start. vm_compute. reflexivity.
Qed.

(** ** C12: the flame graph is exactly what was declared, minus inline children.

    In both build modes the finished graph shows at each path exactly
    [shown_s], its text is the sorted listing of these numbers, its total is
    their sum, and it is a graph as obtained from the FlameGraph API (so
    C01-C06 apply to it). *)
Theorem C12_exact : forall l, Forall (keys_in made_by_new) l -> total_declared (root_events l) < two63 ->
  exists o, (forall m, profile m l = Some o) /\
    (forall p, size_at (out_flamegraph o) p = shown_s (root_events l) p) /\
    (exists L, listing (shown_s (root_events l)) L /\
       fg_write (out_flamegraph o) = concat_str (map folded_line L) /\
       forall m, fg_total_size m (out_flamegraph o) = Some (sumN (map snd L))) /\
    (forall m, fg_api m made_by_new (out_flamegraph o)).
Proof. exact C12_exact_lemma. Qed.
Print Assumptions C12_exact.

(** [finish_and_write_flame_graph] gives that text and nothing else (in
    particular no warnings). *)
Theorem C12_text : forall m l, Forall (keys_in made_by_new) l -> total_declared (root_events l) < two63 ->
  exists b L, visit_roots m l b_default = (b, Done) /\ listing (shown_s (root_events l)) L /\
    finish_and_write m b = Some (concat_str (map folded_line L)).
Proof.
  intros m l Hk Ht. destruct (C12_exact Hk Ht) as (o & H1 & _ & (L & H2 & H3 & _) & _). specialize (H1 m). unfold profile in H1.
  destruct (visit_roots m l b_default) as [b [| |]] eqn:E; try discriminate.
  - exists b, L. split; [reflexivity|]. split; [exact H2|]. unfold finish_and_write. now rewrite H1, <- H3.
  - exfalso. assert (G : forall l b0 b1 o1, visit_roots m l b0 = (b1, o1) -> o1 <> Unwinding).
    { clear. induction l as [|p l IH]; cbn [visit_roots]; intros b0 b1 o1 X; [injection X as <- <-; discriminate|].
      destruct (visit_root m p b0) as [b2 [| |]]; eauto. injection X as <- <-. discriminate. }
    eapply G; eauto.
Qed.
Print Assumptions C12_text.

Example C12_satisfiable : Forall (keys_in made_by_new) ex_roots /\ total_declared (root_events ex_roots) < two63 /\
  shown_s (root_events ex_roots) ["Node"%string] = 10.
Proof. split; [exact ex_roots_keys|]. split; vm_compute; reflexivity. Qed.

(** ** C13: warnings are exact. *)
Theorem C13_warnings : forall l, Forall (keys_in made_by_new) l -> total_declared (root_events l) < two63 ->
  exists o L, (forall m, profile m l = Some o) /\
    out_warnings o = concat_str (map (warning_for (root_events l)) L) /\
    StronglySorted path_lt L /\ (forall p, In p L <-> misdeclared_s (root_events l) p) /\
    (out_warnings o = EmptyString <-> forall p, ~ misdeclared_s (root_events l) p).
Proof. exact C13_warnings_lemma. Qed.
Print Assumptions C13_warnings.

Example C13_satisfiable : misdeclared_s (root_events ex_roots) ["B"%string] /\
  ~ misdeclared_s (root_events ex_roots) ["A"%string].
Proof.
  split.
  - split; [discriminate | vm_compute; reflexivity].
  - intros [_ H]. vm_compute in H. discriminate.
Qed.

(** ** C14: shared pointees are entered once, and at top level.

    [enter_shared] returns a visitor iff no earlier call on the builder named
    the same pointer. *)
Theorem C14_first_time_only : forall m evs b live k s x b' ret, history m evs b live ->
  step m b (EvShared k s x) = (b', Fine, ret) -> ret = negb (existsb (mentions x) evs).
Proof. exact shared_returns. Qed.
Print Assumptions C14_first_time_only.

(** The contents of a new pointer, met inside any nest of scopes, are reported
    exactly as if they had been visited as a root of their own; the pointer
    itself contributes its declared size like an inline field. *)
Theorem C14_top_level : forall m l ks k s x body,
  Forall (keys_in made_by_new) (l ++ [nest ks (VShared k s x body VRet VRet)]) ->
  ~ In x (flat_map pointers l) -> ~ In x (pointers body) ->
  total_declared (root_events (l ++ [nest ks (VShared k s x body VRet VRet)])) < two63 ->
  option_map (observe_output m) (profile m (l ++ [nest ks (VShared k s x body VRet VRet)])) =
  option_map (observe_output m) (profile m (l ++ [nest ks (VInline k s VRet VRet); body])).
Proof. exact C14_top_level_lemma. Qed.
Print Assumptions C14_top_level.

(** Each further encounter counts as an inline field of the declared size, and
    the contents are not visited. *)
Theorem C14_further_encounters : forall m l ks k s x body r1 r2, visited_by l x ->
  Forall (keys_in made_by_new) (l ++ [nest ks (VShared k s x body r1 r2)]) ->
  total_declared (root_events (l ++ [nest ks (VShared k s x body r1 r2)])) < two63 ->
  option_map (observe_output m) (profile m (l ++ [nest ks (VShared k s x body r1 r2)])) =
  option_map (observe_output m) (profile m (l ++ [nest ks (VInline k s VRet r2)])).
Proof. exact C14_again_lemma. Qed.
Print Assumptions C14_further_encounters.

Example C14_satisfiable : visited_by [ex_root1] 7 /\ ~ In 9 (flat_map pointers [ex_root1]) /\
  total_declared (root_events ([ex_root1] ++ [nest [(key_new "B", 8)] (ex_shared "x" 16 7)])) < two63 /\
  total_declared (root_events ([ex_root1] ++ [nest [(key_new "B", 8)] (ex_shared "y" 16 9)])) < two63.
Proof. repeat split; try (vm_compute; reflexivity). vm_compute. intuition discriminate. Qed.

(** ** C22: below 2^63 both build modes compute the same, without panics, for
    any keys whatever. *)
Theorem C22_modes_agree : forall l, total_declared (root_events l) < two63 ->
  exists o, forall m, profile m l = Some o.
Proof. exact C22_modes_lemma. Qed.
Print Assumptions C22_modes_agree.

Example C22_satisfiable : total_declared (root_events [ex_root1; VInline (key_new_unchecked 3 "A") (2 ^ 62) VCrash VRet; ex_root2]) < two63 /\
  profile Debug [ex_root1; VInline (key_new_unchecked 3 "A") (2 ^ 62) VCrash VRet; ex_root2] <> None.
Proof. split; vm_compute; congruence. Qed.

(** The bound is tight: with exactly 2^63 declared bytes the graph is empty
    and a warning is printed although nothing is misdeclared. *)
Theorem C22_bound_tight_refuted : exists l, Forall (keys_in made_by_new) l /\
  total_declared (root_events l) = two63 /\
  (forall p, ~ misdeclared_s (root_events l) p) /\
  exists o, (forall m, profile m l = Some o) /\ fg_write (out_flamegraph o) = EmptyString /\
            out_warnings o <> EmptyString.
Proof.
  exists [VInline (key_new "A") two63 VRet VRet].
  split; [repeat constructor; unfold made_by_new; eauto|].
  split; [vm_compute; reflexivity|]. split.
  - intros p [Hp Hlt]. cbn [root_events trace_roots trace fst app] in Hlt.
    unfold inline_below in Hlt. destruct (unique_at _ _ _); [lia|].
    unfold declared_below in Hlt. cbn [map sumN ev_path ev_size] in Hlt.
    destruct p as [|a p]; [congruence|]. unfold child_of in Hlt. cbn [removelast] in Hlt.
    destruct (path_dec string_dec [] (a :: p)); [discriminate|]. lia.
  - eexists. split; [intros m; destruct m; vm_compute; reflexivity|].
    split; [reflexivity | discriminate].
Qed.
Print Assumptions C22_bound_tight_refuted.

(** ** C23: panics in client code.

    Whatever has been visited before (including visits that panicked), a visit
    [q] that may panic anywhere ends with a usable builder. *)
Theorem C23_usable : forall l q, total_declared (root_events (l ++ [q])) < two63 ->
  exists b b' o, forall m, visit_roots m l b_default = (b, Done) /\
    (visit_root m q b = (b', Done) \/ visit_root m q b = (b', Unwinding)) /\
    snd (root_visitor b') = Fine /\ finish m b' = Some o.
Proof. exact C23_usable_lemma. Qed.
Print Assumptions C23_usable.

(** What a visit [q], obtained from [p] by inserting panics, has recorded when
    it unwinds is an initial part of what [p] would have recorded; later roots
    add to it.  C12 and C13 then give the report of [l ++ q :: l']. *)
Theorem C23_recorded : forall l p q l', cut p q ->
  exists es rest, root_events (l ++ [q]) = root_events l ++ es /\
    root_events (l ++ [p]) = root_events l ++ es ++ rest /\
    exists es', root_events (l ++ q :: l') = root_events l ++ es ++ es'.
Proof. exact C23_recorded_lemma. Qed.
Print Assumptions C23_recorded.

Example C23_satisfiable : cut
  (VInline (key_new "C") 50 (VUnique (key_new "ptr") 8 (VInline (key_new "U") 7 VRet VRet) VRet) VRet) ex_crash /\
  (exists b, visit_root Debug ex_crash b_default = (b, Unwinding)) /\
  total_declared (root_events ([ex_root1] ++ [ex_crash])) < two63.
Proof.
  split; [apply cut_inline; [apply cut_unique; [apply cut_inline; constructor|]|]; constructor|].
  split; [eexists; vm_compute; reflexivity | vm_compute; reflexivity].
Qed.

(** The exception: a panic raised by the builder's own checked addition (the
    smallest possible total, 2^64) leaves the builder unusable. *)
Theorem C23_builder_overflow_refuted : exists p b, crash_free p /\ keys_in made_by_new p /\
  total_declared (root_events [p]) = two64 /\
  visit_root Debug p b_default = (b, Unwinding) /\
  snd (root_visitor b) = Panicked /\ finish Debug b = None.
Proof.
  exists (VInline (key_new "A") (two64 - 1) VRet (VInline (key_new "A") 1 VRet VRet)).
  eexists. split; [cbn; tauto|]. split; [cbn [keys_in]; unfold made_by_new; repeat split; eauto|].
  split; [vm_compute; reflexivity|]. split; [vm_compute; reflexivity|]. split; vm_compute; reflexivity.
Qed.
Print Assumptions C23_builder_overflow_refuted.

(** ** C41: [enter_shared] on a visited pointer returns [None] and has exactly
    the effect of entering and leaving an inline scope of the declared size. *)
Theorem C41_repeated_enter_shared : forall m evs b live k s x, history m evs b live ->
  existsb (mentions x) evs = true -> forall b' ret,
  (step m b (EvShared k s x) = (b', Fine, ret) <->
   ret = false /\ exists b1, step m b (EvInline k s) = (b1, Fine, true) /\ step m b1 EvExit = (b', Fine, false)).
Proof.
  intros m evs b live k s x Hh Hx b' ret. cbn [step].
  rewrite (@shared_again m b k s x) by (rewrite (history_visited Hh); exact Hx).
  split; intros [-> (b1 & H1 & H2)]; (split; [reflexivity|]); exists b1.
  - rewrite H1, H2. auto.
  - inversion H1. inversion H2. auto.
Qed.
Print Assumptions C41_repeated_enter_shared.

Example C41_satisfiable : let evs := [EvRoot; EvShared (key_new "p") 8 1; EvExit; EvInline (key_new "A") 8] in
  existsb (mentions 1) evs = true /\ exists b, history Debug evs b 2.
Proof.
  cbv zeta. split; [reflexivity|].
  eexists. apply replay_start. vm_compute. reflexivity.
Qed.

(** In particular it does not "do nothing". *)
Theorem C41_does_nothing_refuted : exists l l', Forall (keys_in made_by_new) l /\
  Forall (keys_in made_by_new) l' /\
  l' = l ++ [VShared (key_new "p") 8 1 VRet VRet VRet] /\ visited_by l 1 /\
  option_map (observe_output Debug) (profile Debug l) <> option_map (observe_output Debug) (profile Debug l').
Proof.
  exists [VShared (key_new "p") 8 1 VRet VRet VRet]. eexists. 
  split; [repeat constructor; unfold made_by_new; eauto|].
  split; [|split; [reflexivity|]; split; [reflexivity|vm_compute; discriminate]].
  repeat constructor; unfold made_by_new; eauto.
Qed.
Print Assumptions C41_does_nothing_refuted.
