(** * Profiles of any size: C61. *)
From Coq Require Import Permutation Sorted.
From Verif Require Import Base BaseFacts KeyModel KeyFacts HMap FlameModel BuilderModel VisitorModel Spec
  BuilderFacts WrapSpec WrapModes WrapProps.

(** Examples: one frame; a frame around two others. *)
Definition ex_big (s : string) (n : N) : vprog := VInline (key_new s) n VRet VRet.
Definition ex_two (n x y : N) : vprog := VInline (key_new "a") n (VInline (key_new "b1") x VRet (VInline (key_new "b2") y VRet VRet)) VRet.
Definition ex_huge : list vprog := [ex_big "big" (2 ^ 63); ex_two 5 (2 ^ 63) 0; ex_big "c" (2 ^ 64 - 1); ex_big "c" 3; VInline (key_new "d") 9 VCrash VRet].

Lemma ex_huge_keys : Forall (keys_in made_by_new) ex_huge.
Proof. repeat constructor; cbn [keys_in ex_big ex_two]; unfold made_by_new; repeat split; eauto. Qed.

(** ** C61: without overflow checks every session ends in a report, and this is it. *)
Theorem C61_release : forall l, Forall (keys_in made_by_new) l ->
  exists o L W, profile Release l = Some o /\
    (forall p, size_at (out_flamegraph o) p = shown_wrapped_s (root_events l) p) /\
    listing (shown_wrapped_s (root_events l)) L /\
    fg_write (out_flamegraph o) = concat_str (map folded_line L) /\
    fg_total_size Release (out_flamegraph o) = Some (low64 (sumN (map snd L))) /\
    out_warnings o = concat_str (map (warning_wrapped (root_events l)) W) /\
    StronglySorted path_lt W /\ (forall p, In p W <-> flagged_wrapped_s (root_events l) p).
Proof. intros l H. destruct (C61_release_lemma H) as (o & L & W & E & []). exists o, L, W. auto 10. Qed.
Print Assumptions C61_release.

Example C61_satisfiable : Forall (keys_in made_by_new) ex_huge /\
  option_map (observe_output Release) (profile Release ex_huge) =
    Some (("a 9223372036854775807" ++ newline ++ "c 2" ++ newline ++ "d 9" ++ newline)%string, Some 9223372036854775818,
      ("Incorrect size declaration for node `a;b1`, size of self: 9223372036854775808, size of inline children: 0" ++ newline ++
       "Incorrect size declaration for node `big`, size of self: 9223372036854775808, size of inline children: 0" ++ newline)%string).
Proof. split; [exact ex_huge_keys | vm_compute; reflexivity]. Qed.

(** Whatever the keys, nothing panics. *)
Theorem C61_visits : forall l p, crash_free p ->
  exists b b' o, visit_roots Release l b_default = (b, Done) /\ visit_root Release p b = (b', Done) /\
    snd (root_visitor b') = Fine /\ finish Release b' = Some o.
Proof. exact C61_visits_lemma. Qed.
Print Assumptions C61_visits.

Example C61_visits_satisfiable : crash_free (ex_two (2 ^ 64 - 1) (2 ^ 64 - 1) 1).
Proof. cbn. tauto. Qed.

(** Where both numbers of a stack are below 2^63 this is the report of C12 and C13. *)
Theorem C61_small : forall es p, declared_s es p < 2 ^ 63 -> inline_below_s es p < 2 ^ 63 ->
  shown_wrapped_s es p = shown_s es p /\ (flagged_wrapped_s es p <-> misdeclared_s es p) /\
  (misdeclared_s es p -> warning_wrapped es p = warning_for es p).
Proof. exact C61_small_lemma. Qed.
Print Assumptions C61_small.

Example C61_small_satisfiable : declared_s (root_events [ex_two 5 6 7]) ["a"%string] < 2 ^ 63 /\
  inline_below_s (root_events [ex_two 5 6 7]) ["a"%string] < 2 ^ 63 /\ misdeclared_s (root_events [ex_two 5 6 7]) ["a"%string].
Proof. split; [vm_compute; reflexivity|]. split; [vm_compute; reflexivity|]. split; [discriminate | vm_compute; reflexivity]. Qed.

(** A stack whose declarations are consistent is shown with its true own bytes
    when 2^63 does not separate the two numbers; when it does, it is reported
    as wrongly declared and its bytes are missing from the graph. *)
Theorem C61_true : forall es p, p <> [] -> declared_s es p < 2 ^ 64 -> inline_below_s es p <= declared_s es p ->
  (declared_s es p < 2 ^ 63 \/ 2 ^ 63 <= inline_below_s es p ->
     shown_wrapped_s es p = shown_s es p /\ ~ flagged_wrapped_s es p) /\
  (inline_below_s es p < 2 ^ 63 <= declared_s es p ->
     shown_wrapped_s es p = 0 /\ flagged_wrapped_s es p /\ 0 < shown_s es p).
Proof. exact C61_true_lemma. Qed.
Print Assumptions C61_true.

Example C61_true_satisfiable :
  let es := root_events [ex_two (2 ^ 63 + 7) (2 ^ 63) 5; ex_big "c" (2 ^ 63)] in
  declared_s es ["a"%string] < 2 ^ 64 /\ 2 ^ 63 <= inline_below_s es ["a"%string] <= declared_s es ["a"%string] /\
  declared_s es ["c"%string] < 2 ^ 64 /\ inline_below_s es ["c"%string] < 2 ^ 63 <= declared_s es ["c"%string].
Proof. vm_compute. repeat split; discriminate. Qed.

(** A wrongly declared stack may show bytes that do not exist, unreported. *)
Theorem C61_phantom_refuted : ~ (forall l o p, Forall (keys_in made_by_new) l -> profile Release l = Some o ->
  size_at (out_flamegraph o) p <= declared_s (root_events l) p \/ out_warnings o <> EmptyString).
Proof.
  intros H. destruct (profile Release [ex_two 5 (2 ^ 62) (2 ^ 62)]) as [o|] eqn:E; [|vm_compute in E; discriminate].
  assert (HK : Forall (keys_in made_by_new) [ex_two 5 (2 ^ 62) (2 ^ 62)]).
  { repeat constructor; cbn [keys_in ex_two]; unfold made_by_new; repeat split; eauto. }
  destruct (H _ _ ["a"%string] HK E) as [H1|H1]; vm_compute in E; inversion E; subst o; clear E.
  - vm_compute in H1. now apply H1.
  - vm_compute in H1. now apply H1.
Qed.
Print Assumptions C61_phantom_refuted.

(** ** With overflow checks: the same report, or a panic. *)
Theorem C61_modes : forall l o, profile Debug l = Some o -> profile Release l = Some o.
Proof. exact profile_modes. Qed.
Print Assumptions C61_modes.

(** As long as the bytes declared at each stack fit, visits do not panic; and
    [finish] panics exactly when the bytes declared directly inside some stack,
    or the bytes shown in the graph, do not fit. *)
Theorem C61_debug : forall l, Forall (keys_in made_by_new) l -> (forall p, declared_s (root_events l) p < 2 ^ 64) ->
  exists o L, profile Release l = Some o /\ listing (shown_wrapped_s (root_events l)) L /\
    ((forall p, inline_below_s (root_events l) p < 2 ^ 64) /\ sumN (map snd L) < 2 ^ 64 -> profile Debug l = Some o) /\
    (~ ((forall p, inline_below_s (root_events l) p < 2 ^ 64) /\ sumN (map snd L) < 2 ^ 64) -> profile Debug l = None).
Proof. exact C61_debug_lemma. Qed.
Print Assumptions C61_debug.

(** Both happen; [finish] may panic although the declared sizes all together fit. *)
Definition ex_late : list vprog := [ex_two 0 (2 ^ 62) (2 ^ 62); ex_big "c" (2 ^ 62)].
Example C61_debug_satisfiable :
  Forall (keys_in made_by_new) ex_late /\ total_declared (root_events ex_late) < 2 ^ 64 /\
  profile Debug ex_late = None /\ profile Release ex_late <> None /\
  Forall (keys_in made_by_new) [ex_two 5 (2 ^ 62) (2 ^ 62)] /\ profile Debug [ex_two 5 (2 ^ 62) (2 ^ 62)] <> None.
Proof.
  repeat match goal with |- _ /\ _ => split end; try (vm_compute; congruence).
  all: repeat constructor; cbn [keys_in ex_two ex_big]; unfold made_by_new; repeat split; eauto.
Qed.

(** Visits themselves do not panic as long as the bytes declared at each stack fit. *)
Theorem C61_fits : forall l p, Forall (keys_in made_by_new) (l ++ [p]) -> crash_free p ->
  (forall q, declared_s (root_events (l ++ [p])) q < 2 ^ 64) ->
  exists b b', visit_roots Debug l b_default = (b, Done) /\ visit_root Debug p b = (b', Done) /\ snd (root_visitor b') = Fine.
Proof. exact C61_fits_lemma. Qed.
Print Assumptions C61_fits.

(** The visit in which the bytes declared at some stack stop fitting panics,
    and leaves the builder unusable. *)
Theorem C61_overflow : forall l p, Forall (keys_in made_by_new) (l ++ [p]) ->
  (forall q, declared_s (root_events l) q < 2 ^ 64) -> ~ (forall q, declared_s (root_events (l ++ [p])) q < 2 ^ 64) ->
  exists b b', visit_roots Debug l b_default = (b, Done) /\ visit_root Debug p b = (b', Unwinding) /\
    snd (root_visitor b') = Panicked /\ (forall m, finish m b' = None).
Proof. exact C61_overflow_lemma. Qed.
Print Assumptions C61_overflow.

Example C61_overflow_satisfiable : Forall (keys_in made_by_new) ([ex_big "c" (2 ^ 63)] ++ [ex_big "c" (2 ^ 63)]) /\
  (forall q, declared_s (root_events [ex_big "c" (2 ^ 63)]) q < 2 ^ 64) /\
  ~ (forall q, declared_s (root_events ([ex_big "c" (2 ^ 63)] ++ [ex_big "c" (2 ^ 63)])) q < 2 ^ 64).
Proof.
  split; [|split].
  - repeat constructor; cbn [keys_in ex_big]; unfold made_by_new; repeat split; eauto.
  - intros q. change (root_events [ex_big "c" (2 ^ 63)]) with [mkEv [k_str (key_new "c")] NKInline NKRoot (2 ^ 63)].
    unfold declared_s, declared. cbn [map sumN ev_path ev_size]. destruct (path_dec _ _ _); lia.
  - intros H. specialize (H ["c"%string]). vm_compute in H. discriminate.
Qed.
