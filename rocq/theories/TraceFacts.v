(** * Facts about traces. *)
From Coq Require Import Permutation Sorted.
From Verif Require Import Base BaseFacts KeyModel KeyFacts HMap FlameModel BuilderModel VisitorModel Spec
  FlameFacts WriteFacts ArenaFacts RunFacts FinishFacts FlameExtra BuilderFacts.

Section Tr.
  Variable A : Type.
  Variable name : key -> A.
  Notation trace := (trace name).
  Notation trace_roots := (trace_roots name).

  Lemma crash_free_ok p : forall vis here nk, crash_free p -> snd (trace p vis here nk) = true.
  Proof.
    induction p as [| |k s body IHb rest IHr|k s body IHb rest IHr|k s x body IHb r1 IH1 r2 IH2];
      intros vis here nk; cbn [crash_free Spec.trace]; intros H; try tauto.
    - destruct H as [Hb Hr]. specialize (IHb vis (here ++ [name k]) NKInline Hb).
      destruct (trace body vis (here ++ [name k]) NKInline) as [[e1 v1] o1]. cbn in IHb. subst o1.
      specialize (IHr v1 here nk Hr). destruct (trace rest v1 here nk) as [[e2 v2] o2]. exact IHr.
    - destruct H as [Hb Hr]. specialize (IHb vis (here ++ [name k]) NKUnique Hb).
      destruct (trace body vis (here ++ [name k]) NKUnique) as [[e1 v1] o1]. cbn in IHb. subst o1.
      specialize (IHr v1 here nk Hr). destruct (trace rest v1 here nk) as [[e2 v2] o2]. exact IHr.
    - destruct H as (Hb & H1 & H2). destruct (ptr_mem x vis).
      + specialize (IH2 vis here nk H2). destruct (trace r2 vis here nk) as [[e2 v2] o2]. exact IH2.
      + specialize (IHb (x :: vis) [] NKShared Hb).
        destruct (trace body (x :: vis) [] NKShared) as [[e1 v1] o1]. cbn in IHb. subst o1.
        specialize (IH1 v1 here nk H1). destruct (trace r1 v1 here nk) as [[e2 v2] o2]. exact IH1.
  Qed.

  Lemma ptr_mem_app x l l' : ptr_mem x (l ++ l') = ptr_mem x l || ptr_mem x l'.
  Proof. unfold ptr_mem. apply existsb_app. Qed.

  Lemma ptr_mem_In x l : ptr_mem x l = true <-> In x l.
  Proof.
    unfold ptr_mem. rewrite existsb_exists. split.
    - intros (y & Hy & E). apply N.eqb_eq in E. now subst.
    - intros H. exists x. split; [auto | apply N.eqb_refl].
  Qed.

  (** The visited set matters only for pointers that occur in the program. *)
  Lemma trace_vis_ext p : forall vis vis' here nk,
    (forall y, In y (pointers p) -> ptr_mem y vis = ptr_mem y vis') ->
    exists es add ok, trace p vis here nk = (es, add ++ vis, ok) /\ trace p vis' here nk = (es, add ++ vis', ok).
  Proof.
    assert (Hadd : forall add vis vis' (l : list ptr), (forall y, In y l -> ptr_mem y vis = ptr_mem y vis') ->
              forall y, In y l -> ptr_mem y (add ++ vis) = ptr_mem y (add ++ vis')).
    { intros add vis vis' l H y Hy. rewrite !ptr_mem_app. f_equal. auto. }
    induction p as [| |k s body IHb rest IHr|k s body IHb rest IHr|k s x body IHb r1 IH1 r2 IH2];
      intros vis vis' here nk Hv; cbn [Spec.trace pointers] in *.
    - exists [], [], true. auto.
    - exists [], [], false. auto.
    - destruct (IHb vis vis' (here ++ [name k]) NKInline) as (e1 & a1 & o1 & E1 & E1').
      { intros y Hy. apply Hv, in_or_app. auto. }
      rewrite E1, E1'. destruct o1; [|eauto 6].
      destruct (IHr (a1 ++ vis) (a1 ++ vis') here nk) as (e2 & a2 & o2 & E2 & E2').
      { apply Hadd. intros y Hy. apply Hv, in_or_app. auto. }
      rewrite E2, E2'. exists (mkEv (here ++ [name k]) NKInline nk s :: e1 ++ e2), (a2 ++ a1), o2. now rewrite <- !app_assoc.
    - destruct (IHb vis vis' (here ++ [name k]) NKUnique) as (e1 & a1 & o1 & E1 & E1').
      { intros y Hy. apply Hv, in_or_app. auto. }
      rewrite E1, E1'. destruct o1; [|eauto 6].
      destruct (IHr (a1 ++ vis) (a1 ++ vis') here nk) as (e2 & a2 & o2 & E2 & E2').
      { apply Hadd. intros y Hy. apply Hv, in_or_app. auto. }
      rewrite E2, E2'. exists (mkEv (here ++ [name k]) NKUnique nk s :: e1 ++ e2), (a2 ++ a1), o2. now rewrite <- !app_assoc.
    - rewrite <- (Hv x) by now left. destruct (ptr_mem x vis) eqn:Ex.
      + destruct (IH2 vis vis' here nk) as (e2 & a2 & o2 & E2 & E2').
        { intros y Hy. apply Hv. right. rewrite !in_app_iff. auto. }
        rewrite E2, E2'. eauto 6.
      + destruct (IHb (x :: vis) (x :: vis') [] NKShared) as (e1 & a1 & o1 & E1 & E1').
        { intros y Hy. cbn. f_equal. apply Hv. right. rewrite !in_app_iff. auto. }
        rewrite E1, E1'. destruct o1.
        * destruct (IH1 (a1 ++ x :: vis) (a1 ++ x :: vis') here nk) as (e2 & a2 & o2 & E2 & E2').
          { apply Hadd. intros y Hy. cbn. f_equal. apply Hv. right. rewrite !in_app_iff. auto. }
          rewrite E2, E2'. exists (mkEv (here ++ [name k]) NKShared nk s :: e1 ++ e2), (a2 ++ a1 ++ [x]), o2.
          rewrite <- !app_assoc. cbn [app]. auto.
        * exists (mkEv (here ++ [name k]) NKShared nk s :: e1), (a1 ++ [x]), false. rewrite <- !app_assoc. auto.
  Qed.

  (** Visited pointers come from the program. *)
  Lemma trace_vis_sub p : forall vis here nk es vis' ok, trace p vis here nk = (es, vis', ok) ->
    forall y, ptr_mem y vis' = true -> In y (pointers p) \/ ptr_mem y vis = true.
  Proof.
    induction p as [| |k s body IHb rest IHr|k s body IHb rest IHr|k s x body IHb r1 IH1 r2 IH2];
      intros vis here nk es vis' ok E y Hy; cbn [Spec.trace pointers] in *.
    - inversion E; subst; auto.
    - inversion E; subst; auto.
    - destruct (trace body vis (here ++ [name k]) NKInline) as [[e1 v1] o1] eqn:E1. destruct o1.
      + destruct (trace rest v1 here nk) as [[e2 v2] o2] eqn:E2. inversion E; subst.
        destruct (IHr _ _ _ _ _ _ E2 y Hy) as [H|H]; [left; rewrite in_app_iff; auto|].
        destruct (IHb _ _ _ _ _ _ E1 y H) as [H'|H']; [left; rewrite in_app_iff; auto | auto].
      + inversion E; subst. destruct (IHb _ _ _ _ _ _ E1 y Hy) as [H'|H']; [left; rewrite in_app_iff; auto | auto].
    - destruct (trace body vis (here ++ [name k]) NKUnique) as [[e1 v1] o1] eqn:E1. destruct o1.
      + destruct (trace rest v1 here nk) as [[e2 v2] o2] eqn:E2. inversion E; subst.
        destruct (IHr _ _ _ _ _ _ E2 y Hy) as [H|H]; [left; rewrite in_app_iff; auto|].
        destruct (IHb _ _ _ _ _ _ E1 y H) as [H'|H']; [left; rewrite in_app_iff; auto | auto].
      + inversion E; subst. destruct (IHb _ _ _ _ _ _ E1 y Hy) as [H'|H']; [left; rewrite in_app_iff; auto | auto].
    - destruct (ptr_mem x vis) eqn:Ex.
      + destruct (trace r2 vis here nk) as [[e2 v2] o2] eqn:E2. inversion E; subst.
        destruct (IH2 _ _ _ _ _ _ E2 y Hy) as [H|H]; [left; right; rewrite !in_app_iff; auto | auto].
      + destruct (trace body (x :: vis) [] NKShared) as [[e1 v1] o1] eqn:E1.
        assert (Hb : forall y, ptr_mem y v1 = true -> In y (x :: pointers body ++ pointers r1 ++ pointers r2) \/ ptr_mem y vis = true).
        { intros z Hz. destruct (IHb _ _ _ _ _ _ E1 z Hz) as [H|H].
          - left. right. rewrite !in_app_iff. auto.
          - cbn in H. apply orb_true_iff in H as [H|H]; [apply N.eqb_eq in H; subst; left; now left | auto]. }
        destruct o1.
        * destruct (trace r1 v1 here nk) as [[e2 v2] o2] eqn:E2. inversion E; subst.
          destruct (IH1 _ _ _ _ _ _ E2 y Hy) as [H|H]; [left; right; rewrite !in_app_iff; auto | auto].
        * inversion E; subst. auto.
  Qed.

  Lemma trace_roots_sub l : forall vis es vis', trace_roots l vis = (es, vis') ->
    forall y, ptr_mem y vis' = true -> In y (flat_map pointers l) \/ ptr_mem y vis = true.
  Proof.
    induction l as [|p l IH]; intros vis es vis' E y Hy; cbn [Spec.trace_roots flat_map] in *.
    - inversion E; subst; auto.
    - destruct (trace p vis [] NKRoot) as [[e1 v1] o1] eqn:E1. destruct (trace_roots l v1) as [e2 v2] eqn:E2.
      inversion E; subst. rewrite in_app_iff. destruct (IH _ _ _ E2 y Hy) as [H|H]; [auto|].
      destruct (trace_vis_sub E1 H); auto.
  Qed.

  Lemma trace_roots_app l l' : forall vis,
    trace_roots (l ++ l') vis =
    let '(e1, v1) := trace_roots l vis in let '(e2, v2) := trace_roots l' v1 in (e1 ++ e2, v2).
  Proof.
    induction l as [|p l IH]; intros vis; cbn [app Spec.trace_roots].
    - destruct (trace_roots l' vis); reflexivity.
    - destruct (trace p vis [] NKRoot) as [[e1 v1] o1]. rewrite IH.
      destruct (trace_roots l v1) as [e2 v2]. destruct (trace_roots l' v2) as [e3 v3]. now rewrite app_assoc.
  Qed.

  (** Injected panics only shorten the trace. *)
  Lemma cut_prefix p q : cut p q -> forall vis here nk,
    exists es2, fst (fst (trace p vis here nk)) = fst (fst (trace q vis here nk)) ++ es2 /\
    (snd (trace q vis here nk) = true -> trace p vis here nk = trace q vis here nk).
  Proof.
    induction 1 as [p|p|k s b b' r r' Hb IHb Hr IHr|k s b b' r r' Hb IHb Hr IHr|k s x b b' r1 r1' r2 r2' Hb IHb H1 IH1 H2 IH2];
      intros vis here nk.
    - exists []. now rewrite app_nil_r.
    - exists (fst (fst (trace p vis here nk))). cbn. split; [auto|discriminate].
    - cbn [Spec.trace]. destruct (IHb vis (here ++ [name k]) NKInline) as (eb & E1 & E2).
      destruct (trace b' vis (here ++ [name k]) NKInline) as [[e1' v1'] o1'].
      destruct (trace b vis (here ++ [name k]) NKInline) as [[e1 v1] o1]. cbn [fst snd] in *.
      destruct o1'.
      + specialize (E2 eq_refl). inversion E2; subst. destruct (IHr v1' here nk) as (er & F1 & F2).
        destruct (trace r v1' here nk) as [[e2 v2] o2]. destruct (trace r' v1' here nk) as [[e2' v2'] o2']. cbn [fst snd] in *.
        exists er. subst e2. split; [cbn; now rewrite app_assoc|]. intros Ho. specialize (F2 Ho). congruence.
      + subst e1. destruct o1.
        * destruct (trace r v1 here nk) as [[e2 v2] o2]. cbn [fst snd]. exists (eb ++ e2). cbn. rewrite app_assoc. split; [auto|discriminate].
        * exists eb. cbn. split; [auto|discriminate].
    - cbn [Spec.trace]. destruct (IHb vis (here ++ [name k]) NKUnique) as (eb & E1 & E2).
      destruct (trace b' vis (here ++ [name k]) NKUnique) as [[e1' v1'] o1'].
      destruct (trace b vis (here ++ [name k]) NKUnique) as [[e1 v1] o1]. cbn [fst snd] in *.
      destruct o1'.
      + specialize (E2 eq_refl). inversion E2; subst. destruct (IHr v1' here nk) as (er & F1 & F2).
        destruct (trace r v1' here nk) as [[e2 v2] o2]. destruct (trace r' v1' here nk) as [[e2' v2'] o2']. cbn [fst snd] in *.
        exists er. subst e2. split; [cbn; now rewrite app_assoc|]. intros Ho. specialize (F2 Ho). congruence.
      + subst e1. destruct o1.
        * destruct (trace r v1 here nk) as [[e2 v2] o2]. cbn [fst snd]. exists (eb ++ e2). cbn. rewrite app_assoc. split; [auto|discriminate].
        * exists eb. cbn. split; [auto|discriminate].
    - cbn [Spec.trace]. destruct (ptr_mem x vis).
      + destruct (IH2 vis here nk) as (e & F1 & F2).
        destruct (trace r2 vis here nk) as [[e2 v2] o2]. destruct (trace r2' vis here nk) as [[e2' v2'] o2']. cbn [fst snd] in *.
        exists e. subst e2. split; [reflexivity|]. intros Ho. specialize (F2 Ho). congruence.
      + destruct (IHb (x :: vis) [] NKShared) as (eb & E1 & E2).
        destruct (trace b' (x :: vis) [] NKShared) as [[e1' v1'] o1'].
        destruct (trace b (x :: vis) [] NKShared) as [[e1 v1] o1]. cbn [fst snd] in *.
        destruct o1'.
        * specialize (E2 eq_refl). inversion E2; subst. destruct (IH1 v1' here nk) as (er & F1 & F2).
          destruct (trace r1 v1' here nk) as [[e2 v2] o2]. destruct (trace r1' v1' here nk) as [[e2' v2'] o2']. cbn [fst snd] in *.
          exists er. subst e2. split; [cbn; now rewrite app_assoc|]. intros Ho. specialize (F2 Ho). congruence.
        * subst e1. destruct o1.
          -- destruct (trace r1 v1 here nk) as [[e2 v2] o2]. cbn [fst snd]. exists (eb ++ e2). cbn. rewrite app_assoc. split; [auto|discriminate].
          -- exists eb. cbn. split; [auto|discriminate].
  Qed.
End Tr.

(** ** Events compared as bookkeeping entries *)
(** Same path, same size, same uniqueness. *)
Definition ev_like {A} (e e' : ev A) : Prop :=
  ev_path e = ev_path e' /\ ev_size e = ev_size e' /\ is_NKUnique (ev_kind e) = is_NKUnique (ev_kind e').

Lemma like_refl {A} (es : list (ev A)) : Forall2 ev_like es es.
Proof. induction es; constructor; auto. unfold ev_like; auto. Qed.

Lemma like_books es es' : Forall2 ev_like es es' -> same_books es es' /\ total_declared es = total_declared es'.
Proof.
  intros H. assert (Hd : forall (f : list string -> bool), sumN (map (fun e => if f (ev_path e) then ev_size e else 0) es) =
                                   sumN (map (fun e => if f (ev_path e) then ev_size e else 0) es')).
  { intros f. induction H as [|e e' es es' (H1 & H2 & H3) H IH]; [reflexivity|]. cbn. now rewrite H1, H2, IH. }
  assert (Hu : forall p, unique_at string_dec es p = unique_at string_dec es' p).
  { intros p. unfold unique_at. clear Hd. induction H as [|e e' es es' (H1 & H2 & H3) H IH]; [reflexivity|].
    cbn. now rewrite H1, H3, IH. }
  split; [split|].
  - intros p. specialize (Hd (fun q => if path_dec string_dec q p then true else false)).
    unfold declared_s, declared. etransitivity; [|etransitivity; [exact Hd|]]; apply sumN_map_ext; intros e _;
      now destruct (path_dec string_dec (ev_path e) p).
  - intros p. unfold inline_below_s, inline_below. rewrite Hu. destruct (unique_at string_dec es' p); [reflexivity|].
    unfold declared_below. apply (Hd (fun q => child_of string_dec q p)).
  - unfold total_declared. clear Hd Hu. induction H as [|e e' es es' (H1 & H2 & H3) H IH]; [reflexivity|].
    cbn. now rewrite H2, IH.
Qed.

Lemma perm_books es es' : Permutation es es' -> same_books es es' /\ total_declared es = total_declared es'.
Proof.
  intros H.
  assert (Hu : forall p, unique_at string_dec es p = unique_at string_dec es' p).
  { intros p. unfold unique_at. induction H as [|e es es' H IH|e e' es|es es' es'' H1 IH1 H2 IH2]; cbn; auto.
    - now rewrite IH.
    - destruct (path_dec string_dec (ev_path e) p), (path_dec string_dec (ev_path e') p); auto.
      destruct (is_NKUnique (ev_kind e)), (is_NKUnique (ev_kind e')); auto.
    - congruence. }
  split; [split|].
  - intros p. unfold declared_s, declared. now apply sumN_perm, Permutation_map.
  - intros p. unfold inline_below_s, inline_below. rewrite Hu. destruct (unique_at string_dec es' p); [reflexivity|].
    unfold declared_below. now apply sumN_perm, Permutation_map.
  - unfold total_declared. now apply sumN_perm, Permutation_map.
Qed.

Lemma same_books_trans a b c : same_books a b -> same_books b c -> same_books a c.
Proof. intros [H1 H2] [H3 H4]. split; intros p; [now rewrite H1 | now rewrite H2]. Qed.
Lemma same_books_sym a b : same_books a b -> same_books b a.
Proof. intros [H1 H2]. split; auto. Qed.

(** Sessions with the same bookkeeping look the same. *)
Lemma profile_ext m l l' : Forall (keys_in made_by_new) l -> Forall (keys_in made_by_new) l' ->
  same_books (root_events l) (root_events l') ->
  total_declared (root_events l) < two63 -> total_declared (root_events l') < two63 ->
  option_map (observe_output m) (profile m l) = option_map (observe_output m) (profile m l').
Proof.
  intros HK HK' Hsame Ht Ht'.
  destruct (session HK Ht) as (f & w & E & Hs). destruct (session HK' Ht') as (f' & w' & E' & Hs').
  rewrite E, E'. pose proof two63_lt_two64.
  destruct (session_ext m Hsame (N.lt_trans _ _ _ Ht H) (N.lt_trans _ _ _ Ht' H) Hs Hs') as (H1 & H2 & H3).
  cbn [option_map]. unfold observe_output. cbn [out_flamegraph out_warnings]. now rewrite H1, H2, H3.
Qed.

Lemma observe_some m o o' : observe_output m o = observe_output m o' ->
  fg_write (out_flamegraph o) = fg_write (out_flamegraph o') /\ out_warnings o = out_warnings o'.
Proof. unfold observe_output. intros E. inversion E. auto. Qed.

(** ** Shared scopes inside nested inline scopes *)
Fixpoint nest_events (ks : list (key * N)) (here : path) (nk : node_kind) : list (ev string) :=
  match ks with
  | [] => []
  | (k, s) :: ks' => mkEv (here ++ [k_str k]) NKInline nk s :: nest_events ks' (here ++ [k_str k]) NKInline
  end.

Definition nest_kind (ks : list (key * N)) (nk : node_kind) : node_kind :=
  match ks with [] => nk | _ => NKInline end.

Lemma trace_nest ks p : forall vis here nk,
  trace k_str (nest ks p) vis here nk =
  let '(es, v, ok) := trace k_str p vis (here ++ map (fun ks => k_str (fst ks)) ks) (nest_kind ks nk) in
  (nest_events ks here nk ++ es, v, ok).
Proof.
  induction ks as [|[k s] ks IH]; intros vis here nk; cbn [nest nest_events map app fst].
  - rewrite app_nil_r. cbn [nest_kind]. destruct (trace k_str p vis here nk) as [[es v] ok]. reflexivity.
  - cbn [trace]. rewrite IH. rewrite <- app_assoc. cbn [app].
    assert (Hk : nest_kind ks NKInline = nest_kind ((k, s) :: ks) nk) by (destruct ks; reflexivity).
    rewrite Hk. destruct (trace k_str p vis (here ++ k_str k :: map (fun ks0 => k_str (fst ks0)) ks) (nest_kind ((k, s) :: ks) nk)) as [[es v] ok].
    destruct ok; [|reflexivity]. now rewrite app_nil_r.
Qed.

Lemma keys_nest K ks p : keys_in K (nest ks p) <-> Forall (fun ks => K (fst ks)) ks /\ keys_in K p.
Proof.
  induction ks as [|[k s] ks IH]; cbn [nest keys_in].
  - split; [intros H; split; [constructor|auto] | tauto].
  - rewrite IH. split.
    + intros (H1 & (H2 & H3) & _). split; [constructor; auto | auto].
    + intros (H1 & H2). inversion H1; subst. auto.
Qed.

(** First encounter: the contents are accounted like a root of their own. *)
Lemma shared_first_books l ks k s x body :
  ~ In x (flat_map pointers l) -> ~ In x (pointers body) ->
  Forall2 ev_like (root_events (l ++ [nest ks (VShared k s x body VRet VRet)]))
                  (root_events (l ++ [nest ks (VInline k s VRet VRet); body])).
Proof.
  intros Hl Hb. unfold root_events. rewrite !trace_roots_app.
  destruct (trace_roots k_str l []) as [e1 v1] eqn:E1.
  assert (Hx : ptr_mem x v1 = false).
  { destruct (ptr_mem x v1) eqn:E; [|auto]. destruct (trace_roots_sub E1 E) as [H|H]; [contradiction|discriminate]. }
  cbn [trace_roots]. rewrite !trace_nest. cbn [trace]. rewrite Hx.
  destruct (@trace_vis_ext string k_str body (x :: v1) v1 [] NKShared) as (eb & ab & ob & T1 & T2).
  { intros y Hy. cbn. destruct (N.eqb_spec y x) as [->|]; [contradiction | reflexivity]. }
  rewrite T1. cbn [app].
  assert (T3 : exists eb', trace k_str body v1 [] NKRoot = (eb', ab ++ v1, ob) /\ Forall2 ev_like eb eb').
  { clear - T2. revert T2. generalize (ab ++ v1) as v. intros v T2.
    assert (Hnk : forall p vis here nk nk' e v o, trace k_str p vis here nk = (e, v, o) ->
               exists e', trace k_str p vis here nk' = (e', v, o) /\ Forall2 ev_like e e').
    { clear. induction p as [| |k s body IHb rest IHr|k s body IHb rest IHr|k s x body IHb r1 IH1 r2 IH2];
        intros vis here nk nk' e v o E; cbn [trace] in *.
      - inversion E; subst. exists []. split; [auto|constructor].
      - inversion E; subst. exists []. split; [auto|constructor].
      - destruct (trace k_str body vis (here ++ [k_str k]) NKInline) as [[e1 v1] o1]. destruct o1.
        + destruct (trace k_str rest v1 here nk) as [[e2 v2] o2] eqn:E2. inversion E; subst.
          destruct (IHr _ _ _ nk' _ _ _ E2) as (e2' & E2' & H2). rewrite E2'. eexists. split; [reflexivity|].
          constructor; [unfold ev_like; auto|]. apply Forall2_app; [apply like_refl | auto].
        + inversion E; subst. eexists. split; [reflexivity|]. constructor; [unfold ev_like; auto | apply like_refl].
      - destruct (trace k_str body vis (here ++ [k_str k]) NKUnique) as [[e1 v1] o1]. destruct o1.
        + destruct (trace k_str rest v1 here nk) as [[e2 v2] o2] eqn:E2. inversion E; subst.
          destruct (IHr _ _ _ nk' _ _ _ E2) as (e2' & E2' & H2). rewrite E2'. eexists. split; [reflexivity|].
          constructor; [unfold ev_like; auto|]. apply Forall2_app; [apply like_refl | auto].
        + inversion E; subst. eexists. split; [reflexivity|]. constructor; [unfold ev_like; auto | apply like_refl].
      - destruct (ptr_mem x vis).
        + destruct (trace k_str r2 vis here nk) as [[e2 v2] o2] eqn:E2. inversion E; subst.
          destruct (IH2 _ _ _ nk' _ _ _ E2) as (e2' & E2' & H2). rewrite E2'. eexists. split; [reflexivity|].
          constructor; [unfold ev_like; auto | auto].
        + destruct (trace k_str body (x :: vis) [] NKShared) as [[e1 v1] o1]. destruct o1.
          * destruct (trace k_str r1 v1 here nk) as [[e2 v2] o2] eqn:E2. inversion E; subst.
            destruct (IH1 _ _ _ nk' _ _ _ E2) as (e2' & E2' & H2). rewrite E2'. eexists. split; [reflexivity|].
            constructor; [unfold ev_like; auto|]. apply Forall2_app; [apply like_refl | auto].
          * inversion E; subst. eexists. split; [reflexivity|]. constructor; [unfold ev_like; auto | apply like_refl]. }
    exact (Hnk _ _ _ _ _ _ _ _ T2). }
  destruct T3 as (eb' & T3 & Hlike).
  destruct ob; cbn [fst]; rewrite T3; cbn [fst app]; rewrite ?app_nil_r; apply Forall2_app; try apply like_refl;
    rewrite <- app_assoc; (apply Forall2_app; [apply like_refl|]); cbn [app];
    (constructor; [unfold ev_like; auto | exact Hlike]).
Qed.

(** Later encounters: only the pointer itself. *)
Lemma shared_again_books l ks k s x body r1 r2 : visited_by l x ->
  Forall2 ev_like (root_events (l ++ [nest ks (VShared k s x body r1 r2)]))
                  (root_events (l ++ [nest ks (VInline k s VRet r2)])).
Proof.
  intros Hx. unfold visited_by in Hx. unfold root_events. rewrite !trace_roots_app.
  destruct (trace_roots k_str l []) as [e1 v1] eqn:E1. cbn [snd] in Hx.
  cbn [trace_roots]. rewrite !trace_nest. cbn [trace]. rewrite Hx.
  destruct (trace k_str r2 v1 ([] ++ map (fun ks0 => k_str (fst ks0)) ks) (nest_kind ks NKRoot)) as [[e2 v2] o2].
  cbn [fst app]. rewrite ?app_nil_r. apply Forall2_app; [apply like_refl|]. apply Forall2_app; [apply like_refl|].
  constructor; [unfold ev_like; auto | apply like_refl].
Qed.
