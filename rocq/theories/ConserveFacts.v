(** * Conservation of bytes. *)
From Coq Require Import Permutation Sorted.
From Verif Require Import Base BaseFacts KeyModel KeyFacts HMap FlameModel BuilderModel VisitorModel Spec
  FlameFacts WriteFacts FlameExtra ArenaFacts RunFacts FinishFacts BuilderFacts EventFacts TraceFacts BuilderProps.

(** Where an event may come from. *)
Definition ev_wf (here : path) (nk : node_kind) (es : list (ev string)) (e : ev string) : Prop :=
  exists pre a, ev_path e = pre ++ [a] /\
    ((ev_parent e = nk /\ pre = here) \/ (ev_parent e = NKShared /\ pre = []) \/
     (exists e', In e' es /\ ev_path e' = pre /\ ev_kind e' = ev_parent e /\
                 (ev_parent e = NKInline \/ ev_parent e = NKUnique))).

Lemma ev_wf_mono here nk es es' e : incl es es' -> ev_wf here nk es e -> ev_wf here nk es' e.
Proof.
  intros Hi (pre & a & E & H). exists pre, a. split; [exact E|].
  destruct H as [H|[H|(e' & H1 & H2)]]; auto. right; right. exists e'. split; auto.
Qed.

Lemma ev_wf_inner here nk k (kind : node_kind) (s : N) es es' e :
  kind = NKInline \/ kind = NKUnique ->
  In (mkEv (here ++ [k]) kind nk s) es' -> incl es es' ->
  ev_wf (here ++ [k]) kind es e -> ev_wf here nk es' e.
Proof.
  intros Hk Hin Hi (pre & a & E & H). exists pre, a. split; [exact E|].
  destruct H as [[H1 H2]|[H|(e' & H1 & H2)]]; auto; right; right.
  - exists (mkEv (here ++ [k]) kind nk s). cbn. rewrite H1. auto.
  - exists e'. split; auto.
Qed.

Lemma ev_wf_shared here nk es es' e : incl es es' -> ev_wf [] NKShared es e -> ev_wf here nk es' e.
Proof.
  intros Hi (pre & a & E & H). exists pre, a. split; [exact E|].
  destruct H as [H|[H|(e' & H1 & H2)]]; auto. right; right. exists e'. split; auto.
Qed.

Lemma trace_wf p : forall vis here nk es vis' ok, trace k_str p vis here nk = (es, vis', ok) ->
  Forall (ev_wf here nk es) es.
Proof.
  assert (Hself : forall here nk kind k s es, ev_wf here nk es (mkEv (here ++ [k]) kind nk s)).
  { intros. exists here, k. cbn. auto. }
  induction p as [| |k s body IHb rest IHr|k s body IHb rest IHr|k s x body IHb r1 IH1 r2 IH2];
    intros vis here nk es vis' ok E; cbn [trace] in E.
  - inversion E; constructor.
  - inversion E; constructor.
  - destruct (trace k_str body vis (here ++ [k_str k]) NKInline) as [[e1 v1] o1] eqn:E1. specialize (IHb _ _ _ _ _ _ E1).
    destruct o1.
    + destruct (trace k_str rest v1 here nk) as [[e2 v2] o2] eqn:E2. specialize (IHr _ _ _ _ _ _ E2). inversion E; subst.
      constructor; [apply Hself|]. apply Forall_app. split; rewrite Forall_forall in *; intros e He.
      * eapply ev_wf_inner; [left; reflexivity | now left | | apply IHb, He]. intros z Hz. right. apply in_or_app; auto.
      * eapply ev_wf_mono; [|apply IHr, He]. intros z Hz. right. apply in_or_app; auto.
    + inversion E; subst. constructor; [apply Hself|]. rewrite Forall_forall in *; intros e He.
      eapply ev_wf_inner; [left; reflexivity | now left | | apply IHb, He]. intros z Hz. now right.
  - destruct (trace k_str body vis (here ++ [k_str k]) NKUnique) as [[e1 v1] o1] eqn:E1. specialize (IHb _ _ _ _ _ _ E1).
    destruct o1.
    + destruct (trace k_str rest v1 here nk) as [[e2 v2] o2] eqn:E2. specialize (IHr _ _ _ _ _ _ E2). inversion E; subst.
      constructor; [apply Hself|]. apply Forall_app. split; rewrite Forall_forall in *; intros e He.
      * eapply ev_wf_inner; [right; reflexivity | now left | | apply IHb, He]. intros z Hz. right. apply in_or_app; auto.
      * eapply ev_wf_mono; [|apply IHr, He]. intros z Hz. right. apply in_or_app; auto.
    + inversion E; subst. constructor; [apply Hself|]. rewrite Forall_forall in *; intros e He.
      eapply ev_wf_inner; [right; reflexivity | now left | | apply IHb, He]. intros z Hz. now right.
  - destruct (ptr_mem x vis).
    + destruct (trace k_str r2 vis here nk) as [[e2 v2] o2] eqn:E2. specialize (IH2 _ _ _ _ _ _ E2). inversion E; subst.
      constructor; [apply Hself|]. rewrite Forall_forall in *; intros e He.
      eapply ev_wf_mono; [|apply IH2, He]. intros z Hz. now right.
    + destruct (trace k_str body (x :: vis) [] NKShared) as [[e1 v1] o1] eqn:E1. specialize (IHb _ _ _ _ _ _ E1).
      destruct o1.
      * destruct (trace k_str r1 v1 here nk) as [[e2 v2] o2] eqn:E2. specialize (IH1 _ _ _ _ _ _ E2). inversion E; subst.
        constructor; [apply Hself|]. apply Forall_app. split; rewrite Forall_forall in *; intros e He.
        -- eapply ev_wf_shared; [|apply IHb, He]. intros z Hz. right. apply in_or_app; auto.
        -- eapply ev_wf_mono; [|apply IH1, He]. intros z Hz. right. apply in_or_app; auto.
      * inversion E; subst. constructor; [apply Hself|]. rewrite Forall_forall in *; intros e He.
        eapply ev_wf_shared; [|apply IHb, He]. intros z Hz. now right.
Qed.

Lemma trace_roots_wf l : forall vis, Forall (ev_wf [] NKRoot (fst (trace_roots k_str l vis))) (fst (trace_roots k_str l vis)).
Proof.
  induction l as [|p l IH]; intros vis; cbn [trace_roots]; [constructor|].
  destruct (trace k_str p vis [] NKRoot) as [[e1 v1] o1] eqn:E1. apply trace_wf in E1. specialize (IH v1).
  destruct (trace_roots k_str l v1) as [e2 v2]. cbn [fst] in *. rewrite Forall_app, !Forall_forall in *.
  split; intros e He.
  - eapply ev_wf_mono; [|apply E1, He]. intros z Hz. apply in_or_app; auto.
  - eapply ev_wf_mono; [|apply IH, He]. intros z Hz. apply in_or_app; auto.
Qed.

(** Bytes declared directly below [q] by scopes opened in inline scopes. *)
Definition below_i (es : list (ev string)) (q : path) : N :=
  sumN (map (fun e => if is_NKInline (ev_parent e) && child_of string_dec (ev_path e) q then ev_size e else 0) es).

Lemma below_i_app es es' q : below_i (es ++ es') q = below_i es q + below_i es' q.
Proof. unfold below_i. now rewrite map_app, sumN_app. Qed.
Lemma below_i_cons e es q : below_i (e :: es) q =
  (if is_NKInline (ev_parent e) && child_of string_dec (ev_path e) q then ev_size e else 0) + below_i es q.
Proof. reflexivity. Qed.
Lemma declared_s_app es es' q : declared_s (es ++ es') q = declared_s es q + declared_s es' q.
Proof. unfold declared_s, declared. now rewrite map_app, sumN_app. Qed.
Lemma declared_s_cons e es q : declared_s (e :: es) q =
  (if path_dec string_dec (ev_path e) q then ev_size e else 0) + declared_s es q.
Proof. reflexivity. Qed.

Lemma child_of_snoc (pre : path) a q : child_of string_dec (pre ++ [a]) q = if path_dec string_dec pre q then true else false.
Proof.
  unfold child_of. rewrite removelast_last. destruct (pre ++ [a]) eqn:E; [destruct pre; discriminate|]. reflexivity.
Qed.

Definition allowance (here : path) (nk : node_kind) (cap : option N) (q : path) : N :=
  if is_NKInline nk then match cap with Some c => if path_dec string_dec here q then c else 0 | None => 0 end else 0.

Definition cap_ok (nk : node_kind) (cap : option N) : Prop := nk = NKInline <-> cap <> None.

Lemma fits_books p : forall vis here nk cap es vis' ok, cap_ok nk cap -> fits p cap ->
  trace k_str p vis here nk = (es, vis', ok) ->
  forall q, below_i es q <= declared_s es q + allowance here nk cap q.
Proof.
  assert (Hstep : forall here nk cap (k : string) kind s es1 es2 q, cap_ok nk cap ->
    match cap with Some c => s <= c | None => True end ->
    below_i es1 q <= declared_s es1 q + (if path_dec string_dec (here ++ [k]) q then s else 0) ->
    below_i es2 q <= declared_s es2 q + allowance here nk (option_map (fun c => c - s) cap) q ->
    below_i (mkEv (here ++ [k]) kind nk s :: es1 ++ es2) q <=
    declared_s (mkEv (here ++ [k]) kind nk s :: es1 ++ es2) q + allowance here nk cap q).
  { intros here nk cap k kind s es1 es2 q Hc Hs H1 H2.
    rewrite below_i_cons, declared_s_cons, below_i_app, declared_s_app. cbn [ev_path ev_size ev_parent].
    rewrite child_of_snoc. unfold allowance in *. destruct (is_NKInline nk) eqn:En; cbn [andb].
    - destruct cap as [c|]; [|exfalso; destruct nk; try discriminate; now apply (proj1 Hc eq_refl)].
      cbn [option_map] in H2. destruct (path_dec string_dec here q), (path_dec string_dec (here ++ [k]) q); lia.
    - destruct (path_dec string_dec (here ++ [k]) q); lia. }
  assert (Hstep1 : forall here nk cap (k : string) kind s es1 q, cap_ok nk cap ->
    match cap with Some c => s <= c | None => True end ->
    below_i es1 q <= declared_s es1 q + (if path_dec string_dec (here ++ [k]) q then s else 0) ->
    below_i (mkEv (here ++ [k]) kind nk s :: es1) q <=
    declared_s (mkEv (here ++ [k]) kind nk s :: es1) q + allowance here nk cap q).
  { intros here nk cap k kind s es1 q Hc Hs H1. rewrite <- (app_nil_r es1). apply Hstep; auto.
    unfold below_i at 1. cbn. lia. }
  assert (Hleft : forall nk cap s, cap_ok nk cap -> cap_ok nk (option_map (fun c => c - s) cap)).
  { intros nk [c|] s H; unfold cap_ok in *; cbn; [|exact H]. split; intros; [discriminate|]. apply H. discriminate. }
  assert (HN : cap_ok NKUnique None /\ cap_ok NKShared None) by (unfold cap_ok; repeat split; try discriminate; congruence).
  destruct HN as [HNu HNs].
  assert (HSi : forall s, cap_ok NKInline (Some s)) by (intros s; unfold cap_ok; repeat split; try discriminate; congruence).
  induction p as [| |k s body IHb rest IHr|k s body IHb rest IHr|k s x body IHb r1 IH1 r2 IH2];
    intros vis here nk cap es vis' ok Hc Hf E q; cbn [trace fits] in E, Hf.
  - inversion E; subst. unfold below_i. cbn. lia.
  - inversion E; subst. unfold below_i. cbn. lia.
  - destruct Hf as (F1 & F2 & F3).
    destruct (trace k_str body vis (here ++ [k_str k]) NKInline) as [[e1 v1] o1] eqn:E1.
    specialize (IHb _ _ _ _ _ _ _ (HSi s) F2 E1 q). unfold allowance in IHb. cbn [is_NKInline] in IHb.
    destruct o1.
    + destruct (trace k_str rest v1 here nk) as [[e2 v2] o2] eqn:E2.
      specialize (IHr _ _ _ _ _ _ _ (Hleft _ _ s Hc) F3 E2 q). inversion E; subst. now apply Hstep.
    + inversion E; subst. now apply Hstep1.
  - destruct Hf as (F1 & F2 & F3).
    destruct (trace k_str body vis (here ++ [k_str k]) NKUnique) as [[e1 v1] o1] eqn:E1.
    specialize (IHb _ _ _ _ _ _ _ HNu F2 E1 q). unfold allowance in IHb. cbn [is_NKInline] in IHb.
    destruct o1.
    + destruct (trace k_str rest v1 here nk) as [[e2 v2] o2] eqn:E2.
      specialize (IHr _ _ _ _ _ _ _ (Hleft _ _ s Hc) F3 E2 q). inversion E; subst. apply Hstep; auto. lia.
    + inversion E; subst. apply Hstep1; auto. lia.
  - destruct Hf as (F1 & F2 & F3 & F4). destruct (ptr_mem x vis).
    + destruct (trace k_str r2 vis here nk) as [[e2 v2] o2] eqn:E2.
      specialize (IH2 _ _ _ _ _ _ _ (Hleft _ _ s Hc) F4 E2 q). inversion E; subst.
      apply (Hstep here nk cap (k_str k) NKShared s [] e2 q); auto. unfold below_i. cbn. lia.
    + destruct (trace k_str body (x :: vis) [] NKShared) as [[e1 v1] o1] eqn:E1.
      specialize (IHb _ _ _ _ _ _ _ HNs F2 E1 q). unfold allowance in IHb. cbn [is_NKInline] in IHb.
      destruct o1.
      * destruct (trace k_str r1 v1 here nk) as [[e2 v2] o2] eqn:E2.
        specialize (IH1 _ _ _ _ _ _ _ (Hleft _ _ s Hc) F3 E2 q). inversion E; subst. apply Hstep; auto. lia.
      * inversion E; subst. apply Hstep1; auto. lia.
Qed.

Lemma fits_roots l : forall vis, Forall well_declared l ->
  forall q, below_i (fst (trace_roots k_str l vis)) q <= declared_s (fst (trace_roots k_str l vis)) q.
Proof.
  induction l as [|p l IH]; intros vis HF q; cbn [trace_roots]; [unfold below_i; cbn; lia|].
  inversion HF as [|? ? Hp Hl]; subst.
  destruct (trace k_str p vis [] NKRoot) as [[e1 v1] o1] eqn:E1.
  assert (Hc : cap_ok NKRoot None) by (unfold cap_ok; split; [discriminate | congruence]).
  pose proof (@fits_books p _ _ _ _ _ _ _ Hc Hp E1 q) as H1. specialize (IH v1 Hl q).
  destruct (trace_roots k_str l v1) as [e2 v2]. cbn [fst] in *.
  unfold allowance in H1. cbn [is_NKInline] in H1. rewrite below_i_app, declared_s_app. lia.
Qed.

Lemma unique_at_In (es : list (ev string)) q : unique_at string_dec es q = true <->
  exists e, In e es /\ ev_path e = q /\ ev_kind e = NKUnique.
Proof.
  unfold unique_at. rewrite existsb_exists. split; intros (e & H1 & H2); exists e; (split; [exact H1|]).
  - destruct (path_dec string_dec (ev_path e) q); [|discriminate]. destruct (ev_kind e); try discriminate. auto.
  - destruct H2 as [-> ->]. destruct (path_dec string_dec q q); [reflexivity | congruence].
Qed.

(** In a non-unique, non-root stack everything directly below was opened in an
    inline scope. *)
Lemma below_inline es q : Forall (ev_wf [] NKRoot es) es -> q <> [] -> unique_at string_dec es q = false ->
  declared_below string_dec es q = below_i es q.
Proof.
  intros Hwf Hq Hu. unfold declared_below, below_i. f_equal. apply map_ext_in. intros e He.
  rewrite Forall_forall in Hwf. destruct (Hwf e He) as (pre & a & E & H). rewrite E, child_of_snoc.
  destruct (path_dec string_dec pre q) as [->|]; [|now rewrite andb_false_r].
  rewrite andb_true_r. destruct H as [[_ ->]|[[_ ->]|(e' & H1 & H2 & H3 & H4)]]; [congruence|congruence|].
  destruct (ev_parent e); cbn; auto; try (destruct H4; discriminate).
  exfalso. apply not_true_iff_false in Hu. apply Hu, unique_at_In. exists e'. auto.
Qed.

Lemma well_declared_clean l : Forall well_declared l -> forall q, ~ misdeclared_s (root_events l) q.
Proof.
  intros HF q [Hq Hlt]. unfold inline_below in Hlt.
  destruct (unique_at string_dec (root_events l) q) eqn:Hu; [lia|].
  rewrite below_inline in Hlt; auto; [|apply trace_roots_wf].
  pose proof (@fits_roots l [] HF q). unfold declared_s in H. unfold root_events in Hlt. lia.
Qed.

(** ** Sums over all stacks *)
Definition paths_of (es : list (ev string)) : list path := nodup (list_eq_dec string_dec) (map (@ev_path string) es).

Lemma sumN_map_add {A} (f g : A -> N) l : sumN (map (fun x => f x + g x) l) = sumN (map f l) + sumN (map g l).
Proof. induction l; cbn; [reflexivity|]. rewrite IHl. lia. Qed.

Lemma sumN_map_zero {A} (f : A -> N) l : (forall x, In x l -> f x = 0) -> sumN (map f l) = 0.
Proof. induction l as [|a l IH]; intros H; cbn; [reflexivity|]. rewrite IH, H by (firstorder). reflexivity. Qed.

(** Exactly one element of a duplicate-free list equals [p]. *)
Lemma sumN_select_out (P : list path) p n : ~ In p P ->
  sumN (map (fun q => if path_dec string_dec p q then n else 0) P) = 0.
Proof.
  intros H. apply sumN_map_zero. intros q Hq. destruct (path_dec string_dec p q) as [->|]; [contradiction | reflexivity].
Qed.

Lemma sumN_select (P : list path) p n : NoDup P -> In p P ->
  sumN (map (fun q => if path_dec string_dec p q then n else 0) P) = n.
Proof.
  induction 1 as [|a P Ha HP IH]; intros Hin; [contradiction|]. cbn [map sumN].
  destruct (path_dec string_dec p a) as [<-|Hne].
  - rewrite sumN_select_out by exact Ha. lia.
  - rewrite IH; [lia|]. destruct Hin; [congruence | auto].
Qed.

Lemma sumN_swap {A B} (f : A -> B -> N) (l : list A) (l' : list B) :
  sumN (map (fun a => sumN (map (f a) l')) l) = sumN (map (fun b => sumN (map (fun a => f a b) l)) l').
Proof.
  induction l as [|a l IH]; cbn [map sumN].
  - symmetry. apply sumN_map_zero. auto.
  - rewrite IH, <- sumN_map_add. reflexivity.
Qed.

Lemma sum_declared es : sumN (map (declared_s es) (paths_of es)) = total_declared es.
Proof.
  unfold declared_s, declared. rewrite sumN_swap. unfold total_declared. f_equal. apply map_ext_in. intros e He.
  apply sumN_select; [apply NoDup_nodup | apply nodup_In, in_map, He].
Qed.

Lemma path_cmp_refl p : path_cmp p p = Eq.
Proof. induction p as [|a p IH]; [reflexivity|]. cbn. now rewrite (proj2 (str_cmp_eq a a) eq_refl). Qed.

Lemma sorted_NoDup L : StronglySorted path_lt L -> NoDup L.
Proof.
  induction 1 as [|a L H IH Hf]; constructor; auto. intros C. rewrite Forall_forall in Hf. specialize (Hf a C).
  unfold path_lt in Hf. rewrite path_cmp_refl in Hf. discriminate.
Qed.

(** The sum of the listing is the sum over all stacks. *)
Lemma sum_listing es L : listing (shown_s es) L ->
  sumN (map snd L) = sumN (map (shown_s es) (paths_of es)).
Proof.
  intros [Hs Hin].
  assert (Hnd : NoDup (map fst L)) by (apply sorted_NoDup; exact Hs).
  assert (E : map snd L = map (shown_s es) (map fst L)).
  { rewrite map_map. apply map_ext_in. intros [p n] Hp. apply Hin in Hp as (_ & _ & E). symmetry. exact E. }
  rewrite E.
  assert (Hp : Permutation (map fst L) (filter (fun p => 0 <? shown_s es p) (paths_of es))).
  { apply NoDup_Permutation; [exact Hnd | apply NoDup_filter, NoDup_nodup |].
    intros p. rewrite filter_In. split.
    - intros H. apply in_map_iff in H as ([p' n] & E' & H). cbn in E'. subst p'. apply Hin in H as (H1 & H2 & H3).
      split; [|apply N.ltb_lt; lia]. apply nodup_In.
      assert (Hd : 0 < declared_s es p).
      { unfold shown_s, shown in H3. unfold declared_s. destruct p; [congruence|]. lia. }
      clear -Hd. unfold declared_s, declared in Hd. induction es as [|e es IH]; cbn [map sumN] in *; [lia|].
      destruct (path_dec string_dec (ev_path e) p) as [<-|]; [now left|]. right. apply IH. lia.
    - intros [_ H]. apply N.ltb_lt in H. apply in_map_iff. exists (p, shown_s es p). split; [reflexivity|].
      apply Hin. repeat split; auto. intros ->. cbn in H. lia. }
  assert (Hsum : forall l l' : list path, Permutation l l' -> sumN (map (shown_s es) l) = sumN (map (shown_s es) l')).
  { induction 1; cbn; lia. }
  rewrite (Hsum _ _ Hp). clear Hp. induction (paths_of es) as [|p l IH]; [reflexivity|]. cbn [filter map sumN].
  destruct (N.ltb_spec 0 (shown_s es p)); cbn [map sumN]; rewrite IH; lia.
Qed.

Definition child_share (es : list (ev string)) (e : ev string) : N :=
  sumN (map (fun p => if unique_at string_dec es p then 0 else if child_of string_dec (ev_path e) p then ev_size e else 0)
         (paths_of es)).

Lemma sum_inline_below es : sumN (map (inline_below_s es) (paths_of es)) = sumN (map (child_share es) es).
Proof.
  unfold child_share. rewrite <- sumN_swap. f_equal. apply map_ext. intros p.
  unfold inline_below_s, inline_below, declared_below. destruct (unique_at string_dec es p).
  - symmetry. apply sumN_map_zero. auto.
  - reflexivity.
Qed.

Lemma child_share_eq es e pre a : ev_path e = pre ++ [a] ->
  child_share es e = if unique_at string_dec es pre then 0
                     else if in_dec (list_eq_dec string_dec) pre (paths_of es) then ev_size e else 0.
Proof.
  intros E. unfold child_share.
  rewrite (map_ext (fun p => if unique_at string_dec es p then 0 else if child_of string_dec (ev_path e) p then ev_size e else 0)
     (fun p => if path_dec string_dec pre p then (if unique_at string_dec es pre then 0 else ev_size e) else 0)).
  - destruct (in_dec (list_eq_dec string_dec) pre (paths_of es)) as [H|H].
    + rewrite sumN_select; [reflexivity | apply NoDup_nodup | exact H].
    + rewrite sumN_select_out by exact H. destruct (unique_at string_dec es pre); reflexivity.
  - intros p. rewrite E, child_of_snoc. destruct (path_dec string_dec pre p) as [<-|]; [reflexivity|].
    destruct (unique_at string_dec es p); reflexivity.
Qed.

Lemma paths_of_In es p : In p (paths_of es) <-> exists e, In e es /\ ev_path e = p.
Proof.
  unfold paths_of. rewrite nodup_In, in_map_iff. split; intros (e & H1 & H2); exists e; auto.
Qed.

Lemma wf_nonempty es : Forall (ev_wf [] NKRoot es) es -> ~ In [] (paths_of es).
Proof.
  intros Hwf Hin. apply paths_of_In in Hin as (e & He & E). rewrite Forall_forall in Hwf.
  destruct (Hwf e He) as (pre & a & E' & _). rewrite E in E'. destruct pre; discriminate.
Qed.

Lemma child_share_le es e : Forall (ev_wf [] NKRoot es) es -> In e es ->
  child_share es e <= (if is_NKInline (ev_parent e) then ev_size e else 0) /\
  (unmixed es -> child_share es e = if is_NKInline (ev_parent e) then ev_size e else 0).
Proof.
  intros Hwf He. pose proof (wf_nonempty Hwf) as Hne. rewrite Forall_forall in Hwf.
  destruct (Hwf e He) as (pre & a & E & H). rewrite (@child_share_eq es e pre a E).
  destruct H as [[H1 ->]|[[H1 ->]|(e' & H1 & H2 & H3 & [H4|H4])]]; rewrite ?H1, ?H4; cbn [is_NKInline].
  - destruct (in_dec (list_eq_dec string_dec) [] (paths_of es)); [contradiction|]. destruct (unique_at string_dec es []); split; auto; lia.
  - destruct (in_dec (list_eq_dec string_dec) [] (paths_of es)); [contradiction|]. destruct (unique_at string_dec es []); split; auto; lia.
  - assert (Hin : In pre (paths_of es)) by (apply paths_of_In; exists e'; auto).
    destruct (in_dec (list_eq_dec string_dec) pre (paths_of es)); [|contradiction].
    destruct (unique_at string_dec es pre) eqn:Hu; split; auto; try lia.
    intros Hm. apply unique_at_In in Hu as (e'' & G1 & G2 & G3).
    specialize (Hm e' e'' H1 G1). rewrite G2, H2, H3, H4, G3 in Hm. specialize (Hm eq_refl). discriminate.
  - assert (Hu : unique_at string_dec es pre = true) by (apply unique_at_In; exists e'; rewrite H3; auto).
    rewrite Hu. split; auto; lia.
Qed.

Lemma sumN_le {A} (f g : A -> N) l : (forall x, In x l -> f x <= g x) -> sumN (map f l) <= sumN (map g l).
Proof. induction l as [|a l IH]; intros H; cbn; [lia|]. pose proof (H a (or_introl eq_refl)). specialize (IH (fun x Hx => H x (or_intror Hx))). lia. Qed.

Lemma total_split es : total_declared es = block_bytes es + sumN (map (fun e => if is_NKInline (ev_parent e) then ev_size e else 0) es).
Proof.
  unfold total_declared, block_bytes. rewrite <- sumN_map_add. f_equal. apply map_ext. intros e. destruct (is_NKInline (ev_parent e)); lia.
Qed.

Lemma shown_sum l : Forall well_declared l ->
  block_bytes (root_events l) <= sumN (map (shown_s (root_events l)) (paths_of (root_events l))) /\
  (unmixed (root_events l) -> sumN (map (shown_s (root_events l)) (paths_of (root_events l))) = block_bytes (root_events l)).
Proof.
  intros HF. pose proof (well_declared_clean HF) as Hclean. pose proof (trace_roots_wf l []) as Hwf. fold (root_events l) in Hwf.
  set (es := root_events l) in *.
  assert (H1 : sumN (map (shown_s es) (paths_of es)) + sumN (map (inline_below_s es) (paths_of es)) = total_declared es).
  { rewrite <- sumN_map_add, <- sum_declared. f_equal. apply map_ext_in. intros p Hp.
    assert (p <> []) by (intros ->; now apply (wf_nonempty Hwf)).
    specialize (Hclean p). unfold misdeclared_s, misdeclared in Hclean. unfold shown_s, shown, inline_below_s, declared_s.
    destruct p; [congruence|]. destruct (N.lt_ge_cases (declared string_dec es (s :: p)) (inline_below string_dec es (s :: p))); [|lia].
    exfalso. apply Hclean. auto. }
  rewrite sum_inline_below in H1. rewrite total_split in H1.
  split.
  - assert (sumN (map (child_share es) es) <= sumN (map (fun e => if is_NKInline (ev_parent e) then ev_size e else 0) es)).
    { apply sumN_le. intros e He. now apply child_share_le. }
    lia.
  - intros Hm. rewrite (map_ext_in (child_share es) (fun e => if is_NKInline (ev_parent e) then ev_size e else 0)) in H1.
    + lia.
    + intros e He. now apply child_share_le.
Qed.

Lemma C17_conservation_lemma l : Forall (keys_in made_by_new) l -> Forall well_declared l ->
  total_declared (root_events l) < two63 ->
  exists o n, (forall m, profile m l = Some o) /\ out_warnings o = EmptyString /\
    (forall m, fg_total_size m (out_flamegraph o) = Some n) /\
    block_bytes (root_events l) <= n /\
    (unmixed (root_events l) -> n = block_bytes (root_events l)).
Proof.
  intros HK HF Ht. destruct (C12_exact_lemma HK Ht) as (o & H1 & _ & (L & H2 & _ & H3) & _).
  destruct (C13_warnings_lemma HK Ht) as (o' & L' & G1 & _ & _ & _ & G2).
  assert (o' = o) by (specialize (H1 Debug); specialize (G1 Debug); congruence). subst o'.
  exists o, (sumN (map snd L)). rewrite (sum_listing H2).
  split; [exact H1|]. split; [apply G2, well_declared_clean, HF|]. split; [intros m; rewrite <- (sum_listing H2); auto|].
  apply shown_sum, HF.
Qed.
