(** * Sessions: profile of a list of roots. *)
From Coq Require Import Permutation Sorted.
From Verif Require Import Base BaseFacts KeyModel KeyFacts HMap FlameModel BuilderModel VisitorModel Spec
  FlameFacts WriteFacts ArenaFacts RunFacts FinishFacts FlameExtra.

(** ** Exact graphs are reachable through the public API *)
Lemma fg_ok_api m K f : fg_ok Debug K f -> fg_api m K f.
Proof.
  induction f as [cs c n IH] using fg_ind'. intros Hok.
  destruct (fg_ok_inv Hok) as (Hnd & Hch & Hn & Hc & Hs). cbn [fg_children fg_node_size fg_children_size wrapeq] in *.
  subst c.
  assert (H0 : fg_api m K (FG [] 0 n)).
  { eapply api_add_self; [apply api_default | exact Hn |]. unfold fg_add_self. cbn [fg_node_size fg_default].
    rewrite uadd_exact by (simpl; lia). reflexivity. }
  assert (Hgen : forall post pre, cs = pre ++ post ->
     fg_api m K (FG pre (sumN (map (fun kc => node_sum (snd kc)) pre)) n) ->
     fg_api m K (FG (pre ++ post) (sumN (map (fun kc => node_sum (snd kc)) (pre ++ post))) n)).
  { induction post as [|[k f] post IHp]; intros pre E Hpre; [now rewrite app_nil_r|].
    replace (pre ++ (k, f) :: post) with ((pre ++ [(k, f)]) ++ post) by (rewrite <- app_assoc; reflexivity).
    assert (Hin : In (k, f) cs) by (rewrite E; apply in_elt).
    destruct (Hch k f Hin) as [Hk Hf].
    apply IHp; [rewrite E, <- app_assoc; reflexivity|].
    eapply api_add_child; [exact Hpre | exact Hk | exact (IH k f Hin Hf) |].
    rewrite E, map_app, sumN_app in Hc. cbn [map snd sumN] in Hc.
    unfold fg_add_child. rewrite (fg_total_wrapped (m := m) (K := K)).
    2:{ destruct m; [exact Hf|]. clear -Hf. induction f as [cs c n IH] using fg_ind'.
        destruct (fg_ok_inv Hf) as (N1 & N2 & N3 & N4 & N5).
        cbn [fg_children fg_node_size fg_children_size wrapeq] in *.
        constructor; auto.
        - intros k f Hin. destruct (N2 _ _ Hin) as [Hk Hf']. split; [auto|]. eapply IH; eauto.
        - cbn. now rewrite N5. }
    assert (Hw : wrapped m (node_sum f) = Some (node_sum f)).
    { unfold wrapped. assert (node_sum f < two64) by lia.
      destruct m; [destruct (N.ltb_spec (node_sum f) two64); [auto|lia] | now rewrite N.mod_small]. }
    rewrite Hw. cbn [obind fg_children_size]. rewrite uadd_exact by lia. cbn [obind fg_children fg_node_size].
    replace (hm_find pre k) with (@None fg).
    - unfold hm_insert_new. rewrite map_app, sumN_app. cbn [map sumN snd]. now rewrite N.add_0_r.
    - symmetry. apply hm_find_None. intros Hin'. rewrite E, map_app in Hnd. cbn [map fst] in Hnd.
      apply NoDup_remove_2 in Hnd. apply Hnd. rewrite in_app_iff. now left. }
  exact (Hgen cs [] eq_refl H0).
Qed.

(** ** Renaming of traces *)
Definition ev_map {A B} (g : A -> B) (e : ev A) : ev B :=
  mkEv (map g (ev_path e)) (ev_kind e) (ev_parent e) (ev_size e).

Lemma trace_map {A B} (name : key -> A) (g : A -> B) p : forall vis here nk,
  trace (fun k => g (name k)) p vis (map g here) nk =
  let '(es, vis', ok) := trace name p vis here nk in (map (ev_map g) es, vis', ok).
Proof.
  induction p as [| |k s body IHb rest IHr|k s body IHb rest IHr|k s x body IHb r1 IH1 r2 IH2];
    intros vis here nk; cbn [trace]; auto;
    change (map g here ++ [g (name k)]) with (map g here ++ map g [name k]); rewrite <- map_app.
  - rewrite IHb. destruct (trace name body vis (here ++ [name k]) NKInline) as [[e1 v1] o1]. destruct o1.
    + rewrite IHr. destruct (trace name rest v1 here nk) as [[e2 v2] o2]. cbn [map]. now rewrite (map_app (ev_map g)).
    + reflexivity.
  - rewrite IHb. destruct (trace name body vis (here ++ [name k]) NKUnique) as [[e1 v1] o1]. destruct o1.
    + rewrite IHr. destruct (trace name rest v1 here nk) as [[e2 v2] o2]. cbn [map]. now rewrite (map_app (ev_map g)).
    + reflexivity.
  - destruct (ptr_mem x vis).
    + rewrite IH2. destruct (trace name r2 vis here nk) as [[e2 v2] o2]. reflexivity.
    + specialize (IHb (x :: vis) [] NKShared). cbn [map] in IHb. rewrite IHb.
      destruct (trace name body (x :: vis) [] NKShared) as [[e1 v1] o1]. destruct o1.
      * rewrite IH1. destruct (trace name r1 v1 here nk) as [[e2 v2] o2]. cbn [map]. now rewrite (map_app (ev_map g)).
      * reflexivity.
Qed.

Lemma trace_roots_map {A B} (name : key -> A) (g : A -> B) l : forall vis,
  trace_roots (fun k => g (name k)) l vis =
  let '(es, vis') := trace_roots name l vis in (map (ev_map g) es, vis').
Proof.
  induction l as [|p l IH]; intros vis; cbn [trace_roots]; auto.
  pose proof (trace_map name g p vis [] NKRoot) as E. cbn [map] in E. rewrite E.
  destruct (trace name p vis [] NKRoot) as [[e1 v1] o1]. rewrite IH.
  destruct (trace_roots name l v1) as [e2 v2]. now rewrite map_app.
Qed.

Lemma total_map {A B} (g : A -> B) es : total_declared (map (ev_map g) es) = total_declared es.
Proof. unfold total_declared. rewrite map_map. reflexivity. Qed.

Lemma total_root_events l :
  total_declared (fst (trace_roots (fun k : key => k) l [])) = total_declared (root_events l).
Proof.
  unfold root_events. change k_str with (fun k : key => k_str ((fun k : key => k) k)).
  rewrite (trace_roots_map (fun k : key => k) k_str).
  destruct (trace_roots (fun k : key => k) l []) as [es v]. cbn [fst]. now rewrite total_map.
Qed.

Lemma key_dec : forall x y : key, {x = y} + {x <> y}.
Proof. intros [h s] [h' s']. destruct (N.eq_dec h h'), (string_dec s s'); subst; auto; right; congruence. Qed.

Lemma keys_any p : keys_in any_key p.
Proof. unfold any_key. induction p; cbn; auto. Qed.

Lemma made_by_new_inj k k' : made_by_new k -> made_by_new k' -> k_str k = k_str k' -> k = k'.
Proof. intros [s ->] [s' ->] E. f_equal. exact (eq_trans (eq_sym (key_str_new s)) (eq_trans E (key_str_new s'))). Qed.

(** ** Session, any keys *)
Lemma session_any l : total_declared (root_events l) < two63 ->
  exists b o, (forall m, visit_roots m l b_default = (b, Done)) /\ idle b /\ (forall m, finish m b = Some o).
Proof.
  intros Htot. rewrite <- total_root_events in Htot.
  destruct (trace_roots (fun k : key => k) l []) as [es vis] eqn:E. cbn [fst] in Htot.
  destruct (@b_default_ok key key_dec (fun k => k) any_key) as (Hb & Hi & Hv).
  destruct (@visit_roots_trace key key_dec (fun k => k) any_key (fun k k' _ _ H => H) l b_default [] [[]] es vis)
    as (b & ps & Hr & Hb' & Hvis & Hi'); auto.
  - apply Forall_forall. intros p _. apply keys_any.
  - cbn [app]. pose proof two63_lt_two64. lia.
  - destruct (@finish_ok key key_dec (fun k => k) any_key (fun k k' _ _ H => H) k_str (fun k => eq_refl) _ _ _ Hb' Hi')
      as (f & w & L & Hf & _); [exact Htot|].
    exists b, (mkOut f w). auto.
Qed.

(** ** Session, keys made by [Key::new]: full description *)
Record session_spec (es : list (ev string)) (f : fg) (w : string) : Prop := {
  ss_ok : fg_ok Debug made_by_new f;
  ss_size : forall p, size_at f p = shown_s es p;
  ss_sum : node_sum f <= total_declared es;
  ss_warn : exists L, w = concat_str (map (warning_for es) L) /\ StronglySorted path_lt L /\
            (forall p, In p L <-> misdeclared_s es p);
}.

Lemma misdeclared_in A A_dec (name : key -> A) K es ps t p :
  arena_ok name K ps t -> data_ok A_dec es ps t -> misdeclared A_dec es p -> In p ps.
Proof.
  intros Ha Hd [Hp Hlt]. unfold inline_below in Hlt.
  destruct (unique_at A_dec es p); [lia|].
  assert (Hex : exists e, In e es /\ child_of A_dec (ev_path e) p = true).
  { clear Ha Hd. assert (Hpos : 0 < declared_below A_dec es p) by lia. clear Hlt.
    unfold declared_below in Hpos. induction es as [|e es IH]; cbn in Hpos; [lia|].
    destruct (child_of A_dec (ev_path e) p) eqn:E; [exists e; split; [now left|auto]|].
    destruct IH as (e' & Hin & E'); [lia|]. exists e'. split; [now right|auto]. }
  destruct Hex as (e & Hin & Hc). unfold child_of in Hc.
  destruct (ev_path e) as [|a q] eqn:Eq; [discriminate|]. rewrite <- Eq in Hc.
  destruct (path_dec A_dec (removelast (ev_path e)) p) as [E|]; [|discriminate].
  pose proof (da_cover Hd Hin) as Hcov.
  assert (Hne : ev_path e <> []) by (rewrite Eq; discriminate).
  destruct (exists_last Hne) as (q' & a' & E'). rewrite E' in E, Hcov. rewrite removelast_last in E. subst q'.
  apply (arena_prefix Ha (q := [a'])). exact Hcov.
Qed.

Lemma written_session es ps t f w L :
  arena_ok k_str made_by_new ps t -> data_ok string_dec es ps t ->
  written string_dec made_by_new (fun s : string => s) es ps [] f w L -> session_spec es f w.
Proof.
  intros Ha Hd Hw. constructor.
  - apply (wr_ok Hw).
  - intros p. pose proof (wr_size Hw (fun a b H => H) p) as H. rewrite map_id in H. exact H.
  - rewrite (wr_sum Hw). eapply below_le; eauto.
  - exists L. split; [|split].
    + rewrite (wr_warn Hw). f_equal. apply map_ext. intros p. unfold wline, warning_line, warning_for.
      rewrite map_id, show_Z_N. reflexivity.
    + pose proof (wr_sorted Hw made_by_new_inj) as H.
      assert (E : map (map (fun s : string => s)) L = L).
      { rewrite (map_ext _ (fun p => p)); [apply map_id | intros p; apply map_id]. }
      rewrite E in H. exact H.
    + intros p. rewrite (wr_in Hw). split; [intros (_ & H & _); exact H|].
      intros H. split; [eapply misdeclared_in; eauto|]. split; [exact H | exists p; reflexivity].
Qed.

Lemma session l : Forall (keys_in made_by_new) l -> total_declared (root_events l) < two63 ->
  exists f w, (forall m, profile m l = Some (mkOut f w)) /\ session_spec (root_events l) f w.
Proof.
  intros HK Htot. unfold root_events in *.
  destruct (trace_roots k_str l []) as [es vis] eqn:E. cbn [fst] in *.
  destruct (@b_default_ok string string_dec k_str made_by_new) as (Hb & Hi & Hv).
  destruct (@visit_roots_trace string string_dec k_str made_by_new made_by_new_inj l b_default [] [[]] es vis)
    as (b & ps & Hr & Hb' & Hvis & Hi'); auto.
  - cbn [app]. pose proof two63_lt_two64. lia.
  - destruct (@finish_ok string string_dec k_str made_by_new made_by_new_inj (fun s => s) (fun k => eq_refl) _ _ _ Hb' Hi')
      as (f & w & L & Hf & Hw); [exact Htot|].
    exists f, w. split; [intros m; unfold profile; now rewrite Hr|].
    eapply written_session; [apply Hb' | apply Hb' | exact Hw].
Qed.

(** Two event lists with the same bookkeeping give the same output. *)
Definition same_books (es es' : list (ev string)) : Prop :=
  (forall p, declared_s es p = declared_s es' p) /\
  (forall p, inline_below_s es p = inline_below_s es' p).

Lemma concat_warnings_ext es es' L : same_books es es' ->
  concat_str (map (warning_for es) L) = concat_str (map (warning_for es') L).
Proof.
  intros [H1 H2]. f_equal. apply map_ext. intros p. unfold warning_for. now rewrite H1, H2.
Qed.

Lemma session_ext es es' f w f' w' m : same_books es es' -> total_declared es < two64 -> total_declared es' < two64 ->
  session_spec es f w -> session_spec es' f' w' ->
  fg_write f = fg_write f' /\ fg_total_size m f = fg_total_size m f' /\ w = w'.
Proof.
  intros Hsame Ht Ht' [Hok Hsz Hsm (L & Hw & Hs & Hin)] [Hok' Hsz' Hsm' (L' & Hw' & Hs' & Hin')].
  assert (Hs0 : forall p, size_at f p = size_at f' p).
  { intros p. rewrite Hsz, Hsz'. unfold shown_s, shown. destruct p; [reflexivity|].
    destruct Hsame as [H1 H2]. unfold declared_s, inline_below_s in *. now rewrite H1, H2. }
  split; [|split].
  - eapply write_ext; eauto.
  - rewrite !(fg_total_wrapped (fg_api_ok (fg_ok_api m Hok))), (fg_total_wrapped (fg_api_ok (fg_ok_api m Hok'))).
    f_equal. eapply node_sum_ext; eauto.
  - rewrite Hw, Hw', (concat_warnings_ext L Hsame). f_equal. f_equal.
    apply (ssorted_ext path_lt_irrefl path_lt_trans Hs Hs').
    intros p. rewrite Hin, Hin'. unfold misdeclared_s, misdeclared.
    destruct Hsame as [H1 H2]. unfold declared_s, inline_below_s in *. now rewrite H1, H2.
Qed.
