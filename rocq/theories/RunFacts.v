(** * Running visit programs: simulation by the trace semantics. *)
From Coq Require Import Permutation Sorted.
From Verif Require Import Base BaseFacts KeyModel KeyFacts HMap FlameModel BuilderModel VisitorModel Spec FlameFacts WriteFacts ArenaFacts.

Section Run.
  Variable A : Type.
  Variable A_dec : forall x y : A, {x = y} + {x <> y}.
  Variable name : key -> A.
  Variable K : key -> Prop.
  Hypothesis name_inj : forall k k', K k -> K k' -> name k = name k' -> k = k'.

  Notation pth := (list A).
  Notation arena_ok := (arena_ok name K).
  Notation data_ok := (data_ok A_dec).
  Notation declared := (declared A_dec).
  Notation trace := (trace name).
  Notation trace_roots := (trace_roots name).

  (** The stack of tree ids spells the path of the current node. *)
  Inductive chain (ps : list pth) : list nat -> nat -> pth -> Prop :=
  | chain_root i : nth_error ps i = Some [] -> chain ps [] i []
  | chain_down st i p j a : chain ps st i p -> nth_error ps j = Some (p ++ [a]) ->
      chain ps (i :: st) j (p ++ [a]).

  Lemma chain_nth ps st i p : chain ps st i p -> nth_error ps i = Some p.
  Proof. destruct 1; auto. Qed.

  Lemma chain_app ps ps' st i p : chain ps st i p -> chain (ps ++ ps') st i p.
  Proof. induction 1; econstructor; eauto using nth_error_app_l. Qed.

  Record binv (es : list (ev A)) (ps : list pth) (b : builder) : Prop := {
    bi_arena : arena_ok ps (b_trees b);
    bi_data : data_ok es ps (b_trees b);
    bi_root : b_root b = 0%nat;
    bi_only : forall p, In p ps -> p = [] \/ exists e, In e es /\ ev_path e = p;
  }.
  (** The same, a node for [q] having been made whose event is still to come. *)
  Record pinv (q : pth) (es : list (ev A)) (ps : list pth) (b : builder) : Prop := {
    pi_arena : arena_ok ps (b_trees b);
    pi_data : data_ok es ps (b_trees b);
    pi_root : b_root b = 0%nat;
    pi_only : forall p, In p ps -> p = [] \/ p = q \/ exists e, In e es /\ ev_path e = p;
  }.

  Definition at_path (ps : list pth) (b : builder) (here : pth) : Prop :=
    chain ps (ts_stack (b_current b)) (ts_tree (b_current b)) here.

  (** ** down *)
  Lemma down_ok es ps b here k : binv es ps b -> at_path ps b here -> K k ->
    exists b' ps' child, down b k = (b', Fine) /\ pinv (here ++ [name k]) es (ps ++ ps') b' /\
      nth_error (ps ++ ps') child = Some (here ++ [name k]) /\
      b_current b' = mkTS (ts_tree (b_current b) :: ts_stack (b_current b)) child /\
      b_shared b' = b_shared b /\ b_visited b' = b_visited b /\ b_entered b' = b_entered b.
  Proof.
    intros [Ha Hd Hr Ho] Hc Hk. pose proof (chain_nth Hc) as Hp.
    destruct (arena_idx Ha Hp) as [td Ht].
    unfold down. cbn [b_trees set_current]. unfold tree_get. rewrite Ht.
    destruct (hm_find (td_children td) k) as [e|] eqn:Ef.
    - apply hm_find_In in Ef.
      destruct (ar_child Ha Ht Ef) as (_ & _ & p & Hp' & He). rewrite Hp in Hp'. inversion Hp'; subst p.
      exists (set_current b (mkTS (ts_tree (b_current b) :: ts_stack (b_current b)) e)), [], e.
      rewrite app_nil_r. cbn. split; [reflexivity|]. split; [split; auto|]; [intros p Hin; destruct (Ho p Hin); auto|]. auto 10.
    - cbn [new_tree]. rewrite upd_length, Nat.eqb_refl. cbn [b_current set_current ts_stack set_trees].
      destruct (@arena_new_child A name K name_inj ps (b_trees b) _ td here k Ha Ht Hp Hk Ef) as [Ha' Hfresh].
      eexists _, [here ++ [name k]], (length (b_trees b)). split; [reflexivity|]. cbn.
      split; [split; cbn; auto|].
      + eapply data_new_child; eauto.
      + intros p Hin. apply in_app_or in Hin as [Hin|[<-|[]]]; [destruct (Ho p Hin); auto | auto].
      + split; [|auto]. rewrite <- (ar_len Ha). apply nth_error_snoc_last.
  Qed.

  Lemma at_path_child ps ps' b b' here k child :
    at_path ps b here -> nth_error (ps ++ ps') child = Some (here ++ [name k]) ->
    b_current b' = mkTS (ts_tree (b_current b) :: ts_stack (b_current b)) child ->
    at_path (ps ++ ps') b' (here ++ [name k]).
  Proof.
    intros Hc Hn E. unfold at_path. rewrite E. cbn. apply chain_down; [|exact Hn].
    now apply chain_app.
  Qed.

  (** ** Recording a size *)
  Lemma app_nonnil {X} (l : list X) x : l ++ [x] <> [].
  Proof. destruct l; discriminate. Qed.

  Lemma add_size_ok es ps b p a nk kind s : pinv (p ++ [a]) es ps b -> at_path ps b (p ++ [a]) ->
    is_NKUnique kind = false ->
    total_declared (es ++ [mkEv (p ++ [a]) kind nk s]) < two64 ->
    exists b', (forall m, add_size m b s = (b', Fine)) /\ binv (es ++ [mkEv (p ++ [a]) kind nk s]) ps b' /\
      b_current b' = b_current b /\ b_shared b' = b_shared b /\
      b_visited b' = b_visited b /\ b_entered b' = b_entered b.
  Proof.
    intros [Ha Hd Hr Ho] Hc Hu Htot. pose proof (chain_nth Hc) as Hp.
    destruct (arena_idx Ha Hp) as [td Ht]. unfold add_size, tree_get. rewrite Ht.
    destruct (da_size Hd Hp Ht) as [Hs _].
    pose proof (@declared_le_total A A_dec es (p ++ [a])) as Hle.
    rewrite total_app, total_cons in Htot. cbn [ev_size] in Htot.
    eexists. split; [intros m; rewrite uadd_exact by lia; reflexivity|]. cbn. split; [|auto]. split; cbn; auto.
    - eapply arena_upd_same; eauto.
    - rewrite <- (orb_false_r (td_unique td)). rewrite <- Hu.
      eapply data_upd_event; eauto. apply app_nonnil.
    - intros q Hin. destruct (Ho q Hin) as [->|[->|(e & He & E)]]; [now left | right; eexists; split; [apply in_or_app; right; now left | reflexivity] | right; exists e; split; [apply in_or_app; now left | exact E]].
  Qed.

  Lemma add_unique_ok es ps b p a nk s : pinv (p ++ [a]) es ps b -> at_path ps b (p ++ [a]) ->
    total_declared (es ++ [mkEv (p ++ [a]) NKUnique nk s]) < two64 ->
    exists b', (forall m, bind_status (add_size m b s) mark_unique = (b', Fine)) /\
      binv (es ++ [mkEv (p ++ [a]) NKUnique nk s]) ps b' /\
      b_current b' = b_current b /\ b_shared b' = b_shared b /\
      b_visited b' = b_visited b /\ b_entered b' = b_entered b.
  Proof.
    intros [Ha Hd Hr Ho] Hc Htot. pose proof (chain_nth Hc) as Hp.
    destruct (arena_idx Ha Hp) as [td Ht]. unfold add_size, tree_get. rewrite Ht.
    destruct (da_size Hd Hp Ht) as [Hs _].
    pose proof (@declared_le_total A A_dec es (p ++ [a])) as Hle.
    rewrite total_app, total_cons in Htot. cbn [ev_size] in Htot.
    pose proof (nth_error_lt Ht) as Hlt.
    assert (Huu : forall x y, upd (upd (b_trees b) (ts_tree (b_current b)) x) (ts_tree (b_current b)) y
                              = upd (b_trees b) (ts_tree (b_current b)) y).
    { clear. generalize (b_trees b) (ts_tree (b_current b)). induction t as [|z t IH]; intros [|i] x y; simpl; auto.
      now rewrite IH. }
    eexists. split.
    { intros m. rewrite uadd_exact by lia. cbn [bind_status]. unfold mark_unique, tree_get. cbn [set_trees b_trees b_current].
      rewrite nth_upd, Nat.eqb_refl by auto. cbn [td_size td_rem td_unique td_children]. reflexivity. }
    cbn. split; [|auto]. rewrite Huu. split; cbn; auto.
    - eapply arena_upd_same; eauto.
    - rewrite <- (orb_true_r (td_unique td)).
      eapply data_upd_event; eauto. apply app_nonnil.
    - intros q Hin. destruct (Ho q Hin) as [->|[->|(e & He & E)]]; [now left | right; eexists; split; [apply in_or_app; right; now left | reflexivity] | right; exists e; split; [apply in_or_app; now left | exact E]].
  Qed.

  (** ** enter *)
  Lemma enter_inline_ok es ps b here k s nk : binv es ps b -> at_path ps b here -> K k ->
    total_declared (es ++ [mkEv (here ++ [name k]) NKInline nk s]) < two64 ->
    exists b' ps' child, (forall m, enter_inline m b k s = (b', Fine)) /\
      binv (es ++ [mkEv (here ++ [name k]) NKInline nk s]) (ps ++ ps') b' /\
      at_path (ps ++ ps') b' (here ++ [name k]) /\
      b_current b' = mkTS (ts_tree (b_current b) :: ts_stack (b_current b)) child /\
      b_shared b' = b_shared b /\ b_visited b' = b_visited b /\ b_entered b' = b_entered b.
  Proof.
    intros Hb Hc Hk Htot. destruct (down_ok Hb Hc Hk) as (b1 & ps' & child & Ed & Hb1 & Hn & Ecur & Esh & Ev & Ee).
    pose proof (at_path_child Hc Hn Ecur) as Hc1.
    destruct (@add_size_ok es (ps ++ ps') b1 here (name k) nk NKInline s Hb1 Hc1 eq_refl Htot)
      as (b2 & Ea & Hb2 & Ecur2 & Esh2 & Ev2 & Ee2).
    exists b2, ps', child. unfold enter_inline. rewrite Ed. cbn [bind_status]. split; [auto|].
    split; [auto|]. split; [unfold at_path; rewrite Ecur2; exact Hc1|].
    rewrite Ecur2, Esh2, Ev2, Ee2. auto.
  Qed.

  Lemma enter_unique_ok es ps b here k s nk : binv es ps b -> at_path ps b here -> K k ->
    total_declared (es ++ [mkEv (here ++ [name k]) NKUnique nk s]) < two64 ->
    exists b' ps' child, (forall m, enter_unique m b k s = (b', Fine)) /\
      binv (es ++ [mkEv (here ++ [name k]) NKUnique nk s]) (ps ++ ps') b' /\
      at_path (ps ++ ps') b' (here ++ [name k]) /\
      b_current b' = mkTS (ts_tree (b_current b) :: ts_stack (b_current b)) child /\
      b_shared b' = b_shared b /\ b_visited b' = b_visited b /\ b_entered b' = b_entered b.
  Proof.
    intros Hb Hc Hk Htot. destruct (down_ok Hb Hc Hk) as (b1 & ps' & child & Ed & Hb1 & Hn & Ecur & Esh & Ev & Ee).
    pose proof (at_path_child Hc Hn Ecur) as Hc1.
    destruct (@add_unique_ok es (ps ++ ps') b1 here (name k) nk s Hb1 Hc1 Htot)
      as (b2 & Ea & Hb2 & Ecur2 & Esh2 & Ev2 & Ee2).
    exists b2, ps', child. unfold enter_unique. rewrite Ed. cbn [bind_status]. split; [exact Ea|].
    split; [auto|]. split; [unfold at_path; rewrite Ecur2; exact Hc1|].
    rewrite Ecur2, Esh2, Ev2, Ee2. auto.
  Qed.

  Lemma at_path_idle ps b : arena_ok ps (b_trees b) -> b_root b = 0%nat ->
    b_current b = mkTS [] (b_root b) -> at_path ps b [].
  Proof. intros Ha Hr E. unfold at_path. rewrite E, Hr. cbn. apply chain_root, Ha. Qed.

  Lemma enter_shared_new es ps b here k s x nk : binv es ps b -> at_path ps b here -> K k ->
    ptr_mem x (b_visited b) = false ->
    total_declared (es ++ [mkEv (here ++ [name k]) NKShared nk s]) < two64 ->
    exists b' ps' child, (forall m, enter_shared m b k s x = (b', Fine, true)) /\
      binv (es ++ [mkEv (here ++ [name k]) NKShared nk s]) (ps ++ ps') b' /\
      at_path (ps ++ ps') b' [] /\
      b_current b' = mkTS [] (b_root b) /\
      b_shared b' = mkTS (ts_tree (b_current b) :: ts_stack (b_current b)) child :: b_shared b /\
      b_visited b' = x :: b_visited b /\ b_entered b' = b_entered b.
  Proof.
    intros Hb Hc Hk Hx Htot. destruct (down_ok Hb Hc Hk) as (b1 & ps' & child & Ed & Hb1 & Hn & Ecur & Esh & Ev & Ee).
    pose proof (at_path_child Hc Hn Ecur) as Hc1.
    destruct (@add_size_ok es (ps ++ ps') b1 here (name k) nk NKShared s Hb1 Hc1 eq_refl Htot)
      as (b2 & Ea & Hb2 & Ecur2 & Esh2 & Ev2 & Ee2).
    unfold enter_shared. rewrite Ed. cbn [bind_status].
    eexists _, ps', child. split; [intros m; rewrite Ea, Ev2, Ev, Hx; reflexivity|]. cbn.
    destruct Hb2 as [Ha2 Hd2 Hr2 Ho2]. split; [split; auto|].
    split; [unfold at_path; cbn; rewrite Hr2; apply chain_root, Ha2|].
    rewrite Ecur2, Ecur, Esh2, Esh, Ee2, Ee. split; [|auto].
    rewrite Hr2. symmetry. f_equal. apply (bi_root Hb).
  Qed.

  Lemma enter_shared_old es ps b here k s x nk : binv es ps b -> at_path ps b here -> K k ->
    ptr_mem x (b_visited b) = true -> b_entered b = true ->
    total_declared (es ++ [mkEv (here ++ [name k]) NKShared nk s]) < two64 ->
    exists b' ps', (forall m, enter_shared m b k s x = (b', Fine, false)) /\
      binv (es ++ [mkEv (here ++ [name k]) NKShared nk s]) (ps ++ ps') b' /\
      b_current b' = b_current b /\ b_shared b' = b_shared b /\
      b_visited b' = b_visited b /\ b_entered b' = b_entered b.
  Proof.
    intros Hb Hc Hk Hx He Htot. destruct (down_ok Hb Hc Hk) as (b1 & ps' & child & Ed & Hb1 & Hn & Ecur & Esh & Ev & Ee).
    pose proof (at_path_child Hc Hn Ecur) as Hc1.
    destruct (@add_size_ok es (ps ++ ps') b1 here (name k) nk NKShared s Hb1 Hc1 eq_refl Htot)
      as (b2 & Ea & Hb2 & Ecur2 & Esh2 & Ev2 & Ee2).
    unfold enter_shared. rewrite Ed. cbn [bind_status].
    eexists _, ps'. split.
    { intros m. rewrite Ea, Ev2, Ev, Hx. unfold exit_impl. rewrite Ee2, Ee, He. cbn [negb]. unfold up.
      rewrite Ecur2, Ecur. cbn [ts_stack]. reflexivity. }
    cbn.
    destruct Hb2 as [Ha2 Hd2 Hr2 Ho2]. split; [split; auto|].
    rewrite Esh2, Esh, Ev2, Ev, Ee2, Ee. repeat split; auto. now destruct (b_current b).
  Qed.

  (** ** exit *)
  Lemma exit_pop b t st : b_entered b = true -> ts_stack (b_current b) = t :: st ->
    exit_impl b = (set_current b (mkTS st t), Fine).
  Proof. intros He Hs. unfold exit_impl. rewrite He. cbn [negb]. unfold up. now rewrite Hs. Qed.

  Lemma exit_shared b t st child rest : b_entered b = true -> ts_stack (b_current b) = [] ->
    b_shared b = mkTS (t :: st) child :: rest ->
    exit_impl b = (set_current (set_shared b rest) (mkTS st t), Fine).
  Proof.
    intros He Hs Hsh. unfold exit_impl. rewrite He. cbn [negb]. unfold up. rewrite Hs, Hsh. reflexivity.
  Qed.

  Lemma binv_set es ps b c sh : binv es ps b -> binv es ps (set_current (set_shared b sh) c).
  Proof. intros [Ha Hd Hr Ho]. split; auto. Qed.
  Lemma binv_set_current es ps b c : binv es ps b -> binv es ps (set_current b c).
  Proof. intros [Ha Hd Hr Ho]. split; auto. Qed.
  Lemma binv_set_entered es ps b c : binv es ps b -> binv es ps (set_entered b c).
  Proof. intros [Ha Hd Hr Ho]. split; auto. Qed.

  (** ** The main simulation *)
  Definition same_frame (b b' : builder) : Prop :=
    b_current b' = b_current b /\ b_shared b' = b_shared b /\ b_entered b' = true.

  Lemma at_path_frame ps ps' b b' here : at_path ps b here -> b_current b' = b_current b -> at_path (ps ++ ps') b' here.
  Proof. intros H E. unfold at_path. rewrite E. now apply chain_app. Qed.

  Lemma run_trace p : forall b es ps here nk es1 vis1 ok,
    keys_in K p -> binv es ps b -> at_path ps b here -> b_entered b = true ->
    trace p (b_visited b) here nk = (es1, vis1, ok) ->
    total_declared (es ++ es1) < two64 ->
    exists b' ps', (forall m, run m p b = (b', if ok then Done else Unwinding)) /\
      binv (es ++ es1) (ps ++ ps') b' /\ b_visited b' = vis1 /\ same_frame b b'.
  Proof.
    induction p as [| |k s body IHb rest IHr|k s body IHb rest IHr|k s x body IHb r1 IH1 r2 IH2];
      intros b es ps here nk es1 vis1 ok HK Hb Hc He Et Htot; cbn [Spec.trace] in Et; cbn [run].
    - inversion Et; subst. exists b, []. rewrite !app_nil_r. unfold same_frame. auto 10.
    - inversion Et; subst. exists b, []. rewrite !app_nil_r. unfold same_frame. auto 10.
    - (* inline *)
      cbn [keys_in] in HK. destruct HK as (Hk & HKb & HKr).
      destruct (trace body (b_visited b) (here ++ [name k]) NKInline) as [[eb vb] okb] eqn:Etb.
      assert (Hev : exists tl, es1 = mkEv (here ++ [name k]) NKInline nk s :: eb ++ tl).
      { destruct okb.
        - destruct (trace rest vb here nk) as [[er vr] okr]. inversion Et; subst. eauto.
        - inversion Et; subst. exists []. now rewrite app_nil_r. }
      destruct Hev as [tl Hev]. set (e := mkEv (here ++ [name k]) NKInline nk s) in *.
      assert (Ht1 : total_declared (es ++ [e]) < two64 /\ total_declared ((es ++ [e]) ++ eb) < two64).
      { rewrite Hev in Htot. rewrite !total_app, !total_cons, total_app in *.
        change (total_declared (@nil (ev A))) with 0. lia. }
      destruct Ht1 as [Ht1 Ht2].
      destruct (@enter_inline_ok es ps b here k s nk Hb Hc Hk Ht1)
        as (b1 & ps1 & child & E1 & Hb1 & Hc1 & Ecur1 & Esh1 & Ev1 & Ee1).
      rewrite <- Ev1 in Etb.
      destruct (IHb b1 _ _ _ _ _ _ _ HKb Hb1 Hc1 (eq_trans Ee1 He) Etb Ht2) as (b2 & ps2 & E2 & Hb2 & Ev2 & Ecur2 & Esh2 & Ee2).
      assert (Hx : exit_impl b2 = (set_current b2 (b_current b), Fine)).
      { erewrite exit_pop; [|exact Ee2|rewrite Ecur2, Ecur1; reflexivity]. now destruct (b_current b). }
      destruct okb.
      + destruct (trace rest vb here nk) as [[er vr] okr] eqn:Etr. clear Hev; inversion Et; subst es1 vis1 ok; clear Et.
        replace (es ++ e :: eb ++ er) with (((es ++ [e]) ++ eb) ++ er) in *
          by (rewrite <- !app_assoc; reflexivity).
        assert (Etr' : trace rest (b_visited (set_current b2 (b_current b))) here nk = (er, vr, okr))
          by (cbn; rewrite Ev2; exact Etr).
        destruct (fun H => IHr (set_current b2 (b_current b)) ((es ++ [e]) ++ eb) ((ps ++ ps1) ++ ps2) here nk er vr okr HKr H) as (b3 & ps3 & E3 & Hb3 & Ev3 & Ecur3 & Esh3 & Ee3); auto.
        { now apply binv_set_current. }
        { rewrite <- app_assoc. eapply at_path_frame; eauto. }
        exists b3, (ps1 ++ ps2 ++ ps3).
        split; [intros m; rewrite E1, E2; cbn [leave_scope]; rewrite Hx; apply E3|].
        split; [now rewrite !app_assoc|]. split; [auto|]. unfold same_frame. cbn in *.
        split; [auto|]. split; [congruence|auto].
      + clear Hev; inversion Et; subst es1 vis1 ok; clear Et.
        exists (set_current b2 (b_current b)), (ps1 ++ ps2).
        split; [intros m; rewrite E1, E2; cbn [leave_scope]; rewrite Hx; reflexivity|].
        split; [|split; [exact Ev2|]].
        * replace (es ++ e :: eb) with ((es ++ [e]) ++ eb) by (rewrite <- app_assoc; reflexivity).
          rewrite app_assoc. now apply binv_set_current.
        * unfold same_frame. cbn. split; [auto|]. split; [congruence|auto].
    - (* unique *)
      cbn [keys_in] in HK. destruct HK as (Hk & HKb & HKr).
      destruct (trace body (b_visited b) (here ++ [name k]) NKUnique) as [[eb vb] okb] eqn:Etb.
      assert (Hev : exists tl, es1 = mkEv (here ++ [name k]) NKUnique nk s :: eb ++ tl).
      { destruct okb.
        - destruct (trace rest vb here nk) as [[er vr] okr]. inversion Et; subst. eauto.
        - inversion Et; subst. exists []. now rewrite app_nil_r. }
      destruct Hev as [tl Hev]. set (e := mkEv (here ++ [name k]) NKUnique nk s) in *.
      assert (Ht1 : total_declared (es ++ [e]) < two64 /\ total_declared ((es ++ [e]) ++ eb) < two64).
      { rewrite Hev in Htot. rewrite !total_app, !total_cons, total_app in *.
        change (total_declared (@nil (ev A))) with 0. lia. }
      destruct Ht1 as [Ht1 Ht2].
      destruct (@enter_unique_ok es ps b here k s nk Hb Hc Hk Ht1)
        as (b1 & ps1 & child & E1 & Hb1 & Hc1 & Ecur1 & Esh1 & Ev1 & Ee1).
      rewrite <- Ev1 in Etb.
      destruct (IHb b1 _ _ _ _ _ _ _ HKb Hb1 Hc1 (eq_trans Ee1 He) Etb Ht2) as (b2 & ps2 & E2 & Hb2 & Ev2 & Ecur2 & Esh2 & Ee2).
      assert (Hx : exit_impl b2 = (set_current b2 (b_current b), Fine)).
      { erewrite exit_pop; [|exact Ee2|rewrite Ecur2, Ecur1; reflexivity]. now destruct (b_current b). }
      destruct okb.
      + destruct (trace rest vb here nk) as [[er vr] okr] eqn:Etr. clear Hev; inversion Et; subst es1 vis1 ok; clear Et.
        replace (es ++ e :: eb ++ er) with (((es ++ [e]) ++ eb) ++ er) in *
          by (rewrite <- !app_assoc; reflexivity).
        assert (Etr' : trace rest (b_visited (set_current b2 (b_current b))) here nk = (er, vr, okr))
          by (cbn; rewrite Ev2; exact Etr).
        destruct (fun H => IHr (set_current b2 (b_current b)) ((es ++ [e]) ++ eb) ((ps ++ ps1) ++ ps2) here nk er vr okr HKr H) as (b3 & ps3 & E3 & Hb3 & Ev3 & Ecur3 & Esh3 & Ee3); auto.
        { now apply binv_set_current. }
        { rewrite <- app_assoc. eapply at_path_frame; eauto. }
        exists b3, (ps1 ++ ps2 ++ ps3).
        split; [intros m; rewrite E1, E2; cbn [leave_scope]; rewrite Hx; apply E3|].
        split; [now rewrite !app_assoc|]. split; [auto|]. unfold same_frame. cbn in *.
        split; [auto|]. split; [congruence|auto].
      + clear Hev; inversion Et; subst es1 vis1 ok; clear Et.
        exists (set_current b2 (b_current b)), (ps1 ++ ps2).
        split; [intros m; rewrite E1, E2; cbn [leave_scope]; rewrite Hx; reflexivity|].
        split; [|split; [exact Ev2|]].
        * replace (es ++ e :: eb) with ((es ++ [e]) ++ eb) by (rewrite <- app_assoc; reflexivity).
          rewrite app_assoc. now apply binv_set_current.
        * unfold same_frame. cbn. split; [auto|]. split; [congruence|auto].
    - (* shared *)
      cbn [keys_in] in HK. destruct HK as (Hk & HKb & HK1 & HK2).
      set (e := mkEv (here ++ [name k]) NKShared nk s) in *.
      destruct (ptr_mem x (b_visited b)) eqn:Ex.
      + (* already visited *)
        destruct (trace r2 (b_visited b) here nk) as [[er vr] okr] eqn:Etr. inversion Et; subst es1 vis1 ok; clear Et.
        replace (es ++ e :: er) with ((es ++ [e]) ++ er) in * by (rewrite <- app_assoc; reflexivity).
        assert (Ht1 : total_declared (es ++ [e]) < two64) by (rewrite total_app in Htot; lia).
        destruct (@enter_shared_old es ps b here k s x nk Hb Hc Hk Ex He Ht1)
          as (b1 & ps1 & E1 & Hb1 & Ecur1 & Esh1 & Ev1 & Ee1).
        rewrite <- Ev1 in Etr.
        destruct (fun H => IH2 b1 (es ++ [e]) (ps ++ ps1) here nk er vr okr HK2 H) as (b3 & ps3 & E3 & Hb3 & Ev3 & Ecur3 & Esh3 & Ee3); auto.
        { eapply at_path_frame; eauto. }
        { congruence. }
        exists b3, (ps1 ++ ps3). split; [intros m; rewrite E1; apply E3|]. split; [now rewrite !app_assoc|]. split; [auto|].
        unfold same_frame. repeat split; congruence.
      + (* first visit *)
        destruct (trace body (x :: b_visited b) [] NKShared) as [[eb vb] okb] eqn:Etb.
        assert (Hev : exists tl, es1 = e :: eb ++ tl).
        { destruct okb.
          - destruct (trace r1 vb here nk) as [[er vr] okr]. inversion Et; subst. eauto.
          - inversion Et; subst. exists []. now rewrite app_nil_r. }
        destruct Hev as [tl Hev].
        assert (Ht1 : total_declared (es ++ [e]) < two64 /\ total_declared ((es ++ [e]) ++ eb) < two64).
        { rewrite Hev in Htot. rewrite !total_app, !total_cons, total_app in *.
          change (total_declared (@nil (ev A))) with 0. lia. }
        destruct Ht1 as [Ht1 Ht2].
        destruct (@enter_shared_new es ps b here k s x nk Hb Hc Hk Ex Ht1)
          as (b1 & ps1 & child & E1 & Hb1 & Hc1 & Ecur1 & Esh1 & Ev1 & Ee1).
        rewrite <- Ev1 in Etb.
        destruct (IHb b1 _ _ _ _ _ _ _ HKb Hb1 Hc1 (eq_trans Ee1 He) Etb Ht2) as (b2 & ps2 & E2 & Hb2 & Ev2 & Ecur2 & Esh2 & Ee2).
          assert (Hx : exit_impl b2 = (set_current (set_shared b2 (b_shared b)) (b_current b), Fine)).
        { erewrite exit_shared; [|exact Ee2|rewrite Ecur2, Ecur1; reflexivity|rewrite Esh2, Esh1; reflexivity].
          now destruct (b_current b). }
        destruct okb.
        * destruct (trace r1 vb here nk) as [[er vr] okr] eqn:Etr. clear Hev; inversion Et; subst es1 vis1 ok; clear Et.
          replace (es ++ e :: eb ++ er) with (((es ++ [e]) ++ eb) ++ er) in *
            by (rewrite <- !app_assoc; reflexivity).
          set (b2' := set_current (set_shared b2 (b_shared b)) (b_current b)).
          assert (Etr' : trace r1 (b_visited b2') here nk = (er, vr, okr)) by (cbn; rewrite Ev2; exact Etr).
          destruct (fun H => IH1 b2' ((es ++ [e]) ++ eb) ((ps ++ ps1) ++ ps2) here nk er vr okr HK1 H) as (b3 & ps3 & E3 & Hb3 & Ev3 & Ecur3 & Esh3 & Ee3); auto.
          { now apply binv_set. }
          { rewrite <- app_assoc. eapply at_path_frame; eauto. }
          exists b3, (ps1 ++ ps2 ++ ps3).
        split; [intros m; rewrite E1, E2; cbn [leave_scope]; rewrite Hx; apply E3|].
          split; [now rewrite !app_assoc|]. split; [auto|]. unfold same_frame. cbn in *. auto.
        * clear Hev; inversion Et; subst es1 vis1 ok; clear Et.
          exists (set_current (set_shared b2 (b_shared b)) (b_current b)), (ps1 ++ ps2).
        split; [intros m; rewrite E1, E2; cbn [leave_scope]; rewrite Hx; reflexivity|].
          split; [|split; [exact Ev2|]].
          -- replace (es ++ e :: eb) with ((es ++ [e]) ++ eb) by (rewrite <- app_assoc; reflexivity).
             rewrite app_assoc. now apply binv_set.
          -- unfold same_frame. cbn. auto.
  Qed.

  (** ** Roots *)
  Definition idle (b : builder) : Prop :=
    b_current b = mkTS [] (b_root b) /\ b_shared b = [] /\ b_entered b = false.

  Lemma b_default_ok : binv [] [[]] b_default /\ idle b_default /\ b_visited b_default = [].
  Proof.
    split; [|split; [unfold idle; auto | auto]]. split; cbn.
    - apply arena_default.
    - constructor; simpl; [|tauto|tauto].
      intros [|i] p td Hp Ht; [inversion Ht; subst; split; reflexivity | destruct i; discriminate].
    - reflexivity.
    - intros p [<-|[]]. now left.
  Qed.

  Lemma visit_root_trace p b es ps es1 vis1 ok :
    keys_in K p -> binv es ps b -> idle b ->
    trace p (b_visited b) [] NKRoot = (es1, vis1, ok) ->
    total_declared (es ++ es1) < two64 ->
    exists b' ps', (forall m, visit_root m p b = (b', if ok then Done else Unwinding)) /\
      binv (es ++ es1) (ps ++ ps') b' /\ b_visited b' = vis1 /\ idle b'.
  Proof.
    intros HK Hb (Hcur & Hsh & Hent) Et Htot. unfold visit_root, root_visitor. rewrite Hent.
    destruct (fun H1 H2 H3 => @run_trace p (set_entered b true) es ps [] NKRoot es1 vis1 ok HK H1 H2 H3 Et Htot)
      as (b1 & ps1 & E1 & Hb1 & Ev1 & Ecur1 & Esh1 & Ee1); auto.
    { now apply binv_set_entered. }
    { apply at_path_idle; cbn; [apply Hb | apply Hb | exact Hcur]. }
    cbn in Ecur1, Esh1.
    assert (Hx : exit_impl b1 = (set_entered b1 false, Fine)).
    { unfold exit_impl. rewrite Ee1. cbn [negb]. unfold up. rewrite Ecur1, Hcur. cbn [ts_stack].
      now rewrite Esh1, Hsh. }
    exists (set_entered b1 false), ps1.
    split; [intros m; rewrite E1; destruct ok; cbn [leave_scope]; rewrite Hx; reflexivity|].
      split; [now apply binv_set_entered|]; split; [exact Ev1|]; unfold idle; cbn;
      rewrite Ecur1, Hcur, (bi_root Hb1), (bi_root Hb), Esh1; auto.
  Qed.

  Lemma visit_roots_trace l : forall b es ps es1 vis1,
    Forall (keys_in K) l -> binv es ps b -> idle b ->
    trace_roots l (b_visited b) = (es1, vis1) ->
    total_declared (es ++ es1) < two64 ->
    exists b' ps', (forall m, visit_roots m l b = (b', Done)) /\
      binv (es ++ es1) (ps ++ ps') b' /\ b_visited b' = vis1 /\ idle b'.
  Proof.
    induction l as [|p l IH]; intros b es ps es1 vis1 HK Hb Hi Et Htot; cbn [Spec.trace_roots visit_roots] in *.
    - inversion Et; subst. exists b, []. rewrite !app_nil_r. auto.
    - inversion HK as [|? ? HKp HKl]; subst.
      destruct (trace p (b_visited b) [] NKRoot) as [[e1 v1] ok1] eqn:E1.
      destruct (trace_roots l v1) as [e2 v2] eqn:E2. inversion Et; subst; clear Et.
      assert (Ht1 : total_declared (es ++ e1) < two64) by (rewrite app_assoc, total_app in Htot; lia).
      destruct (@visit_root_trace p b es ps e1 v1 ok1 HKp Hb Hi E1 Ht1) as (b1 & ps1 & R1 & Hb1 & Ev1 & Hi1).
      rewrite <- Ev1 in E2.
      rewrite app_assoc in Htot.
      destruct (IH b1 (es ++ e1) (ps ++ ps1) e2 vis1 HKl Hb1 Hi1 E2 Htot) as (b2 & ps2 & R2 & Hb2 & Ev2 & Hi2).
      exists b2, (ps1 ++ ps2). split; [intros m; rewrite R1; destruct ok1; apply R2|]. rewrite !app_assoc. auto.
  Qed.
End Run.
