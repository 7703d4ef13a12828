(** * Histories of API calls: leaks, reordering, shared pointers. *)
From Coq Require Import Permutation Sorted.
From Verif Require Import Base BaseFacts KeyModel KeyFacts HMap FlameModel BuilderModel VisitorModel Spec
  FlameFacts WriteFacts ArenaFacts RunFacts FinishFacts FlameExtra BuilderFacts.

(** ** Structure: number of open scopes *)
Fixpoint sum_len (l : list tree_stack) : nat :=
  match l with [] => 0 | ts :: l' => length (ts_stack ts) + sum_len l' end.

Definition depth (b : builder) : nat :=
  (if b_entered b then 1 else 0) + length (ts_stack (b_current b)) +
  sum_len (b_shared b).

Record shape (b : builder) : Prop := {
  sh_closed : b_entered b = false -> ts_stack (b_current b) = [] /\ b_shared b = [];
  sh_shared : Forall (fun ts => ts_stack ts <> []) (b_shared b);
}.

Lemma down_shape b k b' : down b k = (b', Fine) ->
  exists child, b_current b' = mkTS (ts_tree (b_current b) :: ts_stack (b_current b)) child /\
  b_shared b' = b_shared b /\ b_entered b' = b_entered b /\ b_visited b' = b_visited b /\ b_root b' = b_root b.
Proof.
  unfold down. cbn [b_trees set_current].
  destruct (tree_get (b_trees b) (ts_tree (b_current b))) as [td|]; [|discriminate].
  destruct (hm_find (td_children td) k) as [e|].
  - intros E; inversion E; subst. exists e. cbn. auto.
  - cbn [new_tree]. rewrite upd_length, Nat.eqb_refl. intros E; inversion E; subst. eexists. cbn. auto.
Qed.

Lemma add_size_shape m b s b' : add_size m b s = (b', Fine) ->
  b_current b' = b_current b /\ b_shared b' = b_shared b /\ b_entered b' = b_entered b /\ b_visited b' = b_visited b /\ b_root b' = b_root b.
Proof.
  unfold add_size. destruct (tree_get _ _); [|discriminate]. destruct (uadd _ _ _); [|discriminate].
  intros E; inversion E; subst. cbn. auto.
Qed.

Lemma mark_unique_shape b b' : mark_unique b = (b', Fine) ->
  b_current b' = b_current b /\ b_shared b' = b_shared b /\ b_entered b' = b_entered b /\ b_visited b' = b_visited b /\ b_root b' = b_root b.
Proof.
  unfold mark_unique. destruct (tree_get _ _); [|discriminate].
  intros E; inversion E; subst. cbn. auto.
Qed.

Lemma bind_fine r f b' : bind_status r f = (b', Fine) -> exists b1, r = (b1, Fine) /\ f b1 = (b', Fine).
Proof. destruct r as [b1 [|]]; cbn; [eauto | discriminate]. Qed.

Ltac unbind H := apply bind_fine in H as (? & ? & H).

Definition entered_one (b b' : builder) : Prop :=
  exists child, b_current b' = mkTS (ts_tree (b_current b) :: ts_stack (b_current b)) child /\
  b_shared b' = b_shared b /\ b_entered b' = b_entered b /\ b_visited b' = b_visited b /\ b_root b' = b_root b.

Lemma enter_inline_shape m b k s b' : enter_inline m b k s = (b', Fine) -> entered_one b b'.
Proof.
  unfold enter_inline. intros H. apply bind_fine in H as (b1 & H1 & H2).
  apply down_shape in H1 as (c & E1 & E2 & E3 & E4 & E5). apply add_size_shape in H2 as (F1 & F2 & F3 & F4 & F5).
  exists c. repeat split; congruence.
Qed.

Lemma enter_unique_shape m b k s b' : enter_unique m b k s = (b', Fine) -> entered_one b b'.
Proof.
  unfold enter_unique. intros H. apply bind_fine in H as (b1 & H1 & H2). apply bind_fine in H2 as (b2 & H2 & H3).
  apply down_shape in H1 as (c & E1 & E2 & E3 & E4 & E5). apply add_size_shape in H2 as (F1 & F2 & F3 & F4 & F5).
  apply mark_unique_shape in H3 as (G1 & G2 & G3 & G4 & G5).
  exists c. repeat split; congruence.
Qed.

Lemma exit_shape b b' : exit_impl b = (b', Fine) -> shape b ->
  shape b' /\ depth b = S (depth b') /\ b_visited b' = b_visited b /\ b_root b' = b_root b.
Proof.
  unfold exit_impl. destruct (b_entered b) eqn:He; [|discriminate]. cbn [negb]. unfold up.
  intros E [Hc Hs]. destruct (ts_stack (b_current b)) as [|t st] eqn:Est.
  - destruct (b_shared b) as [|ts rest] eqn:Esh.
    + inversion E; subst; clear E. cbn. split; [|split; [|auto]].
      * constructor; cbn; rewrite ?Est, ?Esh; auto.
      * unfold depth. cbn. rewrite He, Est, Esh. reflexivity.
    + cbn [set_current set_shared b_current] in E. inversion Hs as [|? ? H1 H2]; subst.
      destruct (ts_stack ts) as [|t st] eqn:Ets; [contradiction|]. inversion E; subst; clear E. cbn.
      split; [|split; [|auto]].
      * constructor; cbn; [congruence | exact H2].
      * unfold depth. cbn. rewrite He, Est, Esh. cbn. rewrite Ets. cbn. lia.
  - inversion E; subst; clear E. cbn. split; [|split; [|auto]].
    + constructor; cbn; [congruence | exact Hs].
    + unfold depth. cbn. rewrite He, Est. cbn. lia.
Qed.

Lemma step_shape m b e b' ret live : step m b e = (b', Fine, ret) -> allowed live e -> shape b ->
  (0 < live -> b_entered b = true)%nat ->
  shape b' /\
  depth b' = match e with EvExit => pred (depth b) | EvForget => depth b | _ => if ret then S (depth b) else depth b end /\
  (e = EvExit -> 0 < depth b)%nat.
Proof.
  intros E Hal Hsh Hent. destruct e as [|k s|k s|k s x| |]; cbn [step allowed] in *.
  - unfold root_visitor in E. destruct (b_entered b) eqn:He; [discriminate|]. inversion E; subst; clear E.
    destruct (sh_closed Hsh He) as [H1 H2].
    split; [constructor; cbn; [discriminate | apply Hsh]|]. split; [|discriminate].
    unfold depth. cbn. rewrite He. lia.
  - inversion E as [[E1 E2]]; subst; clear E. apply enter_inline_shape in E1 as (c & E1 & E2 & E3 & _).
    specialize (Hent Hal). split; [|split; [|discriminate]].
    + constructor; [congruence | rewrite E2; apply Hsh].
    + unfold depth. rewrite E1, E2, E3. cbn. destruct (b_entered b); lia.
  - inversion E as [[E1 E2]]; subst; clear E. apply enter_unique_shape in E1 as (c & E1 & E2 & E3 & _).
    specialize (Hent Hal). split; [|split; [|discriminate]].
    + constructor; [congruence | rewrite E2; apply Hsh].
    + unfold depth. rewrite E1, E2, E3. cbn. destruct (b_entered b); lia.
  - specialize (Hent Hal). unfold enter_shared in E. fold (enter_inline m b k s) in E.
    destruct (enter_inline m b k s) as [b1 [|]] eqn:E1; [|discriminate].
    apply enter_inline_shape in E1 as (c & E1 & E2 & E3 & _).
    assert (Hsh1 : shape b1) by (constructor; [congruence | rewrite E2; apply Hsh]).
    destruct (ptr_mem x (b_visited b1)).
    + destruct (exit_impl b1) as [b2 st] eqn:Ex. inversion E; subst; clear E.
      apply exit_shape in Ex as (H1 & H2 & _); [|exact Hsh1]. split; [auto|]. split; [|discriminate].
      unfold depth in *. rewrite E1, E2, E3 in H2. cbn in H2. destruct (b_entered b); lia.
    + inversion E; subst; clear E. split; [|split; [|discriminate]].
      * constructor; cbn; [congruence|]. constructor; [rewrite E1; discriminate | rewrite E2; apply Hsh].
      * unfold depth. cbn. rewrite E1, E2, E3. cbn. destruct (b_entered b); lia.
  - inversion E as [[E1 E2]]; subst; clear E. apply exit_shape in E1 as (H1 & H2 & _); auto.
    split; [auto|]. split; [lia | lia].
  - inversion E; subst. split; [auto|]. split; [auto | discriminate].
Qed.

Lemma reordered_shape b b' : reordered b b' -> shape b -> shape b' /\ depth b' = depth b /\ b_entered b' = b_entered b.
Proof.
  intros (E1 & E2 & E3 & E4 & E5 & _) [H1 H2]. split; [|split; [|auto]].
  - constructor; rewrite ?E2, ?E3, ?E5; auto.
  - unfold depth. now rewrite E2, E3, E5.
Qed.

Lemma leaked_snoc evs e : leaked (evs ++ [e]) = (leaked evs + if is_forget e then 1 else 0)%nat.
Proof. unfold leaked. rewrite filter_app, app_length. cbn. destruct (is_forget e); reflexivity. Qed.

Lemma history_depth m evs b live : history m evs b live ->
  shape b /\ depth b = (live + leaked evs)%nat.
Proof.
  induction 1 as [|evs b live e b' ret Hh [IH1 IH2] Hal Hst|evs b live b' Hh [IH1 IH2] Hr].
  - split; [constructor; cbn; auto | reflexivity].
  - assert (Hent : (0 < live)%nat -> b_entered b = true).
    { intros Hl. destruct (b_entered b) eqn:He; [reflexivity|]. destruct (sh_closed IH1 He) as [H1 H2].
      unfold depth in IH2. rewrite He, H1, H2 in IH2. cbn in IH2. lia. }
    destruct (step_shape Hst Hal IH1 Hent) as (H1 & H2 & H3). split; [auto|].
    rewrite leaked_snoc. destruct e; cbn [allowed live_after is_forget] in *; try destruct ret; try lia.
  - destruct (reordered_shape Hr IH1) as (H1 & H2 & _). split; [auto | congruence].
Qed.

(** ** Shared pointers are entered the first time only *)
Lemma step_visited m b e b' ret x : step m b e = (b', Fine, ret) -> shape b ->
  ptr_mem x (b_visited b') = mentions x e || ptr_mem x (b_visited b).
Proof.
  intros E Hsh. destruct e as [|k s|k s|k s y| |]; cbn [step mentions orb] in *.
  - unfold root_visitor in E. destruct (b_entered b); [discriminate|]. now inversion E.
  - inversion E as [[E1 E2]]. apply enter_inline_shape in E1 as (c & _ & _ & _ & -> & _). reflexivity.
  - inversion E as [[E1 E2]]. apply enter_unique_shape in E1 as (c & _ & _ & _ & -> & _). reflexivity.
  - unfold enter_shared in E. fold (enter_inline m b k s) in E.
    destruct (enter_inline m b k s) as [b1 [|]] eqn:E1; [|discriminate].
    apply enter_inline_shape in E1 as (c & E1 & E2 & E3 & E4 & _).
    destruct (ptr_mem y (b_visited b1)) eqn:Ey.
    + assert (Hsh1 : shape b1).
      { destruct Hsh as [H1 H2]. constructor; [|rewrite E2; auto].
        intros He. exfalso. unfold exit_impl in E. rewrite He in E. discriminate. }
      destruct (exit_impl b1) as [b2 st] eqn:Ex. inversion E; subst; clear E.
      apply exit_shape in Ex as (_ & _ & Hv & _); [|exact Hsh1]. rewrite Hv, E4.
      destruct (N.eqb_spec x y) as [->|]; [|reflexivity]. rewrite <- E4, Ey. reflexivity.
    + inversion E; subst; clear E. cbn. rewrite E4. reflexivity.
  - inversion E as [[E1 E2]]. apply exit_shape in E1 as (_ & _ & -> & _); auto.
  - now inversion E.
Qed.

Lemma history_visited m evs b live : history m evs b live ->
  forall x, ptr_mem x (b_visited b) = existsb (mentions x) evs.
Proof.
  induction 1 as [|evs b live e b' ret Hh IH Hal Hst|evs b live b' Hh IH Hr]; intros x.
  - reflexivity.
  - rewrite (step_visited x Hst (proj1 (history_depth Hh))), IH, existsb_app. cbn.
    now rewrite orb_false_r, orb_comm.
  - destruct Hr as (-> & _). apply IH.
Qed.

Lemma shared_returns m evs b live k s x b' ret : history m evs b live ->
  step m b (EvShared k s x) = (b', Fine, ret) -> ret = negb (existsb (mentions x) evs).
Proof.
  intros Hh E. rewrite <- (history_visited Hh x). cbn [step] in E. unfold enter_shared in E.
  fold (enter_inline m b k s) in E.
  destruct (enter_inline m b k s) as [b1 [|]] eqn:E1; [|discriminate].
  apply enter_inline_shape in E1 as (c & _ & _ & _ & E4 & _). rewrite E4 in E.
  destruct (ptr_mem x (b_visited b)); [destruct (exit_impl b1); now inversion E | now inversion E].
Qed.

(** A repeated [enter_shared] is an [enter] immediately followed by [exit]. *)
Lemma shared_again m b k s x : ptr_mem x (b_visited b) = true ->
  forall b' ret, enter_shared m b k s x = (b', Fine, ret) <->
    ret = false /\ exists b1, enter_inline m b k s = (b1, Fine) /\ exit_impl b1 = (b', Fine).
Proof.
  intros Hx b' ret. unfold enter_shared. fold (enter_inline m b k s).
  destruct (enter_inline m b k s) as [b1 [|]] eqn:E1.
  - pose proof (enter_inline_shape E1) as (c & _ & _ & _ & E4 & _). rewrite E4, Hx.
    destruct (exit_impl b1) as [b2 st] eqn:Ex. split.
    + intros E; inversion E; subst. split; [auto|]. exists b1. auto.
    + intros (-> & b1' & E1' & E2'). inversion E1'; subst. rewrite Ex in E2'. inversion E2'; subst. reflexivity.
  - split; [discriminate|]. intros (_ & b1' & E & _). discriminate.
Qed.

(** ** Bookkeeping of arbitrary histories *)
Section Books.
  Variable A : Type.
  Variable A_dec : forall x y : A, {x = y} + {x <> y}.
  Variable name : key -> A.
  Variable K : key -> Prop.
  Hypothesis name_inj : forall k k', K k -> K k' -> name k = name k' -> k = k'.
  Notation pth := (list A).
  Notation binv := (binv A_dec name K).

  (** Abstract state: current path, paths of the interrupted frames, recorded
      scopes; a function of the calls only. *)
  Record abs := mkAbs { a_vis : list ptr; a_here : pth; a_outer : list pth; a_es : list (ev A) }.

  Definition a_enter (a : abs) (kind : node_kind) (k : key) (s : N) : abs :=
    mkAbs (a_vis a) (a_here a ++ [name k]) (a_outer a)
      (a_es a ++ [mkEv (a_here a ++ [name k]) kind NKRoot s]).

  Definition a_exit (a : abs) : abs :=
    match a_here a with
    | [] => match a_outer a with
            | [] => a
            | q :: rest => mkAbs (a_vis a) (removelast q) rest (a_es a)
            end
    | _ => mkAbs (a_vis a) (removelast (a_here a)) (a_outer a) (a_es a)
    end.

  Definition a_step (a : abs) (e : event) : abs :=
    match e with
    | EvRoot | EvForget => a
    | EvInline k s => a_enter a NKInline k s
    | EvUnique k s => a_enter a NKUnique k s
    | EvShared k s x =>
        let a' := a_enter a NKShared k s in
        if ptr_mem x (a_vis a) then a_exit a'
        else mkAbs (x :: a_vis a') [] (a_here a' :: a_outer a') (a_es a')
    | EvExit => a_exit a
    end.

  Definition a_run (evs : list event) : abs := fold_left a_step evs (mkAbs [] [] [] []).

  Definition outer_ok (ps : list pth) (sh : list tree_stack) (outer : list pth) : Prop :=
    Forall2 (fun ts q => chain ps (ts_stack ts) (ts_tree ts) q /\ q <> []) sh outer.

  Lemma outer_app ps ps' sh outer : outer_ok ps sh outer -> outer_ok (ps ++ ps') sh outer.
  Proof. induction 1 as [|ts q sh outer [H1 H2] H IH]; constructor; auto. split; [now apply chain_app | auto]. Qed.

  Record ainv (a : abs) (ps : list pth) (b : builder) : Prop := {
    ai_inv : binv (a_es a) ps b;
    ai_here : at_path ps b (a_here a);
    ai_outer : outer_ok ps (b_shared b) (a_outer a);
    ai_vis : b_visited b = a_vis a;
  }.

  Lemma exit_ainv a ps b b' : ainv a ps b -> exit_impl b = (b', Fine) -> ainv (a_exit a) ps b'.
  Proof.
    intros [Hb Hc Ho Hv] E. unfold exit_impl in E. destruct (b_entered b) eqn:He; [|discriminate]. cbn [negb] in E.
    unfold up in E. unfold at_path in Hc. unfold a_exit.
    inversion Hc as [i Hi E1 E2 E3|st i p j x Hch Hj E1 E2 E3]; subst.
    - rewrite <- E1 in E.
      inversion Ho as [E4 E5|ts q sh outer [Hq Hne] Hrest E4 E5].
      + rewrite <- E4 in E. inversion E; subst; clear E. constructor; cbn; try congruence.
        * now apply binv_set_entered.
        * unfold at_path. cbn. exact Hc.
      + rewrite <- E4 in E. cbn [set_current set_shared b_current] in E.
        inversion Hq as [i' Hi' F1 F2 F3|st' i' p' j' x' Hch' Hj' F1 F2 F3]; [congruence|].
        rewrite <- F1 in E. inversion E; subst; clear E. rewrite removelast_last. constructor; cbn; auto.
        destruct Hb; split; auto.
    - rewrite <- E1 in E. inversion E; subst; clear E.
      assert (Hne : p ++ [x] <> []) by apply app_nonnil.
      destruct (p ++ [x]) eqn:Epx; [contradiction|]. rewrite <- Epx, removelast_last.
      constructor; cbn; auto. now apply binv_set_current.
  Qed.

  Lemma step_ainv m a ps b e b' ret : ainv a ps b -> event_key_in K e ->
    total_declared (a_es a) + event_size e < two64 ->
    step m b e = (b', Fine, ret) -> exists ps', ainv (a_step a e) (ps ++ ps') b'.
  Proof.
    intros [Hb Hc Ho Hv] HK Htot E.
    assert (Htot' : forall kind k s, event_size e = s ->
      total_declared (a_es a ++ [mkEv (a_here a ++ [name k]) kind NKRoot s]) < two64).
    { intros kind k s E'. rewrite total_app, total_cons. cbn [ev_size]. change (total_declared (@nil (ev A))) with 0. lia. }
    destruct e as [|k s|k s|k s x| |]; cbn [step a_step event_key_in event_size] in *.
    - unfold root_visitor in E. destruct (b_entered b); [discriminate|]. inversion E; subst; clear E.
      exists []. rewrite app_nil_r. constructor; cbn; auto. now apply binv_set_entered.
    - destruct (enter_inline_ok name_inj Hb Hc HK (Htot' NKInline k s eq_refl)) as (b1 & ps1 & c & E1 & Hb1 & Hc1 & Ecur & Esh & Ev & Ee).
      rewrite E1 in E. inversion E; subst; clear E. exists ps1. constructor; cbn; auto.
      + rewrite Esh. now apply outer_app.
      + congruence.
    - destruct (enter_unique_ok name_inj Hb Hc HK (Htot' NKUnique k s eq_refl)) as (b1 & ps1 & c & E1 & Hb1 & Hc1 & Ecur & Esh & Ev & Ee).
      rewrite E1 in E. inversion E; subst; clear E. exists ps1. constructor; cbn; auto.
      + rewrite Esh. now apply outer_app.
      + congruence.
    - unfold enter_shared in E.
      destruct (down_ok name_inj Hb Hc HK) as (b1 & ps1 & c & Ed & Hb1 & Hn & Ecur & Esh & Ev & Ee).
      rewrite Ed in E. cbn [bind_status] in E.
      pose proof (at_path_child Hc Hn Ecur) as Hc1.
      destruct (@add_size_ok A A_dec name K (a_es a) (ps ++ ps1) b1 (a_here a) (name k) NKRoot NKShared s Hb1 Hc1 eq_refl (Htot' NKShared k s eq_refl))
        as (b2 & Ea & Hb2 & Ecur2 & Esh2 & Ev2 & Ee2).
      rewrite Ea in E. rewrite Ev2, Ev, Hv in E.
      assert (Hmid : ainv (a_enter a NKShared k s) (ps ++ ps1) b2).
      { constructor; cbn; auto.
        - unfold at_path. rewrite Ecur2. exact Hc1.
        - rewrite Esh2, Esh. now apply outer_app.
        - congruence. }
      destruct (ptr_mem x (a_vis a)).
      + destruct (exit_impl b2) as [b3 st] eqn:Ex. inversion E; subst; clear E.
        exists ps1. eapply exit_ainv; eauto.
      + inversion E; subst; clear E. exists ps1. destruct Hmid as [[Ma Md Mr Mn] Mc Mo Mv]. constructor.
        * split; auto.
        * unfold at_path. cbn. rewrite Mr. apply chain_root, Ma.
        * cbn. constructor; [|exact Mo]. split; [exact Mc|]. apply app_nonnil.
        * cbn. now f_equal.
    - inversion E as [[E1 E2]]; subst; clear E. exists []. rewrite app_nil_r. eapply exit_ainv; eauto. constructor; auto.
    - inversion E; subst. exists []. rewrite app_nil_r. constructor; auto.
  Qed.

  Lemma a_exit_es a : a_es (a_exit a) = a_es a.
  Proof using Type. unfold a_exit. destruct (a_here a); [destruct (a_outer a)|]; reflexivity. Qed.

  Lemma a_step_total a e : total_declared (a_es (a_step a e)) = total_declared (a_es a) + event_size e.
  Proof using A A_dec name.
    clear K name_inj. destruct e as [|k s|k s|k s x| |]; cbn [a_step event_size]; try (cbn; lia).
    - cbn [a_enter a_es]. rewrite total_app, total_cons. cbn [ev_size]. change (total_declared (@nil (ev A))) with 0. lia.
    - cbn [a_enter a_es]. rewrite total_app, total_cons. cbn [ev_size]. change (total_declared (@nil (ev A))) with 0. lia.
    - assert (E : a_es (if ptr_mem x (a_vis a) then a_exit (a_enter a NKShared k s)
                  else mkAbs (x :: a_vis (a_enter a NKShared k s)) [] (a_here (a_enter a NKShared k s) :: a_outer (a_enter a NKShared k s)) (a_es (a_enter a NKShared k s)))
                = a_es (a_enter a NKShared k s)).
      { destruct (ptr_mem x (a_vis a)); [apply a_exit_es | reflexivity]. }
      rewrite E. cbn [a_enter a_es]. rewrite total_app, total_cons. cbn [ev_size]. change (total_declared (@nil (ev A))) with 0. lia.
    - rewrite a_exit_es. lia.
  Qed.

  Lemma a_run_total evs : total_declared (a_es (a_run evs)) = sumN (map event_size evs).
  Proof using A A_dec name.
    clear K name_inj. unfold a_run. induction evs as [|e evs IH] using rev_ind; [reflexivity|].
    rewrite fold_left_app, map_app, sumN_app. cbn [fold_left map sumN]. rewrite a_step_total, IH. lia.
  Qed.

  Lemma a_run_snoc evs e : a_run (evs ++ [e]) = a_step (a_run evs) e.
  Proof using Type. unfold a_run. now rewrite fold_left_app. Qed.

  Lemma history_ainv m evs b live : history m evs b live ->
    Forall (event_key_in K) evs -> sumN (map event_size evs) < two64 ->
    exists ps, ainv (a_run evs) ps b.
  Proof.
    induction 1 as [|evs b live e b' ret Hh IH Hal Hst|evs b live b' Hh IH Hr]; intros HK Htot.
    - exists [[]]. destruct (@b_default_ok A A_dec name K) as (H1 & _ & H3).
      constructor; auto.
      + unfold at_path. cbn. apply chain_root. reflexivity.
      + constructor.
    - apply Forall_app in HK as [HK1 HK2]. inversion HK2; subst.
      rewrite map_app, sumN_app in Htot. cbn [map sumN] in Htot.
      destruct IH as [ps Hps]; [auto | lia |].
      assert (Ht : total_declared (a_es (a_run evs)) + event_size e < two64) by (rewrite a_run_total; lia).
      destruct (step_ainv Hps H1 Ht Hst) as [ps' H'].
      exists (ps ++ ps'). now rewrite a_run_snoc.
    - destruct IH as [ps [Hb Hc Ho Hv]]; auto. destruct Hr as (E1 & E2 & E3 & E4 & E5 & HF).
      exists ps. constructor.
      + destruct Hb as [Ha Hd Hroot Hon]. split; [eapply arena_shuffled; eauto | eapply data_shuffled; eauto | congruence | exact Hon].
      + unfold at_path. rewrite E2. exact Hc.
      + now rewrite E3.
      + congruence.
  Qed.
End Books.

(** ** Leaks *)
Lemma depth_0_idle b : shape b -> depth b = 0%nat ->
  ts_stack (b_current b) = [] /\ b_shared b = [] /\ b_entered b = false.
Proof.
  intros [H1 H2] Hd. unfold depth in Hd.
  destruct (b_entered b) eqn:He; [cbn in Hd; lia|]. destruct (H1 eq_refl). auto.
Qed.

Lemma leak_detected m m' evs b : history m evs b 0 -> (0 < leaked evs)%nat ->
  finish m' b = None /\ snd (root_visitor b) = Panicked.
Proof.
  intros Hh Hl. destruct (history_depth Hh) as [Hs Hd]. cbn in Hd.
  assert (He : b_entered b = true).
  { destruct (b_entered b) eqn:He; [auto|]. destruct (sh_closed Hs He) as [H1 H2].
    unfold depth in Hd. rewrite He, H1, H2 in Hd. cbn in Hd. lia. }
  split; [|unfold root_visitor; now rewrite He].
  unfold finish, finish_impl. rewrite He. destruct (b_shared b); [destruct (ts_stack (b_current b))|]; reflexivity.
Qed.

Lemma balanced_finishes m m' evs b : history m evs b 0 -> leaked evs = 0%nat ->
  sumN (map event_size evs) < two63 -> exists o, finish m' b = Some o.
Proof.
  intros Hh Hl Htot. destruct (history_depth Hh) as [Hs Hd]. rewrite Hl in Hd. cbn in Hd.
  destruct (depth_0_idle Hs Hd) as (H1 & H2 & H3).
  pose proof two63_lt_two64.
  destruct (@history_ainv key key_dec (fun k => k) any_key (fun k k' _ _ H => H) m evs b 0 Hh) as [ps [Hb Hc Ho Hv]].
  - apply Forall_forall. intros e _. destruct e; cbn; unfold any_key; auto.
  - lia.
  - assert (Hi : idle b).
    { split; [|auto]. unfold at_path in Hc. rewrite H1 in Hc. inversion Hc; subst.
      assert (ts_tree (b_current b) = 0%nat).
      { eapply NoDup_nth_inj; [apply (ar_nodup (bi_arena Hb)) | eassumption | apply (ar_root (bi_arena Hb))]. }
      destruct (b_current b) as [st tr]. cbn in *. subst. f_equal. symmetry. apply (bi_root Hb). }
    destruct (@finish_ok key key_dec (fun k => k) any_key (fun k k' _ _ H => H) k_str (fun k => eq_refl) _ _ _ Hb Hi)
      as (f & w & L & Hf & _).
    + rewrite a_run_total by first [exact key_dec | exact string_dec]. exact Htot.
    + eauto.
Qed.

Lemma history_finish evs : Forall (event_key_in made_by_new) evs -> sumN (map event_size evs) < two63 ->
  forall m b m', history m evs b 0 -> leaked evs = 0%nat ->
  exists f w, finish m' b = Some (mkOut f w) /\ session_spec (a_es (a_run k_str evs)) f w.
Proof.
  intros HK Htot m b m' Hh Hl. destruct (history_depth Hh) as [Hs Hd]. rewrite Hl in Hd. cbn in Hd.
  destruct (depth_0_idle Hs Hd) as (H1 & H2 & H3).
  pose proof two63_lt_two64.
  destruct (@history_ainv string string_dec k_str made_by_new made_by_new_inj m evs b 0 Hh) as [ps [Hb Hc Ho Hv]]; auto.
  - lia.
  - assert (Hi : idle b).
    { split; [|auto]. unfold at_path in Hc. rewrite H1 in Hc. inversion Hc; subst.
      assert (ts_tree (b_current b) = 0%nat).
      { eapply NoDup_nth_inj; [apply (ar_nodup (bi_arena Hb)) | eassumption | apply (ar_root (bi_arena Hb))]. }
      destruct (b_current b) as [st tr]. cbn in *. subst. f_equal. symmetry. apply (bi_root Hb). }
    destruct (@finish_ok string string_dec k_str made_by_new made_by_new_inj (fun s => s) (fun k => eq_refl) _ _ _ Hb Hi)
      as (f & w & L & Hf & Hw).
    + rewrite a_run_total by first [exact key_dec | exact string_dec]. exact Htot.
    + exists f, w. split; [auto|]. eapply written_session; [apply Hb | apply Hb | exact Hw].
Qed.

Lemma same_books_refl es : same_books es es. Proof. split; auto. Qed.

Lemma builder_order_irrelevant m evs b b' : Forall (event_key_in made_by_new) evs ->
  sumN (map event_size evs) < two63 -> history m evs b 0 -> history m evs b' 0 ->
  option_map (observe_output m) (finish m b) = option_map (observe_output m) (finish m b').
Proof.
  intros HK Htot Hh Hh'. destruct (Nat.eq_dec (leaked evs) 0) as [E|E].
  - destruct (history_finish HK Htot m Hh E) as (f & w & -> & Hs).
    destruct (history_finish HK Htot m Hh' E) as (f' & w' & -> & Hs').
    pose proof two63_lt_two64.
    assert (Ht : total_declared (a_es (a_run k_str evs)) < two64) by (rewrite a_run_total by exact string_dec; lia).
    destruct (session_ext m (same_books_refl _) Ht Ht Hs Hs') as (H1 & H2 & H3).
    cbn [option_map]. unfold observe_output. cbn [out_flamegraph out_warnings]. now rewrite H1, H2, H3.
  - assert (Hl : (0 < leaked evs)%nat) by lia.
    destruct (leak_detected m Hh Hl) as [-> _]. destruct (leak_detected m Hh' Hl) as [-> _]. reflexivity.
Qed.

(** ** No panic without leaks *)
Lemma exit_fine b : shape b -> b_entered b = true -> exists b', exit_impl b = (b', Fine).
Proof.
  intros [H1 H2] He. unfold exit_impl. rewrite He. cbn [negb]. unfold up.
  destruct (ts_stack (b_current b)) as [|t st]; [|eauto].
  destruct (b_shared b) as [|ts rest]; [eauto|]. cbn [set_current set_shared b_current].
  inversion H2 as [|? ? H3 H4]; subst. destruct (ts_stack ts); [contradiction | eauto].
Qed.

Lemma history_step_ok m evs b live e : history m evs b live -> allowed live e ->
  (e = EvRoot -> leaked evs = 0%nat) -> sumN (map event_size (evs ++ [e])) < two64 ->
  exists b' ret, step m b e = (b', Fine, ret).
Proof.
  intros Hh Hal Hroot Htot. destruct (history_depth Hh) as [Hs Hd].
  assert (Hent : (0 < live)%nat -> b_entered b = true).
  { intros Hl. destruct (b_entered b) eqn:He; [reflexivity|]. destruct (sh_closed Hs He) as [H1 H2].
    unfold depth in Hd. rewrite He, H1, H2 in Hd. cbn in Hd. lia. }
  rewrite map_app, sumN_app in Htot. cbn [map sumN] in Htot.
  destruct (@history_ainv key key_dec (fun k => k) any_key (fun k k' _ _ H => H) m evs b live Hh) as [ps [Hb Hc Ho Hv]].
  { apply Forall_forall. intros e' _. destruct e'; cbn; unfold any_key; auto. }
  { lia. }
  assert (Htot' : forall kind k s, event_size e = s ->
    total_declared (a_es (a_run (fun k : key => k) evs) ++ [mkEv (a_here (a_run (fun k : key => k) evs) ++ [k]) kind NKRoot s]) < two64).
  { intros kind k s E'. rewrite total_app, total_cons, a_run_total by exact key_dec. cbn [ev_size].
    change (total_declared (@nil (ev key))) with 0. lia. }
  assert (HKk : forall k, any_key k) by (intros; exact I).
  destruct e as [|k s|k s|k s x| |]; cbn [step allowed event_size] in *.
  - unfold root_visitor. destruct (b_entered b) eqn:He; [|eauto]. exfalso.
    rewrite (Hroot eq_refl), Hal in Hd. unfold depth in Hd. rewrite He in Hd. cbn in Hd. lia.
  - destruct (enter_inline_ok (fun k k' _ _ H => H) Hb Hc (HKk k) (Htot' NKInline k s eq_refl)) as (b1 & ps1 & c & E1 & _).
    rewrite E1. eauto.
  - destruct (enter_unique_ok (fun k k' _ _ H => H) Hb Hc (HKk k) (Htot' NKUnique k s eq_refl)) as (b1 & ps1 & c & E1 & _).
    rewrite E1. eauto.
  - destruct (ptr_mem x (b_visited b)) eqn:Ex.
    + destruct (enter_shared_old (fun k k' _ _ H => H) Hb Hc (HKk k) Ex (Hent Hal) (Htot' NKShared k s eq_refl)) as (b1 & ps1 & E1 & _).
      rewrite E1. eauto.
    + destruct (enter_shared_new (fun k k' _ _ H => H) Hb Hc (HKk k) Ex (Htot' NKShared k s eq_refl)) as (b1 & ps1 & c & E1 & _).
      rewrite E1. eauto.
  - destruct (exit_fine Hs (Hent Hal)) as [b' E]. rewrite E. eauto.
  - eauto.
Qed.

(** ** Executing a list of calls *)
Definition allowedb (live : nat) (e : event) : bool :=
  match e with EvRoot => Nat.eqb live 0 | _ => Nat.ltb 0 live end.

Fixpoint replay (m : mode) (evs : list event) (b : builder) (live : nat) : option (builder * nat) :=
  match evs with
  | [] => Some (b, live)
  | e :: evs' =>
      if allowedb live e then
        match step m b e with
        | (b', Fine, ret) => replay m evs' b' (live_after live e ret)
        | _ => None
        end
      else None
  end.

Lemma replay_history m evs : forall evs0 b live b' live', history m evs0 b live ->
  replay m evs b live = Some (b', live') -> history m (evs0 ++ evs) b' live'.
Proof.
  induction evs as [|e evs IH]; intros evs0 b live b' live' Hh E; cbn [replay] in E.
  - inversion E; subst. now rewrite app_nil_r.
  - destruct (allowedb live e) eqn:Ea; [|discriminate].
    destruct (step m b e) as [[b1 [|]] ret] eqn:Es; [|discriminate].
    replace (evs0 ++ e :: evs) with ((evs0 ++ [e]) ++ evs) by (rewrite <- app_assoc; reflexivity).
    eapply IH; [|exact E]. eapply history_step; [exact Hh| |exact Es].
    destruct e; cbn [allowedb allowed] in *; first [now apply Nat.eqb_eq in Ea | now apply Nat.ltb_lt in Ea].
Qed.

Lemma replay_start m evs b live : replay m evs b_default 0 = Some (b, live) -> history m evs b live.
Proof. intros E. exact (replay_history (history_start m) E). Qed.
