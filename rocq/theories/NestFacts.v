(** * Depth and work of visits: proofs. *)
From Coq Require Import Permutation Lia.
From Verif Require Import Base BaseFacts KeyModel KeyFacts HMap FlameModel BuilderModel VisitorModel Spec
  FlameFacts WriteFacts FlameExtra ArenaFacts RunFacts FinishFacts BuilderFacts EventFacts TraceFacts BuilderProps HeapFacts HeapProps ExtentSpec ExtentFacts ExtentProps
  ImplModel ImplSpec ImplFacts StoreFacts StoreProps PropertiesHeap NestModel NestSpec.

#[local] Arguments key_new : simpl never.

(** ** The exact depth *)
Fixpoint peak (m : mode) (p : vprog) (b : builder) : nat :=
  match p with
  | VRet | VCrash => 0
  | VInline k s body rest =>
      match enter_inline m b k s with
      | (_, Panicked) => 0
      | (b, Fine) => Nat.max (S (peak m body b)) (match leave_scope (run m body b) with (b, Done) => peak m rest b | _ => 0 end)
      end
  | VUnique k s body rest =>
      match enter_unique m b k s with
      | (_, Panicked) => 0
      | (b, Fine) => Nat.max (S (peak m body b)) (match leave_scope (run m body b) with (b, Done) => peak m rest b | _ => 0 end)
      end
  | VShared k s x body r1 r2 =>
      match enter_shared m b k s x with
      | (_, Panicked, _) => 0
      | (b, Fine, true) => Nat.max (S (peak m body b)) (match leave_scope (run m body b) with (b, Done) => peak m r1 b | _ => 0 end)
      | (b, Fine, false) => peak m r2 b
      end
  end%nat.

Lemma step_exact d d' m body rest b X :
  (forall d b, run_in d m body b = if (peak m body b <=? d)%nat then Some (run m body b) else None) ->
  (forall d b, run_in d m rest b = if (peak m rest b <=? d)%nat then Some (run m rest b) else None) ->
  d = S d' -> X = and_then (leave_scope (run m body b)) (run m rest) ->
  match run_in d' m body b with
  | None => None
  | Some r => match leave_scope r with (b, Done) => run_in d m rest b | r => Some r end
  end = if (Nat.max (S (peak m body b)) (match leave_scope (run m body b) with (b, Done) => peak m rest b | _ => 0 end) <=? d)%nat then Some X else None.
Proof.
  intros Hb Hr -> ->. rewrite Hb.
  destruct (Nat.leb_spec (peak m body b) d') as [L|L].
  - destruct (leave_scope (run m body b)) as [b2 [| |]]; cbn [and_then].
    + rewrite Hr. destruct (Nat.leb_spec (peak m rest b2) (S d')), (Nat.leb_spec (Nat.max (S (peak m body b)) (peak m rest b2)) (S d')); try lia; reflexivity.
    + destruct (Nat.leb_spec (Nat.max (S (peak m body b)) 0) (S d')); [reflexivity | lia].
    + destruct (Nat.leb_spec (Nat.max (S (peak m body b)) 0) (S d')); [reflexivity | lia].
  - match goal with |- _ = if ?a then _ else _ => assert (E : a = false) by (apply Nat.leb_gt; lia); rewrite E end. reflexivity.
Qed.

Lemma max_S_gt a b : (Nat.max (S a) b <=? 0)%nat = false.
Proof. apply Nat.leb_gt. lia. Qed.

Lemma run_in_exact m p : forall d b, run_in d m p b = if (peak m p b <=? d)%nat then Some (run m p b) else None.
Proof.
  induction p as [| |k s body IHb rest IHr|k s body IHb rest IHr|k s x body IHb r1 IH1 r2 IH2]; intros d b; cbn [run_in peak run]; try reflexivity.
  - destruct (enter_inline m b k s) as [b1 [|]]; [|reflexivity]. destruct d as [|d']; [now rewrite max_S_gt|]. now apply step_exact.
  - destruct (enter_unique m b k s) as [b1 [|]]; [|reflexivity]. destruct d as [|d']; [now rewrite max_S_gt|]. now apply step_exact.
  - destruct (enter_shared m b k s x) as [[b1 [|]] [|]]; try reflexivity.
    + destruct d as [|d']; [now rewrite max_S_gt|]. now apply step_exact.
    + apply IH2.
Qed.

(** Depth of a root visit. *)
Definition root_peak (m : mode) (p : vprog) (b : builder) : nat :=
  match root_visitor b with (_, Panicked) => 0 | (b, Fine) => S (peak m p b) end.
Lemma visit_root_in_exact m p b d : visit_root_in d m p b = if (root_peak m p b <=? d)%nat then Some (visit_root m p b) else None.
Proof.
  unfold visit_root_in, root_peak, visit_root. destruct (root_visitor b) as [b1 [|]]; [|reflexivity].
  destruct d as [|d]; [reflexivity|]. rewrite run_in_exact. cbn [Nat.leb]. destruct (peak m p b1 <=? d)%nat; reflexivity.
Qed.

(** ** Who is visited, whatever happens *)
Lemma down_vis b k b' st : down b k = (b', st) -> b_visited b' = b_visited b.
Proof.
  unfold down. destruct (tree_get _ _) as [td|]; [|intros [= <- _]; reflexivity].
  destruct (hm_find _ _); [intros [= <- _]; reflexivity|]. destruct (new_tree _) as [t c]. destruct (Nat.eqb _ _); intros [= <- _]; reflexivity.
Qed.
Lemma add_size_vis m b n b' st : add_size m b n = (b', st) -> b_visited b' = b_visited b.
Proof. unfold add_size. destruct (tree_get _ _) as [td|]; [destruct (uadd _ _ _)|]; intros [= <- _]; reflexivity. Qed.
Lemma mark_unique_vis b b' st : mark_unique b = (b', st) -> b_visited b' = b_visited b.
Proof. unfold mark_unique. destruct (tree_get _ _) as [td|]; intros [= <- _]; reflexivity. Qed.
Lemma up_vis b b' w : up b = (b', w) -> b_visited b' = b_visited b.
Proof. unfold up. destruct (ts_stack _); intros [= <- _]; reflexivity. Qed.
Lemma exit_vis b b' st : exit_impl b = (b', st) -> b_visited b' = b_visited b.
Proof.
  unfold exit_impl. destruct (negb _); [intros [= <- _]; reflexivity|]. destruct (up b) as [b1 [|]] eqn:E; apply up_vis in E.
  - intros [= <- _]. exact E.
  - destruct (b_shared b1).
    + intros [= <- _]. exact E.
    + destruct (up (set_current _ _)) as [b2 [|]] eqn:E2; apply up_vis in E2; intros [= <- _]; rewrite E2; exact E.
Qed.
Lemma inline_vis m b k s b' st : enter_inline m b k s = (b', st) -> b_visited b' = b_visited b.
Proof.
  unfold enter_inline, bind_status. destruct (down b k) as [b1 [|]] eqn:E; apply down_vis in E.
  - intros H. apply add_size_vis in H. congruence.
  - intros [= <- _]. exact E.
Qed.
Lemma unique_vis m b k s b' st : enter_unique m b k s = (b', st) -> b_visited b' = b_visited b.
Proof.
  unfold enter_unique, bind_status. destruct (down b k) as [b1 [|]] eqn:E; apply down_vis in E; [|intros [= <- _]; exact E].
  destruct (add_size m b1 s) as [b2 [|]] eqn:E2; apply add_size_vis in E2; [|intros [= <- _]; congruence].
  intros H. apply mark_unique_vis in H. congruence.
Qed.
Lemma shared_vis m b k s x b' st new : enter_shared m b k s x = (b', st, new) ->
  if new then st = Fine /\ ptr_mem x (b_visited b) = false /\ b_visited b' = x :: b_visited b else b_visited b' = b_visited b.
Proof.
  unfold enter_shared, bind_status. destruct (down b k) as [b1 [|]] eqn:E; apply down_vis in E; [|intros [= <- _ <-]; exact E].
  destruct (add_size m b1 s) as [b2 [|]] eqn:E2; apply add_size_vis in E2; [|intros [= <- _ <-]; congruence].
  destruct (ptr_mem x (b_visited b2)) eqn:Ex.
  - destruct (exit_impl b2) as [b3 st3] eqn:E3. apply exit_vis in E3. intros [= <- _ <-]. congruence.
  - intros [= <- <- <-]. cbn. repeat split; congruence.
Qed.
Lemma leave_vis b o b' o' : leave_scope (b, o) = (b', o') -> b_visited b' = b_visited b.
Proof.
  unfold leave_scope. destruct o; try (intros [= <- _]; reflexivity); destruct (exit_impl b) as [b1 [|]] eqn:E; apply exit_vis in E; intros [= <- _]; exact E.
Qed.
Lemma leave_done b o b' : leave_scope (b, o) = (b', Done) -> o = Done.
Proof. unfold leave_scope. destruct o; try discriminate; [reflexivity|]. destruct (exit_impl b) as [b1 [|]]; discriminate. Qed.

(** ** Object graphs *)
Fixpoint own_scopes1 (i : item) : nat :=
  match i with
  | Ref _ _ _ => 1
  | Scope _ _ _ body => S ((fix go (l : list item) := match l with [] => 0 | j :: l' => own_scopes1 j + go l' end) body)
  end%nat.
Definition own_scopes (l : list item) : nat := list_sum (map own_scopes1 l).
Fixpoint own_levels1 (i : item) : nat :=
  match i with
  | Ref _ _ _ => 1
  | Scope _ _ _ body => S ((fix go (l : list item) := match l with [] => 0 | j :: l' => Nat.max (own_levels1 j) (go l') end) body)
  end%nat.
Definition own_levels (l : list item) : nat := list_max (map own_levels1 l).

Lemma own_scopes_scope u k s body l : own_scopes (Scope u k s body :: l) = S (own_scopes body + own_scopes l).
Proof.
  unfold own_scopes at 1. cbn [map own_scopes1]. change (list_sum (?a :: ?b)) with (a + list_sum b)%nat. cbn [Nat.add]. f_equal. f_equal.
  unfold own_scopes. induction body as [|j b IH]; [reflexivity|]. cbn [map]. change (list_sum (?a :: ?b)) with (a + list_sum b)%nat. now rewrite <- IH.
Qed.
Lemma own_scopes_ref k s x l : own_scopes (Ref k s x :: l) = S (own_scopes l).
Proof. reflexivity. Qed.
Lemma own_levels_scope u k s body l : own_levels (Scope u k s body :: l) = Nat.max (S (own_levels body)) (own_levels l).
Proof.
  unfold own_levels at 1. cbn [map own_levels1]. change (list_max (?a :: ?b)) with (Nat.max a (list_max b)). f_equal. f_equal.
  unfold own_levels. induction body as [|j b IH]; [reflexivity|]. cbn [map]. change (list_max (?a :: ?b)) with (Nat.max a (list_max b)). now rewrite <- IH.
Qed.
Lemma own_levels_ref k s x l : own_levels (Ref k s x :: l) = Nat.max 1 (own_levels l).
Proof. reflexivity. Qed.

Definition obj_scopes (h : heap) (x : ptr) : nat := match deref h x with Some o => own_scopes o | None => 0 end.
Definition obj_levels (h : heap) (x : ptr) : nat := match deref h x with Some o => own_levels o | None => 0 end.

Definition tally (f : ptr -> nat) (xs : list ptr) : nat := list_sum (map f xs).
Lemma tally_app f a b : tally f (a ++ b) = (tally f a + tally f b)%nat.
Proof. unfold tally. rewrite map_app. apply list_sum_app. Qed.
Lemma tally_cons f a b : tally f (a :: b) = (f a + tally f b)%nat.
Proof. reflexivity. Qed.

Implicit Types R : ptr -> Prop.
(** What a visit from builder [b] to [b'] has added. *)
Definition newly (R : ptr -> Prop) (b b' : builder) (added : list ptr) : Prop :=
  b_visited b' = added ++ b_visited b /\ NoDup added /\ (forall y, In y added -> ptr_mem y (b_visited b) = false) /\ (forall y, In y added -> R y).

Lemma newly_nil R b b' : b_visited b' = b_visited b -> newly R b b' [].
Proof. intros H. repeat split; auto; try constructor; intros y []. Qed.
Lemma newly_trans R b b1 b2 a1 a2 : newly R b b1 a1 -> newly R b1 b2 a2 -> newly R b b2 (a2 ++ a1).
Proof.
  intros (V1 & N1 & D1 & R1) (V2 & N2 & D2 & R2). repeat split.
  - now rewrite V2, V1, app_assoc.
  - eapply nodup_app_new; [exact N1 | exact N2 |]. intros y Hy. rewrite <- V1. auto.
  - intros y Hy. apply in_app_iff in Hy as [Hy|Hy]; [|auto]. specialize (D2 y Hy). rewrite V1, ptr_mem_app in D2. now apply orb_false_iff in D2.
  - intros y Hy. apply in_app_iff in Hy as [Hy|Hy]; auto.
Qed.
Lemma newly_one R b b' x : R x -> ptr_mem x (b_visited b) = false -> b_visited b' = x :: b_visited b -> newly R b b' [x].
Proof. intros H1 H2 H3. repeat split; auto; [repeat constructor; intros [] | intros y [<-|[]]; auto | intros y [<-|[]]; auto]. Qed.
Lemma newly_same R b b1 b2 a : newly R b b1 a -> b_visited b2 = b_visited b1 -> newly R b b2 a.
Proof. intros (V & H) E. split; [congruence | exact H]. Qed.
Lemma newly_from R b b0 b1 a : newly R b b1 a -> b_visited b = b_visited b0 -> newly R b0 b1 a.
Proof. intros (V & H1 & H2 & H3) E. rewrite E in *. repeat split; auto. Qed.

(** The bounds. *)
Definition bounded (R : ptr -> Prop) (h : heap) (m : mode) (l : list item) (p : vprog) (b : builder) : Prop :=
  exists added, newly R b (fst (run m p b)) added /\
    (peak m p b <= own_levels l + tally (obj_levels h) added)%nat /\
    (run_calls m p b <= own_scopes l + tally (obj_scopes h) added)%nat /\
    (snd (run m p b) = Done -> run_calls m p b = (own_scopes l + tally (obj_scopes h) added)%nat).

Section Scoped.
  Variables (R : ptr -> Prop) (h : heap) (m : mode).

  (** A scope whose body is bounded, followed by something bounded. *)
  Lemma bounded_scope body rest pb pr b b1 own_l own_s :
    b_visited b1 = b_visited b ->
    bounded R h m body pb b1 -> (forall b, bounded R h m rest pr b) ->
    own_l = Nat.max (S (own_levels body)) (own_levels rest) -> own_s = S (own_scopes body + own_scopes rest) ->
    let r := and_then (leave_scope (run m pb b1)) (run m pr) in
    exists added, newly R b (fst r) added /\
      (Nat.max (S (peak m pb b1)) (match leave_scope (run m pb b1) with (b, Done) => peak m pr b | _ => 0 end) <= own_l + tally (obj_levels h) added)%nat /\
      (S (run_calls m pb b1 + match leave_scope (run m pb b1) with (b, Done) => run_calls m pr b | _ => 0 end) <= own_s + tally (obj_scopes h) added)%nat /\
      (snd r = Done -> S (run_calls m pb b1 + match leave_scope (run m pb b1) with (b, Done) => run_calls m pr b | _ => 0 end) = (own_s + tally (obj_scopes h) added)%nat).
  Proof.
    intros V (a1 & N1 & P1 & C1 & D1) Hr -> ->. cbv zeta. destruct (run m pb b1) as [b2 o2] eqn:E. cbn [fst snd] in *.
    destruct (leave_scope (b2, o2)) as [b3 o3] eqn:L. pose proof (leave_vis L) as V3.
    pose proof (newly_from (newly_same N1 V3) V) as N3. destruct o3; cbn [and_then].
    - apply leave_done in L. subst o2. specialize (D1 eq_refl). destruct (Hr b3) as (a2 & N2 & P2 & C2 & D2).
      exists (a2 ++ a1). split; [eapply newly_trans; eauto|]. rewrite !tally_app. split; [lia|]. split; [lia|]. intros H. specialize (D2 H). lia.
    - exists a1. split; [exact N3|]. split; [lia|]. split; [lia | discriminate].
    - exists a1. split; [exact N3|]. split; [lia|]. split; [lia | discriminate].
  Qed.

  Theorem link_bounded n : (forall x o, R x -> deref h x = Some o -> forall y, In y (refs o) -> R y) ->
    forall l, (forall x, In x (refs l) -> R x) -> forall b, bounded R h m l (link n h l) b.
  Proof.
    intros HR. induction n as [n IHn] using lt_wf_ind. intros l. induction l as [|u k s body l IHb IHl|k s x l IHl] using items_ind; intros Hl b.
    - rewrite link_nil. exists []. cbn. split; [now apply newly_nil|]. repeat split; lia.
    - unfold refs in Hl. cbn [flat_map] in Hl. rewrite refs_scope in Hl.
      assert (H1 : forall x, In x (refs body) -> R x) by (intros; apply Hl, in_or_app; auto).
      assert (H2 : forall x, In x (refs l) -> R x) by (intros; apply Hl, in_or_app; auto).
      rewrite link_scope. unfold bounded. destruct u; cbn [run peak run_calls].
      + destruct (enter_unique m b k s) as [b1 [|]] eqn:E; apply unique_vis in E.
        * apply (@bounded_scope body l); auto using own_levels_scope, own_scopes_scope.
        * exists []. cbn [fst snd]. rewrite own_scopes_scope. split; [now apply newly_nil|]. repeat split; try lia; discriminate.
      + destruct (enter_inline m b k s) as [b1 [|]] eqn:E; apply inline_vis in E.
        * apply (@bounded_scope body l); auto using own_levels_scope, own_scopes_scope.
        * exists []. cbn [fst snd]. rewrite own_scopes_scope. split; [now apply newly_nil|]. repeat split; try lia; discriminate.
    - unfold refs in Hl. cbn [flat_map refs1] in Hl.
      assert (H2 : forall x, In x (refs l) -> R x) by (intros; apply Hl, in_or_app; auto).
      assert (Hx : R x) by (apply Hl; now left).
      rewrite link_ref. unfold bounded. cbn [run peak run_calls]. rewrite own_levels_ref, own_scopes_ref.
      destruct (enter_shared m b k s x) as [[b1 [|]] [|]] eqn:E; apply shared_vis in E.
      + destruct E as (_ & Ex & V).
        set (pb := match n with O => VCrash | S n' => match deref h x with Some o => link n' h o | None => VCrash end end).
        assert (HB : bounded R h m (match deref h x with Some o => o | None => [] end) pb b1).
        { unfold pb. destruct n as [|n'].
          - exists []. cbn. split; [now apply newly_nil|]. repeat split; try lia; discriminate.
          - destruct (deref h x) as [o|] eqn:Ho.
            + apply IHn; [lia|]. eauto.
            + exists []. cbn. split; [now apply newly_nil|]. repeat split; try lia; discriminate. }
        destruct HB as (a1 & N1 & P1 & C1 & D1). destruct (run m pb b1) as [b2 o2] eqn:Er. cbn [fst snd] in *.
        destruct (leave_scope (b2, o2)) as [b3 o3] eqn:L. pose proof (leave_vis L) as V3.
        pose proof (newly_trans (newly_one Hx Ex V) (newly_same N1 V3)) as N3.
        assert (EL : own_levels (match deref h x with Some o => o | None => [] end) = obj_levels h x) by (unfold obj_levels; destruct (deref h x); reflexivity).
        assert (ES : own_scopes (match deref h x with Some o => o | None => [] end) = obj_scopes h x) by (unfold obj_scopes; destruct (deref h x); reflexivity).
        rewrite EL in *. rewrite ES in *. clear EL ES.
        assert (TL : tally (obj_levels h) (a1 ++ [x]) = (tally (obj_levels h) a1 + obj_levels h x)%nat) by (rewrite tally_app, tally_cons; unfold tally at 2; cbn; lia).
        assert (TS : tally (obj_scopes h) (a1 ++ [x]) = (tally (obj_scopes h) a1 + obj_scopes h x)%nat) by (rewrite tally_app, tally_cons; unfold tally at 2; cbn; lia).
        destruct o3; cbn [and_then].
        * apply leave_done in L. subst o2. specialize (D1 eq_refl). destruct (IHl H2 b3) as (a2 & N2 & P2 & C2 & D2).
          exists (a2 ++ (a1 ++ [x])). split; [eapply newly_trans; eauto|]. rewrite !(tally_app _ a2), TL, TS.
          split; [lia|]. split; [lia|]. intros H. specialize (D2 H). lia.
        * exists (a1 ++ [x]). split; [exact N3|]. rewrite TL, TS. cbn [fst snd]. split; [lia|]. split; [lia | discriminate].
        * exists (a1 ++ [x]). split; [exact N3|]. rewrite TL, TS. cbn [fst snd]. split; [lia|]. split; [lia | discriminate].
      + destruct (IHl H2 b1) as (a2 & N2 & P2 & C2 & D2). exists a2. split; [eapply newly_from; eauto|]. split; [lia|]. split; [lia|]. intros H. specialize (D2 H). lia.
      + destruct E as [E _]. discriminate.
      + exists []. cbn [fst snd]. split; [now apply newly_nil|]. repeat split; try lia; discriminate.
  Qed.
End Scoped.

(** ** Programs and items *)
Lemma items_levels p : own_levels (items_of p) = levels p.
Proof.
  induction p as [| |k s b IHb r IHr|k s b IHb r IHr|k s x b IHb r1 IH1 r2 IH2]; cbn [items_of levels]; try reflexivity.
  - rewrite own_levels_scope. congruence.
  - rewrite own_levels_scope. congruence.
  - rewrite own_levels_ref. congruence.
Qed.
Lemma items_scopes p : own_scopes (items_of p) = scopes p.
Proof.
  induction p as [| |k s b IHb r IHr|k s b IHb r IHr|k s x b IHb r1 IH1 r2 IH2]; cbn [items_of scopes]; try reflexivity.
  - rewrite own_scopes_scope. congruence.
  - rewrite own_scopes_scope. congruence.
  - rewrite own_scopes_ref. congruence.
Qed.
Lemma obj_levels_store m h x : typed_store h -> obj_levels (heap_of m h) x = levels (held_by h x).
Proof.
  intros H. rewrite (heap_of_mode m Debug H). unfold obj_levels, held_by. rewrite deref_heap_of.
  destruct (find_obj h x) as [[i w]|]; [|reflexivity]. cbn [option_map fst snd]. apply items_levels.
Qed.
Lemma obj_scopes_store m h x : typed_store h -> obj_scopes (heap_of m h) x = scopes (held_by h x).
Proof.
  intros H. rewrite (heap_of_mode m Debug H). unfold obj_scopes, held_by. rewrite deref_heap_of.
  destruct (find_obj h x) as [[i w]|]; [|reflexivity]. cbn [option_map fst snd]. apply items_scopes.
Qed.
Lemma value_levels m v : typed v -> own_levels (items_in m v) = levels (itself v).
Proof. intros H. rewrite (items_in_mode m Debug H). apply items_levels. Qed.
Lemma value_scopes m v : typed v -> own_scopes (items_in m v) = scopes (itself v).
Proof. intros H. rewrite (items_in_mode m Debug H). apply items_scopes. Qed.

Lemma tally_incl f a : NoDup a -> forall xs, (forall x, In x a -> In x xs) -> (tally f a <= tally f xs)%nat.
Proof.
  induction 1 as [|x a Hx Ha IH]; intros xs H; [cbn; lia|].
  destruct (in_split x xs (H x (or_introl eq_refl))) as (l1 & l2 & ->).
  rewrite tally_cons, tally_app, tally_cons. specialize (IH (l1 ++ l2)). rewrite tally_app in IH. enough (tally f a <= tally f l1 + tally f l2)%nat by lia.
  apply IH. intros y Hy. specialize (H y (or_intror Hy)). apply in_app_iff in H as [H|[<-|H]]; [apply in_or_app; auto | contradiction | apply in_or_app; auto].
Qed.
Lemma tally_perm f a b : Permutation a b -> tally f a = tally f b.
Proof. intros H. induction H; rewrite ?tally_cons; try reflexivity; lia. Qed.
Lemma tally_ext f g a : (forall x, f x = g x) -> tally f a = tally g a.
Proof. intros H. unfold tally. f_equal. apply map_ext, H. Qed.

(** ** One root *)
Lemma root_visitor_vis b b' st : root_visitor b = (b', st) -> b_visited b' = b_visited b.
Proof. unfold root_visitor. repeat match goal with |- context [match ?e with _ => _ end] => destruct e end; intros [= <- _]; reflexivity. Qed.

Theorem depth_of_root m n h v b xs : typed_store h -> plain_store h -> typed v -> manual_free v ->
  (forall x, store_reachable h [v] x -> In x xs) ->
  (root_peak m (visit_in m n h v) b <= S (levels (itself v) + tally (fun x => levels (held_by h x)) xs))%nat.
Proof.
  intros Hh Hp Ht Hm Hx. unfold root_peak. destruct (root_visitor b) as [b1 [|]]; [|lia]. rewrite visit_in_link by auto.
  destruct (@link_bounded (reachable (heap_of m h) [items_in m v]) (heap_of m h) m n) with (l := items_in m v) (b := b1) as (a & (_ & N & _ & R) & P & _).
  - intros x o Hr Ho y Hy. eapply reach_step; eauto.
  - intros x Hi. eapply reach_root; [now left | exact Hi].
  - rewrite value_levels in P by exact Ht. apply le_n_S. eapply Nat.le_trans; [exact P|]. apply Nat.add_le_mono_l.
    rewrite (@tally_ext _ (fun x => levels (held_by h x)) a) by (intros x; now apply obj_levels_store).
    apply tally_incl; [exact N|]. intros x Hi. apply Hx. apply (@reachable_store m h [v]); auto.
Qed.

(** ** Sessions *)
Fixpoint all_fine (m : mode) (l : list vprog) (b : builder) : Prop :=
  match l with [] => True | p :: l' => snd (visit_root m p b) = Done /\ all_fine m l' (fst (visit_root m p b)) end.

Lemma session_bounded R h m n : (forall x o, R x -> deref h x = Some o -> forall y, In y (refs o) -> R y) ->
  forall ls b, (forall r x, In r ls -> In x (refs r) -> R x) ->
  exists added, newly R b (fst (visit_roots m (map (link n h) ls) b)) added /\
    (session_calls m (map (link n h) ls) b <= list_sum (map own_scopes ls) + tally (obj_scopes h) added)%nat /\
    (all_fine m (map (link n h) ls) b -> session_calls m (map (link n h) ls) b = (list_sum (map own_scopes ls) + tally (obj_scopes h) added)%nat).
Proof.
  intros HR. induction ls as [|r ls IH]; intros b Hl.
  - exists []. cbn. split; [now apply newly_nil|]. split; lia.
  - cbn [map session_calls visit_roots all_fine]. change (list_sum (?a :: ?b)) with (a + list_sum b)%nat.
    assert (ONE : exists added, newly R b (fst (visit_root m (link n h r) b)) added /\
      (match root_visitor b with (b, Panicked) => 0 | (b, Fine) => run_calls m (link n h r) b end <= own_scopes r + tally (obj_scopes h) added)%nat /\
      (snd (visit_root m (link n h r) b) = Done ->
       match root_visitor b with (b, Panicked) => 0 | (b, Fine) => run_calls m (link n h r) b end = own_scopes r + tally (obj_scopes h) added)%nat).
    { unfold visit_root. destruct (root_visitor b) as [b1 [|]] eqn:E; apply root_visitor_vis in E.
      - destruct (@link_bounded R h m n HR r) with (b := b1) as (a & N & _ & C & D); [intros x Hx; eapply Hl; [now left | exact Hx]|].
        destruct (run m (link n h r) b1) as [b2 o2]. cbn [fst snd] in *. destruct (leave_scope (b2, o2)) as [b3 o3] eqn:L. pose proof (leave_vis L) as V.
        exists a. cbn [fst snd]. split; [eapply newly_from; [eapply newly_same; eauto | exact E]|]. split; [exact C|]. intros ->. apply leave_done in L. auto.
      - exists []. cbn [fst snd]. split; [now apply newly_nil|]. split; [lia | discriminate]. }
    destruct ONE as (a1 & N1 & C1 & D1). destruct (visit_root m (link n h r) b) as [b1 o1]. cbn [fst snd] in *.
    destruct (IH b1) as (a2 & N2 & C2 & D2); [intros r' x Hr Hx; eapply Hl; [right; exact Hr | exact Hx]|].
    destruct o1.
    + exists (a2 ++ a1). split; [eapply newly_trans; eauto|]. rewrite tally_app. split; [lia|]. intros [A1 A2]. specialize (D1 A1). specialize (D2 A2). lia.
    + exists (a2 ++ a1). split; [eapply newly_trans; eauto|]. rewrite tally_app. split; [lia|]. intros [A1 A2]. discriminate.
    + exists a1. split; [exact N1|]. split; [lia|]. intros [A1 A2]. discriminate.
Qed.

Theorem work_of_session m n h roots xs : typed_store h -> plain_store h -> Forall typed roots -> Forall manual_free roots ->
  (forall x, store_reachable h roots x -> In x xs) ->
  (session_calls m (map (visit_in m n h) roots) b_default <= list_sum (map (fun v => scopes (itself v)) roots) + tally (fun x => scopes (held_by h x)) xs)%nat.
Proof.
  intros Hh Hp Ht Hm Hx. rewrite map_visit_in by auto.
  destruct (@session_bounded (reachable (heap_of m h) (map (items_in m) roots)) (heap_of m h) m n) with (ls := map (items_in m) roots) (b := b_default) as (a & (_ & N & _ & R) & C & _).
  - intros x o Hr Ho y Hy. eapply reach_step; eauto.
  - intros r x Hr Hi. eapply reach_root; eauto.
  - eapply Nat.le_trans; [exact C|]. rewrite map_map.
    rewrite (map_ext_in _ (fun v => scopes (itself v))) by (intros v Hv; rewrite Forall_forall in Ht; apply value_scopes; auto).
    apply Nat.add_le_mono_l. rewrite (@tally_ext _ (fun x => scopes (held_by h x)) a) by (intros x; now apply obj_scopes_store).
    apply tally_incl; [exact N|]. intros x Hi. apply Hx. apply (@reachable_store m h roots); auto.
Qed.

Lemma fine_all m l : Forall (keys_in made_by_new) l -> forall b es ps, @binv string string_dec k_str made_by_new es ps b -> idle b ->
  fine k_str l (b_visited b) -> total_declared (es ++ fst (trace_roots k_str l (b_visited b))) < two64 -> all_fine m l b.
Proof.
  induction 1 as [|p l Hp Hl IH]; intros b es ps Hb Hi HF Ht; cbn [all_fine fine trace_roots] in *; [exact I|].
  destruct HF as [H1 H2]. destruct (trace k_str p (b_visited b) [] NKRoot) as [[e1 v1] ok] eqn:E. cbn [fst snd] in *. subst ok.
  destruct (trace_roots k_str l v1) as [e2 v2] eqn:E2. cbn [fst] in Ht.
  destruct (@visit_root_trace string string_dec k_str made_by_new made_by_new_inj p b es ps e1 v1 true Hp Hb Hi E) as (b' & ps' & R & Hb' & Ev & Hi').
  { rewrite app_assoc, total_app in Ht. lia. }
  rewrite R. cbn [fst snd]. split; [reflexivity|]. rewrite <- Ev in H2, E2. apply (IH b' (es ++ e1) (ps ++ ps')); auto.
  rewrite E2. cbn [fst]. now rewrite <- app_assoc.
Qed.

Theorem work_exact m n h roots xs : typed_store h -> plain_store h -> Forall typed roots -> Forall manual_free roots ->
  no_dangling h roots -> (length h <= n)%nat -> total_declared (root_events (map (visit_in Debug n h) roots)) < two63 ->
  NoDup xs -> (forall x, In x xs <-> store_reachable h roots x) ->
  session_calls m (map (visit_in m n h) roots) b_default = (list_sum (map (fun v => scopes (itself v)) roots) + tally (fun x => scopes (held_by h x)) xs)%nat.
Proof.
  intros Hh Hp Ht Hm Hd Hn HT Nx Hx. pose proof two63_lt_two64.
  assert (EM : map (visit_in Debug n h) roots = map (link n (heap_of m h)) (map (items_in m) roots)).
  { rewrite <- map_visit_in by auto. apply map_ext_in. intros v Hv. rewrite Forall_forall in Ht. rewrite !visit_in_link by auto.
    now rewrite (items_in_mode Debug m (Ht v Hv)), (heap_of_mode Debug m Hh). }
  rewrite EM in HT. rewrite map_visit_in by auto.
  assert (HC : closed_heap (heap_of m h) (map (items_in m) roots)) by now apply closed_store.
  destruct (@session_bounded (reachable (heap_of m h) (map (items_in m) roots)) (heap_of m h) m n) with (ls := map (items_in m) roots) (b := b_default) as (a & (Va & N & _ & R) & _ & D).
  { intros x o Hr Ho y Hy. eapply reach_step; eauto. }
  { intros r x Hr Hi. eapply reach_root; eauto. }
  rewrite D.
  - rewrite map_map. rewrite (map_ext_in _ (fun v => scopes (itself v))) by (intros v Hv; rewrite Forall_forall in Ht; apply value_scopes; auto).
    f_equal. rewrite (@tally_ext _ (fun x => scopes (held_by h x)) a) by (intros x; now apply obj_scopes_store).
    apply tally_perm, NoDup_Permutation; auto. intros x. rewrite Hx.
    destruct (@C15_exactly_once n (heap_of m h) (map (items_in m) roots) HC) as (b & H1 & H2 & H3 & _); [now rewrite heap_of_length | exact HT |].
    rewrite (H1 m) in Va. cbn [fst] in Va. destruct (@b_default_ok string string_dec k_str made_by_new) as (_ & _ & Hv).
    rewrite Hv, app_nil_r in Va. rewrite <- Va, H3. now apply reachable_store.
  - destruct (@b_default_ok string string_dec k_str made_by_new) as (Hb & Hi & Hv). apply (@fine_all m _) with (es := []) (ps := [[]]); auto.
    + apply link_keys_all; [now apply heap_of_keys|]. rewrite Forall_map. eapply Forall_impl; [|exact Ht]. intros v. apply items_in_keys.
    + rewrite Hv. apply fine_link; [now rewrite heap_of_length | exact HC].
    + rewrite Hv. cbn [app]. unfold root_events in HT. lia.
Qed.

(** ** A lower bound for visits that return *)
Fixpoint pk (p : vprog) (vis : list ptr) : nat * list ptr :=
  match p with
  | VRet | VCrash => (0%nat, vis)
  | VInline _ _ b r | VUnique _ _ b r =>
      let (d1, v1) := pk b vis in let (d2, v2) := pk r v1 in (Nat.max (S d1) d2, v2)
  | VShared _ _ x b r1 r2 =>
      if ptr_mem x vis then pk r2 vis
      else let (d1, v1) := pk b (x :: vis) in let (d2, v2) := pk r1 v1 in (Nat.max (S d1) d2, v2)
  end.

Lemma shared_not_new m b k s x b' : enter_shared m b k s x = (b', Fine, false) -> ptr_mem x (b_visited b) = true.
Proof.
  unfold enter_shared, bind_status. destruct (down b k) as [b1 [|]] eqn:E; apply down_vis in E; [|discriminate].
  destruct (add_size m b1 s) as [b2 [|]] eqn:E2; apply add_size_vis in E2; [|discriminate].
  destruct (ptr_mem x (b_visited b2)) eqn:Ex; [intros _; congruence | discriminate].
Qed.

Lemma peak_pk m p : forall b b', run m p b = (b', Done) -> (peak m p b, b_visited b') = pk p (b_visited b).
Proof.
  assert (STEP : forall body rest b1 b',
    (forall b b', run m body b = (b', Done) -> (peak m body b, b_visited b') = pk body (b_visited b)) ->
    (forall b b', run m rest b = (b', Done) -> (peak m rest b, b_visited b') = pk rest (b_visited b)) ->
    and_then (leave_scope (run m body b1)) (run m rest) = (b', Done) ->
    (Nat.max (S (peak m body b1)) (match leave_scope (run m body b1) with (b, Done) => peak m rest b | _ => 0%nat end), b_visited b') =
    let (d1, v1) := pk body (b_visited b1) in let (d2, v2) := pk rest v1 in (Nat.max (S d1) d2, v2)).
  { intros body rest b1 b' Hb Hr. destruct (run m body b1) as [b2 o2] eqn:E. destruct (leave_scope (b2, o2)) as [b3 o3] eqn:L.
    pose proof (leave_vis L) as V. destruct o3; cbn [and_then]; try discriminate. apply leave_done in L. subst o2. intros H.
    rewrite <- (Hb _ _ E), <- V, <- (Hr _ _ H). reflexivity. }
  induction p as [| |k s body IHb rest IHr|k s body IHb rest IHr|k s x body IHb r1 IH1 r2 IH2]; intros b b'; cbn [run peak pk].
  - intros [= <-]. reflexivity.
  - discriminate.
  - destruct (enter_inline m b k s) as [b1 [|]] eqn:E; [|discriminate]. apply inline_vis in E. rewrite <- E. now apply STEP.
  - destruct (enter_unique m b k s) as [b1 [|]] eqn:E; [|discriminate]. apply unique_vis in E. rewrite <- E. now apply STEP.
  - destruct (enter_shared m b k s x) as [[b1 [|]] [|]] eqn:E; try discriminate.
    + apply shared_vis in E. destruct E as (_ & Ex & V). rewrite Ex, <- V. now apply STEP.
    + pose proof (shared_not_new E) as Ex. apply shared_vis in E. rewrite Ex, <- E. apply IH2.
Qed.

Lemma root_peak_pk m p b b' : visit_root m p b = (b', Done) -> root_peak m p b = S (fst (pk p (b_visited b))).
Proof.
  unfold visit_root, root_peak. destruct (root_visitor b) as [b1 [|]] eqn:E; [|discriminate]. apply root_visitor_vis in E.
  destruct (run m p b1) as [b2 o2] eqn:R. intros L. apply leave_done in L. subst o2. apply peak_pk in R. now rewrite <- E, <- R.
Qed.
Lemma pk_inline k s b r vis : (S (fst (pk b vis)) <= fst (pk (VInline k s b r) vis))%nat.
Proof. cbn [pk]. destruct (pk b vis) as [d1 v1]. destruct (pk r v1) as [d2 v2]. cbn [fst]. lia. Qed.
Lemma pk_shared k s x b r1 r2 vis : ptr_mem x vis = false -> (S (fst (pk b (x :: vis))) <= fst (pk (VShared k s x b r1 r2) vis))%nat.
Proof. intros H. cbn [pk]. rewrite H. destruct (pk b (x :: vis)) as [d1 v1]. destruct (pk r1 v1) as [d2 v2]. cbn [fst]. lia. Qed.

(** ** Arbitrary visits *)
Lemma peak_height m p : forall b, (peak m p b <= height p)%nat.
Proof.
  induction p as [| |k s body IHb rest IHr|k s body IHb rest IHr|k s y body IHb r1 IH1 r2 IH2]; intros b; cbn [peak height]; try lia.
  - destruct (enter_inline m b k s) as [b1 []]; [|lia]. specialize (IHb b1). destruct (leave_scope (run m body b1)) as [b2 []]; [specialize (IHr b2)|..]; lia.
  - destruct (enter_unique m b k s) as [b1 []]; [|lia]. specialize (IHb b1). destruct (leave_scope (run m body b1)) as [b2 []]; [specialize (IHr b2)|..]; lia.
  - destruct (enter_shared m b k s y) as [[b1 []] []]; try lia.
    + specialize (IHb b1). destruct (leave_scope (run m body b1)) as [b2 []]; [specialize (IH1 b2)|..]; lia.
    + specialize (IH2 b1). lia.
Qed.
Lemma root_peak_height m p b : (root_peak m p b <= S (height p))%nat.
Proof. unfold root_peak. destruct (root_visitor b) as [b1 []]; [|lia]. pose proof (@peak_height m p b1). lia. Qed.
