(** * Lemmas about FlameGraph: caches, merging. *)
From Coq Require Import Permutation Sorted.
From Verif Require Import Base BaseFacts KeyModel KeyFacts HMap FlameModel BuilderModel VisitorModel Spec.

(** ** Induction principle *)
Section FgInd.
  Variable P : fg -> Prop.
  Hypothesis H : forall cs c n, (forall k f, In (k, f) cs -> P f) -> P (FG cs c n).
  Fixpoint fg_ind' (f : fg) : P f.
  Proof.
    destruct f as [cs c n]. apply H.
    induction cs as [|[k f] cs IH]; intros k' f' Hin; [destruct Hin|].
    pose proof (fg_ind' f) as Hf.
    destruct Hin as [E|Hin].
    - inversion E; subst. exact Hf.
    - eapply IH; exact Hin.
  Qed.
End FgInd.

(** ** Literal forms of the modelled functions *)
Fixpoint add_children (m : mode) (self : fg) (l : list (key * fg)) : option fg :=
  match l with
  | [] => Some self
  | (k, child) :: l' => do s <- fg_add_child m self k child; add_children m s l'
  end.

Lemma fg_add_eq m self other :
  fg_add m self other =
  do n <- uadd m (fg_node_size self) (fg_node_size other);
  add_children m (FG (fg_children self) (fg_children_size self) n) (fg_children other).
Proof.
  destruct other as [oc ocs on]. cbn [fg_add fg_node_size fg_children].
  destruct (uadd m (fg_node_size self) on) as [n|]; [|reflexivity]. cbn [obind].
  generalize (FG (fg_children self) (fg_children_size self) n) as s. clear.
  induction oc as [|[k child] oc IH]; intros s; [reflexivity|].
  cbn [add_children]. unfold fg_add_child.
  destruct (fg_total_size m child) as [t|]; [|reflexivity]. cbn [obind].
  destruct (uadd m (fg_children_size s) t) as [cs|]; [|reflexivity]. cbn [obind].
  destruct (hm_find (fg_children s) k) as [e|].
  - destruct (fg_add m e child) as [e'|]; [|reflexivity]. cbn [obind]. apply IH.
  - cbn [obind]. apply IH.
Qed.

(** flamegraph.rs 75-84: sort the children by key, then write each. *)
Lemma sort_by_key_map {V W} (f : V -> W) (l : list (key * V)) :
  sort_by_key (map (fun kv => (fst kv, f (snd kv))) l) =
  map (fun kv => (fst kv, f (snd kv))) (sort_by_key l).
Proof.
  induction l as [|[k v] l IH]; [reflexivity|].
  cbn [map sort_by_key fst snd]. rewrite IH.
  generalize (sort_by_key l) as s; clear.
  induction s as [|[k' v'] s IH]; [reflexivity|].
  cbn [map insert_by_key fst snd].
  destruct (key_cmp k k'); cbn [map fst snd]; [reflexivity|reflexivity|]. now rewrite IH.
Qed.

Lemma sort_by_key_map2 {V W} (f : key -> V -> W) (l : list (key * V)) :
  sort_by_key (map (fun kv => (fst kv, f (fst kv) (snd kv))) l) =
  map (fun kv => (fst kv, f (fst kv) (snd kv))) (sort_by_key l).
Proof.
  induction l as [|[k v] l IH]; [reflexivity|].
  cbn [map sort_by_key fst snd]. rewrite IH.
  generalize (sort_by_key l) as s; clear.
  induction s as [|[k' v'] s IH]; [reflexivity|].
  cbn [map insert_by_key fst snd].
  destruct (key_cmp k k'); cbn [map fst snd]; [reflexivity|reflexivity|]. now rewrite IH.
Qed.

Lemma fg_write_impl_eq f stack :
  fg_write_impl f stack =
  ((if negb (N.eqb (fg_node_size f) 0) then
      match stack with [] => "" | _ => fg_line stack (fg_node_size f) end
    else "") ++
   concat_str (map (fun kc => fg_write_impl (snd kc) (stack ++ [key_deref (fst kc)])%list)
                (sort_by_key (fg_children f))))%string.
Proof.
  destruct f as [cs c n]. cbn [fg_write_impl fg_node_size fg_children]. f_equal.
  replace ((fix go (l : list (key * fg)) : list (key * string) :=
              match l with
              | [] => []
              | (k, c0) :: l' => (k, fg_write_impl c0 (stack ++ [key_deref k])) :: go l'
              end) cs)
    with (map (fun kc => (fst kc, fg_write_impl (snd kc) (stack ++ [key_deref (fst kc)]))) cs).
  - rewrite (@sort_by_key_map2 _ _ (fun k v => fg_write_impl v (stack ++ [key_deref k])) cs).
    rewrite map_map. reflexivity.
  - induction cs as [|[k f] cs IH]; [reflexivity|]. cbn [map fst snd]. now rewrite IH.
Qed.

Lemma node_sum_eq f :
  node_sum f = fg_node_size f + sumN (map (fun kc => node_sum (snd kc)) (fg_children f)).
Proof.
  destruct f as [cs c n]. cbn [node_sum fg_node_size fg_children]. f_equal.
  induction cs as [|[k f] cs IH]; [reflexivity|]. cbn [map sumN snd]. now rewrite IH.
Qed.

(** ** Exact in debug mode, modulo 2^64 in release mode *)

Lemma two64_nz : two64 <> 0. Proof. rewrite two64_val; lia. Qed.
#[global] Hint Resolve two64_nz : core.

Lemma wrapeq_refl m a : wrapeq m a a. Proof. destruct m; reflexivity. Qed.
Lemma wrapeq_of_eq m a b : a = b -> wrapeq m a b. Proof. intros ->; apply wrapeq_refl. Qed.
Lemma wrapeq_sym m a b : wrapeq m a b -> wrapeq m b a. Proof. destruct m; simpl; congruence. Qed.
Lemma wrapeq_trans m a b c : wrapeq m a b -> wrapeq m b c -> wrapeq m a c.
Proof. destruct m; simpl; congruence. Qed.
Lemma wrapeq_add m a b c d : wrapeq m a b -> wrapeq m c d -> wrapeq m (a + c) (b + d).
Proof.
  destruct m; simpl; [congruence|]. intros H1 H2.
  rewrite (N.add_mod a c), (N.add_mod b d) by auto. now rewrite H1, H2.
Qed.
Lemma wrapeq_small m a b : wrapeq m a b -> a < two64 -> b < two64 -> a = b.
Proof. destruct m; simpl; [auto|]. intros H Ha Hb. now rewrite !N.mod_small in H. Qed.

Lemma uadd_wrapeq m a b c : uadd m a b = Some c -> wrapeq m c (a + b).
Proof.
  destruct m; intros E; simpl.
  - now apply uadd_debug_some in E as [-> _].
  - rewrite uadd_release in E; inversion E; subst. now rewrite N.mod_mod.
Qed.


Lemma uadd_wrapped m a b : uadd m a b = wrapped m (a + b).
Proof. destruct m; [reflexivity | apply uadd_release]. Qed.

Lemma wrapped_wrapeq_release a b : wrapeq Release a b -> wrapped Release a = wrapped Release b.
Proof. simpl. intros ->. reflexivity. Qed.

(** ** Hash map facts *)
Section HM.
  Context {V : Type}.
  Implicit Types (l : hmap V) (k : key).

  Lemma hm_find_In l k v : hm_find l k = Some v -> In (k, v) l.
  Proof.
    induction l as [|[k' v'] l IH]; simpl; [discriminate|].
    destruct (key_eqb k' k) eqn:E.
    - apply key_eqb_eq in E; subst. intros H; inversion H; subst. now left.
    - intros H; right; auto.
  Qed.

  Lemma hm_find_None l k : hm_find l k = None <-> ~ In k (map fst l).
  Proof.
    induction l as [|[k' v'] l IH]; simpl; [split; auto|].
    destruct (key_eqb k' k) eqn:E.
    - apply key_eqb_eq in E; subst. split; [discriminate | intros H; exfalso; apply H; now left].
    - apply key_eqb_neq in E. rewrite IH. split; [intros H [|]; auto | intros H H1; apply H; now right].
  Qed.

  Lemma hm_find_NoDup l k v : NoDup (map fst l) -> In (k, v) l -> hm_find l k = Some v.
  Proof.
    induction l as [|[k' v'] l IH]; simpl; [tauto|]. intros Hnd [E|Hin].
    - inversion E; subst. now rewrite key_eqb_refl.
    - inversion Hnd as [|x y Hx Hy]; subst.
      assert (k' <> k) by (intros ->; apply Hx; apply (in_map fst) in Hin; exact Hin).
      apply key_eqb_neq in H. rewrite H. auto.
  Qed.

  Lemma hm_replace_keys l k v : map fst (hm_replace l k v) = map fst l.
  Proof.
    induction l as [|[k' v'] l IH]; simpl; [reflexivity|].
    destruct (key_eqb k' k); simpl; congruence.
  Qed.

  Lemma hm_replace_In l k v k1 v1 : In (k1, v1) (hm_replace l k v) ->
    In (k1, v1) l \/ (k1 = k /\ v1 = v).
  Proof.
    induction l as [|[k' v'] l IH]; simpl; [tauto|].
    destruct (key_eqb k' k) eqn:E; simpl.
    - apply key_eqb_eq in E; subst. intros [H|H]; [inversion H; auto | auto].
    - intros [H|H]; [auto | destruct (IH H); auto].
  Qed.

  Lemma hm_replace_sum m (F : key * V -> N) l k v v' G :
    hm_find l k = Some v -> wrapeq m (F (k, v')) (F (k, v) + G) ->
    wrapeq m (sumN (map F (hm_replace l k v'))) (sumN (map F l) + G).
  Proof.
    intros Hf HG. induction l as [|[k' v1] l IH]; simpl in *; [discriminate|].
    destruct (key_eqb k' k) eqn:E.
    - inversion Hf; subst. apply key_eqb_eq in E; subst. cbn [map sumN].
      replace (F (k, v) + sumN (map F l) + G) with (F (k, v) + G + sumN (map F l)) by lia.
      apply wrapeq_add; [exact HG | apply wrapeq_refl].
    - cbn [map sumN]. rewrite <- N.add_assoc. apply wrapeq_add; [apply wrapeq_refl | auto].
  Qed.
End HM.

Lemma NoDup_snoc {A} (l : list A) a : NoDup l -> ~ In a l -> NoDup (l ++ [a]).
Proof.
  intros Hl Ha. apply (Permutation_NoDup (l := a :: l)).
  - apply Permutation_cons_append.
  - now constructor.
Qed.

(** ** The representation invariant *)
Inductive fg_ok (m : mode) (K : key -> Prop) : fg -> Prop :=
| fg_ok_intro cs c n :
    NoDup (map fst cs) ->
    (forall k f, In (k, f) cs -> K k /\ fg_ok m K f) ->
    n < two64 -> c < two64 ->
    wrapeq m c (sumN (map (fun kc => node_sum (snd kc)) cs)) ->
    fg_ok m K (FG cs c n).

Lemma fg_ok_default m K : fg_ok m K fg_default.
Proof.
  constructor; simpl; try apply two64_pos; try apply wrapeq_refl; try constructor; tauto.
Qed.

Lemma fg_ok_inv m K f : fg_ok m K f ->
  NoDup (map fst (fg_children f)) /\
  (forall k g, In (k, g) (fg_children f) -> K k /\ fg_ok m K g) /\
  fg_node_size f < two64 /\ fg_children_size f < two64 /\
  wrapeq m (fg_children_size f) (sumN (map (fun kc => node_sum (snd kc)) (fg_children f))).
Proof. destruct 1; simpl; auto. Qed.

Lemma fg_total_wrapeq m K f t : fg_ok m K f -> fg_total_size m f = Some t ->
  t < two64 /\ wrapeq m t (node_sum f).
Proof.
  intros Hok E. apply fg_ok_inv in Hok as (_ & _ & _ & _ & Hc).
  unfold fg_total_size in E. split; [eapply uadd_lt; eauto|].
  apply uadd_wrapeq in E. eapply wrapeq_trans; [exact E|].
  rewrite node_sum_eq. apply wrapeq_add; [apply wrapeq_refl | exact Hc].
Qed.

(** Total size as a function of the true sum. *)
Lemma fg_total_wrapped m K f : fg_ok m K f -> fg_total_size m f = wrapped m (node_sum f).
Proof.
  intros Hok. apply fg_ok_inv in Hok as (_ & _ & _ & _ & Hc).
  unfold fg_total_size. rewrite uadd_wrapped, node_sum_eq.
  destruct m; simpl in Hc.
  - now rewrite Hc.
  - apply wrapped_wrapeq_release. apply wrapeq_add; [apply wrapeq_refl | exact Hc].
Qed.

(** Effect of [add]/[add_child] on anything that is a sum over nodes. *)
Record adds (m : mode) (K : key -> Prop) (a b c : fg) : Prop := {
  adds_ok : fg_ok m K c;
  adds_size : forall p, wrapeq m (size_at c p) (size_at a p + size_at b p);
  adds_sum : wrapeq m (node_sum c) (node_sum a + node_sum b);
}.

Definition child_at (k : key) (c : fg) (p : path) : N :=
  match p with [] => 0 | s :: p' => if String.eqb (k_str k) s then size_at c p' else 0 end.

Record adds_child (m : mode) (K : key -> Prop) (a : fg) (k : key) (b c : fg) : Prop := {
  adds_child_ok : fg_ok m K c;
  adds_child_size : forall p, wrapeq m (size_at c p) (size_at a p + child_at k b p);
  adds_child_sum : wrapeq m (node_sum c) (node_sum a + node_sum b);
}.

Lemma size_at_cons f s p :
  size_at f (s :: p) =
  sumN (map (fun kc => if String.eqb (k_str (fst kc)) s then size_at (snd kc) p else 0) (fg_children f)).
Proof. reflexivity. Qed.

Lemma fg_add_child_adds m (K : key -> Prop) a k b c :
  (forall a' c', fg_ok m K a' -> fg_add m a' b = Some c' -> adds m K a' b c') ->
  fg_ok m K a -> K k -> fg_ok m K b ->
  fg_add_child m a k b = Some c -> adds_child m K a k b c.
Proof.
  intros IH Ha Hk Hb E. unfold fg_add_child in E.
  destruct (fg_total_size m b) as [t|] eqn:Et; [|discriminate]. cbn [obind] in E.
  destruct (uadd m (fg_children_size a) t) as [cs|] eqn:Ecs; [|discriminate]. cbn [obind] in E.
  destruct (fg_total_wrapeq Hb Et) as [Htlt Htw].
  pose proof (uadd_lt Ecs) as Hcslt. apply uadd_wrapeq in Ecs.
  destruct (fg_ok_inv Ha) as (Hnd & Hch & Hn & Hc & Hw).
  destruct (hm_find (fg_children a) k) as [e|] eqn:Ef.
  - destruct (fg_add m e b) as [e'|] eqn:Ee; [|discriminate]. cbn [obind] in E.
    inversion E; subst c; clear E.
    assert (Hin : In (k, e) (fg_children a)) by now apply hm_find_In.
    destruct (Hch _ _ Hin) as [_ He].
    destruct (IH _ _ He Ee) as [He' Hsz Hsm].
    assert (Hsum : wrapeq m
      (sumN (map (fun kc => node_sum (snd kc)) (hm_replace (fg_children a) k e')))
      (sumN (map (fun kc => node_sum (snd kc)) (fg_children a)) + node_sum b)).
    { eapply hm_replace_sum; [exact Ef | exact Hsm]. }
    split.
    + constructor; auto.
      * now rewrite hm_replace_keys.
      * intros k1 f1 H1. apply hm_replace_In in H1 as [H1|[-> ->]]; auto.
      * eapply wrapeq_trans; [exact Ecs|]. apply wrapeq_sym.
        eapply wrapeq_trans; [exact Hsum|].
        apply wrapeq_sym, wrapeq_add; [exact Hw | exact Htw].
    + intros [|s p].
      * cbn [size_at fg_node_size child_at]. apply wrapeq_of_eq; lia.
      * rewrite !size_at_cons. cbn [fg_children child_at].
        eapply hm_replace_sum; [exact Ef|]. cbn [fst snd].
        destruct (String.eqb (k_str k) s); [apply Hsz | apply wrapeq_refl].
    + rewrite (node_sum_eq a), (node_sum_eq (FG _ _ _)). cbn [fg_node_size fg_children].
      rewrite <- N.add_assoc. apply wrapeq_add; [apply wrapeq_refl | exact Hsum].
  - inversion E; subst c; clear E. unfold hm_insert_new.
    split.
    + constructor; auto.
      * rewrite map_app. apply NoDup_snoc; [exact Hnd|]. now apply hm_find_None.
      * intros k1 f1 H1. apply in_app_or in H1 as [H1|[H1|[]]]; [auto|].
        inversion H1; subst; auto.
      * rewrite map_app, sumN_app. cbn [map sumN snd].
        eapply wrapeq_trans; [exact Ecs|]. rewrite N.add_0_r.
        apply wrapeq_add; [exact Hw | exact Htw].
    + intros [|s p].
      * cbn [size_at fg_node_size child_at]. apply wrapeq_of_eq; lia.
      * rewrite !size_at_cons. cbn [fg_children child_at]. rewrite map_app, sumN_app.
        cbn [map sumN fst snd]. rewrite N.add_0_r. apply wrapeq_refl.
    + rewrite (node_sum_eq a), (node_sum_eq (FG _ _ _)). cbn [fg_node_size fg_children].
      rewrite map_app, sumN_app. cbn [map sumN snd]. apply wrapeq_of_eq; lia.
Qed.

Lemma add_children_adds m (K : key -> Prop) l : forall a c,
  (forall k b, In (k, b) l -> K k /\ fg_ok m K b /\
     forall a' c', fg_ok m K a' -> fg_add m a' b = Some c' -> adds m K a' b c') ->
  fg_ok m K a -> add_children m a l = Some c ->
  fg_ok m K c /\
  (forall p, wrapeq m (size_at c p)
     (size_at a p + sumN (map (fun kc => child_at (fst kc) (snd kc) p) l))) /\
  wrapeq m (node_sum c) (node_sum a + sumN (map (fun kc => node_sum (snd kc)) l)).
Proof.
  induction l as [|[k b] l IH]; intros a c Hl Ha E; cbn [add_children] in E.
  - inversion E; subst. cbn [map sumN]. split; [auto|]. split; intros; apply wrapeq_of_eq; lia.
  - destruct (fg_add_child m a k b) as [s|] eqn:Es; [|discriminate]. cbn [obind] in E.
    destruct (Hl k b (or_introl eq_refl)) as (Hk & Hb & Hadd).
    destruct (fg_add_child_adds Hadd Ha Hk Hb Es) as [Hs Hsz Hsm].
    destruct (IH s c) as (Hc & Hcz & Hcm); auto.
    { intros; apply Hl; now right. }
    split; [auto|]. cbn [map sumN fst snd]. split.
    + intros p. eapply wrapeq_trans; [apply Hcz|].
      rewrite N.add_assoc. apply wrapeq_add; [apply Hsz | apply wrapeq_refl].
    + eapply wrapeq_trans; [exact Hcm|].
      rewrite N.add_assoc. apply wrapeq_add; [exact Hsm | apply wrapeq_refl].
Qed.

Lemma fg_add_adds m (K : key -> Prop) b : fg_ok m K b ->
  forall a c, fg_ok m K a -> fg_add m a b = Some c -> adds m K a b c.
Proof.
  induction b as [cs cz n IH] using fg_ind'. intros Hb a c Ha E.
  rewrite fg_add_eq in E. cbn [fg_node_size fg_children] in E.
  destruct (uadd m (fg_node_size a) n) as [n'|] eqn:En; [|discriminate]. cbn [obind] in E.
  destruct (fg_ok_inv Ha) as (Hnd & Hch & Hn & Hc & Hw).
  destruct (fg_ok_inv Hb) as (Hnd' & Hch' & Hn' & Hc' & Hw').
  cbn [fg_children fg_node_size fg_children_size] in *.
  apply add_children_adds with (K := K) in E as (Hok & Hsz & Hsm).
  - apply uadd_wrapeq in En. split; [exact Hok| |].
    + intros p. eapply wrapeq_trans; [apply Hsz|].
      destruct p as [|s p].
      * cbn [size_at fg_node_size child_at]. rewrite sumN_map_0 by reflexivity.
        rewrite N.add_0_r. exact En.
      * rewrite !size_at_cons. cbn [fg_children child_at]. apply wrapeq_refl.
    + eapply wrapeq_trans; [exact Hsm|].
      rewrite (node_sum_eq a), (node_sum_eq (FG _ _ _)), (node_sum_eq (FG cs cz n)).
      cbn [fg_node_size fg_children].
      set (A := sumN (map _ (fg_children a))). set (B := sumN (map _ cs)).
      replace (fg_node_size a + A + (n + B)) with (fg_node_size a + n + (A + B)) by lia.
      rewrite <- N.add_assoc. apply wrapeq_add; [exact En | apply wrapeq_refl].
  - intros k b Hin. destruct (Hch' _ _ Hin) as [Hk Hbok]. split; [auto|]. split; [auto|].
    intros a' c' Ha' E'. eapply IH; eauto.
  - constructor; auto. eapply uadd_lt; eauto.
Qed.

Lemma fg_add_child_spec m (K : key -> Prop) a k b c :
  fg_ok m K a -> K k -> fg_ok m K b -> fg_add_child m a k b = Some c -> adds_child m K a k b c.
Proof.
  intros Ha Hk Hb E. eapply fg_add_child_adds; eauto.
  intros; eapply fg_add_adds; eauto.
Qed.

Lemma fg_add_self_ok m K a n c : fg_ok m K a -> n < two64 -> fg_add_self m a n = Some c -> fg_ok m K c.
Proof.
  intros Ha Hn E. unfold fg_add_self in E.
  destruct (uadd m (fg_node_size a) n) as [n'|] eqn:En; [|discriminate]. inversion E; subst.
  destruct (fg_ok_inv Ha) as (Hnd & Hch & Hn' & Hc & Hw). constructor; auto. eapply uadd_lt; eauto.
Qed.

Lemma fg_api_ok m K f : fg_api m K f -> fg_ok m K f.
Proof.
  induction 1 as [|f n g Hf IH Hn E|f k c g Hf IHf Hk Hc IHc E|f c g Hf IHf Hc IHc E].
  - apply fg_ok_default.
  - eapply fg_add_self_ok; eauto.
  - exact (adds_child_ok (fg_add_child_spec IHf Hk IHc E)).
  - exact (adds_ok (fg_add_adds IHc IHf E)).
Qed.

(** ** When does merging succeed? *)
Definition csum (f : fg) : N := sumN (map (fun kc => node_sum (snd kc)) (fg_children f)).

Lemma node_sum_csum f : node_sum f = fg_node_size f + csum f.
Proof. apply node_sum_eq. Qed.

Lemma fg_ok_debug K f : fg_ok Debug K f -> fg_children_size f = csum f /\ csum f < two64.
Proof. intros H. apply fg_ok_inv in H as (_ & _ & _ & H & Hw). unfold csum; simpl in Hw. now rewrite <- Hw. Qed.

Lemma fg_add_child_debug (K : key -> Prop) a k b :
  (forall a', fg_ok Debug K a' -> node_sum a' + node_sum b < two64 -> exists c, fg_add Debug a' b = Some c) ->
  fg_ok Debug K a -> fg_ok Debug K b ->
  (csum a + node_sum b < two64 <-> exists c, fg_add_child Debug a k b = Some c).
Proof.
  intros IH Ha Hb. unfold fg_add_child.
  rewrite (fg_total_wrapped Hb). cbn [wrapped].
  destruct (fg_ok_debug Ha) as [Hca Hca'].
  destruct (N.ltb_spec (node_sum b) two64) as [Hlt|Hge]; cbn [obind].
  2:{ split; [lia | intros [c E]; discriminate]. }
  rewrite Hca. unfold uadd.
  destruct (N.ltb_spec (csum a + node_sum b) two64) as [Hs|Hs]; cbn [obind].
  2:{ split; [lia | intros [c E]; discriminate]. }
  split; [intros _|auto].
  destruct (hm_find (fg_children a) k) as [e|] eqn:Ef; [|eauto].
  apply hm_find_In in Ef.
  destruct (fg_ok_inv Ha) as (_ & Hch & _). destruct (Hch _ _ Ef) as [_ He].
  assert (node_sum e <= csum a).
  { unfold csum. apply sumN_le_In. apply in_map_iff. exists (k, e). auto. }
  destruct (IH e He) as [e' E]; [lia|]. rewrite E. cbn [obind]. eauto.
Qed.

Lemma csum_child (K : key -> Prop) a k b c :
  fg_ok Debug K a -> K k -> fg_ok Debug K b -> fg_add_child Debug a k b = Some c ->
  csum c = csum a + node_sum b /\ fg_node_size c = fg_node_size a.
Proof.
  intros Ha Hk Hb E. pose proof (adds_child_sum (fg_add_child_spec Ha Hk Hb E)) as H. simpl in H.
  pose proof (adds_child_size (fg_add_child_spec Ha Hk Hb E) []) as H2. simpl in H2.
  rewrite !node_sum_csum in H. rewrite node_sum_csum. lia.
Qed.

Lemma add_children_debug (K : key -> Prop) l : forall a,
  (forall k b, In (k, b) l -> K k /\ fg_ok Debug K b /\
     forall a', fg_ok Debug K a' -> node_sum a' + node_sum b < two64 -> exists c, fg_add Debug a' b = Some c) ->
  fg_ok Debug K a ->
  (csum a + sumN (map (fun kc => node_sum (snd kc)) l) < two64 <->
   exists c, add_children Debug a l = Some c).
Proof.
  induction l as [|[k b] l IH]; intros a Hl Ha; cbn [add_children map sumN snd].
  - destruct (fg_ok_debug Ha). split; [eauto | lia].
  - destruct (Hl k b (or_introl eq_refl)) as (Hk & Hb & Hadd).
    pose proof (@fg_add_child_debug K a k b Hadd Ha Hb) as Hiff.
    destruct (fg_add_child Debug a k b) as [s|] eqn:Es; cbn [obind].
    + destruct (csum_child Ha Hk Hb Es) as [Hcs _].
      rewrite <- IH.
      * rewrite Hcs. lia.
      * intros; apply Hl; now right.
      * exact (adds_child_ok (fg_add_child_spec Ha Hk Hb Es)).
    + split; [|intros [c E]; discriminate]. intros H.
      destruct Hiff as [Hiff _]. destruct Hiff as [c E]; [lia|discriminate].
Qed.

Lemma fg_add_debug (K : key -> Prop) b : fg_ok Debug K b -> forall a, fg_ok Debug K a ->
  (fg_node_size a + fg_node_size b < two64 /\ csum a + csum b < two64 <->
   exists c, fg_add Debug a b = Some c).
Proof.
  induction b as [cs cz n IH] using fg_ind'. intros Hb a Ha.
  rewrite fg_add_eq. cbn [fg_node_size fg_children].
  destruct (fg_ok_inv Ha) as (Hnd & Hch & Hn & Hc & Hw).
  destruct (fg_ok_inv Hb) as (Hnd' & Hch' & Hn' & Hc' & Hw').
  cbn [fg_children fg_node_size fg_children_size] in *.
  unfold uadd. destruct (N.ltb_spec (fg_node_size a + n) two64) as [Hs|Hs]; cbn [obind].
  2:{ split; [lia | intros [c E]; discriminate]. }
  rewrite <- (@add_children_debug K cs).
  - unfold csum. cbn [fg_children]. split; [intros [_ H]; exact H | auto].
  - intros k b Hin. destruct (Hch' _ _ Hin) as [Hk Hbok]. split; [auto|]. split; [auto|].
    intros a' Ha' Hlt. apply (IH k b Hin Hbok a' Ha'). rewrite !node_sum_csum in Hlt. lia.
  - constructor; auto.
Qed.

Lemma fg_add_release_child (K : key -> Prop) a k b :
  (forall a', exists c, fg_add Release a' b = Some c) ->
  exists c, fg_add_child Release a k b = Some c.
Proof.
  intros IH. unfold fg_add_child, fg_total_size. rewrite !uadd_release. cbn [obind].
  rewrite uadd_release. cbn [obind].
  destruct (hm_find (fg_children a) k) as [e|]; [|eauto].
  destruct (IH e) as [e' ->]. cbn [obind]. eauto.
Qed.

Lemma fg_add_release b : forall a, exists c, fg_add Release a b = Some c.
Proof.
  induction b as [cs cz n IH] using fg_ind'. intros a.
  rewrite fg_add_eq, uadd_release. cbn [obind fg_children].
  generalize (FG (fg_children a) (fg_children_size a) ((fg_node_size a + fg_node_size (FG cs cz n)) mod two64)) as s.
  clear a. induction cs as [|[k b] cs IHl]; intros s; cbn [add_children]; [eauto|].
  destruct (@fg_add_release_child any_key s k b) as [c ->].
  - intros a'. apply (IH k b). now left.
  - cbn [obind]. apply IHl. intros k' f Hin. apply (IH k' f). now right.
Qed.

Lemma fg_add_child_release a k b : exists c, fg_add_child Release a k b = Some c.
Proof. apply (fg_add_release_child any_key). apply fg_add_release. Qed.

(** Merging two graphs in which everything fits. *)
Lemma fg_add_fits m K a b : fg_ok m K a -> fg_ok m K b -> node_sum a + node_sum b < two64 ->
  exists c, fg_add m a b = Some c.
Proof.
  intros Ha Hb H. destruct m; [|apply fg_add_release].
  apply (fg_add_debug Hb Ha). rewrite !node_sum_csum in H. lia.
Qed.

Lemma fg_add_child_fits m K a k b : fg_ok m K a -> fg_ok m K b -> node_sum a + node_sum b < two64 ->
  exists c, fg_add_child m a k b = Some c.
Proof.
  intros Ha Hb H. destruct m; [|apply fg_add_child_release].
  apply (@fg_add_child_debug K a k b); auto.
  - intros a' Ha' H'. apply (fg_add_debug Hb Ha'). rewrite !node_sum_csum in H'. lia.
  - rewrite node_sum_csum in H. lia.
Qed.

(** ** Expressions *)
Lemma fgeval_spec m K e g : args_fit e -> expr_keys K e -> fgeval m e = Some g ->
  fg_api m K g /\ (forall p, wrapeq m (size_at g p) (put_at e p)) /\
  wrapeq m (node_sum g) (put_total e).
Proof.
  revert g; induction e as [|e IH n|e IHe k c IHc|e IHe c IHc]; intros g Hf Hk E;
    cbn [fgeval args_fit expr_keys put_at put_total] in *.
  - inversion E; subst. split; [constructor|]. split; [|apply wrapeq_refl].
    intros p. apply wrapeq_of_eq. destruct p; reflexivity.
  - destruct (fgeval m e) as [f|] eqn:Ef; [|discriminate]. cbn [obind] in E.
    destruct Hf as [Hf Hn]. destruct (IH f Hf Hk eq_refl) as (Hapi & Hsz & Hsm).
    split; [eapply api_add_self; eauto|].
    unfold fg_add_self in E. destruct (uadd m (fg_node_size f) n) as [n'|] eqn:En; [|discriminate].
    inversion E; subst. apply uadd_wrapeq in En. split.
    + intros [|s p].
      * cbn [size_at fg_node_size]. eapply wrapeq_trans; [exact En|].
        apply wrapeq_add; [apply (Hsz []) | apply wrapeq_refl].
      * rewrite size_at_cons. cbn [fg_children]. rewrite N.add_0_r. apply (Hsz (s :: p)).
    + rewrite node_sum_eq. cbn [fg_node_size fg_children].
      rewrite node_sum_eq in Hsm. set (A := sumN _) in *.
      eapply wrapeq_trans; [apply wrapeq_add; [exact En | apply wrapeq_refl]|].
      replace (fg_node_size f + n + A) with (fg_node_size f + A + n) by lia.
      apply wrapeq_add; [exact Hsm | apply wrapeq_refl].
  - destruct (fgeval m e) as [f|] eqn:Ef; [|discriminate]. cbn [obind] in E.
    destruct (fgeval m c) as [h|] eqn:Ec; [|discriminate]. cbn [obind] in E.
    destruct Hf as [Hf1 Hf2], Hk as (Hk1 & Hk & Hk2).
    destruct (IHe f Hf1 Hk1 eq_refl) as (Hapi1 & Hsz1 & Hsm1).
    destruct (IHc h Hf2 Hk2 eq_refl) as (Hapi2 & Hsz2 & Hsm2).
    split; [eapply api_add_child with (f := f) (c := h); eauto|].
    destruct (fg_add_child_spec (fg_api_ok Hapi1) Hk (fg_api_ok Hapi2) E) as [_ Hsz Hsm].
    split.
    + intros p. eapply wrapeq_trans; [apply Hsz|]. apply wrapeq_add; [apply Hsz1|].
      destruct p as [|s p]; cbn [child_at]; [apply wrapeq_refl|].
      destruct (String.eqb (k_str k) s); [apply Hsz2 | apply wrapeq_refl].
    + eapply wrapeq_trans; [exact Hsm|]. now apply wrapeq_add.
  - destruct (fgeval m e) as [f|] eqn:Ef; [|discriminate]. cbn [obind] in E.
    destruct (fgeval m c) as [h|] eqn:Ec; [|discriminate]. cbn [obind] in E.
    destruct Hf as [Hf1 Hf2], Hk as (Hk1 & Hk2).
    destruct (IHe f Hf1 Hk1 eq_refl) as (Hapi1 & Hsz1 & Hsm1).
    destruct (IHc h Hf2 Hk2 eq_refl) as (Hapi2 & Hsz2 & Hsm2).
    split; [eapply api_add with (f := f) (c := h); eauto|].
    destruct (fg_add_adds (fg_api_ok Hapi2) (fg_api_ok Hapi1) E) as [_ Hsz Hsm].
    split.
    + intros p. eapply wrapeq_trans; [apply Hsz|]. now apply wrapeq_add.
    + eapply wrapeq_trans; [exact Hsm|]. now apply wrapeq_add.
Qed.

Lemma expr_keys_any e : expr_keys any_key e.
Proof. induction e; simpl; unfold any_key in *; auto. Qed.

(** ** A successful debug run is also the release run *)
Lemma uadd_debug_release a b c : uadd Debug a b = Some c -> uadd Release a b = Some c.
Proof. intros E. apply uadd_debug_some in E as [-> H]. now apply uadd_exact. Qed.

Lemma fg_total_debug_release f t : fg_total_size Debug f = Some t -> fg_total_size Release f = Some t.
Proof. apply uadd_debug_release. Qed.

Lemma fg_add_child_debug_release a k b c :
  (forall a' c', fg_add Debug a' b = Some c' -> fg_add Release a' b = Some c') ->
  fg_add_child Debug a k b = Some c -> fg_add_child Release a k b = Some c.
Proof.
  intros IH. unfold fg_add_child.
  destruct (fg_total_size Debug b) as [t|] eqn:Et; [|discriminate]. cbn [obind].
  rewrite (fg_total_debug_release Et). cbn [obind].
  destruct (uadd Debug (fg_children_size a) t) as [cs|] eqn:Ecs; [|discriminate]. cbn [obind].
  rewrite (uadd_debug_release Ecs). cbn [obind].
  destruct (hm_find (fg_children a) k) as [e|]; [|auto].
  destruct (fg_add Debug e b) as [e'|] eqn:Ee; [|discriminate].
  now rewrite (IH _ _ Ee).
Qed.

Lemma fg_add_debug_release b : forall a c, fg_add Debug a b = Some c -> fg_add Release a b = Some c.
Proof.
  induction b as [cs cz n IH] using fg_ind'. intros a c. rewrite !fg_add_eq.
  destruct (uadd Debug (fg_node_size a) (fg_node_size (FG cs cz n))) as [n'|] eqn:En; [|discriminate].
  rewrite (uadd_debug_release En). cbn [obind fg_children].
  generalize (FG (fg_children a) (fg_children_size a) n') as s. clear En.
  induction cs as [|[k b] cs IHl]; intros s; cbn [add_children]; [auto|].
  destruct (fg_add_child Debug s k b) as [s'|] eqn:Es; [|discriminate].
  rewrite (@fg_add_child_debug_release s k b s'); auto.
  - cbn [obind]. apply IHl. intros k' f Hin. apply (IH k' f). now right.
  - intros a' c'. apply (IH k b). now left.
Qed.

Lemma fgeval_debug_release e : forall g, fgeval Debug e = Some g -> fgeval Release e = Some g.
Proof.
  induction e as [|e IH n|e IHe k c IHc|e IHe c IHc]; intros g; cbn [fgeval]; auto.
  - destruct (fgeval Debug e) as [f|] eqn:Ef; [|discriminate]. rewrite (IH _ eq_refl). cbn [obind].
    unfold fg_add_self. destruct (uadd Debug (fg_node_size f) n) as [x|] eqn:Ex; [|discriminate].
    now rewrite (uadd_debug_release Ex).
  - destruct (fgeval Debug e) as [f|] eqn:Ef; [|discriminate]. rewrite (IHe _ eq_refl). cbn [obind].
    destruct (fgeval Debug c) as [h|] eqn:Eh; [|discriminate]. rewrite (IHc _ eq_refl). cbn [obind].
    apply fg_add_child_debug_release. apply fg_add_debug_release.
  - destruct (fgeval Debug e) as [f|] eqn:Ef; [|discriminate]. rewrite (IHe _ eq_refl). cbn [obind].
    destruct (fgeval Debug c) as [h|] eqn:Eh; [|discriminate]. rewrite (IHc _ eq_refl). cbn [obind].
    apply fg_add_debug_release.
Qed.

Lemma put_total_args_fit e : put_total e < two64 -> args_fit e.
Proof.
  induction e as [|e IH n|e IHe k c IHc|e IHe c IHc]; cbn [put_total args_fit] in *; auto; intros H.
  - split; [apply IH; lia | lia].
  - split; [apply IHe | apply IHc]; lia.
  - split; [apply IHe | apply IHc]; lia.
Qed.

Lemma fgeval_fits_debug e : put_total e < two64 -> exists g, fgeval Debug e = Some g.
Proof.
  induction e as [|e IH n|e IHe k c IHc|e IHe c IHc]; cbn [put_total fgeval]; intros Hlt.
  - eauto.
  - destruct IH as (g & E); [lia|]. rewrite E. cbn [obind]. unfold fg_add_self.
    destruct (fgeval_spec (put_total_args_fit (e := e) ltac:(lia)) (expr_keys_any e) E) as (_ & _ & Hs).
    simpl in Hs. rewrite node_sum_csum in Hs.
    rewrite uadd_exact by lia. cbn [obind]. eauto.
  - destruct IHe as (g & E); [lia|]. destruct IHc as (h & E'); [lia|].
    rewrite E. cbn [obind]. rewrite E'. cbn [obind].
    destruct (fgeval_spec (put_total_args_fit (e := e) ltac:(lia)) (expr_keys_any e) E) as (Ha & _ & Hs).
    destruct (fgeval_spec (put_total_args_fit (e := c) ltac:(lia)) (expr_keys_any c) E') as (Ha' & _ & Hs').
    simpl in Hs, Hs'.
    apply (@fg_add_child_fits Debug any_key); try (now apply fg_api_ok); lia.
  - destruct IHe as (g & E); [lia|]. destruct IHc as (h & E'); [lia|].
    rewrite E. cbn [obind]. rewrite E'. cbn [obind].
    destruct (fgeval_spec (put_total_args_fit (e := e) ltac:(lia)) (expr_keys_any e) E) as (Ha & _ & Hs).
    destruct (fgeval_spec (put_total_args_fit (e := c) ltac:(lia)) (expr_keys_any c) E') as (Ha' & _ & Hs').
    simpl in Hs, Hs'.
    apply (@fg_add_fits Debug any_key); try (now apply fg_api_ok); lia.
Qed.

(** Below 2^64 everything is exact in both build modes. *)
Lemma fgeval_fits e : put_total e < two64 -> exists g,
  (forall m, fgeval m e = Some g) /\ (forall p, size_at g p = put_at e p) /\ (forall m, fg_total_size m g = Some (put_total e)).
Proof.
  intros Hlt. destruct (fgeval_fits_debug Hlt) as [g E].
  destruct (fgeval_spec (put_total_args_fit Hlt) (expr_keys_any e) E) as (Ha & Hsz & Hs).
  exists g. split; [|split].
  - intros []; [auto | now apply fgeval_debug_release].
  - exact Hsz.
  - simpl in Hs. assert (Ht : fg_total_size Debug g = Some (put_total e)).
    { rewrite (fg_total_wrapped (fg_api_ok Ha)), Hs. simpl.
      destruct (N.ltb_spec (put_total e) two64); [reflexivity | lia]. }
    intros []; [auto | now apply fg_total_debug_release].
Qed.
