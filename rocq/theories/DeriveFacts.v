(** * Lemmas about the proc macros. *)
From Verif Require Import Base KeyModel HMap FlameModel BuilderModel VisitorModel LayoutModel ImplModel
  DeriveModel DeriveSpec BaseFacts KeyFacts.
From Coq Require Import Lia.

#[local] Arguments key_new : simpl never.
#[local] Arguments derive_key : simpl never.

(** ** Paths *)

Lemma is_one_of_in l s : is_one_of l s = true <-> In s l.
Proof.
  unfold is_one_of. rewrite existsb_exists. split.
  - intros (x & H & E). apply String.eqb_eq in E. now subst.
  - intros H. exists s. split; [exact H|apply String.eqb_refl].
Qed.

Definition args_toks (a : option (bool * string)) : list tok :=
  match a with None => [] | Some (false, g) => [TAngle g] | Some (true, g) => [TPathSep; TAngle g] end.

Lemma parse_args_inv ts a r : parse_args ts = (a, r) -> ts = args_toks a ++ r.
Proof.
  unfold parse_args. intros H.
  destruct ts as [|t ts]; [inversion H; reflexivity|].
  destruct t; try (inversion H; reflexivity).
  destruct ts as [|t ts]; [inversion H; reflexivity|].
  destruct t; inversion H; reflexivity.
Qed.

(** Tokens that can follow a complete path in an attribute list. *)
Definition path_end (ts : list tok) : Prop :=
  match ts with
  | [] | TComma :: _ => True
  | _ => False
  end.

Definition seg_follow (ts : list tok) : Prop :=
  match ts with
  | TAngle _ :: _ => False
  | TPathSep :: TAngle _ :: _ => False
  | _ => True
  end.

Lemma parse_args_show a r : seg_follow r -> parse_args (args_toks a ++ r) = (a, r).
Proof.
  destruct a as [[[|] g]|]; cbn; [reflexivity|reflexivity|].
  unfold parse_args, seg_follow. destruct r as [|t r]; [reflexivity|]. destruct t; try tauto.
  destruct r as [|t r]; [reflexivity|]. destruct t; tauto.
Qed.

Lemma parse_segment_inv ts s r :
  parse_segment ts = Some (s, r) -> segment_ok s /\ ts = show_segment s ++ r.
Proof.
  unfold parse_segment. destruct ts as [|t ts]; [discriminate|].
  destruct t; try discriminate.
  - destruct (parse_args ts) as [a r'] eqn:E. intros H. inversion H; subst.
    apply parse_args_inv in E. split; [now left|].
    unfold show_segment; cbn. rewrite E. destruct a as [[[|] g]|]; reflexivity.
  - destruct (is_one_of _ s0) eqn:E1.
    + intros H. inversion H; subst. apply is_one_of_in in E1. split; [|reflexivity].
      right; right. cbn. auto.
    + destruct (String.eqb s0 "Self") eqn:E2; [|discriminate].
      destruct (parse_args ts) as [a r'] eqn:E. intros H. inversion H; subst.
      apply parse_args_inv in E. apply String.eqb_eq in E2. split; [right; left; auto|].
      unfold show_segment; cbn. rewrite E. destruct a as [[[|] g]|]; reflexivity.
Qed.

Lemma parse_segment_show s r :
  segment_ok s -> seg_follow r -> parse_segment (show_segment s ++ r) = Some (s, r).
Proof.
  intros O F. unfold show_segment, parse_segment. fold (args_toks (sg_args s)).
  destruct s as [kw id a]; cbn [sg_kw sg_id sg_args] in *.
  destruct O as [O|[[O1 O2]|(O1 & O2 & O3)]]; cbn [sg_kw sg_id sg_args] in *; subst.
  - cbn. now rewrite (@parse_args_show a r F).
  - cbn. now rewrite (@parse_args_show a r F).
  - cbn [args_toks app]. apply is_one_of_in in O2. now rewrite O2.
Qed.

Lemma parse_path_rest_inv fuel : forall ts ss r, parse_path_rest fuel ts = Some (ss, r) ->
  Forall segment_ok ss /\ ts = concat (map (fun s => TPathSep :: show_segment s) ss) ++ r.
Proof.
  induction fuel as [|fuel IH]; intros ts ss r H; cbn in H.
  - inversion H; subst. auto.
  - destruct ts as [|t ts]; [inversion H; subst; auto|].
    destruct t; try (inversion H; subst; now auto).
    assert (G : forall ts, (do x <- parse_segment ts; do y <- parse_path_rest fuel (snd x); Some (fst x :: fst y, snd y)) = Some (ss, r) ->
              Forall segment_ok ss /\ TPathSep :: ts = concat (map (fun s => TPathSep :: show_segment s) ss) ++ r).
    { clear ts H. intros ts H. destruct (parse_segment ts) as [[s r1]|] eqn:E; [|discriminate]. cbn in H.
      destruct (parse_path_rest fuel r1) as [[ss' r']|] eqn:E2; [|discriminate]. cbn in H.
      inversion H; subst. apply IH in E2. destruct E2 as [F E2]. apply parse_segment_inv in E.
      destruct E as [O E]. split; [now constructor|]. cbn. rewrite E, E2. now rewrite <- app_assoc. }
    destruct ts as [|t ts]; [now apply G|].
    destruct t; try (now apply G); inversion H; subst; auto.
Qed.

Lemma separated_cons sep x l : separated sep (x :: l) = x ++ concat (map (fun y => sep :: y) l).
Proof.
  revert x. induction l as [|y l IH]; intros x.
  - cbn. now rewrite app_nil_r.
  - change (separated sep (x :: y :: l)) with (x ++ sep :: separated sep (y :: l)). rewrite IH. reflexivity.
Qed.

Lemma path_end_follow r : path_end r -> seg_follow r.
Proof. destruct r as [|t r]; [easy|]. now destruct t. Qed.

Lemma parse_path_rest_show ss : forall fuel r, Forall segment_ok ss -> path_end r -> (length ss <= fuel)%nat ->
  parse_path_rest fuel (concat (map (fun s => TPathSep :: show_segment s) ss) ++ r) = Some (ss, r).
Proof.
  induction ss as [|s ss IH]; intros fuel r F E L.
  - cbn. destruct fuel; [reflexivity|]. cbn. destruct r as [|t r]; [reflexivity|].
    destruct t; cbn in E; tauto.
  - destruct fuel as [|fuel]; [cbn in L; lia|]. cbn [map concat]. rewrite <- app_assoc. cbn [app].
    assert (G : parse_segment (show_segment s ++ concat (map (fun s => TPathSep :: show_segment s) ss) ++ r)
              = Some (s, concat (map (fun s => TPathSep :: show_segment s) ss) ++ r)).
    { apply parse_segment_show; [now inversion F|].
      destruct ss as [|s2 ss]; [now apply path_end_follow|]. cbn. destruct (sg_kw s2); exact I. }
    specialize (IH fuel r ltac:(now inversion F) E ltac:(cbn in L; lia)).
    remember (concat (map (fun s => TPathSep :: show_segment s) ss) ++ r) as T eqn:ET. clear ET.
    cbn [parse_path_rest].
    destruct (show_segment s) as [|t l] eqn:ES; [discriminate ES|].
    assert (K : (exists i, t = TKw i) \/ (exists i, t = TId i)).
    { unfold show_segment in ES. destruct (sg_kw s); injection ES; intros; subst; eauto. }
    cbn [app] in *.
    destruct K as [[i ->]|[i ->]]; rewrite G; cbn [obind fst snd]; now rewrite IH.
Qed.

Lemma parse_path_inv ts p r : parse_path ts = Some (p, r) -> path_ok p /\ ts = show_path p ++ r.
Proof.
  unfold parse_path. intros H.
  assert (G : forall lead ts0, (do x <- parse_segment ts0; do y <- parse_path_rest (length (snd x)) (snd x);
               Some (mkPath lead (fst x :: fst y), snd y)) = Some (p, r) ->
              path_ok p /\ (if lead then [TPathSep] else []) ++ ts0 = show_path p ++ r).
  { clear H. intros lead ts0 H. destruct (parse_segment ts0) as [[s r1]|] eqn:E; [|discriminate]. cbn in H.
    destruct (parse_path_rest (length r1) r1) as [[ss r2]|] eqn:E2; [|discriminate]. cbn in H.
    inversion H; subst. apply parse_path_rest_inv in E2. destruct E2 as [F E2].
    apply parse_segment_inv in E. destruct E as [O E]. split; [split; [discriminate|now constructor]|].
    unfold show_path. cbn [p_leading p_segs map]. rewrite separated_cons, map_map, E, E2.
    now rewrite <- !app_assoc. }
  destruct ts as [|t ts]; [now apply (G false)|]. destruct t; try (now apply (G false)).
  now apply (G true).
Qed.

Lemma parse_path_show p r : path_ok p -> path_end r -> parse_path (show_path p ++ r) = Some (p, r).
Proof.
  destruct p as [lead ss]. intros [NE F] E. destruct ss as [|s ss]; [now destruct NE|].
  cbn in F. unfold show_path. cbn [p_leading p_segs map]. rewrite separated_cons, map_map.
  assert (Es : parse_segment ((show_segment s ++ concat (map (fun s => TPathSep :: show_segment s) ss)) ++ r)
             = Some (s, concat (map (fun s => TPathSep :: show_segment s) ss) ++ r)).
  { rewrite <- app_assoc. apply parse_segment_show; [now inversion F|].
    destruct ss as [|s2 ss]; [now apply path_end_follow|]. cbn. destruct (sg_kw s2); exact I. }
  assert (Er : parse_path_rest (length (concat (map (fun s => TPathSep :: show_segment s) ss) ++ r))
                 (concat (map (fun s => TPathSep :: show_segment s) ss) ++ r) = Some (ss, r)).
  { apply parse_path_rest_show; [now inversion F|exact E|]. rewrite app_length.
    assert (forall l : list segment, (length l <= length (concat (map (fun s => TPathSep :: show_segment s) l)))%nat).
    { induction l as [|x l IH]; cbn; [lia|]. rewrite app_length. lia. }
    specialize (H ss). lia. }
  unfold parse_path. destruct lead; cbn [app].
  - rewrite <- app_assoc in Es. rewrite <- app_assoc. rewrite Es. cbn [obind fst snd]. rewrite Er. reflexivity.
  - destruct (show_segment s) as [|t l] eqn:ES; [unfold show_segment in ES; discriminate|].
    assert (t <> TPathSep) by (unfold show_segment in ES; destruct (sg_kw s); congruence).
    cbn [app] in *. 
    assert (X : match t :: (l ++ concat (map (fun s => TPathSep :: show_segment s) ss)) ++ r with
                | TPathSep :: r0 => (true, r0) | _ => (false, t :: (l ++ concat (map (fun s => TPathSep :: show_segment s) ss)) ++ r) end
              = (false, t :: (l ++ concat (map (fun s => TPathSep :: show_segment s) ss)) ++ r)).
    { destruct t; try reflexivity. congruence. }
    rewrite X, Es. cbn [obind fst snd]. rewrite Er. reflexivity.
Qed.

(** ** Items *)

(** Adding one item, as the parser does. *)
Definition add_item (o : aattrs) (i : aitem) : option aattrs :=
  match i with
  | INothing => Some o
  | ISkip => if aa_skip o then None else Some (mkAttrs true (aa_bound o) (aa_visit o))
  | IBound b => match aa_bound o with Some _ => None | None => Some (mkAttrs (aa_skip o) (Some b) (aa_visit o)) end
  | IVisit p => match aa_visit o with Some _ => None | None => Some (mkAttrs (aa_skip o) (aa_bound o) (Some p)) end
  end.

Fixpoint add_items (o : aattrs) (l : list aitem) : option aattrs :=
  match l with [] => Some o | i :: l' => do o' <- add_item o i; add_items o' l' end.

Lemma add_items_app l1 : forall l2 o, add_items o (l1 ++ l2) = do o' <- add_items o l1; add_items o' l2.
Proof.
  induction l1 as [|i l1 IH]; intros l2 o; cbn; [reflexivity|].
  destruct (add_item o i); cbn; [apply IH|reflexivity].
Qed.

Lemma parse_item_other o ts :
  (forall r, ts <> TId "skip" :: r) -> (forall r, ts <> TId "bound" :: r) -> (forall r, ts <> TId "visit" :: r) ->
  parse_item o ts = Some (o, ts).
Proof.
  intros A B C. destruct ts as [|t ts]; [reflexivity|]. destruct t; try reflexivity.
  unfold parse_item.
  destruct (string_dec s "skip") as [->|NA]; [now destruct (A ts)|].
  destruct (string_dec s "bound") as [->|NB]; [now destruct (B ts)|].
  destruct (string_dec s "visit") as [->|NC]; [now destruct (C ts)|].
  repeat match goal with
  | |- match ?x with _ => _ end = _ => destruct x; try reflexivity; try congruence
  end.
Qed.

Lemma head_tok_dec (ts : list tok) (s : string) : {r | ts = TId s :: r} + {forall r, ts <> TId s :: r}.
Proof.
  destruct ts as [|t ts]; [right; congruence|].
  destruct t; try (right; congruence). destruct (string_dec s0 s) as [->|N]; [left; now exists ts|right; congruence].
Qed.

Lemma parse_item_inv o ts o' r : parse_item o ts = Some (o', r) ->
  exists i, item_ok i /\ ts = show_item i ++ r /\ add_item o i = Some o'.
Proof.
  intros H.
  destruct (head_tok_dec ts "skip") as [[r0 ->]|A].
  { cbn in H. destruct (aa_skip o) eqn:E; [discriminate|]. inversion H; subst.
    exists ISkip. cbn. now rewrite E. }
  destruct (head_tok_dec ts "bound") as [[r0 ->]|B].
  { cbn in H. destruct r0 as [|t r0]; [discriminate|]. destruct t; try discriminate.
    destruct r0 as [|t r0]; [discriminate|]. destruct t; try discriminate.
    destruct (aa_bound o) eqn:E; [discriminate|]. inversion H; subst. exists (IBound s). cbn. now rewrite E. }
  destruct (head_tok_dec ts "visit") as [[r0 ->]|C].
  { cbn in H. destruct r0 as [|t r0]; [discriminate|]. destruct t; try discriminate.
    destruct (parse_path r0) as [[p r1]|] eqn:EP; [|discriminate]. cbn in H.
    destruct (aa_visit o) eqn:E; [discriminate|]. inversion H; subst. apply parse_path_inv in EP.
    destruct EP as [O ->]. exists (IVisit p). cbn. now rewrite E. }
  rewrite parse_item_other in H by assumption. inversion H; subst. exists INothing. cbn. auto.
Qed.

Lemma parse_item_show o i r : item_ok i -> path_end r ->
  parse_item o (show_item i ++ r) = do o' <- add_item o i; Some (o', r).
Proof.
  intros O E. destruct i as [| |b|p]; cbn [show_item app].
  - rewrite parse_item_other; [reflexivity| | |]; intros r0 ->; destruct E.
  - cbn. destruct (aa_skip o); reflexivity.
  - cbn. destruct (aa_bound o); reflexivity.
  - cbn. rewrite parse_path_show by assumption. cbn. destruct (aa_visit o); reflexivity.
Qed.

Lemma parse_items_inv fuel : forall o ts o', parse_items fuel o ts = Some o' ->
  exists its, its <> [] /\ Forall item_ok its /\ ts = separated TComma (map show_item its) /\
  add_items o its = Some o'.
Proof.
  induction fuel as [|fuel IH]; intros o ts o' H; [discriminate|]. cbn in H.
  destruct (parse_item o ts) as [[o1 r]|] eqn:EI; [|discriminate]. cbn in H.
  apply parse_item_inv in EI. destruct EI as (i & OK & -> & EA).
  destruct r as [|t r].
  - inversion H; subst. exists [i]. cbn. rewrite app_nil_r, EA. repeat split; auto. discriminate.
  - destruct t; try discriminate. apply IH in H. destruct H as (its & NE & F & -> & EA2).
    exists (i :: its). split; [discriminate|]. split; [now constructor|]. split.
    + destruct its as [|i2 its]; [now destruct NE|]. reflexivity.
    + cbn. now rewrite EA.
Qed.

Lemma parse_items_show its : forall fuel o, its <> [] -> Forall item_ok its -> (length its <= fuel)%nat ->
  parse_items fuel o (separated TComma (map show_item its)) = add_items o its.
Proof.
  induction its as [|i its IH]; intros fuel o NE F L; [now destruct NE|].
  destruct fuel as [|fuel]; [cbn in L; lia|]. cbn [parse_items].
  destruct its as [|i2 its].
  - cbn [map separated]. rewrite <- (app_nil_r (show_item i)), parse_item_show; [|now inversion F|exact I].
    cbn. destruct (add_item o i); reflexivity.
  - change (separated TComma (map show_item (i :: i2 :: its)))
      with (show_item i ++ TComma :: separated TComma (map show_item (i2 :: its))).
    rewrite parse_item_show; [|now inversion F|exact I].
    change (add_items o (i :: i2 :: its)) with (do o' <- add_item o i; add_items o' (i2 :: its)).
    destruct (add_item o i) as [o1|]; cbn [obind fst snd]; [|reflexivity].
    apply IH; [discriminate|now inversion F|cbn in *; lia].
Qed.

Lemma separated_length sep l : (length l <= S (length (separated sep l)))%nat.
Proof.
  induction l as [|x l IH]; [cbn; lia|]. destruct l as [|y l].
  - cbn. lia.
  - change (separated sep (x :: y :: l)) with (x ++ sep :: separated sep (y :: l)).
    rewrite app_length. cbn [length] in *. lia.
Qed.

(** ** Reports *)

Lemma filter_app_len (f : aitem -> bool) l i : length (filter f (l ++ [i])) = (length (filter f l) + if f i then 1 else 0)%nat.
Proof. rewrite filter_app, app_length. cbn. destruct (f i); reflexivity. Qed.

Lemma in_filter_len (f : aitem -> bool) l x : In x l -> f x = true -> (1 <= length (filter f l))%nat.
Proof.
  intros H E. assert (In x (filter f l)) by (apply filter_In; auto).
  destruct (filter f l); [easy|cbn; lia].
Qed.

Lemma reports_default : reports aattrs_default [].
Proof.
  unfold reports, at_most_one. cbn. repeat split; try lia; try discriminate; tauto.
Qed.

Lemma reports_det o o' its : reports o its -> reports o' its -> o = o'.
Proof.
  intros (_ & _ & _ & S1 & B1 & V1) (_ & _ & _ & S2 & B2 & V2).
  destruct o as [s b v], o' as [s' b' v']; cbn in *.
  assert (s = s').
  { destruct s, s'; try reflexivity; [symmetry; tauto|tauto]. }
  assert (b = b').
  { destruct b as [b|], b' as [b'|]; try reflexivity.
    - symmetry. apply B2, B1. reflexivity.
    - symmetry. apply B2, B1. reflexivity.
    - apply B1, B2. reflexivity. }
  assert (v = v').
  { destruct v as [v|], v' as [v'|]; try reflexivity.
    - symmetry. apply V2, V1. reflexivity.
    - symmetry. apply V2, V1. reflexivity.
    - apply V1, V2. reflexivity. }
  now subst.
Qed.

Lemma reports_prefix o its i : reports o (its ++ [i]) -> exists o0, reports o0 its.
Proof.
  intros (A & B & C & _). unfold at_most_one in *. rewrite filter_app_len in *.
  assert (HS : exists b, (b = true <-> In ISkip its)).
  { destruct (existsb is_skip its) eqn:E.
    - exists true. apply existsb_exists in E. destruct E as (x & I & E). destruct x; try discriminate. tauto.
    - exists false. split; [discriminate|]. intros I.
      assert (existsb is_skip its = true) by (apply existsb_exists; exists ISkip; auto). congruence. }
  assert (HB : forall l, (length (filter is_bound l) <= 1)%nat -> exists b, forall x, b = Some x <-> In (IBound x) l).
  { induction l as [|y l IH]; intros L.
    - exists None. intros x. split; [discriminate|intros []].
    - cbn in L. destruct y as [| |b|p]; cbn in L.
      + destruct (IH L) as [b H]. exists b. intros x. rewrite (H x). cbn. intuition discriminate.
      + destruct (IH L) as [b H]. exists b. intros x. rewrite (H x). cbn. intuition discriminate.
      + exists (Some b). intros x. cbn. split.
        * intros E. left. congruence.
        * intros [E|I]; [congruence|]. pose proof (@in_filter_len is_bound _ _ I eq_refl). lia.
      + destruct (IH L) as [b H]. exists b. intros x. rewrite (H x). cbn. intuition discriminate. }
  assert (HV : forall l, (length (filter is_visit l) <= 1)%nat -> exists b, forall x, b = Some x <-> In (IVisit x) l).
  { induction l as [|y l IH]; intros L.
    - exists None. intros x. split; [discriminate|intros []].
    - cbn in L. destruct y as [| |b|p]; cbn in L.
      + destruct (IH L) as [b H]. exists b. intros x. rewrite (H x). cbn. intuition discriminate.
      + destruct (IH L) as [b H]. exists b. intros x. rewrite (H x). cbn. intuition discriminate.
      + destruct (IH L) as [b' H]. exists b'. intros x. rewrite (H x). cbn. intuition discriminate.
      + exists (Some p). intros x. cbn. split.
        * intros E. left. congruence.
        * intros [E|I]; [congruence|]. pose proof (@in_filter_len is_visit _ _ I eq_refl). lia. }
  destruct HS as [s HS]. destruct (HB its ltac:(lia)) as [b HB'], (HV its ltac:(lia)) as [v HV'].
  exists (mkAttrs s b v). unfold reports, at_most_one; cbn. repeat split; try lia; try (apply HS); apply HB' || apply HV'.
Qed.

Lemma reports_add_fwd o its i o' : reports o its -> add_item o i = Some o' -> reports o' (its ++ [i]).
Proof.
  intros R. pose proof R as (A & B & C & S1 & B1 & V1). unfold at_most_one in *.
  intros H. unfold reports, at_most_one. rewrite !filter_app_len.
    destruct i as [| |b|p]; cbn in H.
    - inversion H; subst. cbn. repeat split; try lia; intros; rewrite ?in_app_iff in *; cbn;
        try (rewrite in_app_iff in *); cbn in *; intuition (try discriminate); try (apply S1; tauto); 
        try (left; apply B1; assumption); try (left; apply V1; assumption); try (apply B1; assumption); try (apply V1; assumption).
    - destruct (aa_skip o) eqn:E; [discriminate|]. inversion H; subst. cbn.
      assert (filter is_skip its = []).
      { destruct (filter is_skip its) as [|x l] eqn:EF; [reflexivity|].
        assert (In x (filter is_skip its)) by (rewrite EF; now left). apply filter_In in H0.
        destruct H0 as [I X]. destruct x; try discriminate. apply S1 in I. discriminate. }
      rewrite H0. cbn. split; [lia|]. split; [lia|]. split; [lia|]. split.
      + rewrite in_app_iff. cbn. tauto.
      + split; intros x; rewrite in_app_iff; cbn; [rewrite B1|rewrite V1]; intuition discriminate.
    - destruct (aa_bound o) eqn:E; [discriminate|]. inversion H; subst. cbn.
      assert (filter is_bound its = []).
      { destruct (filter is_bound its) as [|x l] eqn:EF; [reflexivity|].
        assert (In x (filter is_bound its)) by (rewrite EF; now left). apply filter_In in H0.
        destruct H0 as [I X]. destruct x; try discriminate. apply B1 in I. discriminate. }
      rewrite H0. cbn. split; [lia|]. split; [lia|]. split; [lia|]. split; [|split].
      + rewrite in_app_iff, S1. cbn. intuition discriminate.
      + intros x. rewrite in_app_iff. cbn. rewrite <- B1. split.
        * intros X. right. left. congruence.
        * intros [X|[X|[]]]; congruence.
      + intros x. rewrite in_app_iff. cbn. rewrite V1. intuition discriminate.
    - destruct (aa_visit o) eqn:E; [discriminate|]. inversion H; subst. cbn.
      assert (filter is_visit its = []).
      { destruct (filter is_visit its) as [|x l] eqn:EF; [reflexivity|].
        assert (In x (filter is_visit its)) by (rewrite EF; now left). apply filter_In in H0.
        destruct H0 as [I X]. destruct x; try discriminate. apply V1 in I. discriminate. }
      rewrite H0. cbn. split; [lia|]. split; [lia|]. split; [lia|]. split; [|split].
      + rewrite in_app_iff, S1. cbn. intuition discriminate.
      + intros x. rewrite in_app_iff. cbn. rewrite B1. intuition discriminate.
      + intros x. rewrite in_app_iff. cbn. rewrite <- V1. split.
        * intros X. right. left. congruence.
        * intros [X|[X|[]]]; congruence.
Qed.

Lemma reports_add o its i o' : reports o its -> (add_item o i = Some o' <-> reports o' (its ++ [i])).
Proof.
  intros R. split; [now apply reports_add_fwd|].
  intros H. destruct (add_item o i) as [o2|] eqn:E.
  - f_equal. apply (@reports_det _ _ (its ++ [i])); [|exact H]. now apply (@reports_add_fwd o).
  - exfalso. pose proof R as (A & B & C & S1 & B1 & V1). destruct H as (A' & B' & C' & _). unfold at_most_one in *. rewrite filter_app_len in *.
    destruct i as [| |b|p]; cbn in E; try discriminate.
    + destruct (aa_skip o) eqn:E1; [|discriminate]. 
      pose proof (@in_filter_len is_skip its ISkip (proj1 S1 eq_refl) eq_refl). cbn in A'. lia.
    + destruct (aa_bound o) as [b0|] eqn:E1; [|discriminate].
      pose proof (@in_filter_len is_bound its _ (proj1 (B1 b0) eq_refl) eq_refl). cbn in B'. lia.
    + destruct (aa_visit o) as [b0|] eqn:E1; [|discriminate].
      pose proof (@in_filter_len is_visit its _ (proj1 (V1 b0) eq_refl) eq_refl). cbn in C'. lia.
Qed.

Lemma add_items_reports its : forall o0 its0 o, reports o0 its0 ->
  (add_items o0 its = Some o <-> reports o (its0 ++ its)).
Proof.
  induction its as [|i its IH] using rev_ind; intros o0 its0 o R.
  - cbn. rewrite app_nil_r. split; [intros H; inversion H; now subst|].
    intros R'. f_equal. now apply (@reports_det _ _ its0).
  - rewrite add_items_app. cbn. rewrite app_assoc. split.
    + destruct (add_items o0 its) as [o1|] eqn:E; cbn; [|discriminate].
      apply (proj1 (IH _ _ _ R)) in E. intros H.
      destruct (add_item o1 i) as [o2|] eqn:E2; [|discriminate]. cbn in H. inversion H; subst.
      now apply (@reports_add_fwd o1).
    + intros H. destruct (reports_prefix H) as [o1 R1].
      rewrite (proj2 (IH _ _ _ R) R1). cbn. rewrite (proj2 (@reports_add o1 _ i o R1) H). reflexivity.
Qed.

Lemma path_is_allocative p : path_is_ident p "allocative" = true <-> names_allocative p.
Proof.
  unfold path_is_ident, names_allocative. split.
  - destruct p as [[|] [|[kw s [a|]] [|x l]]]; try discriminate.
    intros E. apply String.eqb_eq in E. subst. now exists kw.
  - intros [kw ->]. reflexivity.
Qed.

Lemma extract_attrs_from_items l : forall o o',
  extract_attrs_from o l = Some o' <->
  exists itss, Forall2 attr_items l itss /\ add_items o (concat itss) = Some o'.
Proof.
  induction l as [|a l IH]; intros o o'.
  - cbn. split.
    + intros H. exists []. split; [constructor|exact H].
    + intros (itss & F & H). inversion F; subst. exact H.
  - cbn [extract_attrs_from]. destruct (path_is_ident (at_path a) "allocative") eqn:E.
    + pose proof (proj1 (path_is_allocative _) E) as NA.
      split.
      * destruct (at_meta a) as [| |ts] eqn:EM; try discriminate. intros H.
        destruct (parse_items (S (length ts)) o ts) as [o1|] eqn:EP; [|discriminate]. cbn in H.
        apply parse_items_inv in EP. destruct EP as (its & NE & F & ET & EA).
        apply IH in H. destruct H as (itss & F2 & EA2). exists (its :: itss). split.
        -- constructor; [|exact F2]. right. rewrite EM, ET. auto.
        -- cbn. rewrite add_items_app, EA. exact EA2.
      * intros (itss & F & H). inversion F as [|? its ? itss' AI F2]; subst.
        destruct AI as [[NN _]|(_ & NE & FO & EM)]; [contradiction|].
        rewrite EM. cbn in H. rewrite add_items_app in H.
        rewrite parse_items_show.
        -- destruct (add_items o its) as [o1|]; [|discriminate]. cbn in *. apply IH. eauto.
        -- exact NE.
        -- exact FO.
        -- pose proof (separated_length TComma (map show_item its)) as L. rewrite map_length in L. exact L.
    + assert (NN : ~ names_allocative (at_path a)).
      { intros NA. apply path_is_allocative in NA. congruence. }
      split.
      * intros H. apply IH in H. destruct H as (itss & F & H). exists ([] :: itss). split; [|exact H].
        constructor; [now left|exact F].
      * intros (itss & F & H). inversion F as [|? its ? itss' AI F2]; subst.
        destruct AI as [[_ ->]|(NA & _)]; [|contradiction]. apply IH. exists itss'. split; [exact F2|exact H].
Qed.

(** The attribute parser accepts exactly the grammar and reports exactly the items. *)
Lemma extract_attrs_say l o : extract_attrs l = Some o <-> attrs_say l o.
Proof.
  unfold extract_attrs. rewrite extract_attrs_from_items. unfold attrs_say. split.
  - intros (itss & F & H). exists itss. split; [exact F|]. now apply (proj1 (@add_items_reports _ _ [] _ reports_default)).
  - intros (itss & F & H). exists itss. split; [exact F|]. now apply (proj2 (@add_items_reports _ _ [] _ reports_default)).
Qed.

Lemma attrs_say_det l o o' : attrs_say l o -> attrs_say l o' -> o = o'.
Proof. rewrite <- !extract_attrs_say. congruence. Qed.
