(** * Derived implementations: whole declarations. *)
From Verif Require Import Base KeyModel HMap FlameModel BuilderModel VisitorModel LayoutModel ImplModel
  DeriveModel DeriveSpec BaseFacts KeyFacts ParseFacts DeriveFacts DeriveRunFacts.
From Coq Require Import Lia.

#[local] Arguments key_new : simpl never.
#[local] Arguments derive_key : simpl never.

Lemma omap_forall2 {A B} (f : A -> option B) l bs : omap f l = Some bs <-> Forall2 (fun a b => f a = Some b) l bs.
Proof.
  revert bs. induction l as [|a l IH]; intros bs; cbn.
  - split; [intros H; inversion H; constructor|]. intros H; inversion H; reflexivity.
  - split.
    + destruct (f a) as [b|] eqn:E; [|discriminate]. cbn. destruct (omap f l) as [bs'|] eqn:E2; [|discriminate].
      cbn. intros H. inversion H; subst. constructor; [exact E|]. now apply IH.
    + intros H. inversion H as [|? b ? bs' E F]; subst. rewrite E. cbn. now rewrite (proj2 (IH bs') F).
Qed.

Lemma omap_some {A B} (f : A -> option B) l : (exists bs, omap f l = Some bs) <-> forall a, In a l -> exists b, f a = Some b.
Proof.
  induction l as [|a l IH]; cbn.
  - split; [intros _ a []|]. intros _. now exists [].
  - split.
    + intros [bs H]. destruct (f a) as [b|] eqn:E; [|discriminate]. cbn in H.
      destruct (omap f l) as [bs'|] eqn:E2; [|discriminate].
      intros x [<-|I]; [eauto|]. apply IH; eauto.
    + intros H. destruct (H a (or_introl eq_refl)) as [b E]. rewrite E. cbn.
      destruct (proj2 IH) as [bs E2]; [intros; apply H; now right|]. rewrite E2. cbn. eauto.
Qed.

Lemma forall2_exists {A B} (P : A -> B -> Prop) l : (exists bs, Forall2 P l bs) <-> forall a, In a l -> exists b, P a b.
Proof.
  induction l as [|a l IH].
  - split; [intros _ a []|]. intros _. exists []. constructor.
  - split.
    + intros [bs F]. inversion F; subst. intros x [<-|I]; [eauto|]. apply IH; eauto.
    + intros H. destruct (H a (or_introl eq_refl)) as [b Pb]. destruct (proj2 IH) as [bs F].
      * intros; apply H; now right.
      * exists (b :: bs). now constructor.
Qed.

Lemma gen_one_some y : (exists s, gen_one y = Some s) <-> exists o, attrs_say (fd_attrs (snd y)) o.
Proof.
  unfold gen_one, gen_visit_field. split.
  - intros [s H]. destruct (extract_attrs (fd_attrs (snd y))) as [o|] eqn:E; [|discriminate].
    exists o. now apply extract_attrs_say.
  - intros [o H]. apply extract_attrs_say in H. rewrite H. cbn. destruct (aa_skip o); [eauto|].
    destruct (aa_visit o); eauto.
Qed.

Lemma gen_fields_some fs : (exists b, gen_visit_fields false fs = Some b) <-> exists os, field_attrs fs os.
Proof.
  rewrite gen_visit_fields_triples. unfold field_attrs. rewrite forall2_exists, <- triples_fields.
  change (fun y => if false then Some [] else gen_visit_field (fst (fst y)) (snd (fst y)) (snd y)) with gen_one.
  split.
  - intros [b H]. match type of H with obind ?o _ = _ => destruct o as [ss|] eqn:E end; [|discriminate].
    assert (X : forall y, In y (triples fs) -> exists s, gen_one y = Some s) by (apply omap_some; eauto).
    intros f I. apply in_map_iff in I. destruct I as (y & <- & I). apply gen_one_some. now apply X.
  - intros H. assert (X : exists ss, omap gen_one (triples fs) = Some ss).
    { apply omap_some. intros y I. apply gen_one_some. apply H. now apply in_map. }
    destruct X as [ss E]. unfold gen_one in E. rewrite E. cbn. eauto.
Qed.

Lemma gen_fields_skip fs : exists b, gen_visit_fields true fs = Some b.
Proof. rewrite gen_visit_fields_triples, omap_nil. cbn. eauto. Qed.

Lemma gen_struct_some fs : (exists b, gen_visit_struct fs = Some b) <-> exists os, field_attrs fs os.
Proof.
  rewrite <- gen_fields_some. unfold gen_visit_struct. destruct fs as [l|l|].
  - split; intros [b H].
    + destruct (gen_visit_fields false (FNamed l)) as [x|] eqn:E; [eauto|discriminate].
    + rewrite H. cbn [obind]. eauto.
  - split; intros [b H].
    + destruct (gen_visit_fields false (FUnnamed l)) as [x|] eqn:E; [eauto|discriminate].
    + rewrite H. cbn [obind]. eauto.
  - cbn. tauto.
Qed.

Lemma gen_variant_some v : (exists a, gen_visit_enum_variant v = Some a) <-> exists a, variant_attrs v a.
Proof.
  unfold gen_visit_enum_variant, variant_attrs. split.
  - intros [a H]. destruct (extract_attrs (vd_attrs v)) as [o|] eqn:E; [|discriminate]. cbn [obind] in H.
    destruct (aa_skip o) eqn:ES.
    + exists (o, []). cbn. split; [now apply extract_attrs_say|]. congruence.
    + assert (X : exists os, field_attrs (vd_fields v) os).
      { apply gen_fields_some. destruct (vd_fields v).
        - destruct (gen_visit_fields false (FNamed l)) eqn:EG; [eauto|discriminate].
        - destruct (gen_visit_fields false (FUnnamed l)) eqn:EG; [eauto|discriminate].
        - cbn. eauto. }
      destruct X as [os F]. exists (o, os). cbn. split; [now apply extract_attrs_say|auto].
  - intros [[o os] [H F]]. cbn [fst snd] in *. apply extract_attrs_say in H. rewrite H. cbn [obind].
    assert (X : exists b, gen_visit_fields (aa_skip o) (vd_fields v) = Some b).
    { destruct (aa_skip o); [apply gen_fields_skip|]. apply gen_fields_some. eauto. }
    destruct X as [b E]. destruct (vd_fields v); [| |eauto]; rewrite E; cbn [obind]; eauto.
Qed.

Lemma gen_enum_arms vs b : gen_visit_enum vs = Some b ->
  exists arms, Forall2 (fun v a => gen_visit_enum_variant v = Some a) vs arms /\
  b = match arms with [] => [] | _ => [Match arms] end.
Proof.
  unfold gen_visit_enum. destruct (omap gen_visit_enum_variant vs) as [arms|] eqn:E; [|discriminate]. cbn.
  intros H. exists arms. split; [now apply omap_forall2|]. destruct arms; now inversion H.
Qed.

Lemma gen_enum_some vs : (exists b, gen_visit_enum vs = Some b) <-> exists l, Forall2 variant_attrs vs l.
Proof.
  rewrite forall2_exists. split.
  - intros [b H]. destruct (gen_enum_arms H) as (arms & F & _).
    assert (X : exists arms, omap gen_visit_enum_variant vs = Some arms) by (exists arms; now apply omap_forall2).
    pose proof (proj1 (omap_some _ _) X) as Y. intros v I. apply gen_variant_some. now apply Y.
  - intros H. assert (X : exists arms, omap gen_visit_enum_variant vs = Some arms).
    { apply omap_some. intros v I. apply gen_variant_some. now apply H. }
    destruct X as [arms E]. unfold gen_visit_enum. rewrite E. cbn. destruct arms; eauto.
Qed.

Lemma impl_generics_some lexes ps o :
  (exists h, impl_generics lexes ps o = Some h) <->
  (forall b, aa_bound o = Some b -> b <> ""%string -> lexes b = true).
Proof.
  unfold impl_generics. destruct (aa_bound o) as [[|c b]|].
  - split; [congruence|]. intros _. match goal with |- context [match ?l with [] => _ | _ => _ end] => destruct l end; eauto.
  - destruct (lexes (String c b)) eqn:E.
    + split; [|eauto]. intros _ b' H. inversion H; subst. auto.
    + split; [intros [h H]; discriminate|]. intros H. rewrite (H _ eq_refl) in E; [discriminate|discriminate].
  - split; [congruence|]. intros _. match goal with |- context [match ?l with [] => _ | _ => _ end] => destruct l end; eauto.
Qed.

Lemma derive_some lexes i : (exists c, derive_allocative_impl lexes i = Some c) <-> supported lexes i.
Proof.
  unfold derive_allocative_impl, supported. split.
  - intros [c H]. destruct (extract_attrs (di_attrs i)) as [o|] eqn:EA; [|discriminate]. cbn [obind] in H.
    exists o. split; [now apply extract_attrs_say|].
    destruct (impl_generics lexes (di_params i) o) as [h|] eqn:EG; [|discriminate]. cbn [obind] in H.
    split; [apply (impl_generics_some lexes (di_params i)); eauto|].
    destruct (aa_skip o); [now left|]. right.
    destruct (gen_visit_body (di_data i)) as [b|] eqn:EB; [|discriminate]. unfold gen_visit_body in EB.
    destruct (di_data i) as [fs|vs|]; [|apply gen_enum_some; eauto|discriminate].
    apply gen_struct_some; eauto.
  - intros (o & SA & SB & SC). apply extract_attrs_say in SA. rewrite SA. cbn [obind].
    destruct (proj2 (impl_generics_some lexes (di_params i) o) SB) as [h ->]. cbn [obind].
    destruct (aa_skip o); [cbn; eauto|]. destruct SC as [SC|SC]; [discriminate|].
    unfold gen_visit_body. destruct (di_data i) as [fs|vs|]; [| |contradiction].
    + apply gen_struct_some in SC. destruct SC as [b ->]. cbn. eauto.
    + apply gen_enum_some in SC. destruct SC as [b ->]. cbn. eauto.
Qed.

Lemma derive_body lexes i c o : derive_allocative_impl lexes i = Some c -> attrs_say (di_attrs i) o ->
  exists b, (if aa_skip o then Some [] else gen_visit_body (di_data i)) = Some b /\
  de_body c = LetEnterSelf :: b ++ [Exit] /\ impl_generics lexes (di_params i) o = Some (de_header c) /\
  de_where c = di_where i /\ de_name c = di_name i.
Proof.
  unfold derive_allocative_impl. intros H SA. apply extract_attrs_say in SA. rewrite SA in H. cbn [obind] in H.
  destruct (impl_generics lexes (di_params i) o) as [h|] eqn:EG; [|discriminate]. cbn [obind] in H.
  destruct (if aa_skip o then Some [] else gen_visit_body (di_data i)) as [b|]; [|discriminate].
  cbn [obind] in H. inversion H; subst. exists b. cbn. auto.
Qed.

Lemma skipped_run j : run_derived j (LetEnterSelf :: [] ++ [Exit])
  = Some (scope (t_name (sj_type j)) (t_size (sj_type j)) VRet).
Proof. reflexivity. Qed.

Lemma find_arm_in vs : forall arms v a,
  NoDup (map vd_name vs) -> Forall2 (fun v a => gen_visit_enum_variant v = Some a) vs arms -> In v vs ->
  gen_visit_enum_variant v = Some a -> find_arm (vd_name v) arms = Some (snd (fst a), snd a).
Proof.
  assert (NM : forall v a, gen_visit_enum_variant v = Some a -> fst (fst a) = vd_name v).
  { intros v a E. unfold gen_visit_enum_variant in E. destruct (extract_attrs (vd_attrs v)); [|discriminate].
    cbn [obind] in E. destruct (vd_fields v); [| |inversion E; reflexivity];
    (match type of E with obind ?o _ = _ => destruct o; [|discriminate] end); cbn in E; inversion E; reflexivity. }
  induction vs as [|v0 vs IH]; intros arms v a ND F I E; [destruct I|].
  inversion F as [|? a0 ? arms' E0 F']; subst. destruct a0 as [[n0 names0] body0].
  pose proof (NM _ _ E0) as N0. cbn in N0. subst n0. cbn [find_arm].
  inversion ND as [|? ? NI ND']; subst.
  destruct I as [->|I].
  - rewrite String.eqb_refl. rewrite E in E0. inversion E0; subst. reflexivity.
  - destruct (String.eqb_spec (vd_name v0) (vd_name v)) as [EQ|NE].
    + destruct NI. rewrite EQ. now apply in_map.
    + now apply IH.
Qed.

Lemma enum_run j vs b v a consts :
  gen_visit_enum vs = Some b -> NoDup (map vd_name vs) -> In v vs -> sj_variant j = vd_name v ->
  variant_attrs v a -> distinct_fields (vd_fields v) -> hygienic_variant consts v a ->
  length (sj_fields j) = length (field_list (vd_fields v)) ->
  run_derived j (LetEnterSelf :: b ++ [Exit]) = Some (variant_visit j v (aa_skip (fst a)) (snd a)).
Proof.
  intros EB ND I EV [VA VF] DF HY LF.
  destruct (gen_enum_arms EB) as (arms & F & ->).
  destruct (proj2 (gen_variant_some v)) as [arm EG]. { exists a. now split. }
  pose proof (@find_arm_in vs arms v arm ND F I EG) as EF.
  destruct arms as [|a0 arms0]; [cbn in EF; discriminate|].
  remember (a0 :: arms0) as arms eqn:EAR. clear EAR a0 arms0.
  unfold run_derived. cbn [app exec_list].
  set (env0 := [("visitor"%string, LVisitor 1); ("visitor"%string, LVisitor 0)]).
  assert (E0 : exec j LetEnterSelf (mkR [("visitor"%string, LVisitor 0)] [] VRet) =
    Some (mkR env0 [(key_for_type_name (t_name (sj_type j)), t_size (sj_type j), VRet)] VRet)) by reflexivity.
  rewrite E0. clear E0. cbn [obind exec_list].
  rewrite exec_match, EV, EF. cbn [rs_env rs_open rs_done].
  assert (OV : only_visitor env0) by (repeat constructor).
  assert (NM : fst (fst arm) = vd_name v).
  { apply extract_attrs_say in VA. destruct (gen_variant_cases VA EG) as [[_ ->]|(_ & ss & _ & ->)]; reflexivity. }
  destruct arm as [[nm names] body]. cbn in NM. subst nm. cbn [fst snd].
  apply extract_attrs_say in VA.
  destruct (@variant_run j v names body (fst a) (snd a) env0 (key_for_type_name (t_name (sj_type j)))
    (t_size (sj_type j)) VRet consts VA EG VF DF HY LF OV eq_refl) as (r' & ER & EL).
  rewrite ER. cbn [obind]. rewrite EL. rewrite r_emit_open. cbn [vseq].
  cbn [exec rs_env rs_open length]. change (visitor_ok env0 1) with true. cbn [obind]. rewrite r_close_open.
  unfold variant_visit, scope. reflexivity.
Qed.

Lemma enum_resolves d vs b l :
  gen_visit_enum vs = Some b -> Forall2 variant_attrs vs l ->
  (forall v, In v vs -> distinct_fields (vd_fields v)) ->
  (forall v, In v vs -> dc_types d (vd_name v) = map fd_ty (field_list (vd_fields v))) ->
  (resolves d (LetEnterSelf :: b ++ [Exit]) = true <-> Forall2 (hygienic_variant (dc_consts d)) vs l).
Proof.
  intros EB FA DF DT. destruct (gen_enum_arms EB) as (arms & F & ->).
  set (env0 := [("visitor"%string, LVisitor 1); ("visitor"%string, LVisitor 0)]).
  assert (OV : only_visitor env0) by (repeat constructor).
  assert (G : forall vs arms l, Forall2 (fun v a => gen_visit_enum_variant v = Some a) vs arms -> Forall2 variant_attrs vs l ->
     (forall v, In v vs -> distinct_fields (vd_fields v)) ->
     (forall v, In v vs -> dc_types d (vd_name v) = map fd_ty (field_list (vd_fields v))) ->
     (forall a, In a arms -> check_arm d env0 1 a = None \/ check_arm d env0 1 a = Some 1%nat) /\
     ((forall a, In a arms -> check_arm d env0 1 a = Some 1%nat) <-> Forall2 (hygienic_variant (dc_consts d)) vs l)).
  { clear. intros vs. induction vs as [|v vs IH]; intros arms l F FA DF DT.
    - inversion F; inversion FA; subst. split; [intros a []|]. split; [constructor|intros _ a []].
    - inversion F as [|? arm ? arms' EG F']; inversion FA as [|? a ? l' [VA VF] FA']; subst.
      destruct (IH arms' l' F' FA') as [IH1 IH2].
      { intros; apply DF; now right. } { intros; apply DT; now right. }
      apply extract_attrs_say in VA.
      assert (OV : only_visitor env0) by (repeat constructor).
      destruct (@variant_arm d v arm (fst a) (snd a) env0 VA EG VF (DF v (or_introl eq_refl)) (DT v (or_introl eq_refl)) OV eq_refl) as [A1 A2].
      split.
      + intros x [<-|I]; [exact A1|now apply IH1].
      + split.
        * intros H. constructor; [apply A2, H; now left|]. apply IH2. intros x I. apply H. now right.
        * intros H. inversion H as [|? ? ? ? H1 H2]; subst. intros x [<-|I]; [now apply A2|].
          revert x I. apply IH2. exact H2. }
  destruct (G vs arms l F FA DF DT) as [G1 G2]. clear G.
  rewrite <- G2. destruct arms as [|a0 arms0].
  { cbn. split; [intros _ a []|reflexivity]. }
  remember (a0 :: arms0) as arms eqn:EAR. clear EAR a0 arms0.
  unfold resolves. cbn [app check_list].
  assert (E0 : check d (dc_types d "") LetEnterSelf ([("visitor"%string, LVisitor 0)], 0%nat) = Some (env0, 1%nat))
    by reflexivity.
  rewrite E0. clear E0. cbn [obind].
  destruct (@check_match d (dc_types d "") env0 1%nat arms G1) as [[E H]|[E (x & I & H)]].
  - rewrite E. cbn. split; auto.
  - rewrite E. cbn. split; [discriminate|].
    intros X. specialize (X x I). congruence.
Qed.
