(** * Properties of the proc macros (C26-C29, C42). *)
From Verif Require Import Base KeyModel HMap FlameModel BuilderModel VisitorModel LayoutModel ImplModel
  GlobalModel GlobalSpec GlobalFacts
  DeriveModel DeriveSpec BaseFacts KeyFacts ParseFacts DeriveFacts DeriveRunFacts DeriveProps.
From Coq Require Import Lia Permutation.

#[local] Arguments key_new : simpl never.
#[local] Arguments derive_key : simpl never.

(** ** C26: derived implementations visit every field once *)

(** The macro produces code for exactly the supported declarations (no union
    unless skipped, well-formed attributes wherever they are looked at). *)
Theorem C26_supported : forall lexes i,
  (exists c, derive_allocative_impl lexes i = Some c) <-> supported lexes i.
Proof. exact derive_some. Qed.
Print Assumptions C26_supported.

(** A struct: one scope with the type's name and size; in it, in declaration
    order, one scope per field that is not skipped, under the field's name or
    index, with the field's own visit or the custom function. *)
Theorem C26_struct : forall lexes i c fs o os consts j,
  derive_allocative_impl lexes i = Some c -> di_data i = DStruct fs ->
  attrs_say (di_attrs i) o -> aa_skip o = false ->
  field_attrs fs os -> distinct_fields fs -> hygienic consts fs os ->
  length (sj_fields j) = length (field_list fs) ->
  run_derived j (de_body c) = Some (struct_visit j fs os).
Proof.
  intros lexes i c fs o os consts j ED EI SA ES FA DF HY LF.
  destruct (derive_body ED SA) as (b & EB & -> & _). rewrite ES, EI in EB. cbn in EB.
  eapply struct_run; eassumption.
Qed.
Print Assumptions C26_struct.

(** An enum: the type's scope; inside, for a non-unit variant, the variant's
    scope of the same size; inside that the fields, unless the variant is
    skipped. *)
Theorem C26_enum : forall lexes i c vs v o a consts j,
  derive_allocative_impl lexes i = Some c -> di_data i = DEnum vs ->
  attrs_say (di_attrs i) o -> aa_skip o = false ->
  NoDup (map vd_name vs) -> In v vs -> sj_variant j = vd_name v ->
  variant_attrs v a -> distinct_fields (vd_fields v) -> hygienic_variant consts v a ->
  length (sj_fields j) = length (field_list (vd_fields v)) ->
  run_derived j (de_body c) = Some (variant_visit j v (aa_skip (fst a)) (snd a)).
Proof.
  intros lexes i c vs v o a consts j ED EI SA ES ND IV EV VA DF HY LF.
  destruct (derive_body ED SA) as (b & EB & -> & _). rewrite ES, EI in EB. cbn in EB.
  eapply enum_run; eassumption.
Qed.
Print Assumptions C26_enum.

(** A skipped type records its own size and nothing else. *)
Theorem C26_skip_type : forall lexes i c o j,
  derive_allocative_impl lexes i = Some c -> attrs_say (di_attrs i) o -> aa_skip o = true ->
  run_derived j (de_body c) = Some (scope (t_name (sj_type j)) (t_size (sj_type j)) VRet).
Proof.
  intros lexes i c o j ED SA ES. destruct (derive_body ED SA) as (b & EB & -> & _).
  rewrite ES in EB. inversion EB; subst. apply skipped_run.
Qed.
Print Assumptions C26_skip_type.

(** The visit of a field is neither duplicated nor dropped: the number of scopes
    is the number of fields that are not skipped. *)
Theorem C26_exactly_once : forall j fs os,
  length os = length (field_list fs) -> length (sj_fields j) = length (field_list fs) ->
  length (fields_scopes j 0 (labelled fs) os (sj_fields j)) = length (filter (fun o => negb (aa_skip o)) os).
Proof.
  intros j fs os LO LC.
  assert (LL : length (labelled fs) = length (field_list fs)).
  { rewrite <- triples_labelled, map_length. apply triples_length. }
  rewrite <- LL in LO, LC. clear LL. revert LO LC.
  generalize (labelled fs) as xs. generalize (sj_fields j) as cs. generalize 0%nat as k.
  intros k cs xs. revert k cs os. induction xs as [|x xs IH]; intros k [|c cs] [|o os] LO LC; cbn in *; try discriminate.
  - reflexivity.
  - rewrite app_length, (IH (S k) cs os) by lia. unfold field_scopes.
    destruct (aa_skip o); cbn; [reflexivity|]. destruct (aa_visit o); reflexivity.
Qed.
Print Assumptions C26_exactly_once.

(** The derived implementations are those of [ImplModel]: the properties proved
    there for structs and enums apply to derived types. *)
Theorem C26_is_impl_struct : forall j fs os, exists names cs,
  length names = length cs /\ struct_visit j fs os = impl_struct (sj_type j) names cs.
Proof.
  intros j fs os.
  assert (G : forall xs k os cs0, exists names cs, length names = length cs /\
            vseqs (fields_scopes j k xs os cs0) = fields names cs).
  { induction xs as [|x xs IH]; intros k os0 cs0.
    - exists [], []. split; reflexivity.
    - destruct os0 as [|o os0]; [exists [], []; split; reflexivity|].
      destruct cs0 as [|c cs0]; [exists [], []; split; reflexivity|].
      destruct (IH (S k) os0 cs0) as (names & cs & L & E). cbn [fields_scopes]. rewrite vseqs_app, E.
      unfold field_scopes. destruct (aa_skip o); [exists names, cs; split; [exact L|reflexivity]|].
      destruct (aa_visit o) as [v|].
      + exists (fst x :: names), ((sj_size j (fd_ty (snd x)), sj_custom j v k) :: cs). split; [cbn; lia|reflexivity].
      + exists (fst x :: names), (c :: cs). split; [cbn; lia|]. destruct c. reflexivity. }
  destruct (G (labelled fs) 0%nat os (sj_fields j)) as (names & cs & L & E).
  exists names, cs. split; [exact L|]. unfold struct_visit. rewrite E. reflexivity.
Qed.
Print Assumptions C26_is_impl_struct.

(** ** C27: the attribute grammar *)

(** Accepted iff of the form [item, ..., item] with each kind at most once over
    all attributes; the result reports exactly the items present. *)
Theorem C27_grammar : forall l o, extract_attrs l = Some o <-> attrs_say l o.
Proof. exact extract_attrs_say. Qed.
Print Assumptions C27_grammar.

(** Attributes of other macros are ignored, wherever they stand. *)
Theorem C27_others_ignored : forall l1 a l2, ~ names_allocative (at_path a) ->
  extract_attrs (l1 ++ a :: l2) = extract_attrs (l1 ++ l2).
Proof.
  intros l1 a l2 N. unfold extract_attrs. generalize aattrs_default.
  induction l1 as [|b l1 IH]; intros o; cbn [app extract_attrs_from].
  - destruct (path_is_ident (at_path a) "allocative") eqn:E; [|reflexivity].
    apply path_is_allocative in E. contradiction.
  - destruct (path_is_ident (at_path b) "allocative"); [|apply IH].
    destruct (at_meta b); try reflexivity.
    match goal with |- obind ?x _ = _ => destruct x end; [cbn; apply IH|reflexivity].
Qed.
Print Assumptions C27_others_ignored.

(** Splitting a list of items over several attributes makes no difference. *)
Theorem C27_split : forall its1 its2 kw kw',
  its1 <> [] -> its2 <> [] -> Forall item_ok its1 -> Forall item_ok its2 ->
  let attr_of k its := mkAttr (mkPath false [mkSeg k "allocative" None]) (MList (separated TComma (map show_item its))) in
  extract_attrs [attr_of kw its1; attr_of kw' its2] = extract_attrs [attr_of kw (its1 ++ its2)].
Proof.
  intros its1 its2 kw kw' N1 N2 F1 F2 attr_of.
  assert (N : forall k, names_allocative (mkPath false [mkSeg k "allocative" None])) by (intros k; now exists k).
  assert (A : forall o, attrs_say [attr_of kw its1; attr_of kw' its2] o <-> reports o (its1 ++ its2)).
  { intros o. split.
    - intros (itss & F & R).
      assert (E : extract_attrs [attr_of kw its1; attr_of kw' its2] = add_items aattrs_default (its1 ++ its2)).
      { unfold extract_attrs. cbn [extract_attrs_from attr_of at_path at_meta].
        change (path_is_ident (mkPath false [mkSeg kw "allocative" None]) "allocative") with true.
        change (path_is_ident (mkPath false [mkSeg kw' "allocative" None]) "allocative") with true. cbn iota.
        rewrite parse_items_show; [|assumption|assumption|
          pose proof (separated_length TComma (map show_item its1)) as L; rewrite map_length in L; exact L].
        rewrite add_items_app. destruct (add_items aattrs_default its1) as [o1|]; cbn [obind]; [|reflexivity].
        rewrite parse_items_show; [|assumption|assumption|
          pose proof (separated_length TComma (map show_item its2)) as L; rewrite map_length in L; exact L].
        destruct (add_items o1 its2); reflexivity. }
      apply (proj1 (@add_items_reports (its1 ++ its2) aattrs_default [] o reports_default)).
      rewrite <- E. apply extract_attrs_say. now exists itss.
    - intros R. exists [its1; its2]. split.
      + constructor; [right; cbn; auto|]. constructor; [right; cbn; auto|constructor].
      + cbn. now rewrite app_nil_r. }
  assert (B : forall o, attrs_say [attr_of kw (its1 ++ its2)] o <-> reports o (its1 ++ its2)).
  { intros o. rewrite <- extract_attrs_say. 
    assert (NN : its1 ++ its2 <> []) by (destruct its1; [now destruct N1|discriminate]).
    assert (FF : Forall item_ok (its1 ++ its2)) by (apply Forall_app; auto).
    assert (E : extract_attrs [attr_of kw (its1 ++ its2)] = add_items aattrs_default (its1 ++ its2)).
    { unfold extract_attrs. cbn [extract_attrs_from attr_of at_path at_meta].
      change (path_is_ident (mkPath false [mkSeg kw "allocative" None]) "allocative") with true. cbn iota.
      rewrite parse_items_show; [|assumption|assumption|
          pose proof (separated_length TComma (map show_item (its1 ++ its2))) as L; rewrite map_length in L; exact L].
      destruct (add_items aattrs_default (its1 ++ its2)); reflexivity. }
    rewrite E. apply (@add_items_reports (its1 ++ its2) aattrs_default [] o reports_default). }
  destruct (extract_attrs [attr_of kw its1; attr_of kw' its2]) as [o|] eqn:E1.
  - symmetry. apply extract_attrs_say, B, A, extract_attrs_say. exact E1.
  - destruct (extract_attrs [attr_of kw (its1 ++ its2)]) as [o|] eqn:E2; [|reflexivity].
    apply extract_attrs_say, B, A, extract_attrs_say in E2. congruence.
Qed.
Print Assumptions C27_split.

(** ** C28: names *)

(** For a struct, the generated code resolves as intended iff no field is called
    [visitor], no constant in scope is called like a field (or [f0], ...), and no
    custom function is a plain identifier equal to a local variable. *)
Theorem C28_struct_exact : forall lexes i c fs o os d,
  derive_allocative_impl lexes i = Some c -> di_data i = DStruct fs ->
  attrs_say (di_attrs i) o -> aa_skip o = false ->
  field_attrs fs os -> distinct_fields fs -> declared_types i d ->
  (resolves d (de_body c) = true <-> hygienic (dc_consts d) fs os).
Proof.
  intros lexes i c fs o os d ED EI SA ES FA DF DT.
  destruct (derive_body ED SA) as (b & EB & -> & _). rewrite ES, EI in EB. cbn in EB.
  unfold declared_types in DT. rewrite EI in DT. now apply struct_resolves.
Qed.
Print Assumptions C28_struct_exact.

(** For an enum the same must hold for every variant; the fields of a skipped
    variant still must not be called [visitor]. *)
Theorem C28_enum_exact : forall lexes i c vs o l d,
  derive_allocative_impl lexes i = Some c -> di_data i = DEnum vs ->
  attrs_say (di_attrs i) o -> aa_skip o = false ->
  Forall2 variant_attrs vs l -> (forall v, In v vs -> distinct_fields (vd_fields v)) -> declared_types i d ->
  (resolves d (de_body c) = true <-> Forall2 (hygienic_variant (dc_consts d)) vs l).
Proof.
  intros lexes i c vs o l d ED EI SA ES FA DF DT.
  destruct (derive_body ED SA) as (b & EB & -> & _). rewrite ES, EI in EB. cbn in EB.
  unfold declared_types in DT. rewrite EI in DT. now apply enum_resolves.
Qed.
Print Assumptions C28_enum_exact.

(** A skipped type has no conditions. *)
Theorem C28_skip_type : forall lexes i c o d,
  derive_allocative_impl lexes i = Some c -> attrs_say (di_attrs i) o -> aa_skip o = true ->
  resolves d (de_body c) = true.
Proof.
  intros lexes i c o d ED SA ES. destruct (derive_body ED SA) as (b & EB & -> & _).
  rewrite ES in EB. inversion EB; subst. reflexivity.
Qed.
Print Assumptions C28_skip_type.

(** Tuple structs never capture the macro's variable. *)
Theorem C28_tuple_visitor : forall l, ~ binds (FUnnamed l) "visitor".
Proof. intros l (n & _ & E). discriminate. Qed.
Print Assumptions C28_tuple_visitor.

(** Example declarations. *)
Definition no_attr : list attr := [].
Definition alloc_attr (its : list aitem) : attr :=
  mkAttr (mkPath false [mkSeg false "allocative" None]) (MList (separated TComma (map show_item its))).
Definition x_doc : attr := mkAttr (mkPath false [mkSeg false "doc" None]) MNameValue.
Definition x_fn : path := mkPath false [mkSeg false "visit_it" None].
Definition x_fields : list fdecl :=
  [mkField "a" [x_doc] "u32";
   mkField "b" [alloc_attr [ISkip]] "Unsupported";
   mkField "c" [alloc_attr [IVisit x_fn; INothing]] "Foreign";
   mkField "d" no_attr "String"].
Definition x_struct (fs : fields_decl) : derive_input := mkInput "S" [] None [] (DStruct fs).

Definition x_struct_ok : derive_input := x_struct (FNamed x_fields).
Definition x_opts : list aattrs :=
  [aattrs_default; mkAttrs true None None; mkAttrs false None (Some x_fn); aattrs_default].
Definition x_subject : subject :=
  mkSubject (ImplModel.mkT "S" 40 true) "" [(4, v_simple_sized "u32" 4); (8, VCrash); (2, VCrash); (24, v_simple_sized "String" 24)]
    (fun _ => 2) (fun _ _ => v_simple (key_new "custom") 2).

Lemma x_hygienic : hygienic (fun _ => false) (FNamed x_fields) x_opts.
Proof.
  split.
  - cbn. intuition discriminate.
  - reflexivity.
  - intros o f x I ES EV (kw & a & EF). cbn in I.
    destruct I as [<-|[<-|[<-|[<-|[]]]]]; cbn in *; try discriminate.
    inversion EV; subst. inversion H0; subst. split; [discriminate|]. intuition discriminate.
Qed.

Lemma x_field_attrs : field_attrs (FNamed x_fields) x_opts.
Proof. repeat constructor; apply extract_attrs_say; reflexivity. Qed.

Lemma x_distinct : distinct_fields (FNamed x_fields).
Proof. cbn. repeat constructor; cbn; intuition discriminate. Qed.

Example C26_struct_satisfiable :
  (exists c, derive_allocative_impl (fun _ => true) x_struct_ok = Some c /\
   run_derived x_subject (de_body c) = Some (struct_visit x_subject (FNamed x_fields) x_opts)) /\
  struct_visit x_subject (FNamed x_fields) x_opts =
    scope "S" 40 (vseqs [scope "a" 4 (v_simple_sized "u32" 4);
                         scope "c" 2 (v_simple (key_new "custom") 2);
                         scope "d" 24 (v_simple_sized "String" 24)]).
Proof.
  split; [|reflexivity].
  destruct (proj2 (derive_some (fun _ => true) x_struct_ok)) as [c E].
  { exists aattrs_default. split; [now apply extract_attrs_say|]. split; [reflexivity|].
    right. exists x_opts. exact x_field_attrs. }
  exists c. split; [exact E|]. eapply C26_struct; try exact E; try reflexivity.
  - now apply extract_attrs_say.
  - reflexivity.
  - exact x_field_attrs.
  - exact x_distinct.
  - exact x_hygienic.
Qed.

Definition x_variants : list vdecl :=
  [mkVariant "Unit" [] FUnit;
   mkVariant "Tuple" [] (FUnnamed [mkField "" [] "u32"; mkField "" [alloc_attr [ISkip]] "X"; mkField "" [] "u8"]);
   mkVariant "Hidden" [alloc_attr [ISkip]] (FNamed [mkField "a" [alloc_attr [ISkip; ISkip]] "X"])].
Definition x_enum : derive_input := mkInput "E" [] None [] (DEnum x_variants).
Definition x_subject_e (v : string) (cs : list sub) : subject :=
  mkSubject (ImplModel.mkT "E" 16 true) v cs (fun _ => 0) (fun _ _ => VRet).

(** (the broken attribute inside the skipped variant is never looked at) *)
Example C26_enum_satisfiable :
  match derive_allocative_impl (fun _ => true) x_enum with
  | Some c =>
      run_derived (x_subject_e "Unit" []) (de_body c) = Some (scope "E" 16 VRet) /\
      run_derived (x_subject_e "Tuple" [(4, VRet); (3, VCrash); (1, VRet)]) (de_body c) =
        Some (scope "E" 16 (scope "Tuple" 16 (vseqs [scope "0" 4 VRet; scope "2" 1 VRet]))) /\
      run_derived (x_subject_e "Hidden" [(4, VCrash)]) (de_body c) = Some (scope "E" 16 (scope "Hidden" 16 VRet))
  | None => False
  end.
Proof. vm_compute. repeat split. Qed.

Example C27_satisfiable :
  extract_attrs [x_doc; alloc_attr [INothing; ISkip; INothing]; alloc_attr [IBound "T: Foo"; IVisit (mkPath true [mkSeg true "crate" None; mkSeg false "f" (Some (true, "T"%string))])]]
    = Some (mkAttrs true (Some "T: Foo"%string) (Some (mkPath true [mkSeg true "crate" None; mkSeg false "f" (Some (true, "T"%string))])))
  /\ extract_attrs [alloc_attr [ISkip]; alloc_attr [IBound ""; ISkip]] = None
  /\ extract_attrs [mkAttr (at_path (alloc_attr [])) (MList [TId "skip_all"])] = None
  /\ extract_attrs [mkAttr (at_path (alloc_attr [])) MPath] = None.
Proof. vm_compute. repeat split. Qed.

(** Without the condition on names the property fails: a field called [visitor]
    (even a skipped one) captures the macro's variable. *)
Theorem C28_any_name_refuted : exists i c fs os d,
  derive_allocative_impl (fun _ => true) i = Some c /\ di_data i = DStruct fs /\ field_attrs fs os /\
  distinct_fields fs /\ declared_types i d /\ dc_consts d = (fun _ => false) /\ Forall (fun o => aa_visit o = None) os /\
  resolves d (de_body c) = false.
Proof.
  pose (fs := FNamed [mkField "visitor" [alloc_attr [ISkip]] "X"]).
  destruct (derive_allocative_impl (fun _ => true) (x_struct fs)) as [c|] eqn:E; [|vm_compute in E; discriminate].
  exists (x_struct fs), c, fs, [mkAttrs true None None], (mkDecls (fun _ => ["X"%string]) (fun _ => false)).
  split; [exact E|]. split; [reflexivity|]. split.
  { constructor; [|constructor]. now apply extract_attrs_say. }
  split. { cbn. repeat constructor. intros []. }
  split; [reflexivity|]. split; [reflexivity|]. split; [repeat constructor|].
  vm_compute in E. inversion E. vm_compute. reflexivity.
Qed.
Print Assumptions C28_any_name_refuted.

(** Likewise a custom function with the name of a field. *)
Theorem C28_custom_name_refuted : exists i c fs os d,
  derive_allocative_impl (fun _ => true) i = Some c /\ di_data i = DStruct fs /\ field_attrs fs os /\
  distinct_fields fs /\ declared_types i d /\ dc_consts d = (fun _ => false) /\ ~ binds fs "visitor" /\
  resolves d (de_body c) = false.
Proof.
  pose (f := mkPath false [mkSeg false "size" None]).
  pose (fs := FNamed [mkField "size" [] "usize"; mkField "data" [alloc_attr [IVisit f]] "X"]).
  destruct (derive_allocative_impl (fun _ => true) (x_struct fs)) as [c|] eqn:E; [|vm_compute in E; discriminate].
  exists (x_struct fs), c, fs, [aattrs_default; mkAttrs false None (Some f)],
    (mkDecls (fun _ => ["usize"; "X"]%string) (fun _ => false)).
  split; [exact E|]. split; [reflexivity|]. split.
  { repeat constructor; now apply extract_attrs_say. }
  split. { cbn. repeat constructor; cbn; intuition discriminate. }
  split; [reflexivity|]. split; [reflexivity|]. split; [cbn; intuition discriminate|].
  vm_compute in E. inversion E. vm_compute. reflexivity.
Qed.
Print Assumptions C28_custom_name_refuted.

Example C28_satisfiable :
  exists c, derive_allocative_impl (fun _ => true) x_struct_ok = Some c /\
  resolves (mkDecls (fun _ => map fd_ty x_fields) (fun _ => false)) (de_body c) = true.
Proof.
  destruct C26_struct_satisfiable as [(c & E & _) _]. exists c. split; [exact E|].
  eapply C28_struct_exact; try exact E; try reflexivity.
  - now apply extract_attrs_say.
  - reflexivity.
  - exact x_field_attrs.
  - exact x_distinct.
  - exact x_hygienic.
Qed.

(** ** C29: generics *)

(** Without a (non-empty) [bound], every parameter is repeated in order; type
    parameters lose their default and get the bound [Allocative] iff there is no
    [bound] attribute and the type is not skipped. *)
Theorem C29_params : forall lexes i c o,
  derive_allocative_impl lexes i = Some c -> attrs_say (di_attrs i) o ->
  (aa_bound o = None \/ aa_bound o = Some ""%string) ->
  exists l, header_params (de_header c) = Some l /\
  Forall2 (impl_param (match aa_bound o with None => negb (aa_skip o) | Some _ => false end)) (di_params i) l.
Proof.
  intros lexes i c o ED SA EB. destruct (derive_body ED SA) as (b & _ & _ & EG & _).
  unfold impl_generics in EG.
  set (add := match aa_bound o with None => negb (aa_skip o) | Some _ => false end) in *.
  set (g := fun p => match p with
                     | GType n bs _ => GType n (if add then bs ++ ["allocative::Allocative"%string] else bs) None
                     | GLifetime n bs => GLifetime n bs
                     | GConst n t d => GConst n t d
                     end) in *.
  assert (EG' : match map g (di_params i) with [] => Some HNone | l => Some (HParams l) end = Some (de_header c)).
  { destruct EB as [EB|EB]; rewrite EB in EG; exact EG. }
  exists (map g (di_params i)). split.
  - destruct (map g (di_params i)); inversion EG'; reflexivity.
  - clear. induction (di_params i) as [|p ps IH]; constructor; [|exact IH].
    destruct p as [n bs d|n bs|n t d]; cbn; [|constructor|constructor].
    replace (if add then bs ++ ["allocative::Allocative"%string] else bs)
      with (bs ++ (if add then ["allocative::Allocative"%string] else [])); [constructor|].
    destruct add; [reflexivity|apply app_nil_r].
Qed.
Print Assumptions C29_params.

(** A non-empty [bound] replaces the whole list; name and where clause are kept. *)
Theorem C29_bound : forall lexes i c o b,
  derive_allocative_impl lexes i = Some c -> attrs_say (di_attrs i) o -> aa_bound o = Some b -> b <> ""%string ->
  de_header c = HText b.
Proof.
  intros lexes i c o b ED SA EB NE. destruct (derive_body ED SA) as (b' & _ & _ & EG & _).
  unfold impl_generics in EG. rewrite EB in EG. destruct b as [|ch b]; [now destruct NE|].
  destruct (lexes (String ch b)); [|discriminate]. now inversion EG.
Qed.
Print Assumptions C29_bound.

Theorem C29_name_and_where : forall lexes i c, derive_allocative_impl lexes i = Some c ->
  de_name c = di_name i /\ de_where c = di_where i.
Proof.
  intros lexes i c ED. unfold derive_allocative_impl in ED.
  destruct (extract_attrs (di_attrs i)) as [o|] eqn:E; [|discriminate]. cbn [obind] in ED.
  destruct (impl_generics lexes (di_params i) o); [|discriminate]. cbn [obind] in ED.
  match type of ED with obind ?x _ = _ => destruct x; [|discriminate] end. cbn [obind] in ED.
  inversion ED. auto.
Qed.
Print Assumptions C29_name_and_where.

(** The header is legal Rust iff no const parameter has a default and no lifetime
    parameter is called like the lifetimes of the generated method. *)
Theorem C29_legal : forall lexes i c o l,
  derive_allocative_impl lexes i = Some c -> attrs_say (di_attrs i) o ->
  (aa_bound o = None \/ aa_bound o = Some ""%string) -> header_params (de_header c) = Some l ->
  (Forall param_legal l <-> forall p, In p (di_params i) -> ~ const_default p /\ ~ clashing_lifetime p).
Proof.
  intros lexes i c o l ED SA EB EH. destruct (C29_params ED SA EB) as (l' & EH' & F).
  rewrite EH in EH'. inversion EH'; subst l'. clear - F. revert F.
  generalize (match aa_bound o with None => negb (aa_skip o) | Some _ => false end) as add.
  intros add F. induction F as [|p q ps qs HP F IH].
  - split; [intros _ p []|constructor].
  - split.
    + intros H. inversion H as [|? ? H1 H2]; subst. intros x [<-|I].
      * inversion HP; subst; cbn in *; [tauto|tauto|]. subst. tauto.
      * now apply IH.
    + intros H. constructor.
      * destruct (H p (or_introl eq_refl)) as [A B].
        inversion HP; subst; cbn in *; [reflexivity|tauto|]. destruct d; [tauto|reflexivity].
      * apply IH. intros x I. apply H. now right.
Qed.
Print Assumptions C29_legal.

(** The claim "the generated header is always legal" is false. *)
Theorem C29_const_default_refuted : exists i c l,
  derive_allocative_impl (fun _ => true) i = Some c /\ di_attrs i = [] /\
  header_params (de_header c) = Some l /\ ~ Forall param_legal l.
Proof.
  pose (i := mkInput "Buf" [GType "T" [] (Some "u8"%string); GConst "N" "usize" (Some "16"%string)] None [] (DStruct FUnit)).
  destruct (derive_allocative_impl (fun _ => true) i) as [c|] eqn:E; [|vm_compute in E; discriminate].
  exists i, c, [GType "T" ["allocative::Allocative"%string] None; GConst "N" "usize" (Some "16"%string)].
  split; [exact E|]. vm_compute in E. inversion E. split; [reflexivity|]. split; [reflexivity|].
  intros H. inversion H as [|? ? _ H2]; subst. inversion H2 as [|? ? H3 _]; subst. discriminate H3.
Qed.
Print Assumptions C29_const_default_refuted.

Definition x_generic : derive_input :=
  mkInput "G" [GLifetime "'a" []; GType "T" ["Clone"%string] (Some "u8"%string); GConst "N" "usize" None]
    (Some "where T: Copy"%string) [] (DStruct (FUnnamed [])).

Example C29_satisfiable : exists c, derive_allocative_impl (fun _ => true) x_generic = Some c /\
  de_header c = HParams [GLifetime "'a" []; GType "T" ["Clone"; "allocative::Allocative"]%string None; GConst "N" "usize" None] /\
  (forall p, In p (di_params x_generic) -> ~ const_default p /\ ~ clashing_lifetime p).
Proof.
  destruct (derive_allocative_impl (fun _ => true) x_generic) as [c|] eqn:E; [|vm_compute in E; discriminate].
  exists c. split; [reflexivity|]. vm_compute in E. inversion E. split; [reflexivity|].
  intros p I. cbn in I. destruct I as [<-|[<-|[<-|[]]]]; cbn; intuition discriminate.
Qed.

(** ** C42: [#[allocative::root]] *)

Lemma ident_plain c : ident_char c = true <-> plain_char c.
Proof.
  assert (E : ident_char c = existsb (Ascii.eqb c) (list_ascii_of_string "abcdefghijklmnopqrstuvwxyzABCDEFGHIJKLMNOPQRSTUVWXYZ0123456789_") || (128 <=? N_of_ascii c)).
  { destruct c as [[|] [|] [|] [|] [|] [|] [|] [|]]; reflexivity. }
  rewrite E, orb_true_iff, N.leb_le, existsb_exists. unfold plain_char. split; (intros [H|H]; [left | now right]).
  - destruct H as (d & Hd & He). apply Ascii.eqb_eq in He. now subst d.
  - exists c. split; [exact H | apply Ascii.eqb_refl].
Qed.
Lemma chars_plain s : all_chars ident_char s = true <-> plain_name s.
Proof.
  unfold plain_name. induction s as [|d s IH]; cbn [all_chars list_ascii_of_string]; [split; [intros _ c [] | reflexivity]|].
  rewrite andb_true_iff, IH, ident_plain. split.
  - intros [H1 H2] c [<-|Hc]; auto.
  - intros H. split; [apply H; now left | intros c Hc; apply H; now right].
Qed.
Lemma chars_register s : all_chars ident_char ("_" ++ to_lowercase s ++ "_register_root") = all_chars ident_char s.
Proof.
  assert (A : forall a b, all_chars ident_char (a ++ b) = all_chars ident_char a && all_chars ident_char b).
  { induction a as [|c a IH]; intros b; cbn; [reflexivity|]. rewrite IH. now rewrite andb_assoc. }
  assert (L : all_chars ident_char (to_lowercase s) = all_chars ident_char s).
  { induction s as [|c s IH]; cbn; [reflexivity|]. rewrite IH. f_equal. destruct c as [[|] [|] [|] [|] [|] [|] [|] [|]]; reflexivity. }
  cbn [String.append all_chars]. change (ident_char "_") with true. cbn [andb].
  rewrite !A, L. change (all_chars ident_char "_register_root") with true. apply andb_true_r.
Qed.

(** The item is kept and one function that registers exactly it is added. *)
Theorem C42_registers : forall name tokens, plain_name name ->
  exists f, global_root_impl name tokens = Some [IStatic name tokens; ICtorRegister f name].
Proof.
  intros name tokens P. unfold global_root_impl, ident_new. rewrite chars_register, (proj2 (chars_plain name) P). eexists. reflexivity.
Qed.
Print Assumptions C42_registers.

(** For every other name, such as a raw identifier, the macro panics. *)
Theorem C42_panics : forall name tokens, ~ plain_name name -> global_root_impl name tokens = None.
Proof.
  intros name tokens P. unfold global_root_impl, ident_new. rewrite chars_register.
  destruct (all_chars ident_char name) eqn:E; [|reflexivity]. elim P. now apply chars_plain.
Qed.
Print Assumptions C42_panics.

Lemma lower_same a b : lower_char a = lower_char b <-> same_letter a b.
Proof.
  split.
  - unfold lower_char, same_letter. intros H.
    destruct ((65 <=? N_of_ascii a) && (N_of_ascii a <=? 90)) eqn:EA;
    destruct ((65 <=? N_of_ascii b) && (N_of_ascii b <=? 90)) eqn:EB;
      rewrite ?andb_true_iff, ?N.leb_le in *.
    + left. apply (f_equal N_of_ascii) in H. rewrite !N_ascii_embedding in H by lia.
      rewrite <- (ascii_N_embedding a), <- (ascii_N_embedding b). f_equal. lia.
    + right. exists (N_of_ascii a). split; [lia|]. left. split; [now rewrite ascii_N_embedding|congruence].
    + right. exists (N_of_ascii b). split; [lia|]. right. split; [now rewrite ascii_N_embedding|congruence].
    + now left.
  - intros [->|(n & L & [[-> ->]|[-> ->]])]; [reflexivity| |].
    + unfold lower_char. rewrite !N_ascii_embedding by lia.
      replace ((65 <=? n) && (n <=? 90)) with true by (symmetry; apply andb_true_iff; split; apply N.leb_le; lia).
      replace (n + 32 <=? 90) with false by (symmetry; apply N.leb_gt; lia). now rewrite andb_false_r.
    + unfold lower_char. rewrite !N_ascii_embedding by lia.
      replace ((65 <=? n) && (n <=? 90)) with true by (symmetry; apply andb_true_iff; split; apply N.leb_le; lia).
      replace (n + 32 <=? 90) with false by (symmetry; apply N.leb_gt; lia). now rewrite andb_false_r.
Qed.

Lemma lowercase_same a : forall b, to_lowercase a = to_lowercase b <-> same_ignoring_case a b.
Proof.
  induction a as [|x a IH]; intros [|y b]; cbn; try (split; [discriminate|tauto]); [tauto|].
  rewrite <- IH, <- lower_same. split; [intros H; inversion H; auto|]. intros [-> ->]. reflexivity.
Qed.

(** The registration functions of two statics have the same name iff the statics'
    names agree up to case. *)
Theorem C42_function_names : forall a b ta tb fa fb,
  global_root_impl a ta = Some [IStatic a ta; ICtorRegister fa a] ->
  global_root_impl b tb = Some [IStatic b tb; ICtorRegister fb b] ->
  (fa = fb <-> same_ignoring_case a b).
Proof.
  intros a b ta tb fa fb EA EB. unfold global_root_impl, ident_new in *.
  destruct (all_chars ident_char ("_" ++ to_lowercase a ++ "_register_root")); [|discriminate].
  destruct (all_chars ident_char ("_" ++ to_lowercase b ++ "_register_root")); [|discriminate].
  cbn [obind] in *. inversion EA; inversion EB; subst fa fb. rewrite <- lowercase_same.
  split; [|now intros ->]. intros H. inversion H as [H1]. clear - H1. revert H1.
  generalize (to_lowercase a) as x, (to_lowercase b) as y.
  assert (LA : forall s t, String.length (s ++ t) = (String.length s + String.length t)%nat).
  { induction s as [|c s IH]; intros t; cbn; [reflexivity|]. now rewrite IH. }
  assert (G : forall x y t, (x ++ t)%string = (y ++ t)%string -> x = y).
  { induction x as [|c x IH]; intros [|d y] t E; cbn in E.
    - reflexivity.
    - exfalso. apply (f_equal String.length) in E. cbn in E. rewrite LA in E. lia.
    - exfalso. apply (f_equal String.length) in E. cbn in E. rewrite LA in E. lia.
    - inversion E. f_equal. eapply IH; eassumption. }
  intros x y E. eapply G. exact E.
Qed.
Print Assumptions C42_function_names.

(** Whatever the order in which the registration functions run at start-up, the
    registry then holds exactly the annotated statics, each once. *)
Theorem C42_startup : forall (statics : list (string * string)) outs (addr : string -> groot) order,
  Forall2 (fun s o => global_root_impl (fst s) (snd s) = Some o) statics outs ->
  Permutation order (ctor_targets (concat outs)) ->
  exists w, fold_left (fun w x => do w' <- w; register_root w' (addr x)) order (Some (mkW [] false)) = Some w /\
  w_held w = false /\ Permutation (w_roots w) (map (fun s => addr (fst s)) statics).
Proof.
  intros statics outs addr order F P.
  assert (G : forall order l, fold_left (fun w x => do w' <- w; register_root w' (addr x)) order (Some (mkW l false))
     = Some (mkW (l ++ map addr order) false)).
  { clear. induction order as [|x order IH]; intros l; cbn [fold_left map]; [now rewrite app_nil_r|].
    rewrite (@register_free (mkW l false) (addr x) eq_refl : (do w' <- Some (mkW l false); register_root w' (addr x)) = _).
    rewrite IH. cbn [w_roots]. now rewrite <- app_assoc. }
  exists (mkW (map addr order) false). rewrite G. split; [reflexivity|]. split; [reflexivity|]. cbn [w_roots].
  transitivity (map addr (ctor_targets (concat outs))); [now apply Permutation_map|].
  assert (E : map addr (ctor_targets (concat outs)) = map (fun s => addr (fst s)) statics).
  { clear - F. induction F as [|s o ss os E F IH]; [reflexivity|]. cbn [concat map].
    unfold ctor_targets in *. rewrite flat_map_app, map_app, IH.
    unfold global_root_impl in E. destruct (ident_new _); [|discriminate]. cbn in E. inversion E; subst. reflexivity. }
  now rewrite E.
Qed.
Print Assumptions C42_startup.

(** Two statics whose names differ only in case: both items are accepted by the
    macro, but the same function is defined twice. *)
Theorem C42_distinct_names_refuted : exists a b oa ob,
  a <> b /\ plain_name a /\ plain_name b /\
  global_root_impl a "" = Some oa /\ global_root_impl b "" = Some ob /\
  ~ NoDup (defined_names (oa ++ ob)).
Proof.
  exists "CACHE"%string, "Cache"%string.
  eexists _, _. split; [discriminate|]. split; [now apply chars_plain|]. split; [now apply chars_plain|].
  split; [reflexivity|]. split; [reflexivity|]. vm_compute. intros H.
  inversion H as [|? ? _ H1]; subst. inversion H1 as [|? ? N _]; subst. apply N. cbn. auto.
Qed.
Print Assumptions C42_distinct_names_refuted.

(** A static with a raw identifier: the macro panics. *)
Theorem C42_raw_identifier_refuted : ~ plain_name "r#type" /\ global_root_impl "r#type" "" = None.
Proof. split; [rewrite <- chars_plain; discriminate | reflexivity]. Qed.
Print Assumptions C42_raw_identifier_refuted.

Example C42_satisfiable :
  plain_name "TEST_GLOBAL_ROOT" /\
  global_root_impl "TEST_GLOBAL_ROOT" "static .." =
    Some [IStatic "TEST_GLOBAL_ROOT" "static .."; ICtorRegister "_test_global_root_register_root" "TEST_GLOBAL_ROOT"] /\
  ~ same_ignoring_case "A" "B".
Proof.
  split; [now apply chars_plain|]. split; [reflexivity|]. rewrite <- lowercase_same. discriminate.
Qed.
