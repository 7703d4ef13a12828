(** * Meaning of the code generated by the derive macro. *)
From Verif Require Import Base KeyModel HMap FlameModel BuilderModel VisitorModel LayoutModel ImplModel
  DeriveModel DeriveSpec BaseFacts KeyFacts ParseFacts DeriveFacts.
From Coq Require Import Lia.

#[local] Arguments key_new : simpl never.
#[local] Arguments derive_key : simpl never.

(** ** Sequencing *)

Lemma vseq_ret p : vseq p VRet = p.
Proof. induction p; cbn; congruence. Qed.

Lemma vseq_assoc p q r : vseq (vseq p q) r = vseq p (vseq q r).
Proof. induction p; cbn; congruence. Qed.

Lemma vseqs_app l1 l2 : vseqs (l1 ++ l2) = vseq (vseqs l1) (vseqs l2).
Proof. induction l1 as [|p l1 IH]; cbn; [reflexivity|]. now rewrite IH, vseq_assoc. Qed.

Lemma r_emit_ret r : r_emit VRet r = r.
Proof.
  destruct r as [env [|[[k s] q] o] d]; cbn; now rewrite ?vseq_ret.
Qed.

Lemma r_emit_emit p q r : r_emit q (r_emit p r) = r_emit (vseq p q) r.
Proof. destruct r as [env [|[[k s] x] o] d]; cbn; now rewrite vseq_assoc. Qed.

Lemma r_emit_env p r : rs_env (r_emit p r) = rs_env r.
Proof. destruct r as [env [|[[k s] x] o] d]; reflexivity. Qed.

Lemma r_emit_len p r : length (rs_open (r_emit p r)) = length (rs_open r).
Proof. destruct r as [env [|[[k s] x] o] d]; reflexivity. Qed.

Lemma r_emit_open p k s q env o d :
  r_emit p (mkR env ((k, s, q) :: o) d) = mkR env ((k, s, vseq q p) :: o) d.
Proof. reflexivity. Qed.

Lemma r_close_open k s q env o d :
  r_close (mkR env ((k, s, q) :: o) d) = r_emit (VInline k s q VRet) (mkR env o d).
Proof. reflexivity. Qed.

Lemma exec_list_app j l1 : forall l2 r, exec_list j (l1 ++ l2) r = do r' <- exec_list j l1 r; exec_list j l2 r'.
Proof.
  induction l1 as [|s l1 IH]; intros l2 r; cbn; [reflexivity|].
  destruct (exec j s r); cbn; [apply IH|reflexivity].
Qed.

Lemma check_list_app d ty l1 : forall l2 st,
  check_list d ty (l1 ++ l2) st = do st' <- check_list d ty l1 st; check_list d ty l2 st'.
Proof.
  induction l1 as [|s l1 IH]; intros l2 st; cbn [app check_list]; [reflexivity|].
  destruct (check d ty s st); cbn [obind]; [apply IH|reflexivity].
Qed.

Lemma exec_block j l r : exec j (Block l) r = do r' <- exec_list j l r; Some (r_leave r r').
Proof.
  cbn [exec].
  assert (E : forall l r, (fix go (l : list stmt) (r : rstate) :=
                  match l with
                  | [] => Some r
                  | s :: l' => do r' <- exec j s r; go l' r'
                  end) l r = exec_list j l r).
  { clear. induction l as [|s l IH]; intros r; cbn [exec_list]; [reflexivity|].
    destruct (exec j s r); cbn [obind]; [apply IH|reflexivity]. }
  now rewrite E.
Qed.

Lemma check_block d ty l env depth :
  check d ty (Block l) (env, depth) =
  do st' <- check_list d ty l (env, depth); Some (env, Nat.min depth (snd st')).
Proof.
  cbn [check].
  assert (E : forall l st, (fix go (l : list stmt) (st : list (string * local) * nat) :=
                  match l with
                  | [] => Some st
                  | s :: l' => do st' <- check d ty s st; go l' st'
                  end) l st = check_list d ty l st).
  { clear. induction l as [|s l IH]; intros r; cbn [check_list]; [reflexivity|].
    destruct (check d ty s r); cbn [obind]; [apply IH|reflexivity]. }
  now rewrite E.
Qed.

Fixpoint find_arm (v : string) (arms : list (string * list string * list stmt)) :=
  match arms with
  | [] => None
  | (v', names, body) :: arms' => if String.eqb v' v then Some (names, body) else find_arm v arms'
  end.

Lemma exec_match j arms r :
  exec j (Match arms) r =
  match find_arm (sj_variant j) arms with
  | None => None
  | Some (names, body) =>
      do r' <- exec_list j body (mkR (bind_fields names ++ rs_env r) (rs_open r) (rs_done r));
      Some (r_leave r r')
  end.
Proof.
  cbn [exec].
  assert (E : forall l r, (fix go (l : list stmt) (r : rstate) :=
                  match l with
                  | [] => Some r
                  | s :: l' => do r' <- exec j s r; go l' r'
                  end) l r = exec_list j l r).
  { clear. induction l as [|s l IH]; intros r; cbn [exec_list]; [reflexivity|].
    destruct (exec j s r); cbn [obind]; [apply IH|reflexivity]. }
  induction arms as [|[[v names] body] arms IH]; cbn [find_arm]; [reflexivity|].
  destruct (String.eqb v (sj_variant j)); [now rewrite E|exact IH].
Qed.

(** One arm. *)
Definition check_arm (d : decls) (env : list (string * local)) (depth : nat)
  (arm : string * list string * list stmt) : option nat :=
  let '(v, names, body) := arm in
  if bad_pattern d names then None
  else do st' <- check_list d (dc_types d v) body (bind_fields names ++ env, depth); Some (snd st').

Lemma check_match d ty env depth arms :
  (forall a, In a arms -> check_arm d env depth a = None \/ check_arm d env depth a = Some depth) ->
  (check d ty (Match arms) (env, depth) = Some (env, depth) /\
   forall a, In a arms -> check_arm d env depth a = Some depth)
  \/ (check d ty (Match arms) (env, depth) = None /\
      exists a, In a arms /\ check_arm d env depth a = None).
Proof.
  cbn [check].
  assert (E : forall v l st, (fix go (l : list stmt) (st : list (string * local) * nat) :=
                  match l with
                  | [] => Some st
                  | s :: l' => do st' <- check d (dc_types d v) s st; go l' st'
                  end) l st = check_list d (dc_types d v) l st).
  { clear. induction l as [|s l IH]; intros r; cbn [check_list]; [reflexivity|].
    destruct (check d _ s r); cbn [obind]; [apply IH|reflexivity]. }
  induction arms as [|[[v names] body] arms IH]; intros H.
  - left. split; [reflexivity|intros a []].
  - pose proof (H (v, names, body) (or_introl eq_refl)) as HA. unfold check_arm in HA at 1 2.
    destruct (bad_pattern d names) eqn:EC.
    + right. split; [reflexivity|]. exists (v, names, body). split; [now left|]. cbn. now rewrite EC.
    + rewrite E. destruct (check_list d (dc_types d v) body (bind_fields names ++ env, depth)) as [st'|] eqn:ECL.
      * cbn [obind] in *. destruct HA as [HA|HA]; [discriminate|]. inversion HA as [HS].
        rewrite HS, Nat.min_id.
        destruct IH as [[IH1 IH2]|[IH1 [a [IA IN]]]].
        -- intros a I. apply H. now right.
        -- left. split; [exact IH1|]. intros a [<-|I]; [|now apply IH2].
           cbn. rewrite EC, ECL. cbn. now rewrite HS.
        -- right. split; [exact IH1|]. exists a. split; [now right|exact IN].
      * right. split; [reflexivity|]. exists (v, names, body). split; [now left|]. cbn. now rewrite EC, ECL.
Qed.

(** ** Locals *)

Lemma lookup_app {A} (e1 e2 : list (string * A)) x :
  lookup (e1 ++ e2) x = match lookup e1 x with Some a => Some a | None => lookup e2 x end.
Proof.
  induction e1 as [|[y a] e1 IH]; cbn; [reflexivity|]. destruct (String.eqb x y); [reflexivity|exact IH].
Qed.

Lemma lookup_combine_none {A} names (l : list A) x : ~ In x names -> lookup (combine names l) x = None.
Proof.
  revert l. induction names as [|y names IH]; intros [|a l] H; cbn; try reflexivity.
  destruct (String.eqb_spec x y) as [->|N]; [destruct H; now left|]. apply IH. intros I; apply H; now right.
Qed.

Lemma lookup_combine_in {A} names (l : list A) x :
  In x names -> length l = length names -> exists a, lookup (combine names l) x = Some a /\ In a l.
Proof.
  revert l. induction names as [|y names IH]; intros [|a l] I L; cbn in *; try contradiction; try discriminate.
  destruct (String.eqb_spec x y) as [->|N]; [eexists; split; [reflexivity|now left]|].
  destruct I as [I|I]; [congruence|]. destruct (IH l I ltac:(lia)) as (b & E & IB). exists b. auto.
Qed.

Lemma lookup_bind_none names x : ~ In x names -> lookup (bind_fields names) x = None.
Proof. apply lookup_combine_none. Qed.

Lemma lookup_bind_in names x : In x names -> exists i, lookup (bind_fields names) x = Some (LField i).
Proof.
  intros I. destruct (@lookup_combine_in _ names (map LField (seq 0 (length names))) x I) as (a & E & IA).
  - now rewrite map_length, seq_length.
  - apply in_map_iff in IA. destruct IA as (i & <- & _). now exists i.
Qed.

Lemma lookup_bind_nth names x i :
  NoDup names -> nth_error names i = Some x -> lookup (bind_fields names) x = Some (LField i).
Proof.
  unfold bind_fields. intros N E.
  assert (G : forall names k i x, NoDup names -> nth_error names i = Some x ->
     lookup (combine names (map LField (seq k (length names)))) x = Some (LField (k + i))).
  { clear. induction names as [|y names IH]; intros k i x N E; [destruct i; discriminate|].
    cbn [length seq map combine lookup]. destruct i as [|i]; cbn in E.
    - inversion E; subst. rewrite String.eqb_refl. now rewrite Nat.add_0_r.
    - inversion N as [|? ? N1 N2]; subst. destruct (String.eqb_spec x y) as [->|NE].
      + destruct N1. now apply nth_error_In in E.
      + rewrite (IH (S k) i x N2 E). do 2 f_equal. lia. }
  now apply (G names 0%nat i x).
Qed.

Lemma visitor_ok_iff env depth : visitor_ok env depth = true <-> lookup env "visitor" = Some (LVisitor depth).
Proof.
  unfold visitor_ok. destruct (lookup env "visitor") as [[d|i]|]; split; try discriminate.
  - intros E. apply Nat.eqb_eq in E. now subst.
  - intros E. inversion E. apply Nat.eqb_refl.
Qed.

Lemma callable_iff env f :
  callable env f = true <-> forall x, plain_ident f x -> lookup env x = None.
Proof.
  unfold callable, plain_ident. split.
  - intros H x (kw & a & ->). destruct (lookup env x); [discriminate|reflexivity].
  - intros H. destruct f as [[|] [|[kw s a] [|? ?]]]; try reflexivity.
    rewrite (H s); [reflexivity|]. now exists kw, a.
Qed.

(** ** One field *)

(** Is the custom function of the field callable here? *)
Definition custom_ok (env : list (string * local)) (o : aattrs) : bool :=
  match aa_visit o with Some f => aa_skip o || callable env f | None => true end.

Lemma callable_shadow env f d : (exists a, lookup env "visitor" = Some a) ->
  callable (("visitor"%string, d) :: env) f = callable env f.
Proof.
  intros [a E]. unfold callable. destruct f as [[|] [|[kw s g] [|? ?]]]; try reflexivity.
  cbn. destruct (String.eqb_spec s "visitor") as [->|N]; [now rewrite E|reflexivity].
Qed.

Lemma exec_field j env o_ d_ lbl x f at_ ss i c :
  extract_attrs (fd_attrs f) = Some at_ -> gen_visit_field lbl x f = Some ss ->
  lookup env "visitor" = Some (LVisitor (length o_)) ->
  lookup env x = Some (LField i) -> custom_ok env at_ = true ->
  nth_error (sj_fields j) i = Some c ->
  exec_list j ss (mkR env o_ d_) = Some (r_emit (vseqs (field_scopes j i (lbl, f) at_ c)) (mkR env o_ d_)).
Proof.
  intros EA EG EV EX CO EC. unfold gen_visit_field in EG. rewrite EA in EG. cbn [obind] in EG.
  unfold field_scopes. unfold custom_ok in CO.
  assert (VO : visitor_ok env (length o_) = true) by now apply visitor_ok_iff.
  destruct (aa_skip at_).
  { inversion EG; subst. cbn. now rewrite r_emit_ret. }
  destruct (aa_visit at_) as [v|].
  - inversion EG; subst. cbn [exec_list]. rewrite exec_block. cbn [exec_list exec rs_env rs_open].
    rewrite VO. cbn [obind]. unfold r_open. cbn [exec rs_env rs_open rs_done].
    assert (V2 : visitor_ok (("visitor"%string, LVisitor (S (length o_))) :: env)
       (length ((derive_key lbl, sj_size j (fd_ty f), VRet) :: o_)) = true) by now apply visitor_ok_iff.
    rewrite V2. rewrite callable_shadow by eauto. cbn [orb] in CO. rewrite CO. cbn [andb].
    assert (NX : x <> "visitor"%string) by (intros ->; congruence).
    cbn [lookup]. rewrite (proj2 (String.eqb_neq x "visitor") NX), EX. cbn [obind].
    rewrite r_emit_open. cbn [rs_env rs_open rs_done vseq exec].
    cbn [length] in *. rewrite V2. cbn [obind]. rewrite r_close_open.
    cbn [vseqs]. unfold r_leave. rewrite r_emit_len. cbn [rs_open]. rewrite Nat.sub_diag. cbn [Nat.iter nat_rect].
    cbn [rs_env]. rewrite derive_key_eq. unfold scope. cbn [fst snd].
    f_equal. destruct o_ as [|[[k0 s0] q0] o_]; cbn; reflexivity.
  - inversion EG; subst. cbn [exec_list exec rs_env rs_open]. rewrite VO, EX, EC. cbn [obind exec_list].
    rewrite derive_key_eq. cbn [vseqs]. unfold scope, field, v_field, v_field_with. reflexivity.
Qed.

Lemma check_field d ty env depth lbl x f at_ ss i :
  extract_attrs (fd_attrs f) = Some at_ -> gen_visit_field lbl x f = Some ss ->
  lookup env "visitor" = Some (LVisitor depth) ->
  lookup env x = Some (LField i) -> nth_error ty i = Some (fd_ty f) ->
  check_list d ty ss (env, depth) = if custom_ok env at_ then Some (env, depth) else None.
Proof.
  intros EA EG EV EX ET. unfold gen_visit_field in EG. rewrite EA in EG. cbn [obind] in EG.
  unfold custom_ok.
  assert (VO : visitor_ok env depth = true) by now apply visitor_ok_iff.
  destruct (aa_skip at_).
  { inversion EG; subst. cbn. destruct (aa_visit at_); reflexivity. }
  destruct (aa_visit at_) as [v|].
  - inversion EG; subst. cbn [check_list]. rewrite check_block. cbn [check_list check].
    rewrite VO. cbn [obind].
    assert (V2 : visitor_ok (("visitor"%string, LVisitor (S depth)) :: env) (S depth) = true) by now apply visitor_ok_iff.
    rewrite V2. cbn [andb orb]. rewrite callable_shadow by eauto.
    destruct (callable env v); cbn [obind]; [|reflexivity].
    assert (NX : x <> "visitor"%string) by (intros ->; congruence).
    cbn [lookup]. rewrite (proj2 (String.eqb_neq x "visitor") NX), EX. cbn [obind].
    cbn [check]. rewrite V2. cbn [obind snd]. now rewrite Nat.min_id.
  - inversion EG; subst. cbn [check_list check]. rewrite VO, EX, ET, String.eqb_refl. reflexivity.
Qed.

(** The fields part never changes the locals. *)
Lemma check_field_env d ty lbl x f ss st st' :
  gen_visit_field lbl x f = Some ss -> check_list d ty ss st = Some st' -> fst st' = fst st.
Proof.
  intros EG EC. unfold gen_visit_field in EG. destruct (extract_attrs (fd_attrs f)) as [at_|]; [|discriminate].
  cbn [obind] in EG. destruct (aa_skip at_); [inversion EG; subst; cbn in EC; now inversion EC|].
  destruct st as [env depth]. destruct (aa_visit at_) as [v|]; inversion EG; subst; cbn [check_list] in EC.
  - rewrite check_block in EC. destruct (check_list d ty _ (env, depth)) as [st2|]; [|discriminate].
    cbn in EC. now inversion EC.
  - cbn [check] in EC. destruct (visitor_ok env depth); [|discriminate].
    destruct (lookup env x) as [[|i]|]; try discriminate. destruct (nth_error ty i); [|discriminate].
    destruct (String.eqb (fd_ty f) s); [|discriminate]. cbn in EC. now inversion EC.
Qed.

(** ** All fields *)

(** Label, local variable and declaration of every field. *)
Definition triples (fs : fields_decl) : list (string * string * fdecl) :=
  match fs with
  | FNamed l => map (fun f => (fd_name f, fd_name f, f)) l
  | FUnnamed l => map (fun y => (show_N (fst y), unnamed_name (fst y), snd y)) (enumerate 0 l)
  | FUnit => []
  end.

Lemma omap_map {A B C} (g : A -> B) (f : B -> option C) l : omap f (map g l) = omap (fun a => f (g a)) l.
Proof. induction l as [|a l IH]; cbn; [reflexivity|]. now rewrite IH. Qed.

Lemma omap_ext {A B} (f g : A -> option B) l : (forall a, f a = g a) -> omap f l = omap g l.
Proof. intros H. induction l as [|a l IH]; cbn; [reflexivity|]. now rewrite H, IH. Qed.

Lemma gen_visit_fields_triples skip fs :
  gen_visit_fields skip fs =
  do ss <- omap (fun y => if skip then Some [] else gen_visit_field (fst (fst y)) (snd (fst y)) (snd y)) (triples fs);
  Some (concat ss).
Proof.
  destruct fs as [l|l|]; cbn [gen_visit_fields triples].
  - rewrite omap_map. reflexivity.
  - rewrite omap_map. reflexivity.
  - reflexivity.
Qed.

Lemma map_enumerate {A} (l : list A) : forall i, map snd (enumerate i l) = l.
Proof. induction l as [|a l IH]; intros i; cbn; [reflexivity|]. now rewrite IH. Qed.

Lemma enumerate_combine {A} (l : list A) : forall i,
  enumerate (N.of_nat i) l = combine (map N.of_nat (seq i (length l))) l.
Proof.
  induction l as [|a l IH]; intros i; cbn; [reflexivity|].
  rewrite <- IH. do 2 f_equal. lia.
Qed.

Lemma enumerate_length {A} (l : list A) : forall i, length (enumerate i l) = length l.
Proof. induction l as [|a l IH]; intros i; cbn; [reflexivity|]. now rewrite IH. Qed.

Lemma triples_fields fs : map snd (triples fs) = field_list fs.
Proof.
  destruct fs as [l|l|]; cbn; [| |reflexivity].
  - rewrite map_map. cbn. apply map_id.
  - rewrite map_map. cbn. apply map_enumerate.
Qed.

Lemma triples_names fs : map (fun y => snd (fst y)) (triples fs) = binder_names fs.
Proof. destruct fs as [l|l|]; cbn; [| |reflexivity]; rewrite map_map; reflexivity. Qed.

Lemma triples_labelled fs : map (fun y => (fst (fst y), snd y)) (triples fs) = labelled fs.
Proof.
  destruct fs as [l|l|]; cbn; [| |reflexivity].
  - rewrite map_map. reflexivity.
  - rewrite map_map. cbn. change 0 with (N.of_nat 0). rewrite enumerate_combine.
    generalize 0%nat. induction l as [|a l IH]; intros i; cbn; [reflexivity|]. now rewrite IH.
Qed.

Lemma show_N_inj a b : show_N a = show_N b -> a = b.
Proof.
  intros E. pose proof (read_show a) as A. rewrite E, read_show in A. congruence.
Qed.

Lemma r_emit_shape p env o d : exists o' d', r_emit p (mkR env o d) = mkR env o' d' /\ length o' = length o.
Proof.
  destruct o as [|[[k s] q] o]; cbn; [exists [], (vseq d p); auto|].
  eexists _, d. split; reflexivity.
Qed.

Definition gen_one (y : string * string * fdecl) : option (list stmt) :=
  gen_visit_field (fst (fst y)) (snd (fst y)) (snd y).

Definition attrs_of_triples (ts : list (string * string * fdecl)) (ats : list aattrs) : Prop :=
  Forall2 (fun y at_ => extract_attrs (fd_attrs (snd y)) = Some at_) ts ats.

Lemma exec_fields j env ts : forall k ats ss cs o_ d_,
  attrs_of_triples ts ats -> omap gen_one ts = Some ss ->
  lookup env "visitor" = Some (LVisitor (length o_)) ->
  (forall n y, nth_error ts n = Some y -> lookup env (snd (fst y)) = Some (LField (k + n))) ->
  forallb (custom_ok env) ats = true ->
  length cs = length ts -> (forall n, (n < length ts)%nat -> nth_error (sj_fields j) (k + n) = nth_error cs n) ->
  exec_list j (concat ss) (mkR env o_ d_) =
  Some (r_emit (vseqs (fields_scopes j k (map (fun y => (fst (fst y), snd y)) ts) ats cs)) (mkR env o_ d_)).
Proof.
  induction ts as [|y ts IH]; intros k ats ss cs o_ d_ FA EO EV EX CO LC EC.
  - inversion FA; subst. cbn in EO. inversion EO; subst. cbn. now rewrite r_emit_ret.
  - inversion FA as [|? a ? ats' EA FA']; subst. cbn in EO.
    destruct (gen_one y) as [s1|] eqn:EG; [|discriminate]. cbn in EO.
    destruct (omap gen_one ts) as [ss'|] eqn:EO'; [|discriminate]. cbn in EO. inversion EO; subst.
    destruct cs as [|c cs]; [discriminate|]. cbn [forallb] in CO. apply andb_true_iff in CO. destruct CO as [CO1 CO2].
    cbn [concat map fields_scopes]. rewrite exec_list_app.
    rewrite (@exec_field j env o_ d_ _ _ _ a s1 k c EA EG EV); cycle 1.
    + rewrite (EX 0%nat y eq_refl). do 2 f_equal. lia.
    + exact CO1.
    + specialize (EC 0%nat ltac:(cbn; lia)). rewrite Nat.add_0_r in EC. now rewrite EC.
    + cbn [obind]. rewrite vseqs_app, <- r_emit_emit.
      destruct (r_emit_shape (vseqs (field_scopes j k (fst (fst y), snd y) a c)) env o_ d_) as (o' & d' & ER & LO).
      rewrite ER. apply IH; try assumption.
      * reflexivity.
      * now rewrite LO.
      * intros n z E. rewrite (EX (S n) z E). do 2 f_equal. lia.
      * cbn in LC. lia.
      * intros n L. specialize (EC (S n) ltac:(cbn; lia)). cbn [nth_error] in EC. rewrite <- EC. f_equal. lia.
Qed.

Lemma check_fields d ty env depth ts : forall k ats ss,
  attrs_of_triples ts ats -> omap gen_one ts = Some ss ->
  lookup env "visitor" = Some (LVisitor depth) ->
  (forall n y, nth_error ts n = Some y -> lookup env (snd (fst y)) = Some (LField (k + n))) ->
  (forall n y, nth_error ts n = Some y -> nth_error ty (k + n) = Some (fd_ty (snd y))) ->
  check_list d ty (concat ss) (env, depth) = if forallb (custom_ok env) ats then Some (env, depth) else None.
Proof.
  induction ts as [|y ts IH]; intros k ats ss FA EO EV EX ET.
  - inversion FA; subst. cbn in EO. inversion EO; subst. reflexivity.
  - inversion FA as [|? a ? ats' EA FA']; subst. cbn in EO.
    destruct (gen_one y) as [s1|] eqn:EG; [|discriminate]. cbn in EO.
    destruct (omap gen_one ts) as [ss'|] eqn:EO'; [|discriminate]. cbn in EO. inversion EO; subst.
    cbn [concat forallb]. rewrite check_list_app.
    rewrite (@check_field d ty env depth _ _ _ a s1 k EA EG EV); cycle 1.
    + rewrite (EX 0%nat y eq_refl). do 2 f_equal. lia.
    + rewrite <- (ET 0%nat y eq_refl). f_equal. lia.
    + destruct (custom_ok env a); cbn [obind andb]; [|reflexivity].
      apply (IH (S k)); try assumption.
      * reflexivity.
      * intros n z E. rewrite (EX (S n) z E). do 2 f_equal. lia.
      * intros n z E. rewrite <- (ET (S n) z E). f_equal. lia.
Qed.

Lemma check_fields_env d ty ts : forall ss st st', omap gen_one ts = Some ss ->
  check_list d ty (concat ss) st = Some st' -> fst st' = fst st.
Proof.
  induction ts as [|y ts IH]; intros ss st st' EO EC.
  - cbn in EO. inversion EO; subst. cbn in EC. now inversion EC.
  - cbn in EO. destruct (gen_one y) as [s1|] eqn:EG; [|discriminate]. cbn in EO.
    destruct (omap gen_one ts) as [ss'|] eqn:EO'; [|discriminate]. cbn in EO. inversion EO; subst.
    cbn [concat] in EC. rewrite check_list_app in EC.
    destruct (check_list d ty s1 st) as [st1|] eqn:E1; [|discriminate]. cbn in EC.
    transitivity (fst st1); [now apply (IH ss')|]. now apply (@check_field_env d ty _ _ _ s1 st st1 EG).
Qed.

(** ** Binders *)

Lemma binders_in fs x : In x (binder_names fs) <-> binds fs x.
Proof.
  destruct fs as [l|l|]; cbn; [tauto| |tauto]. rewrite in_map_iff.
  change 0 with (N.of_nat 0). rewrite enumerate_combine. split.
  - intros ([i f] & <- & I). apply in_combine_l in I. apply in_map_iff in I. destruct I as (n & <- & I).
    apply in_seq in I. exists n. split; [lia|reflexivity].
  - intros (n & L & ->).
    destruct (nth_error l n) as [f|] eqn:E; [|apply nth_error_None in E; lia].
    exists (N.of_nat n, f). split; [reflexivity|].
    assert (G : forall (l : list fdecl) k n f, nth_error l n = Some f ->
              In (N.of_nat (k + n), f) (combine (map N.of_nat (seq k (length l))) l)).
    { clear. induction l as [|a l IH]; intros k n f E; [destruct n; discriminate|].
      destruct n as [|n]; cbn in *.
      - left. inversion E. f_equal. lia.
      - right. replace (k + S n)%nat with (S k + n)%nat by lia. now apply IH. }
    apply (G l 0%nat n f E).
Qed.

Lemma unnamed_inj a b : unnamed_name a = unnamed_name b -> a = b.
Proof. unfold unnamed_name. cbn. intros E. inversion E. now apply show_N_inj. Qed.

Lemma binders_nodup fs : distinct_fields fs -> NoDup (binder_names fs).
Proof.
  destruct fs as [l|l|]; cbn; intros H; [exact H| |constructor].
  clear H. change 0 with (N.of_nat 0). rewrite enumerate_combine.
  assert (G : forall k, map (fun x => unnamed_name (fst x)) (combine (map N.of_nat (seq k (length l))) l)
            = map (fun n => unnamed_name (N.of_nat n)) (seq k (length l))).
  { induction l as [|a l IH]; intros k; cbn; [reflexivity|]. now rewrite IH. }
  rewrite G. apply FinFun.Injective_map_NoDup; [|apply seq_NoDup].
  intros a b E. apply unnamed_inj in E. lia.
Qed.

Lemma has_dup_nodup l : NoDup l -> has_dup l = false.
Proof.
  induction 1 as [|x l NI ND IH]; cbn; [reflexivity|]. rewrite IH, Bool.orb_false_r.
  destruct (existsb (String.eqb x) l) eqn:E; [|reflexivity].
  apply existsb_exists in E. destruct E as (y & I & E). apply String.eqb_eq in E. now subst.
Qed.

Lemma bad_pattern_binders d fs : distinct_fields fs ->
  bad_pattern d (binder_names fs) = existsb (dc_consts d) (binder_names fs).
Proof. intros H. unfold bad_pattern. now rewrite (has_dup_nodup (binders_nodup H)), Bool.orb_false_r. Qed.

Lemma triple_binder fs n y : nth_error (triples fs) n = Some y -> nth_error (binder_names fs) n = Some (snd (fst y)).
Proof. intros E. rewrite <- triples_names. now rewrite (map_nth_error _ _ _ E). Qed.

Lemma triple_field fs n y : nth_error (triples fs) n = Some y -> nth_error (field_list fs) n = Some (snd y).
Proof. intros E. rewrite <- triples_fields. now rewrite (map_nth_error _ _ _ E). Qed.

Lemma triples_attrs fs os : field_attrs fs os -> attrs_of_triples (triples fs) os.
Proof.
  unfold field_attrs, attrs_of_triples. rewrite <- triples_fields. generalize (triples fs). clear fs.
  intros ts. revert os. induction ts as [|y ts IH]; intros os F; inversion F; subst; constructor.
  - now apply extract_attrs_say.
  - now apply IH.
Qed.

(** Local environment inside a destructured value. *)
Lemma env_visitor names env d : ~ In "visitor"%string names ->
  lookup env "visitor" = Some (LVisitor d) -> lookup (bind_fields names ++ env) "visitor" = Some (LVisitor d).
Proof. intros N E. now rewrite lookup_app, lookup_bind_none. Qed.

Lemma env_binder names env n x : NoDup names -> nth_error names n = Some x ->
  lookup (bind_fields names ++ env) x = Some (LField n).
Proof. intros N E. now rewrite lookup_app, (@lookup_bind_nth names x n). Qed.

(** The environments used: only [visitor] besides the fields. *)
Definition only_visitor (env : list (string * local)) : Prop :=
  Forall (fun y => fst y = "visitor"%string) env.

Lemma lookup_only env x : only_visitor env -> x <> "visitor"%string -> lookup env x = None.
Proof.
  induction env as [|[y a] env IH]; intros O N; [reflexivity|]. inversion O; subst. cbn in *. subst.
  rewrite (proj2 (String.eqb_neq x "visitor") N). now apply IH.
Qed.

(** Custom functions are callable iff they are not named like a local. *)
Lemma custom_ok_iff pre names env d ats :
  only_visitor pre -> only_visitor env -> lookup (pre ++ bind_fields names ++ env) "visitor" = Some (LVisitor d) ->
  (forallb (custom_ok (pre ++ bind_fields names ++ env)) ats = true <->
   forall o f x, In o ats -> aa_skip o = false -> aa_visit o = Some f -> plain_ident f x ->
   x <> "visitor"%string /\ ~ In x names).
Proof.
  intros OP OE EV. rewrite forallb_forall. split.
  - intros H o f x I ES EF PI. specialize (H o I). unfold custom_ok in H. rewrite EF, ES in H. cbn in H.
    pose proof (proj1 (callable_iff _ _) H x PI) as EL. split.
    + intros ->. congruence.
    + intros IN. rewrite !lookup_app in EL. destruct (lookup pre x); [discriminate|].
      destruct (@lookup_bind_in names x IN) as [i E]. rewrite E in EL. discriminate.
  - intros H o I. unfold custom_ok. destruct (aa_visit o) as [f|] eqn:EF; [|reflexivity].
    destruct (aa_skip o) eqn:ES; [reflexivity|]. cbn. apply callable_iff. intros x PI.
    destruct (H o f x I ES EF PI) as [NV NI].
    rewrite !lookup_app, (lookup_only OP NV), lookup_bind_none, (lookup_only OE NV) by assumption. reflexivity.
Qed.

Lemma existsb_false_iff {A} (f : A -> bool) l : existsb f l = false <-> forall x, In x l -> f x = false.
Proof.
  split.
  - intros H x I. destruct (f x) eqn:E; [|reflexivity].
    assert (existsb f l = true) by (apply existsb_exists; eauto). congruence.
  - intros H. destruct (existsb f l) eqn:E; [|reflexivity]. apply existsb_exists in E.
    destruct E as (x & I & E). rewrite (H x I) in E. discriminate.
Qed.

(** ** Structs *)

Lemma hygienic_names consts fs os : hygienic consts fs os <->
  ~ In "visitor"%string (binder_names fs) /\ existsb consts (binder_names fs) = false /\
  (forall o f x, In o os -> aa_skip o = false -> aa_visit o = Some f -> plain_ident f x ->
   x <> "visitor"%string /\ ~ In x (binder_names fs)).
Proof.
  rewrite existsb_false_iff. split.
  - intros [A B C]. repeat split.
    + now rewrite binders_in.
    + intros x I. apply B. now apply binders_in.
    + eapply C; eauto.
    + rewrite binders_in. eapply C; eauto.
  - intros (A & B & C). split.
    + now rewrite <- binders_in.
    + intros x I. apply B. now apply binders_in.
    + intros o f x I1 I2 I3 I4. destruct (C o f x I1 I2 I3 I4) as [P Q]. split; [exact P|]. now rewrite <- binders_in.
Qed.

Lemma gen_struct_cases fs b : gen_visit_struct fs = Some b ->
  fs = FUnit /\ b = [] \/
  exists ss, omap gen_one (triples fs) = Some ss /\ b = LetPattern (binder_names fs) :: concat ss.
Proof.
  intros H. destruct fs as [l|l|].
  - right. unfold gen_visit_struct in H. rewrite gen_visit_fields_triples in H.
    fold gen_one in H; change (fun y => gen_visit_field (fst (fst y)) (snd (fst y)) (snd y)) with gen_one in H.
    destruct (omap gen_one (triples (FNamed l))) as [ss|]; [|discriminate]. cbn [obind] in H. inversion H. now exists ss.
  - right. unfold gen_visit_struct in H. rewrite gen_visit_fields_triples in H.
    fold gen_one in H; change (fun y => gen_visit_field (fst (fst y)) (snd (fst y)) (snd y)) with gen_one in H.
    destruct (omap gen_one (triples (FUnnamed l))) as [ss|]; [|discriminate]. cbn [obind] in H. inversion H. now exists ss.
  - left. cbn in H. inversion H. auto.
Qed.

Lemma fields_scopes_nil j k os cs : fields_scopes j k [] os cs = [].
Proof. reflexivity. Qed.

Lemma triples_length fs : length (triples fs) = length (field_list fs).
Proof. rewrite <- triples_fields. now rewrite map_length. Qed.

Lemma struct_run j fs os b consts :
  gen_visit_struct fs = Some b -> field_attrs fs os -> distinct_fields fs -> hygienic consts fs os ->
  length (sj_fields j) = length (field_list fs) ->
  run_derived j (LetEnterSelf :: b ++ [Exit]) = Some (struct_visit j fs os).
Proof.
  intros EB FA DF HY LF. unfold run_derived.
  destruct (gen_struct_cases EB) as [[-> ->]|(ss & EO & ->)].
  { reflexivity. }
  apply hygienic_names in HY. destruct HY as (HV & _ & HC).
  change (LetEnterSelf :: (LetPattern (binder_names fs) :: concat ss) ++ [Exit])
    with ([LetEnterSelf; LetPattern (binder_names fs)] ++ concat ss ++ [Exit]).
  rewrite exec_list_app. cbn [exec_list exec rs_env rs_open]. 
  change (visitor_ok [("visitor"%string, LVisitor 0)] (length (@nil (key * N * vprog)))) with true.
  unfold r_open. cbn [obind exec rs_env rs_open rs_done length].
  set (env0 := [("visitor"%string, LVisitor 1); ("visitor"%string, LVisitor 0)]).
  set (K := key_for_type_name (t_name (sj_type j))). set (Z := t_size (sj_type j)).
  rewrite exec_list_app.
  assert (OV : only_visitor env0) by (repeat constructor).
  assert (EV : lookup (bind_fields (binder_names fs) ++ env0) "visitor" = Some (LVisitor 1)).
  { now apply env_visitor. }
  rewrite (@exec_fields j (bind_fields (binder_names fs) ++ env0) (triples fs) 0%nat os ss (sj_fields j)); cycle 1.
  - now apply triples_attrs.
  - exact EO.
  - exact EV.
  - intros n y E. apply env_binder; [now apply binders_nodup|]. now apply triple_binder.
  - apply (proj2 (@custom_ok_iff [] (binder_names fs) env0 1%nat os ltac:(constructor) OV EV)). exact HC.
  - now rewrite triples_length.
  - intros n _. reflexivity.
  - cbn [obind]. rewrite r_emit_open. cbn [vseq exec_list exec rs_env rs_open length].
    rewrite (proj2 (visitor_ok_iff _ _) EV). cbn [obind]. rewrite r_close_open. cbn.
    rewrite triples_labelled. unfold struct_visit, scope. reflexivity.
Qed.

Lemma struct_resolves d fs os b :
  gen_visit_struct fs = Some b -> field_attrs fs os -> distinct_fields fs ->
  dc_types d "" = map fd_ty (field_list fs) ->
  (resolves d (LetEnterSelf :: b ++ [Exit]) = true <-> hygienic (dc_consts d) fs os).
Proof.
  intros EB FA DF DT. unfold resolves.
  destruct (gen_struct_cases EB) as [[-> ->]|(ss & EO & ->)].
  { cbn. split; [|reflexivity]. intros _. unfold field_attrs in FA. cbn in FA. inversion FA; subst.
    split; cbn; try tauto. }
  rewrite hygienic_names.
  set (env0 := [("visitor"%string, LVisitor 1); ("visitor"%string, LVisitor 0)]).
  assert (ES : check_list d (dc_types d "") (LetEnterSelf :: (LetPattern (binder_names fs) :: concat ss) ++ [Exit])
                 ([("visitor"%string, LVisitor 0)], 0%nat)
             = if existsb (dc_consts d) (binder_names fs) then None
               else check_list d (dc_types d "") (concat ss ++ [Exit]) (bind_fields (binder_names fs) ++ env0, 1%nat)).
  { cbn [check_list check]. change (visitor_ok [("visitor"%string, LVisitor 0)] 0) with true.
    cbn [obind app check_list check]. rewrite bad_pattern_binders by exact DF. destruct (existsb (dc_consts d) (binder_names fs)); reflexivity. }
  rewrite ES. clear ES.
  destruct (existsb (dc_consts d) (binder_names fs)) eqn:EC.
  { split; [discriminate|]. intros (_ & X & _). discriminate. }
  rewrite check_list_app.
  destruct (in_dec string_dec "visitor"%string (binder_names fs)) as [IV|NV].
  - destruct (check_list d _ (concat ss) _) as [[env' dp]|] eqn:E; cbn [obind].
    + apply (@check_fields_env _ _ _ _ _ _ EO) in E. cbn in E. subst env'. cbn [check_list check].
      assert (visitor_ok (bind_fields (binder_names fs) ++ env0) dp = false).
      { unfold visitor_ok. rewrite lookup_app.
        destruct (@lookup_bind_in _ _ IV) as [i ->]. reflexivity. }
      rewrite H. cbn. split; [discriminate|]. intros (X & _). contradiction.
    + split; [discriminate|]. intros (X & _). contradiction.
  - assert (OV : only_visitor env0) by (repeat constructor).
    assert (EV : lookup (bind_fields (binder_names fs) ++ env0) "visitor" = Some (LVisitor 1)).
    { now apply env_visitor. }
    rewrite (@check_fields d (dc_types d "") (bind_fields (binder_names fs) ++ env0) 1%nat (triples fs) 0%nat os ss).
    + pose proof (@custom_ok_iff [] (binder_names fs) env0 1%nat os ltac:(constructor) OV EV) as CI. cbn [app] in CI.
      destruct (forallb (custom_ok (bind_fields (binder_names fs) ++ env0)) os) eqn:EF; cbn [obind].
      * cbn [check_list check]. rewrite (proj2 (visitor_ok_iff _ _) EV). cbn.
        split; [|reflexivity]. intros _. split; [exact NV|]. split; [reflexivity|]. now apply CI.
      * split; [discriminate|]. intros (_ & _ & H). apply CI in H. discriminate.
    + now apply triples_attrs.
    + exact EO.
    + exact EV.
    + intros n y E. apply env_binder; [now apply binders_nodup|]. now apply triple_binder.
    + intros n y E. rewrite DT. apply triple_field in E. cbn. now rewrite (map_nth_error _ _ _ E).
Qed.

(** ** Enums *)

Lemma gen_variant_cases v a skip :
  extract_attrs (vd_attrs v) = Some skip -> gen_visit_enum_variant v = Some a ->
  vd_fields v = FUnit /\ a = (vd_name v, [], []) \/
  vd_fields v <> FUnit /\ exists ss,
    omap (fun y => if aa_skip skip then Some [] else gen_one y) (triples (vd_fields v)) = Some ss /\
    a = (vd_name v, binder_names (vd_fields v),
         LetEnter (derive_key (vd_name v)) SizeSelf :: concat ss ++ [Exit]).
Proof.
  unfold gen_visit_enum_variant. intros EA H. rewrite EA in H. cbn [obind] in H.
  destruct (vd_fields v) as [l|l|] eqn:EF.
  - right. split; [discriminate|]. rewrite gen_visit_fields_triples in H. fold gen_one in H.
    match type of H with obind (obind ?o _) _ = _ => destruct o as [ss|] eqn:E end; [|discriminate].
    cbn [obind] in H. inversion H. exists ss. split; [exact E|reflexivity].
  - right. split; [discriminate|]. rewrite gen_visit_fields_triples in H. fold gen_one in H.
    match type of H with obind (obind ?o _) _ = _ => destruct o as [ss|] eqn:E end; [|discriminate].
    cbn [obind] in H. inversion H. exists ss. split; [exact E|reflexivity].
  - left. inversion H. auto.
Qed.

Lemma omap_nil {A B} (l : list A) : omap (fun _ => Some (@nil B)) l = Some (map (fun _ => []) l).
Proof. induction l as [|a l IH]; cbn; [reflexivity|]. now rewrite IH. Qed.

Lemma concat_nils {A B} (l : list A) : concat (map (fun _ => @nil B) l) = [].
Proof. induction l; cbn; auto. Qed.

(** What is visited below a variant: nothing if it is skipped. *)
Definition below (skip : bool) (os : list aattrs) : list aattrs := if skip then [] else os.

Definition variant_ok (consts : string -> bool) (v : vdecl) (skip : bool) (os : list aattrs) : Prop :=
  hygienic consts (vd_fields v) (below skip os).

Lemma variant_arm d v a sk os env0 :
  extract_attrs (vd_attrs v) = Some sk -> gen_visit_enum_variant v = Some a ->
  (aa_skip sk = false -> field_attrs (vd_fields v) os) -> distinct_fields (vd_fields v) ->
  dc_types d (vd_name v) = map fd_ty (field_list (vd_fields v)) ->
  only_visitor env0 -> lookup env0 "visitor" = Some (LVisitor 1) ->
  (check_arm d env0 1 a = None \/ check_arm d env0 1 a = Some 1%nat) /\
  (check_arm d env0 1 a = Some 1%nat <-> variant_ok (dc_consts d) v (aa_skip sk) os).
Proof.
  intros EA EG FA DF DT OV EV0. unfold variant_ok. rewrite hygienic_names.
  destruct (gen_variant_cases EA EG) as [[EF ->]|(NF & ss & EO & ->)].
  { rewrite EF. cbn. split; [now right|]. split; [|reflexivity]. intros _. repeat split; try tauto.
    destruct (aa_skip sk); cbn in *; try tauto. specialize (FA eq_refl). rewrite EF in FA.
    unfold field_attrs in FA. cbn in FA. inversion FA; subst. cbn in *. tauto. }
  set (fs := vd_fields v) in *. set (names := binder_names fs) in *.
  unfold check_arm. replace (bad_pattern d names) with (existsb (dc_consts d) names)
    by (symmetry; now apply bad_pattern_binders).
  destruct (existsb (dc_consts d) names) eqn:EC.
  { split; [now left|]. split; [discriminate|]. intros (_ & X & _). discriminate. }
  cbn [check_list check].
  destruct (in_dec string_dec "visitor"%string names) as [IV|NV].
  { assert (visitor_ok (bind_fields names ++ env0) 1 = false) as ->.
    { unfold visitor_ok. rewrite lookup_app. destruct (@lookup_bind_in _ _ IV) as [i ->]. reflexivity. }
    cbn. split; [now left|]. split; [discriminate|]. intros (X & _). contradiction. }
  assert (EV : lookup (bind_fields names ++ env0) "visitor" = Some (LVisitor 1)) by now apply env_visitor.
  rewrite (proj2 (visitor_ok_iff _ _) EV). cbn [obind]. rewrite check_list_app.
  set (env1 := ("visitor"%string, LVisitor 2) :: bind_fields names ++ env0).
  assert (EV1 : lookup env1 "visitor" = Some (LVisitor 2)) by reflexivity.
  assert (OP : only_visitor [("visitor"%string, LVisitor 2)]) by (repeat constructor).
  pose proof (@custom_ok_iff [("visitor"%string, LVisitor 2)] names env0 2%nat (below (aa_skip sk) os) OP OV EV1) as CI.
  cbn [app] in CI. fold env1 in CI.
  assert (EC2 : check_list d (dc_types d (vd_name v)) (concat ss) (env1, 2%nat)
              = if forallb (custom_ok env1) (below (aa_skip sk) os) then Some (env1, 2%nat) else None).
  { destruct (aa_skip sk) eqn:ES.
    - rewrite omap_nil in EO. inversion EO; subst. rewrite concat_nils. reflexivity.
    - cbn [below]. apply (@check_fields d _ env1 2%nat (triples fs) 0%nat).
      + apply triples_attrs. now apply FA.
      + exact EO.
      + exact EV1.
      + intros n y E. apply triple_binder in E.
        assert (snd (fst y) <> "visitor"%string). { intros EE. apply NV. rewrite <- EE. now apply nth_error_In in E. }
        unfold env1. cbn [lookup]. rewrite (proj2 (String.eqb_neq _ _) H).
        apply env_binder; [now apply binders_nodup|exact E].
      + intros n y E. rewrite DT. apply triple_field in E. cbn. now rewrite (map_nth_error _ _ _ E). }
  rewrite EC2. destruct (forallb (custom_ok env1) (below (aa_skip sk) os)) eqn:EF; cbn [obind].
  - cbn [check_list check]. rewrite (proj2 (visitor_ok_iff _ _) EV1). cbn.
    split; [now right|]. split; [|reflexivity]. intros _. split; [exact NV|]. split; [reflexivity|]. now apply CI.
  - split; [now left|]. split; [discriminate|]. intros (_ & _ & H). apply CI in H. discriminate.
Qed.

Lemma variant_run j v names body sk os env0 k s q consts :
  extract_attrs (vd_attrs v) = Some sk -> gen_visit_enum_variant v = Some (vd_name v, names, body) ->
  (aa_skip sk = false -> field_attrs (vd_fields v) os) -> distinct_fields (vd_fields v) ->
  variant_ok consts v (aa_skip sk) os ->
  length (sj_fields j) = length (field_list (vd_fields v)) ->
  only_visitor env0 -> lookup env0 "visitor" = Some (LVisitor 1) ->
  exists r', exec_list j body (mkR (bind_fields names ++ env0) [(k, s, q)] VRet) = Some r' /\
  r_leave (mkR env0 [(k, s, q)] VRet) r' =
    r_emit match vd_fields v with
           | FUnit => VRet
           | fs => scope (vd_name v) (t_size (sj_type j))
              (if aa_skip sk then VRet else vseqs (fields_scopes j 0 (labelled fs) os (sj_fields j)))
           end (mkR env0 [(k, s, q)] VRet).
Proof.
  intros EA EG FA DF HY LF OV EV0.
  destruct (gen_variant_cases EA EG) as [[EF EE]|(NF & ss & EO & EE)].
  { injection EE as -> ->. eexists. split; [reflexivity|]. rewrite EF.
    unfold r_leave. cbn. now rewrite vseq_ret. }
  injection EE as -> ->.
  assert (EM : match vd_fields v with
           | FUnit => VRet
           | fs => scope (vd_name v) (t_size (sj_type j))
              (if aa_skip sk then VRet else vseqs (fields_scopes j 0 (labelled fs) os (sj_fields j)))
           end = scope (vd_name v) (t_size (sj_type j))
              (if aa_skip sk then VRet else vseqs (fields_scopes j 0 (labelled (vd_fields v)) os (sj_fields j)))).
  { destruct (vd_fields v); [reflexivity|reflexivity|now destruct NF]. }
  rewrite EM. clear EM.
  set (fs := vd_fields v) in *. set (names := binder_names fs) in *.
  unfold variant_ok in HY. apply hygienic_names in HY. fold fs in HY. fold names in HY. destruct HY as (NV & _ & HC).
  assert (EV : lookup (bind_fields names ++ env0) "visitor" = Some (LVisitor 1)) by now apply env_visitor.
  cbn [exec_list exec rs_env rs_open length]. rewrite (proj2 (visitor_ok_iff _ _) EV). cbn [obind].
  unfold r_open. cbn [rs_env rs_open rs_done length]. rewrite exec_list_app.
  set (env1 := ("visitor"%string, LVisitor 2) :: bind_fields names ++ env0).
  assert (EV1 : lookup env1 "visitor" = Some (LVisitor 2)) by reflexivity.
  assert (OP : only_visitor [("visitor"%string, LVisitor 2)]) by (repeat constructor).
  pose proof (@custom_ok_iff [("visitor"%string, LVisitor 2)] names env0 2%nat (below (aa_skip sk) os) OP OV EV1) as CI.
  cbn [app] in CI. fold env1 in CI. apply CI in HC. clear CI.
  assert (EX : exec_list j (concat ss) (mkR env1 [(derive_key (vd_name v), t_size (sj_type j), VRet); (k, s, q)] VRet)
             = Some (r_emit (if aa_skip sk then VRet else vseqs (fields_scopes j 0 (labelled fs) os (sj_fields j)))
                       (mkR env1 [(derive_key (vd_name v), t_size (sj_type j), VRet); (k, s, q)] VRet))).
  { destruct (aa_skip sk) eqn:ES.
    - rewrite omap_nil in EO. inversion EO; subst. rewrite concat_nils. cbn [exec_list]. now rewrite r_emit_ret.
    - rewrite <- triples_labelled. apply (@exec_fields j env1 (triples fs) 0%nat).
      + apply triples_attrs. now apply FA.
      + exact EO.
      + exact EV1.
      + intros n y E. apply triple_binder in E.
        assert (snd (fst y) <> "visitor"%string). { intros EE. apply NV. rewrite <- EE. now apply nth_error_In in E. }
        unfold env1. cbn [lookup]. rewrite (proj2 (String.eqb_neq _ _) H).
        apply env_binder; [now apply binders_nodup|exact E].
      + exact HC.
      + now rewrite triples_length.
      + intros n _. reflexivity. }
  rewrite EX. cbn [obind]. rewrite r_emit_open. cbn [vseq exec_list exec rs_env rs_open length].
  rewrite (proj2 (visitor_ok_iff _ _) EV1). cbn [obind]. eexists. split; [reflexivity|].
  rewrite r_close_open. rewrite derive_key_eq. unfold scope. reflexivity.
Qed.
