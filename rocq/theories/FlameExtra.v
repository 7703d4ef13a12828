(** * Final lemmas behind PropertiesFlame. *)
From Coq Require Import Permutation Sorted.
From Verif Require Import Base BaseFacts KeyModel KeyFacts HMap FlameModel BuilderModel VisitorModel Spec
  FlameFacts WriteFacts ParseFacts.

Lemma within_ok m K g f : within g f -> fg_ok m K f -> fg_ok m K g.
Proof.
  induction 1 as [|f k c Hin Hw IH]; intros Hok; [auto|].
  destruct (fg_ok_inv Hok) as (_ & Hch & _). apply IH. apply (Hch _ _ Hin).
Qed.

Lemma C01_total_size_exact_lemma m f g : fg_api m any_key f -> within g f ->
  fg_total_size m g = wrapped m (node_sum g).
Proof. intros Hf Hw. exact (fg_total_wrapped (within_ok Hw (fg_api_ok Hf))). Qed.

Lemma wrapeq_wrapped m a b : wrapeq m a b -> wrapped m a = wrapped m b.
Proof. destruct m; simpl; intros ->; reflexivity. Qed.

Lemma C01_total_size_of_history_lemma m e g : args_fit e -> fgeval m e = Some g ->
  fg_total_size m g = wrapped m (put_total e).
Proof.
  intros Hf E. destruct (fgeval_spec Hf (expr_keys_any e) E) as (Ha & _ & Hs).
  rewrite (fg_total_wrapped (fg_api_ok Ha)). now apply wrapeq_wrapped.
Qed.

Definition ex_expr : fgexpr :=
  XAdd (XAddChild (XAddSelf XDefault 3) (key_new "a") (XAddSelf XDefault 5))
       (XAddChild (XAddChild XDefault (key_new "a") (XAddSelf XDefault 7)) (key_new "b")
          (XAddChild XDefault (key_new "c") (XAddSelf XDefault 11))).

Lemma small_lt n : n < 9223372036854775808 -> n < two64.
Proof. rewrite two64_val. lia. Qed.

Lemma fgeval_api m K e g : args_fit e -> expr_keys K e -> fgeval m e = Some g -> fg_api m K g.
Proof. intros H1 H2 E. apply (fgeval_spec H1 H2 E). Qed.

Lemma ex_expr_fit : args_fit ex_expr.
Proof. unfold ex_expr. cbn [args_fit]. repeat split; apply small_lt; reflexivity. Qed.

Lemma C01_satisfiable_lemma :
  put_total ex_expr < two64 /\ args_fit ex_expr /\
  exists g, fgeval Debug ex_expr = Some g /\ fg_api Debug any_key g /\ node_sum g = 26.
Proof.
  split; [apply small_lt; reflexivity|]. split; [apply ex_expr_fit|].
  destruct (fgeval Debug ex_expr) as [g|] eqn:E.
  - exists g. split; [reflexivity|]. split; [eapply fgeval_api; eauto using ex_expr_fit, expr_keys_any|].
    vm_compute in E. inversion E; subst. reflexivity.
  - vm_compute in E. discriminate.
Qed.

Lemma C02_add_pointwise_lemma m a b c : fg_api m any_key a -> fg_api m any_key b ->
  fg_add m a b = Some c -> forall p, wrapeq m (size_at c p) (size_at a p + size_at b p).
Proof. intros Ha Hb E. apply (adds_size (fg_add_adds (fg_api_ok Hb) (fg_api_ok Ha) E)). Qed.

Lemma C02_add_child_pointwise_lemma m a k b c : fg_api m any_key a -> fg_api m any_key b ->
  fg_add_child m a k b = Some c -> forall p,
  wrapeq m (size_at c p)
    (size_at a p + match p with
                   | [] => 0
                   | s :: p' => if String.eqb (k_str k) s then size_at b p' else 0
                   end).
Proof.
  intros Ha Hb E p.
  exact (adds_child_size (@fg_add_child_spec m any_key a k b c (fg_api_ok Ha) I (fg_api_ok Hb) E) p).
Qed.

Lemma C02_add_self_pointwise_lemma m a n c : fg_add_self m a n = Some c -> forall p,
  wrapeq m (size_at c p) (size_at a p + match p with [] => n | _ :: _ => 0 end).
Proof.
  intros E p. unfold fg_add_self in E.
  destruct (uadd m (fg_node_size a) n) as [x|] eqn:Ex; [|discriminate]. inversion E; subst.
  destruct p as [|s p].
  - simpl. now apply uadd_wrapeq.
  - rewrite !size_at_cons. cbn [fg_children]. rewrite N.add_0_r. apply wrapeq_refl.
Qed.

Lemma C02_history_pointwise_lemma m e g : args_fit e -> fgeval m e = Some g ->
  forall p, wrapeq m (size_at g p) (put_at e p).
Proof. intros Hf E. apply (fgeval_spec Hf (expr_keys_any e) E). Qed.

Lemma C02_add_panics_iff_lemma a b : fg_api Debug any_key a -> fg_api Debug any_key b ->
  (fg_add Debug a b = None <->
   two64 <= size_at a [] + size_at b [] \/
   two64 <= (node_sum a - size_at a []) + (node_sum b - size_at b [])).
Proof.
  intros Ha Hb. pose proof (fg_add_debug (fg_api_ok Hb) (fg_api_ok Ha)) as H.
  rewrite !node_sum_csum. cbn [size_at].
  destruct (fg_add Debug a b) as [c|].
  - split; [discriminate|]. intros Hge. destruct H as [_ H]. destruct H; [eauto|]. lia.
  - split; [|auto]. intros _.
    destruct (N.le_gt_cases two64 (fg_node_size a + fg_node_size b)); [auto|].
    destruct (N.le_gt_cases two64 (csum a + csum b)); [right; lia|].
    destruct H as [H _]. destruct H as [c E]; [auto|discriminate].
Qed.

Lemma C03_add_comm_lemma m a b : fg_api m made_by_new a -> fg_api m made_by_new b ->
  observe m (fg_add m a b) = observe m (fg_add m b a).
Proof. intros Ha Hb. apply fg_add_comm; now apply fg_api_ok. Qed.

Lemma C03_add_assoc_lemma m a b c :
  fg_api m made_by_new a -> fg_api m made_by_new b -> fg_api m made_by_new c ->
  observe m (do ab <- fg_add m a b; fg_add m ab c) =
  observe m (do bc <- fg_add m b c; fg_add m a bc).
Proof. intros Ha Hb Hc. apply fg_add_assoc; now apply fg_api_ok. Qed.

Lemma C03_add_default_lemma m a : fg_api m made_by_new a ->
  observe m (fg_add m a fg_default) = observe m (Some a) /\
  observe m (fg_add m fg_default a) = observe m (Some a).
Proof.
  intros Ha. apply fg_api_ok in Ha. split.
  - rewrite fg_add_default_r by (eapply fg_ok_any; eauto). reflexivity.
  - now apply fg_add_default_l.
Qed.

(** Merging a list: sizes and success depend only on the multiset. *)
Lemma merge_all_spec m l : forall g, fg_ok m made_by_new g -> Forall (fg_ok m made_by_new) l ->
  match fold_left (fun acc f => do a <- acc; fg_add m a f) l (Some g) with
  | Some r => fg_ok m made_by_new r /\
      (forall p, wrapeq m (size_at r p) (size_at g p + sumN (map (fun f => size_at f p) l))) /\
      (m = Debug -> csum r = csum g + sumN (map csum l))
  | None => m = Debug /\
      (two64 <= fg_node_size g + sumN (map fg_node_size l) \/ two64 <= csum g + sumN (map csum l))
  end.
Proof.
  induction l as [|f l IH]; intros g Hg Hl; cbn [fold_left map sumN].
  - split; [auto|]. split; [intros p; apply wrapeq_of_eq; lia | intros; lia].
  - inversion Hl as [|? ? Hf Hl']; subst. cbn [obind].
    destruct (fg_add m g f) as [h|] eqn:E.
    + pose proof (fg_add_adds Hf Hg E) as A.
      specialize (IH h (adds_ok A) Hl').
      destruct (fold_left (fun acc f0 => do a <- acc; fg_add m a f0) l (Some h)) as [r|].
      * destruct IH as (Hr & Hsz & Hcs). split; [auto|]. split.
        { intros p. eapply wrapeq_trans; [apply Hsz|]. rewrite N.add_assoc.
          apply wrapeq_add; [apply (adds_size A) | apply wrapeq_refl]. }
        { intros ->. rewrite Hcs by auto. destruct (adds_csum Hf A) as [_ ->]. lia. }
      * destruct IH as [-> H]. split; [auto|]. destruct (adds_csum Hf A) as [E1 E2]. lia.
    + assert (m = Debug) as ->.
      { destruct m; [auto|]. destruct (fg_add_release f g) as [c Ec]. congruence. }
      assert (Hnone : fold_left (fun acc f0 => do a <- acc; fg_add Debug a f0) l None = None).
      { clear. induction l; simpl; auto. }
      rewrite Hnone. split; [auto|].
      destruct (N.le_gt_cases two64 (fg_node_size g + fg_node_size f)); [left; lia|].
      destruct (N.le_gt_cases two64 (csum g + csum f)); [right; lia|].
      destruct (proj1 (fg_add_debug Hf Hg)) as [c Ec]; [auto|congruence].
Qed.

Lemma C03_merge_order_lemma m l l' : Permutation l l' -> Forall (fg_api m made_by_new) l ->
  observe m (merge_all m l) = observe m (merge_all m l').
Proof.
  intros Hp Hl.
  assert (Hok : Forall (fg_ok m made_by_new) l).
  { eapply Forall_impl; [|exact Hl]. intros; now apply fg_api_ok. }
  assert (Hok' : Forall (fg_ok m made_by_new) l').
  { rewrite Forall_forall in *. intros x Hx. apply Hok. eapply Permutation_in; [symmetry|]; eauto. }
  unfold merge_all.
  pose proof (merge_all_spec (fg_ok_default m made_by_new) Hok) as H.
  pose proof (merge_all_spec (fg_ok_default m made_by_new) Hok') as H'.
  destruct (fold_left _ l (Some fg_default)) as [r|]; destruct (fold_left _ l' (Some fg_default)) as [r'|].
  - destruct H as (Hr & Hs & _), H' as (Hr' & Hs' & _). apply observe_ext; auto.
    intros p. apply (@wrapeq_small m); [|now apply (@size_at_lt m)|now apply (@size_at_lt m)].
    eapply wrapeq_trans; [apply Hs|]. apply wrapeq_sym. eapply wrapeq_trans; [apply Hs'|].
    apply wrapeq_of_eq. f_equal. apply sumN_perm, Permutation_map. now symmetry.
  - exfalso. destruct H' as [-> H']. destruct H as (Hr & Hs & Hc).
    rewrite <- (sumN_perm (Permutation_map fg_node_size Hp)) in H'.
    rewrite <- (sumN_perm (Permutation_map csum Hp)) in H'.
    specialize (Hs []). specialize (Hc eq_refl). cbn [wrapeq] in Hs.
    change (fun f => size_at f []) with fg_node_size in Hs. cbn [size_at] in Hs.
    destruct (fg_ok_inv Hr) as (_ & _ & N1 & _). destruct (fg_ok_debug Hr) as [_ N2].
    rewrite Hs in N1. rewrite Hc in N2.
    change (csum fg_default) with 0 in *. change (fg_node_size fg_default) with 0 in *. lia.
  - exfalso. destruct H as [-> H]. destruct H' as (Hr & Hs & Hc).
    rewrite (sumN_perm (Permutation_map fg_node_size Hp)) in H.
    rewrite (sumN_perm (Permutation_map csum Hp)) in H.
    specialize (Hs []). specialize (Hc eq_refl). cbn [wrapeq] in Hs.
    change (fun f => size_at f []) with fg_node_size in Hs. cbn [size_at] in Hs.
    destruct (fg_ok_inv Hr) as (_ & _ & N1 & _). destruct (fg_ok_debug Hr) as [_ N2].
    rewrite Hs in N1. rewrite Hc in N2.
    change (csum fg_default) with 0 in *. change (fg_node_size fg_default) with 0 in *. lia.
  - reflexivity.
Qed.

Ltac unf := repeat match goal with x := _ : fgexpr |- _ => unfold x; clear x end; unfold ex_expr; cbn [args_fit expr_keys].
Ltac new_keys := unf; unfold made_by_new, key_for_type_name; repeat split; eauto.
Ltac fit_args := unf; repeat split; apply small_lt; reflexivity.

Lemma C03_satisfiable_lemma : exists a b, fg_api Debug made_by_new a /\ fg_api Debug made_by_new b /\
  observe Debug (fg_add Debug a b) = Some (("x 3" ++ newline ++ "x;y 2" ++ newline ++ "z 1" ++ newline)%string, Some 6).
Proof.
  set (ea := XAddChild XDefault (key_new "x") (XAddChild (XAddSelf XDefault 1) (key_new "y") (XAddSelf XDefault 2))).
  set (eb := XAddChild (XAddChild XDefault (key_new "z") (XAddSelf XDefault 1)) (key_new "x") (XAddSelf XDefault 2)).
  destruct (fgeval Debug ea) as [a|] eqn:Ea; [|vm_compute in Ea; discriminate].
  destruct (fgeval Debug eb) as [b|] eqn:Eb; [|vm_compute in Eb; discriminate].
  exists a, b. split; [|split].
  - eapply fgeval_api; [| |exact Ea]; [fit_args | new_keys].
  - eapply fgeval_api; [| |exact Eb]; [fit_args | new_keys].
  - vm_compute in Ea. inversion Ea. vm_compute in Eb. inversion Eb. vm_compute. reflexivity.
Qed.

Lemma C04_write_is_listing_lemma m f : fg_api m made_by_new f -> exists L,
  listing (size_at f) L /\ fg_write f = concat_str (map folded_line L) /\
  sumN (map snd L) + size_at f [] = node_sum f.
Proof.
  intros Hf. apply fg_api_ok in Hf. exists (nonroot_lines f).
  split; [eapply nonroot_lines_listing; eauto|]. split; [apply fg_write_lines|].
  rewrite nonroot_sum. simpl. rewrite node_sum_csum. lia.
Qed.

Lemma C04_listing_unique_lemma size L L' : listing size L -> listing size L' -> L = L'.
Proof. now apply listing_unique. Qed.

Lemma C04_satisfiable_lemma : exists f, fg_api Debug made_by_new f /\
  fg_write f = ("a 12" ++ newline ++ "b;c 11" ++ newline)%string.
Proof.
  destruct (fgeval Debug ex_expr) as [g|] eqn:E; [|vm_compute in E; discriminate].
  exists g. split.
  - eapply fgeval_api; [apply ex_expr_fit | new_keys | exact E].
  - vm_compute in E. inversion E. vm_compute. reflexivity.
Qed.

Lemma C05_shuffle_lemma m f g : fg_api m made_by_new f -> shuffled f g ->
  fg_write g = fg_write f /\ fg_total_size m g = fg_total_size m f.
Proof. intros Hf. apply shuffled_observe. now apply fg_api_ok. Qed.

Lemma C05_history_lemma m f g : fg_api m made_by_new f -> fg_api m made_by_new g ->
  (forall p, size_at f p = size_at g p) ->
  fg_write f = fg_write g /\ fg_total_size m f = fg_total_size m g.
Proof.
  intros Hf Hg H. pose proof (observe_ext (fg_api_ok Hf) (fg_api_ok Hg) H) as E.
  unfold observe in E; simpl in E. inversion E. auto.
Qed.

Lemma C05_satisfiable_lemma : exists f g, fg_api Debug made_by_new f /\ shuffled f g /\ f <> g.
Proof.
  set (e := XAddChild (XAddChild XDefault (key_new "z") (XAddSelf XDefault 1)) (key_new "x") (XAddSelf XDefault 2)).
  destruct (fgeval Debug e) as [f|] eqn:Ef; [|vm_compute in Ef; discriminate].
  exists f, (FG [(key_new "x", FG [] 0 2); (key_new "z", FG [] 0 1)] 3 0). split; [|split].
  - eapply fgeval_api; [| |exact Ef]; [fit_args | new_keys].
  - vm_compute in Ef. inversion Ef. vm_compute.
    econstructor; [apply perm_swap|].
    repeat (econstructor; [econstructor; [apply perm_nil|constructor]|]). constructor.
  - vm_compute in Ef. inversion Ef. vm_compute. discriminate.
Qed.

Lemma C05_bad_key_refuted_lemma : exists f g, fg_api Debug any_key f /\ shuffled f g /\ fg_write g <> fg_write f.
Proof.
  set (e := XAddChild (XAddChild XDefault (key_new_unchecked 0 "x") (XAddSelf XDefault 1))
              (key_new_unchecked 1 "x") (XAddSelf XDefault 2)).
  destruct (fgeval Debug e) as [f|] eqn:Ef; [|vm_compute in Ef; discriminate].
  exists f, (FG [(key_new_unchecked 1 "x", FG [] 0 2); (key_new_unchecked 0 "x", FG [] 0 1)] 3 0). split; [|split].
  - eapply fgeval_api; [| |exact Ef]; [fit_args | apply expr_keys_any].
  - vm_compute in Ef. inversion Ef. vm_compute.
    econstructor; [apply perm_swap|].
    repeat (econstructor; [econstructor; [apply perm_nil|constructor]|]). constructor.
  - vm_compute in Ef. inversion Ef. vm_compute. discriminate.
Qed.

Lemma C06_write_parse_lemma m f :
  fg_api m (fun k => made_by_new k /\ frame_clean (k_str k)) f ->
  exists L, parse_folded (fg_write f) = Some L /\ listing (size_at f) L.
Proof.
  intros Hf. apply fg_api_ok in Hf. exists (nonroot_lines f). split.
  - eapply write_parse; exact Hf.
  - eapply nonroot_lines_listing. eapply fg_ok_mono; [|exact Hf]. intros k [H _]; exact H.
Qed.

Lemma C06_satisfiable_lemma : exists f, fg_api Debug (fun k => made_by_new k /\ frame_clean (k_str k)) f /\
  parse_folded (fg_write f) = Some [(["alloc::vec::Vec<(u8, u16)>"%string], 24); (["alloc::vec::Vec<(u8, u16)>"; "ptr"]%string, 8)].
Proof.
  set (e := XAddChild XDefault (key_new "alloc::vec::Vec<(u8, u16)>")
     (XAddChild (XAddSelf XDefault 24) (key_new "ptr") (XAddSelf XDefault 8))).
  destruct (fgeval Debug e) as [f|] eqn:Ef; [|vm_compute in Ef; discriminate].
  exists f. split.
  - eapply fgeval_api; [| |exact Ef]; [fit_args|].
    unfold e, made_by_new. cbn [expr_keys].
    repeat split; eauto; rewrite key_str_new; split; reflexivity.
  - vm_compute in Ef. inversion Ef. vm_compute. reflexivity.
Qed.

Lemma C07_type_name_refuted_lemma : exists f g,
  fg_api Debug made_by_new f /\ fg_api Debug made_by_new g /\
  size_at f [k_str (key_for_type_name "[u8; 4]")] = 4 /\
  size_at g [k_str (key_for_type_name "[u8; 4]")] = 0 /\
  fg_write f = fg_write g /\ parse_folded (fg_write f) <> Some [(["[u8; 4]"%string], 4)].
Proof.
  set (ef := XAddChild XDefault (key_for_type_name "[u8; 4]") (XAddSelf XDefault 4)).
  set (eg := XAddChild XDefault (key_new "[u8") (XAddChild XDefault (key_new " 4]") (XAddSelf XDefault 4))).
  destruct (fgeval Debug ef) as [f|] eqn:Ef; [|vm_compute in Ef; discriminate].
  destruct (fgeval Debug eg) as [g|] eqn:Eg; [|vm_compute in Eg; discriminate].
  exists f, g. split; [|split; [|split; [|split; [|split]]]].
  - eapply fgeval_api; [| |exact Ef]; [fit_args |].
    new_keys.
  - eapply fgeval_api; [| |exact Eg]; [fit_args | new_keys].
  - vm_compute in Ef. inversion Ef. vm_compute. reflexivity.
  - vm_compute in Eg. inversion Eg. vm_compute. reflexivity.
  - vm_compute in Ef. inversion Ef. vm_compute in Eg. inversion Eg. vm_compute. reflexivity.
  - vm_compute in Ef. inversion Ef. vm_compute. discriminate.
Qed.

Lemma C08_key_coherent_lemma a b : made_by_new a -> made_by_new b ->
  (key_eqb a b = true <-> a = b) /\
  (key_cmp a b = Eq <-> key_eqb a b = true) /\
  (key_deref a = key_deref b <-> key_eqb a b = true) /\
  (key_eqb a b = true -> key_hash_input a = key_hash_input b) /\
  (key_cmp b a = CompOpp (key_cmp a b)).
Proof.
  intros Ha Hb. apply made_by_new_ok in Ha, Hb. rewrite key_eqb_eq.
  unfold key_cmp, key_deref, key_hash_input. rewrite str_cmp_eq.
  split; [tauto|]. split; [|split; [|split]].
  - split; [now apply key_ok_inj | congruence].
  - split; [now apply key_ok_inj | congruence].
  - congruence.
  - apply str_cmp_antisym.
Qed.

Lemma str_cmp_bytes a b : str_cmp a b = Lt <-> bytes_lt a b.
Proof.
  unfold bytes_lt. revert b; induction a as [|x a IH]; intros [|y b];
    unfold bytes; cbn [list_ascii_of_string map bytes_lt_list str_cmp].
  - split; [discriminate | intros []].
  - tauto.
  - split; [discriminate | intros []].
  - fold (bytes a) (bytes b). rewrite <- IH. destruct (N.compare_spec (N_of_ascii x) (N_of_ascii y)) as [E|E|E].
    + split; [intros H; right; split; auto | intros [H|[_ H]]; [lia|auto]].
    + split; auto.
    + split; [discriminate | intros [H|[H _]]; lia].
Qed.

Lemma C08_key_order_lemma a b c :
  (key_cmp a b = Lt -> key_cmp b c = Lt -> key_cmp a c = Lt) /\
  (key_cmp a b = Lt <-> bytes_lt (k_str a) (k_str b)).
Proof. split; [apply str_cmp_lt_trans | apply str_cmp_bytes]. Qed.

Lemma C08_eq_implies_lemma a b : key_eqb a b = true ->
  key_cmp a b = Eq /\ key_hash_input a = key_hash_input b.
Proof. rewrite key_eqb_eq. intros ->. split; [apply str_cmp_refl | reflexivity]. Qed.

Lemma C08_new_unchecked_refuted_lemma : exists a b, k_str a = k_str b /\
  key_cmp a b = Eq /\ key_eqb a b = false.
Proof. exists (key_new_unchecked 0 "x"), (key_new "x"). vm_compute. auto. Qed.

Lemma C09_derive_key_lemma s :
  derive_key_opt s = Some (mkKey (fnv1a s) s) /\ key_new_opt s = Some (mkKey (fnv1a s) s).
Proof. rewrite derive_key_opt_eq. unfold key_new_opt. rewrite key_hash_fn_fnv. auto. Qed.

Lemma C39_release_mod_lemma e : args_fit e -> exists g, fgeval Release e = Some g /\
  (forall p, size_at g p mod two64 = put_at e p mod two64) /\
  fg_total_size Release g = Some (put_total e mod two64).
Proof.
  intros Hf.
  assert (Hex : exists g, fgeval Release e = Some g).
  { clear Hf. induction e as [|e IH n|e IHe k c IHc|e IHe c IHc]; cbn [fgeval].
    - eauto.
    - destruct IH as [f ->]. cbn [obind]. unfold fg_add_self. rewrite uadd_release. cbn [obind]. eauto.
    - destruct IHe as [f ->], IHc as [h ->]. cbn [obind]. apply fg_add_child_release.
    - destruct IHe as [f ->], IHc as [h ->]. cbn [obind]. apply fg_add_release. }
  destruct Hex as [g E]. exists g. split; [auto|].
  destruct (fgeval_spec Hf (expr_keys_any e) E) as (Ha & Hs & Ht). split; [exact Hs|].
  rewrite (fg_total_wrapped (fg_api_ok Ha)). simpl in *. now rewrite Ht.
Qed.

Lemma C39_satisfiable_lemma : exists e, args_fit e /\ two64 <= put_total e /\
  exists g, fgeval Release e = Some g /\ fg_total_size Release g = Some 5 /\ fgeval Debug e = None.
Proof.
  exists (XAddSelf (XAddSelf XDefault 18446744073709551615) 6). split; [|split].
  - cbn [args_fit]. rewrite two64_val. repeat split; reflexivity.
  - cbn [put_total]. rewrite two64_val. lia.
  - eexists. split; [vm_compute; reflexivity|]. split; vm_compute; reflexivity.
Qed.
