(** * Properties of keys and flame graphs (C01-C09, C39). *)
From Coq Require Import Permutation Sorted.
From Verif Require Import Base BaseFacts KeyModel KeyFacts HMap FlameModel BuilderModel VisitorModel Spec
  FlameFacts WriteFacts ParseFacts FlameExtra.

(** ** C01: [total_size] is the sum of the own bytes of all nodes, for every
    graph obtainable with the API and for every graph nested in it. *)
Theorem C01_total_size_exact : forall m f g, fg_api m any_key f -> within g f ->
  fg_total_size m g = wrapped m (node_sum g).
Proof. exact C01_total_size_exact_lemma. Qed.
Print Assumptions C01_total_size_exact.

(** ... and equals what the client put in. *)
Theorem C01_total_size_of_history : forall m e g, args_fit e -> fgeval m e = Some g ->
  fg_total_size m g = wrapped m (put_total e).
Proof. exact C01_total_size_of_history_lemma. Qed.
Print Assumptions C01_total_size_of_history.

(** If everything put in fits in 64 bits, no operation panics, and every
    reported number is exact in both build modes. *)
Theorem C01_no_overflow_below_2_64 : forall e, put_total e < two64 ->
  exists g, (forall m, fgeval m e = Some g) /\ (forall p, size_at g p = put_at e p) /\
            (forall m, fg_total_size m g = Some (put_total e)).
Proof. exact fgeval_fits. Qed.
Print Assumptions C01_no_overflow_below_2_64.

Example C01_satisfiable :
  put_total ex_expr < two64 /\ args_fit ex_expr /\
  exists g, fgeval Debug ex_expr = Some g /\ fg_api Debug any_key g /\ node_sum g = 26.
Proof. exact C01_satisfiable_lemma. Qed.

(** ** C02: merging is pointwise addition. *)
Theorem C02_add_pointwise : forall m a b c, fg_api m any_key a -> fg_api m any_key b ->
  fg_add m a b = Some c -> forall p, wrapeq m (size_at c p) (size_at a p + size_at b p).
Proof. exact C02_add_pointwise_lemma. Qed.
Print Assumptions C02_add_pointwise.

Theorem C02_add_child_pointwise : forall m a k b c, fg_api m any_key a -> fg_api m any_key b ->
  fg_add_child m a k b = Some c -> forall p,
  wrapeq m (size_at c p)
    (size_at a p + match p with
                   | [] => 0
                   | s :: p' => if String.eqb (k_str k) s then size_at b p' else 0
                   end).
Proof. exact C02_add_child_pointwise_lemma. Qed.
Print Assumptions C02_add_child_pointwise.

Theorem C02_add_self_pointwise : forall m a n c, fg_add_self m a n = Some c -> forall p,
  wrapeq m (size_at c p) (size_at a p + match p with [] => n | _ :: _ => 0 end).
Proof. exact C02_add_self_pointwise_lemma. Qed.
Print Assumptions C02_add_self_pointwise.

(** Whole histories: the bytes at each path are what was put there. *)
Theorem C02_history_pointwise : forall m e g, args_fit e -> fgeval m e = Some g ->
  forall p, wrapeq m (size_at g p) (put_at e p).
Proof. exact C02_history_pointwise_lemma. Qed.
Print Assumptions C02_history_pointwise.

(** With overflow checks, merging panics exactly when an own size or the total
    below the root does not fit. *)
Theorem C02_add_panics_iff : forall a b, fg_api Debug any_key a -> fg_api Debug any_key b ->
  (fg_add Debug a b = None <->
   two64 <= size_at a [] + size_at b [] \/
   two64 <= (node_sum a - size_at a []) + (node_sum b - size_at b [])).
Proof. exact C02_add_panics_iff_lemma. Qed.
Print Assumptions C02_add_panics_iff.

(** Two graphs, merged; and a merge that panics. *)
Example C02_satisfiable : exists a b c, fg_api Debug any_key a /\ fg_api Debug any_key b /\ fg_add Debug a b = Some c /\
  size_at a ["x"; "y"]%string = 2 /\ size_at b ["x"; "y"]%string = 5 /\ size_at c ["x"; "y"]%string = 7 /\ size_at c ["x"%string] = 1 /\
  exists d e, fg_api Debug any_key d /\ fg_api Debug any_key e /\ fg_add Debug d e = None.
Proof.
  pose (lf n := FG [] 0 n). pose (g := fun n k => FG [(key_new "x", FG [(key_new "y", lf n)] n k)] (k + n) 0).
  assert (L : forall n, n < two64 -> fg_api Debug any_key (lf n)).
  { intros n Hn. eapply api_add_self; [constructor | exact Hn|]. unfold fg_add_self, uadd. cbn [fg_node_size fg_default fg_children fg_children_size]. rewrite N.add_0_l. apply N.ltb_lt in Hn. rewrite Hn. reflexivity. }
  assert (G : forall n k, n + k < two64 -> fg_api Debug any_key (g n k)).
  { intros n k H. assert (A : fg_api Debug any_key (FG [(key_new "y", lf n)] n k)).
    { eapply api_add_child; [apply (L k); lia | exact I | apply (L n); lia|]. unfold fg_add_child, fg_total_size, uadd. cbn [fg_node_size fg_children_size lf obind].
      rewrite N.add_0_r. replace (n <? two64) with true by (symmetry; apply N.ltb_lt; lia). cbn [obind]. rewrite N.add_0_l. replace (n <? two64) with true by (symmetry; apply N.ltb_lt; lia). reflexivity. }
    eapply api_add_child; [constructor | exact I | exact A|]. unfold fg_add_child, fg_total_size, uadd. cbn [fg_node_size fg_children_size obind fg_default].
    replace (k + n <? two64) with true by (symmetry; apply N.ltb_lt; lia). cbn [obind]. rewrite N.add_0_l. replace (k + n <? two64) with true by (symmetry; apply N.ltb_lt; lia). reflexivity. }
  exists (g 2 1), (g 5 0). eexists. split; [apply G; reflexivity|]. split; [apply G; reflexivity|]. split; [vm_compute; reflexivity|].
  repeat (split; [vm_compute; reflexivity|]). exists (lf (two64 - 1)), (lf 1). split; [apply L; reflexivity|]. split; [apply L; reflexivity|]. vm_compute. reflexivity.
Qed.

(** ** C03: merging is a commutative monoid up to observation, panics included. *)
Theorem C03_add_comm : forall m a b, fg_api m made_by_new a -> fg_api m made_by_new b ->
  observe m (fg_add m a b) = observe m (fg_add m b a).
Proof. exact C03_add_comm_lemma. Qed.
Print Assumptions C03_add_comm.

Theorem C03_add_assoc : forall m a b c,
  fg_api m made_by_new a -> fg_api m made_by_new b -> fg_api m made_by_new c ->
  observe m (do ab <- fg_add m a b; fg_add m ab c) =
  observe m (do bc <- fg_add m b c; fg_add m a bc).
Proof. exact C03_add_assoc_lemma. Qed.
Print Assumptions C03_add_assoc.

Theorem C03_add_default : forall m a, fg_api m made_by_new a ->
  observe m (fg_add m a fg_default) = observe m (Some a) /\
  observe m (fg_add m fg_default a) = observe m (Some a).
Proof. exact C03_add_default_lemma. Qed.
Print Assumptions C03_add_default.

(** Merging any list of graphs in any order gives the same observation. *)
Theorem C03_merge_order : forall m l l', Permutation l l' -> Forall (fg_api m made_by_new) l ->
  observe m (merge_all m l) = observe m (merge_all m l').
Proof. exact C03_merge_order_lemma. Qed.
Print Assumptions C03_merge_order.

Example C03_satisfiable : exists a b, fg_api Debug made_by_new a /\ fg_api Debug made_by_new b /\
  observe Debug (fg_add Debug a b) = Some (("x 3" ++ newline ++ "x;y 2" ++ newline ++ "z 1" ++ newline)%string, Some 6).
Proof. exact C03_satisfiable_lemma. Qed.

(** ** C04: [write] is the sorted listing of the non-zero paths. *)
Theorem C04_write_is_listing : forall m f, fg_api m made_by_new f -> exists L,
  listing (size_at f) L /\ fg_write f = concat_str (map folded_line L) /\
  sumN (map snd L) + size_at f [] = node_sum f.
Proof. exact C04_write_is_listing_lemma. Qed.
Print Assumptions C04_write_is_listing.

(** Only one listing exists, so the text is determined by the sizes. *)
Theorem C04_listing_unique : forall size L L', listing size L -> listing size L' -> L = L'.
Proof. exact C04_listing_unique_lemma. Qed.
Print Assumptions C04_listing_unique.

Example C04_satisfiable : exists f, fg_api Debug made_by_new f /\
  fg_write f = ("a 12" ++ newline ++ "b;c 11" ++ newline)%string.
Proof. exact C04_satisfiable_lemma. Qed.

(** ** C05: no dependence on hash iteration order or history. *)
Theorem C05_shuffle : forall m f g, fg_api m made_by_new f -> shuffled f g ->
  fg_write g = fg_write f /\ fg_total_size m g = fg_total_size m f.
Proof. exact C05_shuffle_lemma. Qed.
Print Assumptions C05_shuffle.

Theorem C05_history : forall m f g, fg_api m made_by_new f -> fg_api m made_by_new g ->
  (forall p, size_at f p = size_at g p) ->
  fg_write f = fg_write g /\ fg_total_size m f = fg_total_size m g.
Proof. exact C05_history_lemma. Qed.
Print Assumptions C05_history.

Example C05_satisfiable : exists f g, fg_api Debug made_by_new f /\ shuffled f g /\ f <> g.
Proof. exact C05_satisfiable_lemma. Qed.

(** With [Key::new_unchecked] and a wrong hash the order of lines does depend
    on the iteration order. *)
Theorem C05_bad_key_refuted : exists f g, fg_api Debug any_key f /\ shuffled f g /\ fg_write g <> fg_write f.
Proof. exact C05_bad_key_refuted_lemma. Qed.
Print Assumptions C05_bad_key_refuted.

(** ** C06: the text decodes to the recorded stacks. *)
Theorem C06_write_parse : forall m f,
  fg_api m (fun k => made_by_new k /\ frame_clean (k_str k)) f ->
  exists L, parse_folded (fg_write f) = Some L /\ listing (size_at f) L.
Proof. exact C06_write_parse_lemma. Qed.
Print Assumptions C06_write_parse.

Example C06_satisfiable : exists f, fg_api Debug (fun k => made_by_new k /\ frame_clean (k_str k)) f /\
  parse_folded (fg_write f) = Some [(["alloc::vec::Vec<(u8, u16)>"%string], 24); (["alloc::vec::Vec<(u8, u16)>"; "ptr"]%string, 8)].
Proof. exact C06_satisfiable_lemma. Qed.

(** Exactly then: the text of a graph can be decoded iff no stack it shows has a
    frame with a separator in it. *)
Theorem C06_decodable_iff : forall m f, fg_api m made_by_new f ->
  ((exists L, parse_folded (fg_write f) = Some L /\ listing (size_at f) L) <->
   forall p, p <> [] -> 0 < size_at f p -> Forall frame_clean p).
Proof.
  intros m f Hf. destruct (C04_write_is_listing Hf) as (L & HL & -> & _). now apply decodable_iff.
Qed.
Print Assumptions C06_decodable_iff.

(** ** C07: array type names break decodability. *)
Theorem C07_type_name_refuted : exists f g,
  fg_api Debug made_by_new f /\ fg_api Debug made_by_new g /\
  size_at f [k_str (key_for_type_name "[u8; 4]")] = 4 /\
  size_at g [k_str (key_for_type_name "[u8; 4]")] = 0 /\
  fg_write f = fg_write g /\ parse_folded (fg_write f) <> Some [(["[u8; 4]"%string], 4)].
Proof. exact C07_type_name_refuted_lemma. Qed.
Print Assumptions C07_type_name_refuted.

(** ** C08: coherence of [Eq], [Ord], [Hash] on keys made by [Key::new]. *)
Theorem C08_key_coherent : forall a b, made_by_new a -> made_by_new b ->
  (key_eqb a b = true <-> a = b) /\
  (key_cmp a b = Eq <-> key_eqb a b = true) /\
  (key_deref a = key_deref b <-> key_eqb a b = true) /\
  (key_eqb a b = true -> key_hash_input a = key_hash_input b) /\
  (key_cmp b a = CompOpp (key_cmp a b)).
Proof. exact C08_key_coherent_lemma. Qed.
Print Assumptions C08_key_coherent.

Theorem C08_key_order : forall a b c,
  (key_cmp a b = Lt -> key_cmp b c = Lt -> key_cmp a c = Lt) /\
  (key_cmp a b = Lt <-> bytes_lt (k_str a) (k_str b)).
Proof. exact C08_key_order_lemma. Qed.
Print Assumptions C08_key_order.

(** Any two keys, honest or not: [==] implies [cmp = Equal] and equal hashes. *)
Theorem C08_eq_implies : forall a b, key_eqb a b = true ->
  key_cmp a b = Eq /\ key_hash_input a = key_hash_input b.
Proof. exact C08_eq_implies_lemma. Qed.
Print Assumptions C08_eq_implies.

Theorem C08_new_unchecked_refuted : exists a b, k_str a = k_str b /\
  key_cmp a b = Eq /\ key_eqb a b = false.
Proof. exact C08_new_unchecked_refuted_lemma. Qed.
Print Assumptions C08_new_unchecked_refuted.

Example C08_satisfiable : made_by_new (key_new "a") /\ made_by_new (key_new "ab") /\
  key_eqb (key_new "a") (key_new "a") = true /\ key_eqb (key_new "a") (key_new "ab") = false /\
  key_cmp (key_new "a") (key_new "ab") = Lt /\ key_cmp (key_new "ab") (key_new "b") = Lt.
Proof. repeat split; try (vm_compute; reflexivity); unfold made_by_new; eauto. Qed.

(** ** C09: derive-time keys are run-time keys, FNV-1a. *)
Theorem C09_derive_key : forall s,
  derive_key_opt s = Some (mkKey (fnv1a s) s) /\ key_new_opt s = Some (mkKey (fnv1a s) s).
Proof. exact C09_derive_key_lemma. Qed.
Print Assumptions C09_derive_key.

Example C09_known_vectors : (* FNV-1a 64 test vectors *)
  fnv1a "" = 0xcbf29ce484222325 /\ fnv1a "a" = 0xaf63dc4c8601ec8c /\ fnv1a "foobar" = 0x85944171f73967e8.
Proof. vm_compute. auto. Qed.

(** ** C39: without overflow checks nothing panics and every number is right
    modulo 2^64. *)
Theorem C39_release_mod : forall e, args_fit e -> exists g, fgeval Release e = Some g /\
  (forall p, size_at g p mod two64 = put_at e p mod two64) /\
  fg_total_size Release g = Some (put_total e mod two64).
Proof. exact C39_release_mod_lemma. Qed.
Print Assumptions C39_release_mod.

Example C39_satisfiable : exists e, args_fit e /\ two64 <= put_total e /\
  exists g, fgeval Release e = Some g /\ fg_total_size Release g = Some 5 /\ fgeval Debug e = None.
Proof. exact C39_satisfiable_lemma. Qed.
