(** * Folded-stack text can be read back. *)
From Coq Require Import DecimalString DecimalN Decimal DecimalFacts.
From Verif Require Import Base BaseFacts KeyModel KeyFacts HMap FlameModel BuilderModel VisitorModel Spec FlameFacts WriteFacts.

Lemma has_char_app c a b : has_char c (a ++ b) = has_char c a || has_char c b.
Proof. induction a as [|x a IH]; simpl; [reflexivity|]. now rewrite IH, orb_assoc. Qed.

Lemma split_on_nonempty c s : split_on c s <> [].
Proof.
  induction s as [|x s IH]; simpl; [discriminate|].
  destruct (Ascii.eqb x c); [discriminate|]. destruct (split_on c s); discriminate.
Qed.

Lemma split_on_clean c s : has_char c s = false -> split_on c s = [s].
Proof.
  induction s as [|x s IH]; simpl; intros H; [reflexivity|].
  apply orb_false_iff in H as [H1 H2]. rewrite H1, (IH H2). reflexivity.
Qed.

Lemma split_on_app c a rest : has_char c a = false ->
  split_on c (a ++ String c rest) = a :: split_on c rest.
Proof.
  induction a as [|x a IH]; simpl; intros H.
  - now rewrite Ascii.eqb_refl.
  - apply orb_false_iff in H as [H1 H2]. rewrite H1, (IH H2). reflexivity.
Qed.

Lemma split_join p : p <> [] -> (forall s, In s p -> has_char semi_char s = false) ->
  split_on semi_char (join ";" p) = p.
Proof.
  induction p as [|a p IH]; [contradiction|]. intros _ H.
  destruct p as [|b p].
  - simpl. apply split_on_clean. apply H. now left.
  - change (join ";" (a :: b :: p)) with (a ++ String semi_char (join ";" (b :: p)))%string.
    rewrite split_on_app by (apply H; now left). f_equal. apply IH; [discriminate|].
    intros s Hs. apply H. now right.
Qed.

Lemma join_clean c p : Ascii.eqb semi_char c = false -> (forall s, In s p -> has_char c s = false) ->
  has_char c (join ";" p) = false.
Proof.
  intros Hc. induction p as [|a p IH]; intros H; [reflexivity|].
  destruct p as [|b p].
  - simpl. apply H. now left.
  - change (join ";" (a :: b :: p)) with (a ++ String semi_char (join ";" (b :: p)))%string.
    rewrite has_char_app. rewrite (H a) by now left.
    change (has_char c (String semi_char (join ";" (b :: p))))
      with (Ascii.eqb semi_char c || has_char c (join ";" (b :: p))).
    rewrite Hc. simpl orb. apply IH. intros s Hs. apply H. now right.
Qed.

Lemma digits_clean c d : N_of_ascii c < 48 \/ 57 < N_of_ascii c ->
  has_char c (NilEmpty.string_of_uint d) = false.
Proof.
  intros Hc. induction d; cbn [NilEmpty.string_of_uint has_char]; [reflexivity|..];
  rewrite IHd, orb_false_r;
  match goal with |- Ascii.eqb ?x c = false =>
    destruct (Ascii.eqb_spec x c) as [E|]; [subst c; exfalso; cbv in Hc; destruct Hc; discriminate | reflexivity] end.
Qed.

Lemma show_N_clean c n : N_of_ascii c < 48 \/ 57 < N_of_ascii c -> has_char c (show_N n) = false.
Proof.
  intros Hc. unfold show_N, NilZero.string_of_uint.
  destruct (N.to_uint n) eqn:E; try (apply digits_clean; exact Hc).
  cbn [has_char]. rewrite orb_false_r.
  destruct (Ascii.eqb_spec "0" c) as [Ec|]; [|reflexivity].
  subst c. exfalso. cbv in Hc. destruct Hc; discriminate.
Qed.

Lemma to_uint_nonnil n : N.to_uint n <> Nil.
Proof.
  intros E. assert (H : N.of_uint (N.to_uint n) = 0) by now rewrite E.
  rewrite Unsigned.of_to in H. subst n. discriminate E.
Qed.

Lemma read_show n : read_N (show_N n) = Some n.
Proof.
  unfold read_N, show_N. rewrite NilZero.usu by apply to_uint_nonnil.
  simpl. now rewrite Unsigned.of_to.
Qed.

Lemma split_last_space_clean s : has_char space_char s = false -> split_last_space s = None.
Proof.
  induction s as [|x s IH]; cbn [split_last_space has_char]; intros H; [reflexivity|].
  apply orb_false_iff in H as [H1 H2]. rewrite (IH H2), H1. reflexivity.
Qed.

Lemma split_last_space_app a b : has_char space_char b = false ->
  split_last_space (a ++ String space_char b) = Some (a, b).
Proof.
  intros H. induction a as [|x a IH].
  - cbn [append split_last_space]. rewrite (split_last_space_clean H), Ascii.eqb_refl. reflexivity.
  - cbn [append split_last_space]. now rewrite IH.
Qed.

Definition line_body (pn : path * N) : string := (join ";" (fst pn) ++ " " ++ show_N (snd pn))%string.

Definition line_ok (pn : path * N) : Prop := fst pn <> [] /\ forall s, In s (fst pn) -> frame_clean s.

Lemma parse_line_body pn : line_ok pn -> parse_line (line_body pn) = Some pn.
Proof.
  intros [Hne Hcl]. unfold parse_line, line_body.
  change (join ";" (fst pn) ++ " " ++ show_N (snd pn))%string
    with (join ";" (fst pn) ++ String space_char (show_N (snd pn)))%string.
  rewrite split_last_space_app by (apply show_N_clean; left; reflexivity).
  rewrite read_show, split_join; auto.
  - destruct pn; reflexivity.
  - intros s Hs. apply (Hcl s Hs).
Qed.

Lemma line_body_clean pn : line_ok pn -> has_char nl_char (line_body pn) = false.
Proof.
  intros [Hne Hcl]. unfold line_body. rewrite has_char_app.
  rewrite join_clean; [|reflexivity|intros s Hs; apply (Hcl s Hs)].
  change (" " ++ show_N (snd pn))%string with (String space_char (show_N (snd pn))).
  cbn [has_char]. rewrite show_N_clean by (left; reflexivity). reflexivity.
Qed.

Lemma folded_line_body pn rest :
  (folded_line pn ++ rest = line_body pn ++ String nl_char rest)%string.
Proof. unfold folded_line, line_body. now rewrite !str_app_assoc. Qed.

Lemma split_lines L : (forall pn, In pn L -> line_ok pn) ->
  removelast (split_on nl_char (concat_str (map folded_line L))) = map line_body L.
Proof.
  induction L as [|pn L IH]; intros H; [reflexivity|].
  cbn [map concat_str]. rewrite folded_line_body, split_on_app by (apply line_body_clean, H; now left).
  cbn [removelast]. destruct (split_on nl_char (concat_str (map folded_line L))) eqn:E.
  - exfalso. eapply split_on_nonempty; eauto.
  - f_equal. apply IH. intros; apply H; now right.
Qed.

Lemma parse_folded_lines L : (forall pn, In pn L -> line_ok pn) ->
  parse_folded (concat_str (map folded_line L)) = Some L.
Proof.
  intros H. unfold parse_folded. rewrite split_lines by auto.
  induction L as [|pn L IH]; [reflexivity|]. cbn [map parse_lines].
  rewrite parse_line_body by (apply H; now left). rewrite IH by (intros; apply H; now right). reflexivity.
Qed.

(** Every frame in a graph comes from one of its keys. *)
Lemma rel_lines_frames m (K : key -> Prop) f : fg_ok m K f ->
  forall p n s, In (p, n) (rel_lines f) -> In s p -> exists k, K k /\ k_str k = s.
Proof.
  induction f as [cs cz nz IH] using fg_ind'. intros Hok p n s Hin Hs.
  destruct (fg_ok_inv Hok) as (_ & Hch & _). cbn [fg_children] in Hch.
  rewrite rel_lines_eq in Hin. cbn [fg_node_size fg_children] in Hin.
  apply in_app_or in Hin as [Hin|Hin].
  - destruct (N.eqb nz 0); [destruct Hin | destruct Hin as [E|[]]]. inversion E; subst. destruct Hs.
  - apply in_flat_map in Hin as ([k c] & Hk & Hin). apply in_map_iff in Hin as ([p' n'] & E & Hin).
    simpl in E, Hin. inversion E; subst.
    apply (Permutation.Permutation_in _ (sort_perm cs)) in Hk.
    destruct (Hch _ _ Hk) as [HK Hc]. destruct Hs as [<-|Hs]; [eauto|].
    eapply IH; eauto.
Qed.

Definition clean_new (k : key) : Prop := made_by_new k /\ frame_clean (k_str k).

Lemma write_parse m f : fg_ok m clean_new f -> parse_folded (fg_write f) = Some (nonroot_lines f).
Proof.
  intros Hok. rewrite fg_write_lines. apply parse_folded_lines. intros [p n] Hin.
  unfold nonroot_lines in Hin. apply filter_In in Hin as [Hin Hnr]. unfold nonroot in Hnr. simpl in Hnr.
  split; simpl.
  - destruct p; discriminate.
  - intros s Hs. destruct (rel_lines_frames Hok Hin Hs) as (k & [_ Hk] & <-). exact Hk.
Qed.

(** Decoded frames never contain a separator. *)
Lemma in_push_char c x l : In x (push_char c l) -> exists y, (In y l \/ y = EmptyString) /\ (x = String c y \/ In x l).
Proof.
  destruct l as [|y l]; cbn [push_char].
  - intros [<-|[]]. exists EmptyString. auto.
  - intros [<-|H]; [exists y; cbn; auto | exists y; cbn; auto].
Qed.

Lemma split_on_pieces c s x : In x (split_on c s) -> has_char c x = false.
Proof.
  revert x. induction s as [|a s IH]; intros x; cbn [split_on]; [intros [<-|[]]; reflexivity|].
  destruct (Ascii.eqb a c) eqn:E; [intros [<-|H]; [reflexivity | auto]|].
  intros H. apply in_push_char in H as (y & Hy & [-> | Hx]); [|auto]. cbn [has_char]. rewrite E. destruct Hy as [Hy | ->]; [now apply IH | reflexivity].
Qed.

Lemma split_on_keeps c d s x : has_char d s = false -> In x (split_on c s) -> has_char d x = false.
Proof.
  revert x. induction s as [|a s IH]; intros x Hd; cbn [split_on]; [intros [<-|[]]; reflexivity|].
  cbn [has_char] in Hd. apply orb_false_iff in Hd as [H1 H2]. destruct (Ascii.eqb a c) eqn:E; [intros [<-|H]; [reflexivity | auto]|].
  intros H. apply in_push_char in H as (y & Hy & [-> | Hx]); [|auto]. cbn [has_char]. rewrite H1. destruct Hy as [Hy | ->]; [now apply IH | reflexivity].
Qed.

Lemma split_last_space_keeps d s a b : has_char d s = false -> split_last_space s = Some (a, b) -> has_char d a = false.
Proof.
  revert a b. induction s as [|x s IH]; intros a b Hd; cbn [split_last_space]; [discriminate|].
  cbn [has_char] in Hd. apply orb_false_iff in Hd as [H1 H2]. destruct (split_last_space s) as [[a' b']|].
  - intros [= <- <-]. cbn [has_char]. rewrite H1. eapply IH; eauto.
  - destruct (Ascii.eqb x space_char); [|discriminate]. intros [= <- <-]. reflexivity.
Qed.

Lemma in_removelast {A} (x : A) l : In x (removelast l) -> In x l.
Proof.
  induction l as [|y l IH]; [auto|]. destruct l as [|z l]; [intros []|]. cbn [removelast]. intros [<-|H]; [now left | right; auto].
Qed.

Lemma parse_lines_in ls L pn : parse_lines ls = Some L -> In pn L -> exists s, In s ls /\ parse_line s = Some pn.
Proof.
  revert L. induction ls as [|s ls IH]; intros L; cbn [parse_lines]; [intros [= <-] []|].
  destruct (parse_line s) as [a|] eqn:E; [|discriminate]. destruct (parse_lines ls) as [r|]; [|discriminate].
  intros [= <-] [<-|H]; [exists s; split; [now left | exact E]|]. destruct (IH r eq_refl H) as (s' & H1 & H2). exists s'. split; [now right | exact H2].
Qed.

Lemma parse_folded_clean s L p n : parse_folded s = Some L -> In (p, n) L -> Forall frame_clean p.
Proof.
  unfold parse_folded. intros E Hin. destruct (parse_lines_in E Hin) as (ln & Hl & Hp).
  apply in_removelast in Hl. pose proof (split_on_pieces Hl) as Hnl. unfold parse_line in Hp.
  destruct (split_last_space ln) as [[st ct]|] eqn:El; [|discriminate]. destruct (read_N ct); [|discriminate].
  inversion Hp; subst. apply Forall_forall. intros f Hf. split; [eapply split_on_pieces; eauto|].
  eapply split_on_keeps; [|eauto]. eapply split_last_space_keeps; eauto.
Qed.

Lemma decodable_iff (size : path -> N) L : listing size L ->
  ((exists L', parse_folded (concat_str (map folded_line L)) = Some L' /\ listing size L') <->
   forall p, p <> [] -> 0 < size p -> Forall frame_clean p).
Proof.
  intros HL. split.
  - intros (L' & HP & HL') p Hp Hs. eapply parse_folded_clean; [exact HP|]. apply (proj2 HL'). repeat split; eauto.
  - intros H. exists L. split; [|exact HL]. apply parse_folded_lines. intros [p n] Hin. apply (proj2 HL) in Hin as (H1 & H2 & <-).
    split; cbn [fst]; [exact H1|]. specialize (H p H1 H2). rewrite Forall_forall in H. exact H.
Qed.
