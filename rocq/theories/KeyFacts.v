(** * Lemmas about keys. *)
From Verif Require Import Base BaseFacts KeyModel Spec.

Lemma get_app_length (a : string) c (s : string) :
  String.get (String.length a) (a ++ String c s) = Some c.
Proof. induction a as [|x a IH]; simpl; auto. Qed.

Lemma two64_pow : two64 = 2 ^ 64. Proof. reflexivity. Qed.

Lemma key_hash_loop_fold s : forall done h,
  key_hash_loop (String.length s) (done ++ s) (String.length done) h =
  Some (fold_left (fun h b => (N.lxor h (N_of_ascii b) * 1099511628211) mod 2 ^ 64)
          (list_ascii_of_string s) h).
Proof.
  induction s as [|c s IH]; intros done h; [reflexivity|].
  cbn [String.length key_hash_loop list_ascii_of_string fold_left].
  rewrite get_app_length.
  specialize (IH (done ++ String c EmptyString)%string).
  rewrite str_app_assoc in IH. cbn [append] in IH.
  replace (String.length (done ++ String c EmptyString)%string) with (S (String.length done)) in IH.
  - rewrite IH, two64_pow. reflexivity.
  - clear. induction done; simpl; auto.
Qed.

Lemma derive_hash_loop_eq fuel s i h : derive_hash_loop fuel s i h = key_hash_loop fuel s i h.
Proof. revert i h; induction fuel as [|f IH]; intros i h; simpl; [reflexivity|].
  destruct (String.get i s); auto. Qed.

Lemma key_hash_fn_fnv s : key_hash_fn s = Some (fnv1a s).
Proof. unfold key_hash_fn, fnv1a. exact (key_hash_loop_fold s "" 14695981039346656037). Qed.

Lemma key_new_opt_new s : key_new_opt s = Some (key_new s).
Proof. unfold key_new, key_new_opt. rewrite key_hash_fn_fnv. reflexivity. Qed.

Lemma key_new_eq s : key_new s = mkKey (fnv1a s) s.
Proof. unfold key_new, key_new_opt. rewrite key_hash_fn_fnv. reflexivity. Qed.

Lemma derive_hash_eq s : derive_hash s = key_hash_fn s.
Proof. apply derive_hash_loop_eq. Qed.

Lemma derive_key_opt_eq s : derive_key_opt s = key_new_opt s.
Proof. unfold derive_key_opt, key_new_opt. now rewrite derive_hash_eq. Qed.

Lemma derive_key_eq s : derive_key s = key_new s.
Proof. unfold derive_key, key_new. now rewrite derive_key_opt_eq. Qed.

Lemma key_str_new s : k_str (key_new s) = s.
Proof. now rewrite key_new_eq. Qed.

(** Keys made by [Key::new] (or by the derive macro). *)
Definition key_ok (k : key) : Prop := k = key_new (k_str k).

Lemma key_ok_new s : key_ok (key_new s).
Proof. unfold key_ok. now rewrite key_str_new. Qed.

Lemma key_ok_inj k k' : key_ok k -> key_ok k' -> k_str k = k_str k' -> k = k'.
Proof. unfold key_ok; intros -> -> H; rewrite !key_str_new in H; now rewrite H. Qed.

Lemma key_eqb_eq a b : key_eqb a b = true <-> a = b.
Proof.
  unfold key_eqb. rewrite andb_true_iff, N.eqb_eq, String.eqb_eq.
  destruct a, b; simpl; split; [intros [-> ->]; reflexivity | intros E; inversion E; auto].
Qed.

Lemma key_eqb_refl a : key_eqb a a = true. Proof. now apply key_eqb_eq. Qed.
Lemma key_eqb_neq a b : key_eqb a b = false <-> a <> b.
Proof. rewrite <- key_eqb_eq. destruct (key_eqb a b); split; congruence. Qed.

Definition key_eq_dec (a b : key) : {a = b} + {a <> b}.
Proof. destruct (key_eqb a b) eqn:E; [left; now apply key_eqb_eq | right; now apply key_eqb_neq]. Defined.
