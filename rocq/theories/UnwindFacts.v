(** * Proofs for C62: the guards of destructors, the profile. *)
From Coq Require Import Lia.
From Verif Require Import Base BaseFacts KeyModel HMap FlameModel BuilderModel VisitorModel Spec ImplModel LockModel LockSpec LockFacts PoolModel DropModel DropSpec DropFacts UnwindModel UnwindSpec.

(** ** Where panics can be *)
Fixpoint resumes (todo : list uitem) : nat := match todo with [] => 0 | Resume :: t => S (resumes t) | _ :: t => resumes t end.
Lemma resumes_in todo : In Resume todo <-> (0 < resumes todo)%nat.
Proof.
  induction todo as [|i todo IH]; cbn; [split; [intros [] | lia]|]. destruct i; cbn; try (split; [intros [E|H]; [discriminate | now apply IH] | intros H; right; now apply IH]).
  split; [lia | auto].
Qed.
Definition running (c : config) : Prop := exists p, c_control c = Exec p.
Record orderly (d : ustate) : Prop := {
  or_raised : u_raised d = true -> resumes (u_todo d) = 0%nat;
  or_one : (resumes (u_todo d) <= 1)%nat;
  or_exec : u_raised d = true \/ (0 < resumes (u_todo d))%nat -> running (u_conf d);
  or_gone : u_todo d <> [] -> c_control (u_conf d) <> Gone
}.
Lemma vstep_dies_alive m std c c' x : vstep m std c c' -> dies (c_shared c) (c_shared c') x ->
  c_control c' <> Gone /\ (c_control c' = Unwind -> c_control c = Unwind).
Proof. intros H [D1 D2]. destruct H; cbn [c_shared c_control] in *; try contradiction; split; discriminate || auto. Qed.
Lemma start_orderly s b p : orderly (u_start s b p).
Proof. constructor; cbn; try discriminate; try lia; intros [E|E]; discriminate || lia. Qed.

Ltac ucases H := destruct H as [c c' HV HD|c c' x HV HD|c todo|c l a ok bad rest todo Ha|c l a body rest todo Ha Hp|c l a body rest todo Hf|c l a todo|c x t rest todo s' Hin -> HL|c x t rest todo s' Hin -> HL|c x t rest todo HN
  |c body cleanup rest todo|c cleanup todo|c todo HP|c todo HP|c skipped todo|c l a todo|c cleanup todo|c todo|c].

Lemma orderly_step m std dtor d d' : ustep m std dtor d d' -> orderly d -> orderly d'.
Proof.
  intros HS O. ucases HS; destruct O as [O1 O2 O3 O4]; cbn [u_conf u_todo u_raised resumes] in *.
  - constructor; cbn [u_conf u_todo u_raised resumes]; try discriminate; try lia; congruence.
  - constructor; cbn [u_conf u_todo u_raised resumes]; try discriminate; try lia. intros _; eapply vstep_dies_alive; eauto.
  - constructor; cbn [u_conf u_todo u_raised resumes]; auto; intros; apply O4; discriminate.
  - constructor; cbn [u_conf u_todo u_raised resumes]; auto. intros _. apply O4. discriminate.
  - constructor; cbn [u_conf u_todo u_raised resumes]; auto. intros _. apply O4. discriminate.
  - constructor; cbn [u_conf u_todo u_raised resumes]; auto. intros _. apply O4. discriminate.
  - constructor; cbn [u_conf u_todo u_raised resumes]; auto. intros _. apply O4. discriminate.
  - constructor; cbn [u_conf u_todo u_raised resumes]; auto. intros _. apply O4. discriminate.
  - constructor; cbn [u_conf u_todo u_raised resumes]; auto. intros _. apply O4. discriminate.
  - constructor; cbn [u_conf u_todo u_raised resumes]; auto. intros _. apply O4. discriminate.
  - constructor; cbn [u_conf u_todo u_raised resumes]; auto. intros _. apply O4. discriminate.
  - constructor; cbn [u_conf u_todo u_raised resumes]; auto. intros _. apply O4. discriminate.
  - assert (R0 : resumes todo = 0%nat).
    { destruct (resumes todo) eqn:E; [reflexivity|]. exfalso. apply HP. right. right. cbn. right. apply resumes_in. lia. }
    assert (X : running c).
    { unfold running. destruct (c_control c) as [q| |] eqn:E; [eauto | exfalso; apply HP; right; left; exact E | exfalso; apply O4; [discriminate | reflexivity]]. }
    constructor; cbn [u_conf u_todo u_raised resumes]; auto; try lia. intros _. apply O4. discriminate.
  - constructor; cbn [u_conf u_todo u_raised resumes]; try discriminate; try lia; congruence.
  - constructor; cbn [u_conf u_todo u_raised resumes]; auto. intros _. apply O4. discriminate.
  - constructor; cbn [u_conf u_todo u_raised resumes]; auto. intros _. apply O4. discriminate.
  - constructor; cbn [u_conf u_todo u_raised resumes]; try discriminate; [rewrite O1 by reflexivity; lia | intros _; apply O3; auto | intros _; apply O4; discriminate].
  - constructor; cbn [u_conf u_todo u_raised resumes]; try (intros; lia); [intros _; apply O3; right; lia | intros _; apply O4; discriminate].
  - constructor; cbn [u_conf u_todo u_raised resumes with_control c_control]; try discriminate; try lia.
Qed.
Lemma orderly_runs m std dtor d d' : uruns m std dtor d d' -> orderly d -> orderly d'.
Proof.
  induction 1 as [d|d d' d'' H _ IH|c todo r s' d'' H _ IH]; intros C; [exact C | apply IH; eapply orderly_step; eauto | apply IH].
  destruct C as [C1 C2 C3 C4]. now constructor.
Qed.
Lemma orderly_alone m std dtor d d' : u_alone m std dtor d d' -> orderly d -> orderly d'.
Proof. induction 1 as [d|d d' d'' H _ IH]; intros C; [exact C | apply IH; eapply orderly_step; eauto]. Qed.

(** ** The guards of destructors *)
Definition is_unlock (l : lock) (a : access) (i : uitem) : bool :=
  match i with Unlock l' a' => N.eqb l' l && access_eqb a' a | _ => false end.
Definition open_u (todo : list uitem) (l : lock) (a : access) : nat := length (filter (is_unlock l a) todo).
Definition u_counted (d : ustate) : Prop := c_control (u_conf d) <> Gone -> forall l a, own_guards (c_shared (u_conf d)) l a = open_u (u_todo d) l a.
Lemma open_in todo l a : In (Unlock l a) todo -> (0 < open_u todo l a)%nat.
Proof.
  intros H. unfold open_u. assert (X : In (Unlock l a) (filter (is_unlock l a) todo)).
  { apply filter_In. split; [exact H|]. cbn. now rewrite N.eqb_refl, access_refl. }
  destruct (filter _ _); [destruct X | cbn; lia].
Qed.
Lemma counted_owns d l a : u_counted d -> c_control (u_conf d) <> Gone -> u_holds d l a -> In (Other 0, a) (held (locks (c_shared (u_conf d)) l)).
Proof. intros H G HI. apply own_in. rewrite (H G). now apply open_in. Qed.
Lemma own_release s l a p l' a' : In (Other 0, a) (held (locks s l)) ->
  ((if N.eqb l' l && access_eqb a a' then 1 else 0) + own_guards (release s l (Other 0) a p) l' a')%nat = own_guards s l' a'.
Proof.
  intros Hin. unfold own_guards, release, set_lock. cbn [locks]. destruct (N.eqb_spec l' l) as [->|Hl]; cbn [andb held]; [apply own_remove_own, Hin | reflexivity].
Qed.
Lemma open_unlock todo l a l' a' : open_u (Unlock l a :: todo) l' a' = ((if N.eqb l' l && access_eqb a a' then 1 else 0) + open_u todo l' a')%nat.
Proof. unfold open_u. cbn [filter is_unlock]. rewrite (N.eqb_sym l l'). destruct (N.eqb l' l && access_eqb a a'); reflexivity. Qed.
Lemma u_counted_step m std dtor d d' : ustep m std dtor d d' -> orderly d -> u_counted d -> u_counted d'.
Proof.
  intros HS O H.
  ucases HS; intros G l' a'; cbn [u_conf u_todo u_raised with_shared with_control gone c_shared c_control] in *.
  - rewrite (own_vstep l' a' HV). apply H. intros E. cbn in E. destruct HV; cbn in *; discriminate.
  - rewrite (own_vstep l' a' HV). apply H. intros E. cbn in E. destruct HV; cbn in *; discriminate.
  - exact (H G l' a').
  - pose proof (H G l' a') as E. cbn [u_conf u_todo] in E. rewrite own_acquire, E. unfold open_u. cbn [filter is_unlock owner_eqb Nat.eqb]. rewrite andb_true_r, (N.eqb_sym l l').
    destruct (N.eqb l' l && access_eqb a a'); cbn [length]; lia.
  - pose proof (H G l' a') as E. cbn [u_conf u_todo] in E. rewrite own_acquire, E. unfold open_u. cbn [filter is_unlock owner_eqb Nat.eqb]. rewrite andb_true_r, (N.eqb_sym l l').
    destruct (N.eqb l' l && access_eqb a a'); cbn [length]; lia.
  - exact (H G l' a').
  - pose proof (H G l' a') as E. cbn [u_conf u_todo] in E. rewrite open_unlock in E. pose proof (@own_release (c_shared c) l a false l' a') as R.
    rewrite <- R in E; [lia|]. apply (@counted_owns (mkU c (Unlock l a :: todo) false) l a H G). now left.
  - exact (H G l' a').
  - exact (H G l' a').
  - exact (H G l' a').
  - exact (H G l' a').
  - exact (H G l' a').
  - exact (H G l' a').
  - congruence.
  - exact (H G l' a').
  - pose proof (H G l' a') as E. cbn [u_conf u_todo] in E. rewrite open_unlock in E. pose proof (@own_release (c_shared c) l a (std l && access_eqb a Exclusive) l' a') as R.
    rewrite <- R in E; [lia|]. apply (@counted_owns (mkU c (Unlock l a :: todo) true) l a H G). now left.
  - exact (H G l' a').
  - exact (H G l' a').
  - apply H. cbn. destruct (or_exec O (or_introl eq_refl)) as [p E]. cbn in E. congruence.
Qed.

(** ** To the visit a destructor is other code, until it panics *)
Lemma runs_one m std c s' : ostep (c_shared c) s' -> runs m std 0 c (with_shared c s').
Proof. intros H. destruct c as [s b k st]. unfold with_shared. cbn in *. eapply runs_other; [exact H | apply runs_refl]. Qed.
Lemma ustep_runs m std dtor d d' : ustep m std dtor d d' -> orderly d -> u_counted d ->
  (exists n, runs m std n (u_conf d) (u_conf d')) \/
  (exists p, c_control (u_conf d) = Exec p /\ u_conf d' = with_control (u_conf d) Unwind) \/ u_conf d' = gone (u_conf d).
Proof.
  intros HS O H.
  assert (G : u_todo d <> [] -> c_control (u_conf d) <> Gone) by apply (or_gone O).
  ucases HS; cbn [u_conf u_todo] in *; try (left; exists 0%nat; apply runs_refl); try (left; exists 1%nat; eapply runs_visit; [exact HV | apply runs_refl]).
  - left. exists 0%nat. apply runs_one. now apply o_acquire.
  - left. exists 0%nat. apply runs_one. now apply o_acquire.
  - left. exists 0%nat. apply runs_one. apply o_release. apply (@counted_owns (mkU c (Unlock l a :: todo) false) l a H); [apply G; discriminate | now left].
  - left. exists 0%nat. apply runs_one. now apply o_drop.
  - left. exists 0%nat. apply runs_one. now apply o_drop.
  - right. right. reflexivity.
  - left. exists 0%nat. apply runs_one. apply o_release. apply (@counted_owns (mkU c (Unlock l a :: todo) true) l a H); [apply G; discriminate | now left].
  - right. left. destruct (or_exec O (or_introl eq_refl)) as [p E]. eauto.
Qed.
Record steady (d : ustate) : Prop := { st_orderly : orderly d; st_counted : u_counted d; st_sound : sound (u_conf d) }.
Lemma steady_step m std dtor d d' : ustep m std dtor d d' -> steady d -> steady d'.
Proof.
  intros HS [O C S]. constructor; [eapply orderly_step; eauto | eapply u_counted_step; eauto|].
  destruct (ustep_runs HS O C) as [(n & R)|[(p & E1 & E2)|E]].
  - exact (sound_runs R S).
  - rewrite E2. unfold sound in *. cbn. intros _. apply S. congruence.
  - rewrite E. unfold sound. cbn. congruence.
Qed.
Lemma steady_other c todo r s' : outside 1 (c_shared c) s' -> steady (mkU c todo r) -> steady (mkU (with_shared c s') todo r).
Proof.
  intros H [O C S]. constructor.
  - destruct O as [C1 C2 C3 C4]. now constructor.
  - intros G l a. cbn [u_conf u_todo with_shared c_shared]. rewrite (own_outside l a H). apply C. exact G.
  - cbn [u_conf] in *. exact (sound_runs (@runs_one Debug (fun _ => true) c s' (outside_ostep H)) S).
Qed.
Lemma steady_runs m std dtor d d' : uruns m std dtor d d' -> steady d -> steady d'.
Proof.
  induction 1 as [d|d d' d'' H _ IH|c todo r s' d'' H _ IH]; intros C; [exact C | apply IH; eapply steady_step; eauto | apply IH; eapply steady_other; eauto].
Qed.
Lemma start_u_counted s b p : (forall l a, ~ In (Other 0, a) (held (locks s l))) -> u_counted (u_start s b p).
Proof. intros H _ l a. exact (@start_counted s b p H l a). Qed.
Lemma start_steady s b p : (forall l, lock_ok (locks s l)) -> holds_nothing s -> (forall l a, ~ In (Other 0, a) (held (locks s l))) -> steady (u_start s b p).
Proof. intros Hk Hn H0. constructor; [apply start_orderly | now apply start_u_counted | now apply start_sound]. Qed.

(** ** What is released *)
Lemma C62_released_lemma : forall m std dtor s b p d,
  (forall l, lock_ok (locks s l)) -> holds_nothing s -> (forall l a, ~ In (Other 0, a) (held (locks s l))) ->
  uruns m std dtor (u_start s b p) d -> u_over d -> c_control (u_conf d) <> Gone ->
  holds_nothing (c_shared (u_conf d)) /\ forall l a, ~ In (Other 0, a) (held (locks (c_shared (u_conf d)) l)).
Proof.
  intros m std dtor s b p d Hk Hn H0 HR (E & _ & HO) HG. destruct (steady_runs HR (@start_steady s b p Hk Hn H0)) as [O C S]. split.
  - specialize (S HG). assert (Es : c_stack (u_conf d) = []).
    { unfold over in HO. destruct (c_control (u_conf d)) as [q| |]; [|destruct (c_stack (u_conf d)); [reflexivity | contradiction]|congruence].
      destruct q, (c_stack (u_conf d)); try contradiction; reflexivity. }
    rewrite Es in S. destruct S as [_ SG SR]. split.
    + intros l a Hin. apply in_guards in Hin. rewrite SG in Hin. cbn in Hin. lia.
    + intros x Hin. apply refs_in in Hin. rewrite SR in Hin. cbn in Hin. lia.
  - intros l a Hin. specialize (C HG l a). rewrite E in C. cbn in C.
    assert (Y : In (Other 0, a) (filter (is_own a) (held (locks (c_shared (u_conf d)) l)))).
    { apply filter_In. split; [exact Hin|]. unfold is_own. cbn. apply access_refl. }
    unfold own_guards in C. destruct (filter _ _); [destruct Y | discriminate].
Qed.
