(** * Lemmas for properties C64, C65, C66: a visit does not wait for itself. *)
From Coq Require Import Lia.
From Verif Require Import Base BaseFacts KeyModel KeyFacts HMap FlameModel BuilderModel BuilderFacts VisitorModel Spec LayoutModel ImplModel SizeOfModel
  LockModel LockSpec LockFacts SnapshotModel DashModel DashSpec MixModel MixSpec MixGuard SizeMixModel SizeMixSpec SizeMixGuard MixPoolModel MixPoolSpec MixApartSpec.

#[local] Arguments key_new : simpl never.

Section Apart.
Variable shard : lock -> Prop.
Notation apart := (apart shard).
Notation mem_apart := (mem_apart shard).

(** The code takes no shard as if it were another lock, and reads shards only. *)
Fixpoint xsep (p : xcode) : Prop :=
  match p with
  | XRet | XCrash => True
  | XInline _ _ b r | XUnique _ _ b r | XUpgrade _ b r => xsep b /\ xsep r
  | XShared _ _ _ r => xsep r
  | XTry l _ _ r => ~ shard l /\ xsep r
  | XVisit v r => apart v /\ xsep r
  | XSum _ ls _ k => (forall l, In l ls -> shard l) /\ forall n, xsep (k n)
  | XIter _ ls r => (forall l, In l ls -> shard l) /\ xsep r
  end.
Definition fsep (f : xframe) : Prop :=
  match f with
  | YScope r | YArc _ r | YThen r => xsep r
  | YGuard l _ r => ~ shard l /\ xsep r
  | YShard _ _ ls r => (forall l, In l ls -> shard l) /\ xsep r
  end.
Definition csep (c : xconf) : Prop :=
  match xk_control c with XRun p => xsep p | _ => True end /\ Forall fsep (xk_stack c).

Lemma xcalls_sep cs p : (forall c, In c cs -> apart c) -> xsep (xcalls cs p).
Proof.
  intros H. induction p as [| |k n b IHb r IHr|k n b IHb r IHr|k n x b IHb r1 IHr1 r2 IHr2]; cbn; auto.
  destruct (nth_error cs (N.to_nat x)) as [c|] eqn:E; [|exact IHr1]. split; [apply H; eapply nth_error_In, E | exact IHr1].
Qed.
Lemma xpointers_sep p : xsep (xpointers p).
Proof. induction p; cbn; auto. Qed.
Lemma xwith_sep o f : (forall n, xsep (f n)) -> xsep (xwith o f).
Proof. intros H. destruct o; cbn; auto. Qed.
Lemma xentries_sep kd es : (forall e w, In e es -> of_entry w e -> apart w) -> xsep (xentries kd es).
Proof.
  induction es as [|[k v] es IH]; intros H; [exact I|].
  assert (X : apart k) by (apply (H (k, v)); [now left | now left]). assert (Y : apart v) by (apply (H (k, v)); [now left | now right]).
  assert (Z : xsep (xentries kd es)) by (apply IH; intros e w He; apply H; now right).
  destruct kd; cbn; auto.
Qed.
Lemma ximplementation_sep m v : apart v -> xsep (ximplementation m v).
Proof.
  intros H. destruct H as [s cs H|t l a H|t l H|t t' ps x|kd t e ls H]; try (cbn; auto; fail).
  - unfold ximplementation. destruct s; first [apply xpointers_sep | now apply xcalls_sep].
  - cbn [ximplementation xdash xsep]. split; [|exact I]. split; [|exact I]. split; [exact H|]. intros n. apply xwith_sep. intros tot. cbn. split; [|exact I].
    split; [exact H|]. split; [exact H|]. intros c'. split; [exact H|]. intros n'. apply xwith_sep. cbn. auto.
Qed.

Lemma xsep_step m std c c' : mem_apart (xk_mem c) -> xstep m std c c' -> csep c -> csep c'.
Proof.
  intros (HM1 & HM2 & HM3) S [HC HS]. unfold csep. destruct S; cbn [xk_control xk_mem xk_stack] in *.
  all: try (inversion HS as [|? ? HF HS']; subst; cbn [fsep] in HF; split; [first [exact I | exact HF | apply HF] | exact HS']; fail).
  all: try (cbn in HC; split; [first [exact I | apply HC] | constructor; [apply HC | exact HS]]; fail).
  all: try (split; [exact I | first [exact HS | constructor]]; fail).
  all: try (cbn in HC; split; [first [exact HC | apply HC] | exact HS]; fail).
  - (* the next shard *)
    inversion HS as [|? ? HF HS']; subst. destruct HF as [HF1 HF2]. split; [apply xentries_sep; apply HM3|]. constructor; [|exact HS'].
    split; [|exact HF2]. intros l' Hl. apply HF1. now right.
  - (* an allocation *)
    cbn in HC. split; [|now constructor]. unfold xbehind. destruct (x_object g x) as [[i v]|] eqn:E; [|exact I].
    apply xcalls_sep. intros c [<-|[]]. eapply HM2, E.
  - (* a lock *)
    split; [|now constructor]. unfold xopened. destruct field; cbn; auto.
  - (* a value *)
    destruct HC as [HV HR]. split; [now apply ximplementation_sep | now constructor].
  - cbn in HC. destruct HC as [HL HR]. split; [|exact HS]. split; [|exact HR]. intros l' Hl. apply HL. now right.
  - (* the first shard *)
    destruct HC as [HL HR]. split; [apply xentries_sep; apply HM3|]. constructor; [|exact HS]. split; [|exact HR]. intros l' Hl. apply HL. now right.
Qed.
Lemma zsep_step m std c c' : mem_apart (z_mem c) -> zstep m std c c' -> csep (yconf c) -> csep (yconf c').
Proof.
  intros (HM1 & HM2 & HM3) S [HC HS]. unfold csep. destruct S; cbn [yconf ycontrol z_mem z_control z_stack map yframe xk_control xk_mem xk_stack] in *.
  all: try (inversion HS as [|? ? HF HS']; subst; cbn [fsep] in HF; split; [first [exact I | exact HF | apply HF] | exact HS']; fail).
  all: try (cbn in HC; split; [first [exact I | apply HC] | constructor; [apply HC | exact HS]]; fail).
  all: try (split; [exact I | exact HS]; fail).
  all: try (cbn in HC; split; [first [exact HC | apply HC] | exact HS]; fail).
  - inversion HS as [|? ? HF HS']; subst. destruct HF as [HF1 HF2]. split; [apply xentries_sep; apply HM3|]. constructor; [|exact HS'].
    split; [|exact HF2]. intros l' Hl. apply HF1. now right.
  - split; [|now constructor]. unfold xopened. destruct field; cbn; auto.
  - destruct HC as [HV HR]. split; [now apply ximplementation_sep | now constructor].
  - cbn in HC. destruct HC as [HL HR]. split; [|exact HS]. split; [|exact HR]. intros l' Hl. apply HL. now right.
  - destruct HC as [HL HR]. split; [apply xentries_sep; apply HM3|]. constructor; [|exact HS]. split; [|exact HR]. intros l' Hl. apply HL. now right.
Qed.
Lemma xsep_passes (M : xmemory -> Prop) m std c c' : (forall g, M g -> mem_apart g) -> xpasses M m std c c' -> csep c -> csep c'.
Proof.
  intros HM. induction 1 as [c _|c c' c'' Hc H _ IH|g g' b k st c'' _ H _ IH]; intros D; [exact D | apply IH; eapply xsep_step; eauto | apply IH; exact D].
Qed.
Lemma zsep_passes (M : xmemory -> Prop) m std c c' : (forall g, M g -> mem_apart g) -> zpasses M m std c c' -> csep (yconf c) -> csep (yconf c').
Proof.
  intros HM. induction 1 as [c _|c c' c'' Hc H _ IH|g g' s nk k st c'' _ H _ IH]; intros D; [exact D | apply IH; eapply zsep_step; eauto | apply IH; exact D].
Qed.
Lemma xbegin_sep g b v : apart v -> csep (xbegin g b v).
Proof. intros H. split; [|constructor]. cbn. auto. Qed.
Lemma zbegin_sep g v : apart v -> csep (yconf (zbegin g v)).
Proof. intros H. split; [|constructor]. cbn. auto. Qed.

(** What it waits for is a shard, what it has exclusively is not. *)
Lemma needs_shard c l : csep c -> needs c l -> shard l.
Proof.
  intros [HC HS] H. unfold needs in H. destruct c as [g b [p| |] st]; cbn [xk_control xk_stack] in *; try contradiction.
  destruct p as [| | | | | | | |w [|l' ls] acc k|kd [|l' ls] r]; try contradiction; try (subst l'; apply HC; now left).
  destruct st as [|[r|l0 a r|x r|r|kd l0 [|l' ls] r] st]; try contradiction. subst l'. inversion HS as [|? ? HF _]; subst. apply HF. now left.
Qed.
Lemma inside_no_shard c l a : csep c -> xinside c l a -> ~ shard l.
Proof. intros [_ HS] (r & H). rewrite Forall_forall in HS. apply (HS _ H). Qed.
Lemma zneeds_y c l : zneeds c l -> needs (yconf c) l.
Proof.
  destruct c as [g s nk [p|] st]; unfold zneeds, needs; cbn [yconf ycontrol z_control z_stack xk_control xk_stack]; auto.
  destruct p; auto. destruct st as [|[nk' r|l0 a r|x r|r|kd l0 ls r] st]; cbn [map yframe]; auto.
Qed.
End Apart.
