(** * Property C55: the profile of a running process. *)
From Coq Require Import Permutation Sorted.
From Verif Require Import Base BaseFacts KeyModel KeyFacts HMap FlameModel BuilderModel VisitorModel Spec ImplModel ImplSpec StoreFacts ReportSpec
  PropertiesChange LockModel ChangeModel ChangeSpec ChangeFacts ChangeRun ChangeCases ChangeReuse DeriveModel DeriveSpec GlobalModel GlobalSpec GlobalFacts PropertiesGlobal PropertiesDerive WholeModel WholeFacts.

#[local] Arguments key_new : simpl never.

(** ** C55: which statics are in the profile: those registered before
    [visit_global_roots] asked for them, once per registration, in registration order:
    all the profiling thread itself registered before (among them what [#[root]]
    registered before [main]), of every other thread an initial part of its
    registrations, and at least those that had returned before the call. *)
Theorem C55_roots : forall M m std statics me pre progs g H s n l,
  progs me = map Register pre ++ [Snapshot] ->
  goes M m std statics me (launch progs g) H s -> In (Ret me n Snapshot (RList l)) H ->
  (exists reg : list (tid * groot), l = map snd reg /\
     map snd (filter (fun x : tid * groot => Nat.eqb (fst x) me) reg) = pre /\
     forall t, exists rest, registrations (progs t) = map snd (filter (fun x : tid * groot => Nat.eqb (fst x) t) reg) ++ rest) /\
  (forall t k r, before H (Ret t k (Register r) RUnit) (Inv me n Snapshot) -> In r l) /\
  (exists more, g_roots (w_reg s) = l ++ more).
Proof.
  intros M m std statics me pre progs g H s n l HP HG Hin.
  pose proof (@goes_registry M m std statics me progs [] _ _ _ HG (gexec_start progs)) as HX. cbn [app] in HX.
  split; [|split].
  - destruct (gexec_inv HX) as [S I]. pose proof (@lin_complete _ _ (gi_lin I) (mkInst me n Snapshot (RList l)) Hin) as Hs.
    exact (proj1 (asked_point HP I Hs)).
  - intros t k r Hb. eapply PropertiesGlobal.C24_snapshot_complete; eauto.
  - destruct (PropertiesGlobal.C24_snapshot_prefix HX Hin) as (l' & rest & E & ->). injection E as <-. eauto.
Qed.
Print Assumptions C55_roots.

(** Every static with [#[root]] is in the profile. *)
Theorem C55_annotated : forall M m std statics me progs g H s n l (annotated : list (string * string)) outs (addr : string -> groot) order later,
  Forall2 (fun s o => global_root_impl (fst s) (snd s) = Some o) annotated outs ->
  Permutation order (ctor_targets (concat outs)) ->
  progs me = map Register (map addr order ++ later) ++ [Snapshot] ->
  goes M m std statics me (launch progs g) H s -> In (Ret me n Snapshot (RList l)) H ->
  forall x, In x annotated -> In (addr (fst x)) l.
Proof.
  intros M m std statics me progs g H s n l annotated outs addr order later HF HO HP HG Hin x Hx.
  destruct (C55_roots HP HG Hin) as ((reg & -> & E & _) & _).
  destruct (@C42_startup annotated outs addr order HF HO) as (w & Ew & _ & Pw).
  assert (Ho : In (addr (fst x)) (w_roots w)).
  { apply (Permutation_in (l := map (fun s => addr (fst s)) annotated)); [now symmetry|]. apply in_map_iff. eauto. }
  assert (G : forall ord v, fold_left (fun w x => do w' <- w; register_root w' (addr x)) ord (Some (mkW v false)) = Some (mkW (v ++ map addr ord) false)).
  { clear. induction ord as [|y ord IH]; intros v; cbn [fold_left map]; [now rewrite app_nil_r|].
    rewrite (@register_free (mkW v false) (addr y) eq_refl : (do w' <- Some (mkW v false); register_root w' (addr y)) = _).
    rewrite IH. cbn [w_roots]. now rewrite <- app_assoc. }
  rewrite G in Ew. injection Ew as <-. cbn [w_roots app] in Ho.
  assert (Hp : In (addr (fst x)) (map addr order ++ later)) by (apply in_or_app; now left).
  rewrite <- E in Hp. apply in_map_iff in Hp as (y & <- & Hy). apply filter_In in Hy as [Hy _]. apply in_map. exact Hy.
Qed.
Print Assumptions C55_annotated.

(** ** C55: the profile: when [visit_global_roots] has returned, the flame graph is the
    report of the registered statics, put together from pieces each of which was there at
    some moment (C52), whatever other threads did meanwhile. *)
Theorem C55_report : forall tyl (M : memory -> Prop) m std statics me progs g H s b,
  (forall g, M g -> mem_typed tyl g) -> (forall g, M g -> mem_all manual_free g) ->
  (forall r, mtyped tyl (statics r)) -> (forall r, manual_free (outline (statics r))) ->
  goes M m std statics me (launch progs g) H s -> w_phase s = Next [] b ->
  exists n l ws h, In (Ret me n Snapshot (RList l)) H /\
    Forall2 (appears M False) (map statics l) ws /\ appeared M False h /\ no_dangling h ws /\
    forall (alloc : ptr -> N) xs, (forall x i w, find_obj h x = Some (i, w) -> recorded_size i w (alloc x)) ->
    NoDup xs -> (forall x, In x xs <-> store_reachable h ws x) ->
    total_declared (full_report h ws alloc xs) < two63 ->
    exists out, finish m b = Some out /\
      (forall p, size_at (out_flamegraph out) p = shown_s (full_report h ws alloc xs) p) /\
      (exists L, listing (shown_s (full_report h ws alloc xs)) L /\ fg_write (out_flamegraph out) = concat_str (map folded_line L)) /\
      (exists W, StronglySorted path_lt W /\ (forall p, In p W <-> misdeclared_s (full_report h ws alloc xs) p) /\
        out_warnings out = concat_str (map (warning_for (full_report h ws alloc xs)) W)).
Proof.
  intros tyl M m std statics me progs g H s b HM1 HM2 Hs1 Hs2 HG Hb.
  destruct (goes_profiles HG Hb) as (n & l & g1 & Hin & HP).
  destruct (@C52_report tyl M m std g1 (map statics l) b Done) as (ws & h & W & A & D & R); auto.
  { apply Forall_forall. intros v Hv. apply in_map_iff in Hv as (r & <- & _). auto. }
  { apply Forall_forall. intros v Hv. rewrite map_map in Hv. apply in_map_iff in Hv as (r & <- & _). auto. }
  exists n, l, ws, h. split; [exact Hin|]. split; [exact W|]. split; [exact A|]. split; [exact D|].
  intros alloc xs Ha X1 X2 X3. destruct (R alloc xs Ha X1 X2 X3) as [_ R']. exact R'.
Qed.
Print Assumptions C55_report.

(** ** C55: a panic in the visit of a static leaves the loop: what was visited up to and
    including it is in the builder, and nothing after it. *)
Theorem C55_stopped : forall (M : memory -> Prop) m std statics me progs g H s b,
  goes M m std statics me (launch progs g) H s -> w_phase s = Stopped b Unwinding ->
  exists n l1 r l2 ws h n0, In (Ret me n Snapshot (RList (l1 ++ r :: l2))) H /\
    Forall2 (appears M True) (map statics (l1 ++ [r])) ws /\ appeared M True h /\
    forall k, (n0 <= k)%nat -> visit_roots m (map (visit_in m k h) ws) b_default = (b, Done).
Proof.
  intros M m std statics me progs g H s b HG Hb. destruct (goes_stops HG Hb) as (n & l1 & x & l2 & g1 & Hin & HP).
  destruct (C52_snapshot HP) as (ws & h & n0 & W & A & R). exists n, l1, x, l2, ws, h, n0. auto.
Qed.
Print Assumptions C55_stopped.

(** ** C55: while statics are being visited the registry is free: no [register_root]
    waits for the profile, *)
Theorem C55_registry_free : forall M m std statics me pre progs g H s,
  progs me = map Register pre ++ [Snapshot] -> goes M m std statics me (launch progs g) H s ->
  (forall b, w_phase s <> Asks b) -> g_lock (w_reg s) <> Some me.
Proof.
  intros M m std statics me pre progs g H s HP HG Hph E.
  pose proof (@goes_registry M m std statics me progs [] _ _ _ HG (gexec_start progs)) as HX. cbn [app] in HX.
  assert (A : asked me s) by (refine (goes_asked HP _ _ HG); [apply gexec_start | exact I]).
  destruct (gexec_inv HX) as [S I]. apply (gi_lock I) in E. unfold asked in A.
  destruct (w_phase s) as [b|rs b|rs b k st|b o]; [now elim (Hph b)| | |]; destruct A as [A _]; rewrite A in E; discriminate.
Qed.
Print Assumptions C55_registry_free.

Lemma upd_at f t x : upd f t x t = x.
Proof. unfold upd. now rewrite Nat.eqb_refl. Qed.
#[local] Ltac at_t := unfold set_pc; cbn [g_threads g_roots g_lock]; rewrite ?upd_at; cbn [th_todo th_pc th_done].
(** and whatever the loop is at, a [register_root] of another
    thread can go through, without a step of the profiling thread and without a change to
    what the loop is at: all it takes is that no other thread is inside the registry. *)
Theorem C55_registers_meanwhile : forall M m std statics me pre progs g H s t r os,
  progs me = map Register pre ++ [Snapshot] -> goes M m std statics me (launch progs g) H s ->
  (forall b, w_phase s <> Asks b) ->
  th_pc (g_threads (w_reg s) t) = Idle -> th_todo (g_threads (w_reg s) t) = Register r :: os ->
  (forall t', t' <> me -> g_lock (w_reg s) <> Some t') ->
  exists n s', goes (eq (w_mem s)) m std statics me s [Inv t n (Register r); Ret t n (Register r) RUnit] s' /\
    w_phase s' = w_phase s /\ w_mem s' = w_mem s /\ g_roots (w_reg s') = g_roots (w_reg s) ++ [r].
Proof.
  intros M m std statics me pre progs g H s t r os HP HG Hph Hi Ht Hl.
  assert (E : g_lock (w_reg s) = None).
  { pose proof (@C55_registry_free M m std statics me pre progs g H s HP HG Hph) as F.
    destruct (g_lock (w_reg s)) as [t'|] eqn:E; [|reflexivity]. destruct (Nat.eq_dec t' me) as [->|N]; [now elim F | now elim (Hl t' N)]. }
  clear HG Hph Hl. destruct s as [[rs lk th] mem ph]. cbn [w_reg w_mem w_phase g_lock g_roots g_threads] in *. subst lk.
  exists (th_done (th t)), (mkP (mkG (rs ++ [r]) None (upd (upd (upd (upd (upd (upd th t (mkT os (Waiting (Register r)) (th_done (th t)))) t (mkT os (Locked (Register r)) (th_done (th t)))) t (mkT os (PushRead r rs) (th_done (th t)))) t (mkT os (Unlocking (Register r) RUnit) (th_done (th t)))) t (mkT os (Returning (Register r) RUnit) (th_done (th t)))) t (mkT os Idle (S (th_done (th t)))))) mem ph). split.
  - change [Inv t (th_done (th t)) (Register r); Ret t (th_done (th t)) (Register r) RUnit]
      with ([Inv t (th_done (th t)) (Register r)] ++ [] ++ [] ++ [] ++ [] ++ [Ret t (th_done (th t)) (Register r) RUnit] ++ []).
    eapply go_step; [reflexivity | apply w_registry; [eapply g_call; [exact Hi | exact Ht] | intros ? ? [=]]|]. at_t.
    eapply go_step; [reflexivity | apply w_registry; [eapply (@g_lock_acquired _ t); [cbn; unfold upd; rewrite Nat.eqb_refl; reflexivity | reflexivity] | intros ? ? [=]]|]. at_t.
    eapply go_step; [reflexivity | apply w_registry; [eapply (@g_push_read _ t); cbn; unfold upd; rewrite Nat.eqb_refl; reflexivity | intros ? ? [=]]|]. at_t.
    eapply go_step; [reflexivity | apply w_registry; [eapply (@g_push_write _ t); cbn; unfold upd; rewrite Nat.eqb_refl; reflexivity | intros ? ? [=]]|]. at_t.
    eapply go_step; [reflexivity | apply w_registry; [eapply (@g_unlock _ t); cbn; unfold upd; rewrite Nat.eqb_refl; reflexivity | intros ? ? [=]]|]. at_t.
    eapply go_step; [reflexivity | | apply go_end; reflexivity].
    evar (r0 : gstate). assert (G : gstep (mkG (rs ++ [r]) None (upd (upd (upd (upd (upd th t (mkT os (Waiting (Register r)) (th_done (th t)))) t (mkT os (Locked (Register r)) (th_done (th t)))) t (mkT os (PushRead r rs) (th_done (th t)))) t (mkT os (Unlocking (Register r) RUnit) (th_done (th t)))) t (mkT os (Returning (Register r) RUnit) (th_done (th t))))) [Ret t (th_done (th t)) (Register r) RUnit] r0).
    { subst r0. pose proof (@g_return (mkG (rs ++ [r]) None (upd (upd (upd (upd (upd th t (mkT os (Waiting (Register r)) (th_done (th t)))) t (mkT os (Locked (Register r)) (th_done (th t)))) t (mkT os (PushRead r rs) (th_done (th t)))) t (mkT os (Unlocking (Register r) RUnit) (th_done (th t)))) t (mkT os (Returning (Register r) RUnit) (th_done (th t))))) t (Register r) RUnit) as Q.
      cbn [g_threads g_roots g_lock] in Q. rewrite upd_at in Q. cbn [th_done th_pc th_todo] in Q. exact (Q eq_refl). }
    subst r0. apply w_registry; [exact G | intros ? ? [=]].
  - cbn. auto.
Qed.
Print Assumptions C55_registers_meanwhile.

(** and the profile waits for nobody: it can always take its next step. *)
Theorem C55_goes_on : forall m std statics s,
  (forall b, w_phase s <> Asks b) -> (forall b, w_phase s <> Next [] b) -> (forall b o, w_phase s <> Stopped b o) ->
  exists s', own m std statics s s'.
Proof.
  intros m std statics [r g [b|[|x rs] b|rs b k st|b o]] H1 H2 H3; cbn [w_phase] in *;
    try (exfalso; first [eapply H1; reflexivity | eapply H2; reflexivity | eapply H3; reflexivity]).
  - destruct (root_visitor b) as [b1 [|]] eqn:E; eexists; [eapply w_root | eapply w_refused]; eauto.
  - destruct (C52_never_waits m std (mkC g b k st)) as [He|([g' b' k' st'] & Hc)].
    + destruct (leave_scope (result (mkC g b k st))) as [b' [| |]] eqn:E; eexists; [eapply w_leave | eapply w_stop | eapply w_stop]; eauto; discriminate.
    + eexists. eapply w_visit. exact Hc.
Qed.
Print Assumptions C55_goes_on.

(** ** Concrete executions *)

(** The static [slots] (C52) has [#[root]]; another thread registers a second static
    while the first is being visited and a third thread changes what is in its locks.
    Only the first is in the profile. *)
Definition ex_progs (t : tid) : list gop := match t with O => [Register 1; Snapshot] | 1%nat => [Register 2] | _ => [] end.
Ltac norm_reg := lazymatch goal with |- goes ?M ?m ?std ?st ?me (mkP ?r ?g ?ph) ?H ?s =>
  let r' := eval cbv in r in change (goes M m std st me (mkP r' g ph) H s) end.
Ltac reg := eapply go_step; [mem | apply w_registry; [first
  [ eapply (@g_call _ 0%nat); reflexivity | eapply (@g_lock_acquired _ 0%nat); reflexivity | eapply (@g_push_read _ 0%nat); reflexivity
  | eapply (@g_push_write _ 0%nat); reflexivity | eapply (@g_clone_start _ 0%nat); reflexivity | eapply (@g_clone_copy _ 0%nat); reflexivity
  | eapply (@g_clone_end _ 0%nat); reflexivity | eapply (@g_unlock _ 0%nat); reflexivity | eapply (@g_return _ 0%nat); reflexivity ]
  | intros ? ?; vm_compute; discriminate] | norm_reg].
Ltac reg1 := eapply go_step; [mem | apply w_registry; [first
  [ eapply (@g_call _ 1%nat); reflexivity | eapply (@g_lock_acquired _ 1%nat); reflexivity | eapply (@g_push_read _ 1%nat); reflexivity
  | eapply (@g_push_write _ 1%nat); reflexivity | eapply (@g_unlock _ 1%nat); reflexivity | eapply (@g_return _ 1%nat); reflexivity ]
  | intros ? ?; vm_compute; discriminate] | norm_reg].

Theorem C55_satisfiable : exists H s b out,
  goes slots_memory Debug (fun _ => true) (fun _ => slots) 0%nat (launch ex_progs slots_start) H s /\
  w_phase s = Next [] b /\ In (Ret 0%nat 1 Snapshot (RList [1])) H /\ g_roots (w_reg s) = [1; 2] /\
  ex_progs 0%nat = map Register [1] ++ [Snapshot] /\
  (forall g, slots_memory g -> mem_typed slots_types g) /\ (forall g, slots_memory g -> mem_all manual_free g) /\
  mtyped slots_types slots /\ manual_free (outline slots) /\
  finish Debug b = Some out /\ fg_write (out_flamegraph out) = reuse_text /\ out_warnings out = EmptyString.
Proof.
  destruct reuse_run as (c & P & E & _ & _ & _ & b & out & L & F1 & F2 & F3).
  eexists _, _, b, out. split; [|split; [|split; [|split; [|split; [|split; [|split; [|split; [|split]]]]]]]].
  - unfold launch, g_init. do 12 reg.
    eapply go_step; [mem | apply w_snapshot; eapply (@g_return _ 0%nat); reflexivity | norm_reg].
    eapply go_step; [mem | apply w_own, w_root; reflexivity |]. do 6 reg1.
    eapply goes_app; [exact (passes_goes _ _ _ _ P)|].
    eapply go_step; [|apply w_own, w_leave; [destruct c; exact E | destruct c; exact L] | apply go_end].
    all: clear -P; cbn [w_mem]; induction P; auto.
  - reflexivity.
  - vm_compute. tauto.
  - reflexivity.
  - reflexivity.
  - exact slots_typed.
  - exact slots_manual.
  - apply slots_root.
  - cbn. tauto.
  - auto.
Qed.
Print Assumptions C55_satisfiable.

(** A panic in the visit of the first of two statics.  (In the model a dangling pointer
    panics; it stands for a panic in user code.) *)
Definition two_progs (t : tid) : list gop := match t with O => [Register 1; Register 2; Snapshot] | _ => [] end.
Ltac at_any := eapply go_step; [exact I | first [apply w_registry; [first
  [ eapply (@g_call _ 0%nat); reflexivity | eapply (@g_lock_acquired _ 0%nat); reflexivity | eapply (@g_push_read _ 0%nat); reflexivity
  | eapply (@g_push_write _ 0%nat); reflexivity | eapply (@g_clone_start _ 0%nat); reflexivity | eapply (@g_clone_copy _ 0%nat); reflexivity
  | eapply (@g_clone_end _ 0%nat); reflexivity | eapply (@g_unlock _ 0%nat); reflexivity | eapply (@g_return _ 0%nat); reflexivity ]
  | intros ? ?; vm_compute; discriminate]
  | apply w_snapshot; eapply (@g_return _ 0%nat); reflexivity] | norm_reg].
Ltac own_visit := eapply go_step; [exact I | apply w_own, w_visit; first [
   eapply k_visit | eapply k_inline; vm_compute; reflexivity | eapply k_shared; vm_compute; reflexivity | eapply k_crash
 | eapply k_unwind_exit; vm_compute; reflexivity | eapply k_unwind_then] | cbn [implementation pointer_calls visit_shape impl_shared_ptr enter_self v_enter_self behind]].
Theorem C55_stopped_satisfiable : exists H s b,
  goes (fun _ => True) Debug (fun _ => true) (fun _ => MPlain (SShared (t_arc_of t_u32) 8 9) []) 0%nat (launch two_progs slots_start) H s /\
  w_phase s = Stopped b Unwinding /\ In (Ret 0%nat 2 Snapshot (RList [1; 2])) H.
Proof.
  eexists _, _, _. split; [|split].
  - unfold launch, g_init. do 20 at_any. eapply go_step; [exact I | apply w_own, w_root; reflexivity |].
    do 4 own_visit. repeat own_visit.
    eapply go_step; [exact I | apply w_own, w_stop; [exact I | vm_compute; reflexivity | discriminate] | apply go_end; exact I].
  - reflexivity.
  - vm_compute. tauto.
Qed.
Print Assumptions C55_stopped_satisfiable.

(** A state C55_registers_meanwhile speaks of: the loop is at its first static, and thread 1 has
    a static left to register. *)
Theorem C55_registers_satisfiable :
  ex_progs 0%nat = map Register [1] ++ [Snapshot] /\
  exists H s, goes slots_memory Debug (fun _ => true) (fun _ => slots) 0%nat (launch ex_progs slots_start) H s /\
    (exists b k st, w_phase s = Within [] b k st) /\
    th_pc (g_threads (w_reg s) 1%nat) = Idle /\ th_todo (g_threads (w_reg s) 1%nat) = [Register 2] /\ g_lock (w_reg s) = None.
Proof.
  split; [reflexivity|]. eexists _, _. split; [|split; [|split; [|split]]].
  - unfold launch, g_init. do 12 reg.
    eapply go_step; [mem | apply w_snapshot; eapply (@g_return _ 0%nat); reflexivity | norm_reg].
    eapply go_step; [mem | apply w_own, w_root; reflexivity |]. apply go_end. mem.
  - eexists _, _, _. reflexivity.
  - reflexivity.
  - reflexivity.
  - reflexivity.
Qed.
Print Assumptions C55_registers_satisfiable.
