(** * Instances: the property theorems evaluated on concrete inputs.

    Every entry of [instances] is the conclusion of one property theorem,
    evaluated on inputs that meet its hypotheses.  These are tests, not proofs;
    they serve the seeded-bug experiments (seeded/LOG.jsonl): an edit of the model
    that makes an entry false makes the theorem named in it false.  The file
    depends on the models and the specifications only. *)
From Coq Require Import Permutation.
From Verif Require Import Base KeyModel HMap FlameModel BuilderModel VisitorModel SizeOfModel Spec
  GlobalModel GlobalSpec LayoutModel LayoutSpec ImplModel ImplSpec ReportSpec IdentityModel IdentitySpec SessionSpec GrowthSpec WrapSpec DashModel DashSpec LockModel LockSpec ChangeModel ChangeSpec SnapshotModel SnapshotSpec ExtentModel ExtentSpec InterruptModel InterruptSpec NestModel NestSpec TotalSpec DeriveModel DeriveSpec.

(** ** Decidable comparisons *)
Definition oN_eqb (a b : option N) : bool :=
  match a, b with Some x, Some y => N.eqb x y | None, None => true | _, _ => false end.
Definition ostr_eqb (a b : option string) : bool :=
  match a, b with Some x, Some y => String.eqb x y | None, None => true | _, _ => false end.
Definition obs_eqb (a b : option (string * option N)) : bool :=
  match a, b with
  | Some (s, n), Some (s', n') => String.eqb s s' && oN_eqb n n'
  | None, None => true | _, _ => false end.
Definition obs3_eqb (a b : option (string * option N * string)) : bool :=
  match a, b with
  | Some (s, n, w), Some (s', n', w') => String.eqb s s' && oN_eqb n n' && String.eqb w w'
  | None, None => true | _, _ => false end.
Definition key_same (a b : key) : bool := N.eqb (k_hash a) (k_hash b) && String.eqb (k_str a) (k_str b).
Fixpoint vprog_eqb (p q : vprog) : bool :=
  match p, q with
  | VRet, VRet | VCrash, VCrash => true
  | VInline k s b r, VInline k' s' b' r' | VUnique k s b r, VUnique k' s' b' r' =>
      key_same k k' && N.eqb s s' && vprog_eqb b b' && vprog_eqb r r'
  | VShared k s x b r1 r2, VShared k' s' x' b' r1' r2' =>
      key_same k k' && N.eqb s s' && N.eqb x x' && vprog_eqb b b' && vprog_eqb r1 r1' && vprog_eqb r2 r2'
  | _, _ => false
  end.
Definition ovprog_eqb (a b : option vprog) : bool :=
  match a, b with Some x, Some y => vprog_eqb x y | None, None => true | _, _ => false end.
Definition wrapeq_b (m : mode) (a b : N) : bool :=
  match m with Debug => N.eqb a b | Release => N.eqb (a mod two64) (b mod two64) end.
Definition kind_eqb (a b : node_kind) : bool :=
  match a, b with
  | NKInline, NKInline | NKUnique, NKUnique | NKShared, NKShared | NKRoot, NKRoot => true | _, _ => false end.
Definition ev_eqb (a b : ev string) : bool :=
  path_eqb (ev_path a) (ev_path b) && kind_eqb (ev_kind a) (ev_kind b) && kind_eqb (ev_parent a) (ev_parent b) && N.eqb (ev_size a) (ev_size b).
Fixpoint list_eqb {A} (f : A -> A -> bool) (a b : list A) : bool :=
  match a, b with [], [] => true | x :: a', y :: b' => f x y && list_eqb f a' b' | _, _ => false end.
Fixpoint insert_sorted {A} (lt : A -> A -> bool) (x : A) (l : list A) : list A :=
  match l with [] => [x] | y :: l' => if lt y x then y :: insert_sorted lt x l' else x :: y :: l' end.
Definition sort {A} (lt : A -> A -> bool) (l : list A) : list A := fold_right (insert_sorted lt) [] l.
Definition path_ltb (p q : Spec.path) : bool := match path_cmp p q with Lt => true | _ => false end.
Definition dedup_paths (l : list Spec.path) : list Spec.path := nodup (list_eq_dec string_dec) l.
Definition modes : list mode := [Debug; Release].
Definition all {A} (l : list A) (f : A -> bool) : bool := forallb f l.
Definition pairs {A} (l : list A) : list (A * A) := list_prod l l.
Definition some_and {A} (x : option A) (f : A -> bool) : bool := match x with Some a => f a | None => false end.

(** ** Flame graphs *)
Definition K := key_new.
Definition leaf n := XAddSelf XDefault n.
Definition e1 := XAddChild (XAddChild (leaf 3) (K "x") (leaf 5)) (K "y") (XAddChild (leaf 0) (K "z") (leaf 7)).
Definition e2 := XAddChild (XAddChild XDefault (K "y") (XAddChild (leaf 11) (K "x") (leaf 2))) (K "y") (XAddChild (leaf 1) (K "z") (leaf 9)).
Definition e3 := XAddSelf (XAdd (XAdd e1 e2) (XAddChild XDefault (K "Z") (leaf 1))) 4.
Definition e4 := XAddChild XDefault (K "x") (leaf (two64 - 4)).
Definition e5 := leaf (two64 - 1).
Definition exprs := [XDefault; e1; e2; e3; e4; e5].
Definition small_exprs := [XDefault; e1; e2; e3].
Definition names : list string := ["x"; "y"; "z"; "Z"]%string.
Definition fg_paths : list Spec.path :=
  let p1 := map (fun s => [s]) names in
  let p2 := flat_map (fun s => map (cons s) p1) names in
  let p3 := flat_map (fun s => map (cons s) p2) names in
  [] :: p1 ++ p2 ++ p3.
Definition list_of (size : Spec.path -> N) (pool : list Spec.path) : list (Spec.path * N) :=
  map (fun p => (p, size p)) (sort path_ltb (dedup_paths (filter (fun p => negb (path_eqb p []) && negb (size p =? 0)) pool))).
Definition text_of (l : list (Spec.path * N)) : string := concat_str (map folded_line l).
Fixpoint mirror (f : fg) : fg :=
  match f with
  | FG cs c n => FG ((fix go (l : list (key * fg)) acc := match l with [] => acc | (k, x) :: l' => go l' ((k, mirror x) :: acc) end) cs []) c n
  end.
Fixpoint nodes (f : fg) : list fg :=
  match f with FG cs c n => FG cs c n :: (fix go (l : list (key * fg)) := match l with [] => [] | (_, x) :: l' => nodes x ++ go l' end) cs end.
Definition graphs (m : mode) : list fg := flat_map (fun e => match fgeval m e with Some g => [g] | None => [] end) exprs.

Definition clean_b (s : string) : bool := negb (has_char semi_char s) && negb (has_char nl_char s).
Definition decodes (g : fg) (L : list (Spec.path * N)) : bool :=
  match parse_folded (fg_write g) with
  | Some L' => list_eqb (fun a b => path_eqb (fst a) (fst b) && (snd a =? snd b)) L' L
  | None => false
  end.
Definition dirty_names : list string := ["x"; "[u8; 4]"; "a;b"; "a b"]%string.
Definition dirty_paths : list Spec.path :=
  let p1 := map (fun s => [s]) dirty_names in fg_paths ++ p1 ++ flat_map (fun s => map (cons s) p1) dirty_names.
Definition dirty_exprs : list fgexpr :=
  [XDefault; e1; XAddChild XDefault (K "[u8; 4]") (leaf 4); XAddChild (leaf 3) (K "[u8; 4]") XDefault;
   XAddChild XDefault (K "x") (XAddChild (leaf 1) (K "a;b") (leaf 2)); XAddChild XDefault (K "a b") (leaf 1)].

Definition i_flame : list (string * bool) := [
  ("C01_total_size_exact"%string, all modes (fun m => all (graphs m) (fun f => all (nodes f) (fun g => oN_eqb (fg_total_size m g) (wrapped m (node_sum g))))));
  ("C01_total_size_of_history"%string, all modes (fun m => all exprs (fun e => match fgeval m e with Some g => oN_eqb (fg_total_size m g) (wrapped m (put_total e)) | None => true end)));
  ("C01_no_overflow_below_2_64"%string, all modes (fun m => all exprs (fun e => some_and (fgeval m e) (fun g => all fg_paths (fun p => size_at g p =? put_at e p) && oN_eqb (fg_total_size m g) (Some (put_total e))))));
  ("C02_add_pointwise"%string, all modes (fun m => all (pairs (graphs m)) (fun ab => match fg_add m (fst ab) (snd ab) with Some c => all fg_paths (fun p => wrapeq_b m (size_at c p) (size_at (fst ab) p + size_at (snd ab) p)) | None => true end)));
  ("C02_add_child_pointwise"%string, all modes (fun m => all (pairs (graphs m)) (fun ab => match fg_add_child m (fst ab) (K "y") (snd ab) with Some c => all fg_paths (fun p => wrapeq_b m (size_at c p) (size_at (fst ab) p + match p with s :: p' => if String.eqb "y" s then size_at (snd ab) p' else 0 | [] => 0 end)) | None => true end)));
  ("C02_add_self_pointwise"%string, all modes (fun m => all (graphs m) (fun a => match fg_add_self m a 6 with Some c => all fg_paths (fun p => wrapeq_b m (size_at c p) (size_at a p + match p with [] => 6 | _ => 0 end)) | None => true end)));
  ("C02_add_panics_iff"%string, all (pairs (graphs Debug)) (fun ab => let '(a, b) := ab in Bool.eqb (match fg_add Debug a b with None => true | Some _ => false end) ((two64 <=? size_at a [] + size_at b []) || (two64 <=? (node_sum a - size_at a []) + (node_sum b - size_at b [])))));
  ("C03_add_comm"%string, all modes (fun m => all (pairs (graphs m)) (fun ab => obs_eqb (observe m (fg_add m (fst ab) (snd ab))) (observe m (fg_add m (snd ab) (fst ab))))));
  ("C03_add_assoc"%string, all modes (fun m => all (pairs (graphs m)) (fun ab => all (graphs m) (fun c => obs_eqb (observe m (do x <- fg_add m (fst ab) (snd ab); fg_add m x c)) (observe m (do x <- fg_add m (snd ab) c; fg_add m (fst ab) x))))));
  ("C03_add_default"%string, all modes (fun m => all (graphs m) (fun a => obs_eqb (observe m (fg_add m a fg_default)) (observe m (Some a)) && obs_eqb (observe m (fg_add m fg_default a)) (observe m (Some a)))));
  ("C03_merge_order"%string, all modes (fun m => obs_eqb (observe m (merge_all m (graphs m))) (observe m (merge_all m (rev (graphs m))))));
  ("C04_write_is_listing"%string, all modes (fun m => all (graphs m) (fun g => String.eqb (fg_write g) (text_of (list_of (size_at g) fg_paths)) && (sumN (map snd (list_of (size_at g) fg_paths)) + size_at g [] =? node_sum g))));
  ("C05_shuffle"%string, all modes (fun m => all (graphs m) (fun g => obs_eqb (observe m (Some g)) (observe m (Some (mirror g))))));
  ("C06_write_parse"%string, all modes (fun m => all (graphs m) (fun g => some_and (parse_folded (fg_write g)) (fun L => list_eqb (fun a b => path_eqb (fst a) (fst b) && (snd a =? snd b)) L (list_of (size_at g) fg_paths)))));
  ("C06_decodable_iff"%string, all modes (fun m => all dirty_exprs (fun e => some_and (fgeval m e) (fun g =>
     Bool.eqb (decodes g (list_of (size_at g) dirty_paths))
       (all dirty_paths (fun p => implb (negb (path_eqb p []) && (0 <? size_at g p)) (all p clean_b)))))));
  ("C39_release_mod"%string, all exprs (fun e => all exprs (fun e' => let e := XAdd e e' in some_and (fgeval Release e) (fun g => all fg_paths (fun p => wrapeq_b Release (size_at g p) (put_at e p)) && oN_eqb (fg_total_size Release g) (Some (put_total e mod two64))))))
].

(** ** Keys *)
Definition strings : list string := [""; "a"; "b"; "ab"; "a;b"; "Z"; "foobar"; String (ascii_of_N 200) "x"]%string.
Definition i_keys : list (string * bool) := [
  ("C08_key_coherent"%string, all (pairs strings) (fun st => let '(s, t) := st in let a := K s in let b := K t in
      Bool.eqb (key_eqb a b) (String.eqb s t) && Bool.eqb (match key_cmp a b with Eq => true | _ => false end) (String.eqb s t)
      && Bool.eqb (String.eqb (key_deref a) (key_deref b)) (key_eqb a b)
      && implb (key_eqb a b) (key_hash_input a =? key_hash_input b)
      && (match key_cmp a b, key_cmp b a with Lt, Gt | Gt, Lt | Eq, Eq => true | _, _ => false end)));
  ("C08_key_order"%string, match key_cmp (K "a") (K "ab"), key_cmp (K "Z") (K "a"), key_cmp (K "a") (K (String (ascii_of_N 200) "x")) with Lt, Lt, Lt => true | _, _, _ => false end);
  ("C08_eq_implies"%string, all (pairs [mkKey 1 "a"; mkKey 2 "a"; mkKey 1 "b"; mkKey 1 "a"]) (fun ab => implb (key_eqb (fst ab) (snd ab)) (match key_cmp (fst ab) (snd ab) with Eq => key_hash_input (fst ab) =? key_hash_input (snd ab) | _ => false end)));
  ("C09_derive_key"%string, all strings (fun s => some_and (derive_key_opt s) (fun k => key_same k (mkKey (fnv1a s) s)) && some_and (key_new_opt s) (fun k => key_same k (mkKey (fnv1a s) s))))
].

(** ** Visits *)
Definition vI k s b := VInline (K k) s b VRet.
Definition vU k s b := VUnique (K k) s b VRet.
Definition vS k s x b := VShared (K k) s x b VRet VRet.
Definition r1 : vprog := vI "A" 40 (vseqs [vU "p" 8 (vI "T" 12 (vI "x" 4 VRet)); vS "q" 8 7 (vI "N" 20 (vseqs [vS "q" 8 8 (vI "M" 6 VRet); vU "p" 8 VRet])); vI "x" 3 VRet]).
Definition r2 : vprog := vI "B" 8 (vseqs [vS "q" 8 7 (vI "N" 20 VRet); vI "x" 8 VRet; vU "p" 0 (vI "T" 2 VRet)]).
Definition r3 : vprog := vI "A" 50 (vseqs [vI "p" 20 (vI "T" 9 VRet); vI "y" 0 VRet; VInline (K "z") 3 VRet (vS "q" 8 9 (vS "q" 5 9 (vI "N" 99 VRet)))]).
Definition r_crash : vprog := vI "C" 50 (vseq (vU "p" 8 (vI "T" 7 VRet)) (vS "q" 8 11 (vI "N" 2 (vI "x" 1 VCrash)))).
Definition r_loop : vprog := VShared (K "q") 8 8 (vI "M" 6 VRet) (vI "S" 1 VRet) (vI "Z" 2 VRet).
Definition r_zz : vprog := vI "Z" 1 (vseq (vI "x" 5 VRet) (vI "a" 1 (vI "y" 3 VRet))).
Definition r_aa : vprog := vI "A" 1 (vseqs [vI "z" 1 (vI "x" 5 VRet); vI "b" 2 (vI "x" 5 VRet); vI "a" 2 (vI "x" 5 VRet)]).
Definition sessions : list (list vprog) := [[]; [r1]; [r2]; [r1; r2]; [r2; r1; r3]; [r3; r3]; [r1; r_crash; r2]; [r_crash; r3; r1]; [r_loop; r1; r_loop]; [vseq r1 r_loop]; [r_zz; r1; r_aa; r_zz]].
Definition ev_paths (es : list (ev string)) : list Spec.path :=
  dedup_paths ([] :: ["nope"%string] :: map (@ev_path string) es).
Definition profile_ok (l : list vprog) (f : mode -> output -> bool) : bool := all modes (fun m => some_and (profile m l) (f m)).
Definition misdeclared_b (es : list (ev string)) (p : Spec.path) : bool :=
  negb (path_eqb p []) && (declared_s es p <? inline_below_s es p).
Definition warnings_of (es : list (ev string)) : string :=
  concat_str (map (warning_for es) (sort path_ltb (filter (misdeclared_b es) (ev_paths es)))).
Definition total_is (m : mode) (o : output) (n : N) : bool := oN_eqb (fg_total_size m (out_flamegraph o)) (Some n).
Definition obs m l := option_map (observe_output m) (profile m l).
Definition is_done (o : outcome) : bool := match o with Done => true | _ => false end.
Definition is_fine (o : status) : bool := match o with Fine => true | _ => false end.
Definition is_none {A} (o : option A) : bool := match o with None => true | _ => false end.

(** Replaying API calls. *)
Fixpoint replay (m : mode) (evs : list event) (b : builder) (live : nat) : option (builder * nat * list bool) :=
  match evs with
  | [] => Some (b, live, [])
  | e :: evs' =>
      match step m b e with
      | (b', Fine, ret) => do r <- replay m evs' b' (live_after live e ret); let '(x, y, z) := r in Some (x, y, ret :: z)
      | _ => None
      end
  end.
Definition eI k s := EvInline (K k) s.
Definition eS k s x := EvShared (K k) s x.
Definition ev_ok : list event := [EvRoot; eI "A" 8; eS "p" 8 1; eI "N" 3; EvExit; EvExit; EvExit; EvUnique (K "u") 4; eS "p" 2 1; EvExit; EvExit; EvRoot; eS "q" 1 1; EvExit].
Definition ev_leaks : list (list event) :=
  [[EvRoot; EvForget]; [EvRoot; eI "A" 8; EvForget; EvExit]; [EvRoot; eS "p" 8 1; EvForget; EvExit];
   [EvRoot; eS "p" 8 1; eI "N" 3; EvForget; EvExit; EvExit]; [EvRoot; EvUnique (K "u") 4; EvForget; EvForget];
   [EvRoot; eI "A" 8; eS "p" 8 1; EvForget; EvExit; EvExit]].
Fixpoint shared_answers (evs : list event) (seen : list event) : list bool :=
  match evs with
  | [] => []
  | e :: evs' => (match e with EvShared _ _ x => [negb (existsb (mentions x) seen)] | _ => [] end) ++ shared_answers evs' (seen ++ [e])
  end.
Definition shared_rets (evs : list event) (rets : list bool) : list bool :=
  flat_map (fun er : event * bool => match fst er with EvShared _ _ _ => [snd er] | _ => [] end) (combine evs rets).
Definition mirror_b (b : builder) : builder :=
  set_trees b (map (fun td => mkTD (td_size td) (td_rem td) (td_unique td) (rev (td_children td))) (b_trees b)).

(** Object graphs: 1 and 2 point to each other, 2 to 3; 4 is unreachable. *)
Definition o_node k s l : list Spec.item := [Scope false (K k) s l].
Definition hp : heap := [(1, o_node "N" 32 [Ref (K "q") 8 2; Scope true (K "p") 8 (o_node "u" 5 [])]); (2, o_node "N" 32 [Ref (K "q") 8 1; Ref (K "l") 8 3]); (3, o_node "L" 4 [Ref (K "q") 0 3]); (4, o_node "U" 9 [])].
Definition hp' : heap := [(3, o_node "L" 4 [Ref (K "q") 0 3]); (2, o_node "N" 32 [Ref (K "l") 8 3; Ref (K "q") 8 1]); (4, o_node "U" 9 []); (1, o_node "N" 32 [Scope true (K "p") 8 (o_node "u" 5 []); Ref (K "q") 8 2])].
Definition hroots : list (list Spec.item) := [o_node "A" 16 [Ref (K "a") 8 1]; o_node "B" 16 [Ref (K "a") 8 3; Scope false (K "x") 8 []]].
Definition hl n h l := map (link n h) l.
Definition sortN := sort N.ltb.

Definition good : list vprog := [r1; vI "B" 30 (vseqs [vS "q" 8 7 VRet; vI "x" 8 VRet])].
Definition nosh : vprog := vI "S" 40 (vseqs [vU "p" 8 (vI "T" 12 (vseq (vI "x" 4 VRet) (vU "p" 8 (vI "W" 100 VRet)))); vI "x" 8 VRet]).
Definition joint : list vprog := [vI "A" 24 (vS "q" 8 1 (vI "N" 3 VRet)); vI "A" 24 (vseq (vS "q" 8 2 (vI "N" 4 VRet)) (vI "x" 2 VRet)); vI "N" 7 VRet].

Definition i_builder : list (string * bool) := [
  ("C05_builder_order"%string, some_and (replay Debug ev_ok b_default 0) (fun r => obs3_eqb (option_map (observe_output Debug) (finish Debug (fst (fst r)))) (option_map (observe_output Debug) (finish Debug (mirror_b (fst (fst r)))))));
  ("C10_accepted"%string, all modes (fun m => all sessions (fun l => let '(b, o) := visit_roots m l b_default in let '(b', o') := visit_root m r1 b in is_done o && is_done o' && is_fine (snd (root_visitor b')) && negb (is_none (finish m b')))));
  ("C10_no_call_panics"%string, all modes (fun m => all (ev_ok :: ev_leaks) (fun evs => negb (is_none (replay m evs b_default 0)))));
  ("C11_leak_detected"%string, all modes (fun m => all ev_leaks (fun evs => some_and (replay m evs b_default 0) (fun r => is_none (finish m (fst (fst r))) && negb (is_fine (snd (root_visitor (fst (fst r)))))))));
  ("C11_finish_iff"%string, all modes (fun m => some_and (replay m ev_ok b_default 0) (fun r => negb (is_none (finish m (fst (fst r)))))));
  ("C11_live_refused"%string, all modes (fun m => all [[EvRoot]; [EvRoot; eI "A" 8]; [EvRoot; eS "p" 8 1]; [EvRoot; eS "p" 8 1; eI "A" 1]] (fun evs => some_and (replay m evs b_default 0) (fun r => is_none (finish m (fst (fst r)))))));
  ("C12_text"%string, all sessions (fun l => all modes (fun m => match visit_roots m l b_default with
     | (b, Done) => ostr_eqb (finish_and_write m b) (option_map (fun o => fg_write (out_flamegraph o)) (finish m b)) | _ => false end)));
  ("C12_exact"%string, all sessions (fun l => let es := root_events l in profile_ok l (fun m o =>
      all (ev_paths es) (fun p => size_at (out_flamegraph o) p =? shown_s es p)
      && String.eqb (fg_write (out_flamegraph o)) (text_of (list_of (shown_s es) (ev_paths es)))
      && total_is m o (sumN (map snd (list_of (shown_s es) (ev_paths es)))))));
  ("C13_warnings"%string, all sessions (fun l => profile_ok l (fun m o => String.eqb (out_warnings o) (warnings_of (root_events l)))));
  ("C14_first_time_only"%string, all modes (fun m => some_and (replay m ev_ok b_default 0) (fun r => list_eqb Bool.eqb (shared_rets ev_ok (snd r)) (shared_answers ev_ok []))));
  ("C14_top_level"%string, all modes (fun m => all [[]; [r1]; [r3; r2]] (fun l => obs3_eqb (obs m (l ++ [nest [(K "A", 9); (K "p", 30)] (vS "a" 8 77 (vI "N" 5 (vI "x" 2 VRet)))])) (obs m (l ++ [nest [(K "A", 9); (K "p", 30)] (vI "a" 8 VRet); vI "N" 5 (vI "x" 2 VRet)])))));
  ("C14_further_encounters"%string, all modes (fun m => all [[r1]; [r3; r2]] (fun l => obs3_eqb (obs m (l ++ [nest [(K "A", 9); (K "p", 30)] (VShared (K "a") 8 7 (vI "N" 5 VRet) (vI "s" 1 VRet) (vI "n" 2 VRet))])) (obs m (l ++ [nest [(K "A", 9); (K "p", 30)] (VInline (K "a") 8 VRet (vI "n" 2 VRet))])))));
  ("C15_terminates"%string, all modes (fun m => let '(b, o) := visit_roots m (hl 4 hp (removelast hroots)) b_default in is_done o && is_done (snd (visit_root m (link 4 hp (o_node "B" 16 [Ref (K "a") 8 3])) b))));
  ("C15_exactly_once"%string, all modes (fun m => let '(b, o) := visit_roots m (hl 4 hp hroots) b_default in is_done o && list_eqb N.eqb (sortN (b_visited b)) [1; 2; 3]));
  ("C16_order_irrelevant"%string, all modes (fun m => obs3_eqb (obs m (hl 4 hp hroots)) (obs m (hl 7 hp' (rev hroots)))));
  ("C17_conservation"%string, profile_ok good (fun m o => total_is m o (block_bytes (root_events good)) && String.eqb (out_warnings o) ""));
  ("C18_exact_excess"%string, all [good; [r3; r1]; [r1; r3]] (fun l => profile_ok l (fun m o => total_is m o (block_bytes (root_events l) + mixed_bytes (root_events l)))));
  ("C19_sum"%string, all modes (fun m => all [r1; r2; r3; nosh] (fun p => oN_eqb (size_of_unique_allocated_data m p) (wrapped m (unique_bytes p NKRoot)))));
  ("C19_events"%string, all modes (fun m => all [r1; r2; r3; nosh] (fun p => let '(es, _, _) := trace k_str p (pointers p) [] NKRoot in oN_eqb (size_of_unique_allocated_data m p) (Some (sumN (map (fun e => if is_NKUnique (ev_parent e) && is_NKInline (ev_kind e) then ev_size e else 0) es))))));
  ("C19_shared_irrelevant"%string, all modes (fun m => all [r1; r2; r3] (fun p => oN_eqb (size_of_unique_allocated_data m p) (size_of_unique_allocated_data m (forget_shared p)))));
  ("C19_names_irrelevant"%string, all modes (fun m => all [r1; r2; r3] (fun p => oN_eqb (size_of_unique_allocated_data m p) (size_of_unique_allocated_data m (rename (fun _ => K "n") (fun _ => 0) p)))));
  ("C19_with_self"%string, all modes (fun m => all [r1; r2; nosh] (fun p => oN_eqb (size_of_unique m 40 p) (Some (40 + unique_bytes p NKRoot)))));
  ("C20_agreement"%string, profile_ok [nosh] (fun m o => oN_eqb (fg_total_size m (out_flamegraph o)) (size_of_unique m 40 nosh)));
  ("C21_joint"%string, all modes (fun m => obs_eqb (observe m (do outs <- fold_right (fun p acc => do a <- acc; do o <- profile m [p]; Some (out_flamegraph o :: a)) (Some []) joint; merge_all m outs)) (observe m (option_map out_flamegraph (profile m joint)))));
  ("C22_modes_agree"%string, all sessions (fun l => negb (is_none (profile Debug l)) && obs3_eqb (obs Debug l) (obs Release l)));
  ("C23_usable"%string, all modes (fun m => all sessions (fun l => let '(b, o) := visit_roots m l b_default in let '(b', o') := visit_root m (rename (fun k => k) (fun x => x + 100) r_crash) b in is_done o && (match o' with Unwinding => true | _ => false end) && is_fine (snd (root_visitor b')) && negb (is_none (finish m b')))));
  ("C38_repeated_roots"%string, let r := hd [] hroots in let r := link 4 hp r in
     all modes (fun m => some_and (profile m [r]) (fun o1 => some_and (profile m (repeat r 3)) (fun o =>
       all [["A"]; ["A"; "a"]]%string (fun p => size_at (out_flamegraph o) p =? 3 * size_at (out_flamegraph o1) p) &&
       all [["N"]; ["N"; "q"]; ["N"; "p"; "u"]; ["L"]]%string (fun p => size_at (out_flamegraph o) p =? size_at (out_flamegraph o1) p)))));
  ("C41_repeated_enter_shared"%string, all modes (fun m => some_and (replay m [EvRoot; eS "p" 8 1; EvExit; eI "A" 4] b_default 0) (fun r => let b := fst (fst r) in
      match step m b (eS "q" 5 1), replay m [eI "q" 5; EvExit] b 2 with
      | (b', Fine, ret), Some (b'', _, _) => negb ret && (match replay m [EvExit; EvExit] b' 2, replay m [EvExit; EvExit] b'' 2 with
           | Some (x, _, _), Some (y, _, _) => obs3_eqb (option_map (observe_output m) (finish m x)) (option_map (observe_output m) (finish m y)) | _, _ => false end)
      | _, _ => false end)))
].

(** ** Global roots *)
Definition gcode (i : nat) (r : groot) : gprog := GInline (K "R") r (GRegister (r + 100) (GUnique (K "p") 8 (GInline (K "x") (N.of_nat i) GRet GRet) GRet)) (GShared (K "q") 8 r (GRegister 5 GRet) GRet GRet).
Definition i_global : list (string * bool) := [
  ("C25_visits_snapshot"%string, all modes (fun m => all [[]; [3]; [3; 1; 3]] (fun rts => some_and (visit_global_roots m gcode (mkW rts false) b_default) (fun wr =>
      let '(w, (b, o)) := wr in let '(b', o') := visit_in_order m (programs gcode 0 rts) b_default in
      negb (w_held w) && list_eqb N.eqb (firstn (length rts) (w_roots w)) rts && obs3_eqb (option_map (observe_output m) (finish m b)) (option_map (observe_output m) (finish m b'))
      && is_done o && is_done o'))));
  ("C25_registered_during"%string, some_and (visit_global_roots Debug gcode (mkW [3; 1] false) b_default) (fun wr => list_eqb N.eqb (w_roots (fst wr)) [3; 1; 103; 5; 101; 5]))
].

(** ** Layouts *)
Definition divides (a b : N) : bool := b mod a =? 0.
Definition holds_b (c : N) (v : layout) (S : N) : bool :=
  divides 8 S && divides (l_align v) S && (round_up c (l_align v) + l_size v <=? S).
Fixpoint least (f : N -> bool) (fuel : nat) (n : N) : option N :=
  match fuel with O => None | S fuel' => if f n then Some n else least f fuel' (n + 1) end.
Definition layouts : list layout := [mkLayout 0 1; mkLayout 1 1; mkLayout 8 8; mkLayout 9 1; mkLayout 64 64; mkLayout 24 8; mkLayout 7 1; mkLayout 16 16; mkLayout 0 32; mkLayout 13 1; mkLayout 12 4; mkLayout 5 32; mkLayout 1 16].
Definition cap_of (buckets : N) : N := if buckets <=? 8 then buckets - 1 else buckets / 8 * 7.
Definition i_layout : list (string * bool) := [
  ("C30_rc_exact"%string, all layouts (fun v => oN_eqb (rcbox_layout_size v) (least (holds_b 16 v) 300 0)));
  ("C30_rc_panic"%string, is_none (rcbox_layout_size (mkLayout (two63 - 1) 1)) && is_none (rcbox_layout_size (mkLayout (two63 - 23) 1)) && negb (is_none (rcbox_layout_size (mkLayout (two63 - 24) 1))));
  ("C30_triomphe_exact"%string, all layouts (fun v => oN_eqb (triomphe_arc_size v) (least (holds_b 8 v) 300 0)));
  ("C30_covers"%string, all layouts (fun v => some_and (rcbox_layout_size v) (fun S => 16 + l_size v <=? S) && some_and (triomphe_arc_size v) (fun S => 8 + l_size v <=? S)));
  ("C30_thin_exact"%string, all [mkLayout 4 4; mkLayout 8 8; mkLayout 1 1; mkLayout 32 16] (fun h => all [(3, 1, 7); (8, 8, 2); (4, 4, 0); (2, 2, 5)] (fun x => let '(sz, al, n) := x in oN_eqb (thin_arc_size h sz al n) (Some (l_size (thin_arc_real h sz al n))))));
  ("C30_thin_covers"%string, all [mkLayout 4 4; mkLayout 8 8; mkLayout 1 1; mkLayout 32 16] (fun h => all [(3, 1, 7); (64, 64, 2); (32, 32, 3)] (fun x => let '(sz, al, n) := x in some_and (thin_arc_size h sz al n) (fun S => l_size (header_slice_layout h sz al n) <=? S))));
  ("C30_thin_at_most"%string, all [mkLayout 4 4; mkLayout 8 8; mkLayout 1 1; mkLayout 32 16] (fun h => all [(3, 1, 7); (64, 64, 2); (32, 32, 3)] (fun x => let '(sz, al, n) := x in some_and (thin_arc_size h sz al n) (fun S => S <=? l_size (thin_arc_real h sz al n)))));
  ("C31_exact"%string, all modes (fun m => all [(1, 4); (3, 4); (4, 4); (5, 8); (8, 8); (9, 16); (100, 128); (128, 128)] (fun x => all [0; 8; 24] (fun sz => oN_eqb (raw_table_alloc_size_for_len m sz (fst x)) (Some ((sz + 1) * snd x))))));
  ("C31_empty"%string, all modes (fun m => oN_eqb (raw_table_alloc_size_for_len m 8 0) (Some 0)));
  ("C31_bounds"%string, all modes (fun m => all [4; 5; 7; 8; 9; 31; 32; 33; 100] (fun n => some_and (raw_table_alloc_size_for_len m 8 n) (fun a => (9 * n <=? a) && (a <? 18 * n)))));
  ("C31_monotone"%string, all modes (fun m => all [0; 1; 3; 4; 5; 8; 9; 16; 17] (fun n => some_and (raw_table_alloc_size_for_len m 8 n) (fun a => some_and (raw_table_alloc_size_for_len m 8 (n + 1)) (fun b => a <=? b)))));
  ("C31_exact_for_capacity"%string, all modes (fun m => all [2; 3; 4; 5; 7; 10] (fun k => oN_eqb (raw_table_alloc_size_for_len m 24 (cap_of (2 ^ k))) (Some (25 * 2 ^ k)))));
  ("C40_total"%string, all modes (fun m => all [(100, [60; 20]); (100, [80; 30]); (5, [])] (fun x => match bump_counters m (fst x) (snd x) with Some (u, n) => ((u + n) mod two64 =? fst x) && (u =? sumN (snd x)) | None => true end)));
  ("C40_exact"%string, all modes (fun m => match bump_counters m 100 [60; 20] with Some (80, 20) => true | _ => false end))
].

(** ** Values *)
Definition T := ImplModel.mkT.
Definition t8 := T "u8" 1 false.
Definition t64 := T "u64" 8 false.
Definition tS := T "String" 24 true.
Definition vL t := Node (SLeaf t) [].
Definition vStr n cap := Node (SString tS n cap) [].
Definition vBox v := Node (SBox (T "Box" 8 true) 8) [v].
Definition vArc x := Node (SShared (T "Arc" 8 true) 8 x) [].
Definition strs := [vStr 3 8; vStr 0 0; vStr 5 5].
Definition kvs := [vStr 3 8; vL t64; vStr 1 1; vL t64].
Definition tKV := T "(String, u64)" 32 true.
Definition u64s := [vL t64; vL t64; vL t64].
(** Values of every shape without map entries; [T _ 24 true] are owners. *)
Definition values : list value := [
  vL t64; Node (SStr 7) []; Node (SOsStr 9) []; Node (SSlice t64) u64s; Node (SSlice tS) strs;
  Node (SStruct (T "S" 48 true) ["a"; "b"; "c"]%string) [vL t64; vStr 3 8; vBox (vL t64)];
  Node (SEnum (T "E" 32 true) None) []; Node (SEnum (T "E" 32 true) (Some ("V", ["0"])%string)) [vStr 3 8];
  Node (SManuallyDrop (T "MD" 24 false)) [vStr 3 8];
  Node (SCell (T "Mutex" 32 true) true) [vStr 3 8]; Node (SCell (T "Mutex" 32 true) false) [vStr 3 8];
  Node (SOnce (T "Once" 32 true) true) [vStr 3 8]; Node (SOnce (T "Once" 32 true) false) [vStr 3 8];
  vBox (vStr 2 9); vBox (vBox (vL t64)); Node (SBox (T "Box<[String]>" 16 true) 16) [Node (SSlice tS) strs];
  Node (SVec (T "Vec" 24 true) t64 5) u64s; Node (SVec (T "Vec" 24 true) tS 5) strs; Node (SVec (T "Vec" 24 true) tS 0) []; Node (SVec (T "Vec" 24 true) (T "Z" 0 true) 9) [vL (T "Z" 0 true)];
  Node (SVecDeque (T "VecDeque" 32 true) t64 2 5) u64s; Node (SVecDeque (T "VecDeque" 32 true) tS 1 5) strs; Node (SVecDeque (T "VecDeque" 32 true) tS 0 0) [];
  vStr 3 8; Node (SPathBuf (T "PathBuf" 24 true) 3 8) []; Node (SPathBuf (T "PathBuf" 24 true) 0 0) [];
  Node (SCompactString (T "CS" 24 true) (Some (30, 40))) []; Node (SCompactString (T "CS" 24 true) None) [];
  Node (SSlab (T "Slab" 48 true) t64 5) u64s; Node (SSlab (T "Slab" 48 true) tS 5) strs; Node (SSlab (T "Slab" 48 true) tS 0) [];
  Node (SSmallVec (T "SV" 80 true) tS false) strs; Node (SSmallVec (T "SV" 80 true) tS true) strs;
  Node (SBigInt (T "BigInt" 32 true) 5) [];
  Node (SIndexSet (T "IndexSet" 72 true) tS 6) strs; Node (SIndexSet (T "IndexSet" 72 true) tS 0) []; Node (SIndexSet (T "IndexSet" 72 true) tS 3) [vStr 1 1]; Node (SIndexMap (T "IndexMap" 72 true) tKV 1) [vStr 1 1; vL t64];
  Node (SIndexMap (T "IndexMap" 72 true) tKV 5) kvs; Node (SJsonMap (T "Map" 24 true)) kvs;
  Node (SDashMap (T "DashMap" 40 true) tKV 5) kvs; Node (SDashSet (T "DashSet" 40 true) tS 5) strs;
  Node (SHashTable (T "HashTable" 32 true) tS 7) strs; Node (SHashTable (T "HashTable" 32 true) t64 14) u64s;
  Node (SMap (T "HashMap" 48 true)) []; Node (SSet (T "HashSet" 48 true)) [];
  Node (SBump (T "Bump" 16 true) 100 [60; 20]) []; Node (SWeak (T "Weak" 8 true) None) []
].
Definition map_values : list value := [Node (SMap (T "HashMap" 48 true)) kvs; Node (SSet (T "HashSet" 48 true)) strs; Node (SMap (T "HashMap" 48 true)) (vL t64 :: u64s)].
Definition nowhere (_ : ptr) : vprog := VRet.
Definition nodeV (free : bool) (next : ptr) : value :=
  Node (SStruct (T "Node" 64 true) ["names"; "next"; "weak"; "arc"]%string)
    [Node (SVec (T "Vec" 24 true) tS 5) strs; Node (SCell (T "Mutex" 16 true) free) [vArc next];
     Node (SWeak (T "Weak" 8 true) (Some (T "Arc" 8 true, 8, next))) []; Node (SShared (T "TArc" 8 true) 8 3) []].
Definition st : store := [(1, (InArc 8, nodeV true 2)); (2, (InRc 8, nodeV true 1)); (3, (InTriomphe 1, Node (SStr 5) [])); (4, (InBare, vStr 3 8)); (5, (InArc 8, vBox (vL t64)))].
Definition st_alloc (x : ptr) : N := nth (N.to_nat x) [0; 80; 80; 16; 24; 24] 0.
Definition vroots : list value := [vArc 1; Node (SWeak (T "Weak" 8 true) (Some (T "Arc" 8 true, 8, 2))) []; Node (SWeak (T "Weak" 8 true) None) []; Node (SShared (T "Shared" 24 true) 8 4) []; Node (SVec (T "Vec" 24 true) tS 5) strs].
Definition vin m v := visit_in m 3 st v.
(** The same events, in any order. *)
Fixpoint take_ev (e : ev string) (l : list (ev string)) : option (list (ev string)) :=
  match l with [] => None | x :: l' => if ev_eqb e x then Some l' else option_map (cons x) (take_ev e l') end.
Fixpoint same_events (a b : list (ev string)) : bool :=
  match a with
  | [] => match b with [] => true | _ => false end
  | e :: a' => match take_ev e b with Some b' => same_events a' b' | None => false end
  end.
(** A [ThinArc<u16, [u8]>] of three elements. *)
Definition thin_i : inner := InThin "Thin" (mkLayout 2 2) 1 1 3.
Definition thin_w : value := Node (SLeaf (T "HS" (l_size (header_slice_layout (mkLayout 2 2) 1 1 3)) false)) [].
Definition st2 : store := (6, (thin_i, thin_w)) :: st.
Definition st2_alloc (x : ptr) : N := if x =? 6 then l_size (thin_arc_real (mkLayout 2 2) 1 1 3) else st_alloc x.
Definition vroots2 := Node (SShared (T "ThinArc" 8 true) 8 6) [] :: vroots.
Definition has_refs (v : value) : bool := negb (match value_refs v with [] => true | _ => false end).
Definition head_of (p : vprog) : option (N * vprog) := match p with VInline _ s _ r => Some (s, r) | _ => None end.
Fixpoint crash_free_b (p : vprog) : bool :=
  match p with
  | VRet => true | VCrash => false
  | VInline _ _ b r | VUnique _ _ b r => crash_free_b b && crash_free_b r
  | VShared _ _ _ b r1 r2 => crash_free_b b && crash_free_b r1 && crash_free_b r2
  end.
Definition events_of m v := root_events [visit m nowhere v].
Definition E p k pk s := mkEv (A := string) p k pk s.

Definition i_impl : list (string * bool) := [
  ("C33_owned_bytes"%string, all modes (fun m => all values (fun v => oN_eqb (size_of_unique_allocated_data m (visit m nowhere v)) (Some (owned_bytes v)))));
  ("C33_with_self"%string, all modes (fun m => all values (fun v => oN_eqb (size_of_unique m (size_of_val v) (visit m nowhere v)) (Some (size_of_val v + owned_bytes v)))));
  ("C32_capacity"%string, all modes (fun m => all [Node (SVec (T "Vec" 24 true) tS 5) strs; Node (SVecDeque (T "VecDeque" 32 true) tS 1 5) strs; Node (SSlab (T "Slab" 48 true) tS 5) strs] (fun v => oN_eqb (size_of_unique_allocated_data m (visit m nowhere v)) (Some (5 * 24 + (8 + 0 + 5))))));
  ("C32_text_capacity"%string, all modes (fun m => all [vStr 3 8; Node (SPathBuf (T "PathBuf" 24 true) 3 8) []; Node (SCompactString (T "CS" 24 true) (Some (3, 8))) []] (fun v => oN_eqb (size_of_unique_allocated_data m (visit m nowhere v)) (Some 8))));
  ("C32_events"%string, all modes (fun m => list_eqb ev_eqb (events_of m (Node (SVec (T "Vec" 24 true) t64 5) u64s)) [E ["Vec"] NKInline NKRoot 24; E ["Vec"; "ptr"] NKUnique NKInline 8; E ["Vec"; "ptr"; "u64"] NKInline NKUnique 24; E ["Vec"; "ptr"; "unused_capacity"] NKInline NKUnique 16]%string
      && list_eqb ev_eqb (events_of m (Node (SSlab (T "Slab" 48 true) t64 5) u64s)) [E ["Slab"] NKInline NKRoot 48; E ["Slab"; "ptr"] NKUnique NKInline 8; E ["Slab"; "ptr"; "u64"] NKInline NKUnique 24; E ["Slab"; "ptr"; "unused_capacity"] NKInline NKUnique 16]%string
      && list_eqb ev_eqb (events_of m (Node (SVec (T "Vec" 24 true) t64 0) [])) [E ["Vec"] NKInline NKRoot 24]%string));
  ("C34_entries_ignored"%string, all modes (fun m => all map_values (fun v => oN_eqb (size_of_unique_allocated_data m (visit m nowhere v)) (Some (match v with Node _ cs => sumN (map owned_bytes cs) end)))));
  ("C35_no_warnings"%string, all values (fun v => profile_ok [visit Debug nowhere v] (fun _ o => String.eqb (out_warnings o) "")) && profile_ok (map (vin Debug) vroots) (fun _ o => String.eqb (out_warnings o) ""));
  ("C36_own_size_only"%string, all modes (fun m => all [Node (SCell (T "Mutex" 32 true) false) [vStr 3 8]; Node (SOnce (T "Mutex" 32 true) false) [vStr 3 8]] (fun v => list_eqb ev_eqb (events_of m v) [E ["Mutex"%string] NKInline NKRoot 32])));
  ("C36_contents_irrelevant"%string, all modes (fun m => vprog_eqb (vin m (Node (SCell (T "Mutex" 16 true) false) [vArc 1])) (vin m (Node (SCell (T "Mutex" 16 true) false) [vArc 2; vArc 3]))));
  ("C37_dead"%string, all modes (fun m => list_eqb ev_eqb (events_of m (Node (SWeak (T "Weak" 8 true) None) [])) [E ["Weak"%string] NKInline NKRoot 8]));
  ("C37_live"%string, all modes (fun m => vprog_eqb (vin m (Node (SWeak (T "Weak" 8 true) (Some (T "Arc" 8 true, 8, 2))) [])) (VInline (K "Weak") 8 (vin m (vArc 2)) VRet)));
  ("C37_order_irrelevant"%string, all modes (fun m => obs3_eqb (obs m (map (vin m) vroots)) (obs m (map (vin m) (rev vroots)))));
  ("C43_each_allocation_once"%string, all modes (fun m => let '(b, o) := visit_roots m (map (vin m) vroots) b_default in is_done o && list_eqb N.eqb (sortN (b_visited b)) [1; 2; 3; 4]));
  ("C43_depth_irrelevant"%string, all modes (fun m => list_eqb ev_eqb (root_events (map (vin m) vroots)) (root_events (map (visit_in m 4 st) vroots))));
  ("C44_total_bytes"%string, profile_ok (map (vin Debug) vroots) (fun m o => total_is m o (sumN (map (fun r => size_of_val r + owned_bytes r) vroots) + sumN (map (fun x => st_alloc x + match find_obj st x with Some (_, w) => owned_bytes w | None => 0 end) [1; 2; 3; 4]))));
  ("C20_values_agree"%string, all values (fun v => match v with Node (SManuallyDrop _) _ => true | _ => profile_ok [visit Debug nowhere v] (fun m o => oN_eqb (fg_total_size m (out_flamegraph o)) (size_of_unique m (size_of_val v) (visit m nowhere v))) end));
  ("C45_announces_size"%string, all modes (fun m => all (values ++ map_values ++ vroots) (fun v => match head_of (visit m nowhere v) with Some (s, VRet) => s =? size_of_val v | _ => false end)));
  ("C45_silent"%string, all modes (fun m => vprog_eqb (visit m nowhere (Node (SSilent t64) [])) VRet));
  ("C45_no_panic"%string, all (values ++ map_values ++ vroots) (fun v => crash_free_b (visit Debug nowhere v) && vprog_eqb (visit Debug nowhere v) (visit Release nowhere v)));
  ("C46_own_report"%string, all modes (fun m => all (values ++ map_values ++ vroots) (fun v => same_events (root_events [visit m nowhere v]) (report [] NKRoot v))));
  ("C07_profile_decodable_iff"%string, all (sessions ++ [[vI "Vec<[u8; 4]>" 4 VRet]; [vI "A" 8 (vI "[u8; 4]" 8 (vI "u8" 8 VRet))]]) (fun l => let es := root_events l in
     profile_ok l (fun _ o => Bool.eqb (decodes (out_flamegraph o) (list_of (shown_s es) (ev_paths es)))
       (all (ev_paths es) (fun p => implb (0 <? shown_s es p) (all p clean_b))))));
  ("C07_values_decodable"%string, let es := full_report st2 vroots2 st2_alloc [1; 2; 3; 4; 6] in
     profile_ok (map (visit_in Debug 3 st2) vroots2) (fun _ o => decodes (out_flamegraph o) (list_of (shown_s es) (ev_paths es))));
  ("C46_profile"%string, let es := full_report st2 vroots2 st2_alloc [1; 2; 3; 4; 6] in
     all modes (fun m => same_events (root_events (map (visit_in m 3 st2) vroots2)) es)
     && profile_ok (map (visit_in Debug 3 st2) vroots2) (fun m o => all (map (@ev_path string) es) (fun p => size_at (out_flamegraph o) p =? shown_s es p)));
  ("C40_recorded"%string, all modes (fun m => list_eqb ev_eqb (events_of m (Node (SBump (T "Bump" 16 true) 100 [60; 20]) [])) [E ["Bump"] NKInline NKRoot 16; E ["Bump"; "ptr"] NKUnique NKInline 8; E ["Bump"; "ptr"; "data"] NKInline NKUnique 80; E ["Bump"; "ptr"; "unused_capacity"] NKInline NKUnique 20]%string))
].

(** ** Derive *)
Definition A its : attr := mkAttr (mkPath false [mkSeg false "allocative" None]) (MList (separated TComma (map show_item its))).
Definition docs : attr := mkAttr (mkPath false [mkSeg false "doc" None]) MNameValue.
Definition pth s := mkPath false [mkSeg false s None].
Definition lpath := mkPath true [mkSeg true "crate" None; mkSeg false "m" (Some (false, "T"%string)); mkSeg false "f" (Some (true, "T"%string))].
Definition fsN : fields_decl := FNamed [mkField "a" [docs] "u32"; mkField "b" [A [ISkip]] "X"; mkField "c" [A [IVisit (pth "g"); INothing]] "F"; mkField "d" [] "String"].
Definition fsU : fields_decl := FUnnamed [mkField "" [] "u32"; mkField "" [A [ISkip]] "X"; mkField "" [A [IVisit lpath]] "F"].
Definition osN := [aattrs_default; mkAttrs true None None; mkAttrs false None (Some (pth "g")); aattrs_default].
Definition osU := [aattrs_default; mkAttrs true None None; mkAttrs false None (Some lpath)].
Definition subj n variant cs := mkSubject (T n 40 true) variant cs (fun ty => str_len ty) (fun p i => vI (if path_is_ident p "g" then "g" else "other") (N.of_nat i) VRet).
Definition csN : list sub := [(4, vI "u32" 4 VRet); (8, VCrash); (2, VCrash); (24, vI "String" 24 VRet)].
Definition csU : list sub := [(4, vI "u32" 4 VRet); (8, VCrash); (2, VCrash)].
Definition inp ps wh ats d := mkInput "S" ps wh ats d.
Definition der i := derive_allocative_impl (fun s => negb (String.eqb s "???")) i.
Definition run_of i j : option vprog := do c <- der i; run_derived j (de_body c).
Definition vs := [mkVariant "Unit" [] FUnit; mkVariant "N" [] fsN; mkVariant "U" [docs] fsU; mkVariant "Hid" [A [ISkip]] (FNamed [mkField "a" [A [ISkip; ISkip]] "X"]); mkVariant "Empty" [] (FUnnamed [])].
Definition aattrs_eqb (a b : aattrs) : bool :=
  Bool.eqb (aa_skip a) (aa_skip b) && ostr_eqb (aa_bound a) (aa_bound b) &&
  match aa_visit a, aa_visit b with
  | None, None => true
  | Some p, Some q => Bool.eqb (p_leading p) (p_leading q) && list_eqb (fun s s' => Bool.eqb (sg_kw s) (sg_kw s') && String.eqb (sg_id s) (sg_id s') &&
       match sg_args s, sg_args s' with None, None => true | Some (x, g), Some (y, h) => Bool.eqb x y && String.eqb g h | _, _ => false end) (p_segs p) (p_segs q)
  | _, _ => false
  end.
Definition attrs_are (l : list attr) (o : option aattrs) : bool :=
  match extract_attrs l, o with Some a, Some b => aattrs_eqb a b | None, None => true | _, _ => false end.
Definition raw ts := mkAttr (at_path (A [])) (MList ts).
Definition gparam_eqb (a b : gparam) : bool :=
  match a, b with
  | GType n bs d, GType n' bs' d' => String.eqb n n' && list_eqb String.eqb bs bs' && ostr_eqb d d'
  | GLifetime n bs, GLifetime n' bs' => String.eqb n n' && list_eqb String.eqb bs bs'
  | GConst n t d, GConst n' t' d' => String.eqb n n' && String.eqb t t' && ostr_eqb d d'
  | _, _ => false
  end.
Definition header_is (i : derive_input) (h : gheader) : bool :=
  some_and (der i) (fun c => match de_header c, h with
    | HNone, HNone => true | HText a, HText b => String.eqb a b | HParams a, HParams b => list_eqb gparam_eqb a b | _, _ => false end).
Definition gps := [GLifetime "'a" ["'b"%string]; GType "T" ["Clone"%string] (Some "u8"%string); GConst "N" "usize" None; GType "U" [] None].
Definition unit_s := DStruct FUnit.
Definition res i types consts := some_and (der i) (fun c => resolves (mkDecls types consts) (de_body c)).
Definition tyN := fun _ : string => ["u32"; "X"; "F"; "String"]%string.
Definition tyE := fun v : string => (if String.eqb v "N" then ["u32"; "X"; "F"; "String"] else if String.eqb v "U" then ["u32"; "X"; "F"] else if String.eqb v "Hid" then ["X"] else [])%string.
Definition no_const (_ : string) := false.
Definition one_field n ats := inp [] None [] (DStruct (FNamed [mkField n ats "u8"; mkField "z" [] "u8"])).
Definition items_are (n : string) (o : option (list (bool * string * string))) : bool :=
  match global_root_impl n "tok", o with
  | Some l, Some l' => list_eqb (fun a b => let '(x, y, z) := a in let '(x', y', z') := b in Bool.eqb x x' && String.eqb y y' && String.eqb z z')
       (map (fun i => match i with IStatic a b => (true, a, b) | ICtorRegister a b => (false, a, b) end) l) l'
  | None, None => true | _, _ => false end.

Definition i_derive : list (string * bool) := [
  ("C26_supported"%string, is_none (der (inp [] None [] DUnion)) && negb (is_none (der (inp [] None [A [ISkip]] DUnion))) && is_none (der (inp [] None [A [IBound "???"]] unit_s)) && is_none (der (inp [] None [] (DStruct (FNamed [mkField "a" [raw [TId "bad"]] "u8"])))) && negb (is_none (der (inp [] None [A [ISkip]] (DStruct (FNamed [mkField "a" [raw [TId "bad"]] "u8"])))))
     && is_none (der (inp [] None [] (DEnum [mkVariant "V" [raw [TId "bad"]] FUnit]))));
  ("C26_struct"%string, ovprog_eqb (run_of (inp [] None [docs] (DStruct fsN)) (subj "S" "" csN)) (Some (struct_visit (subj "S" "" csN) fsN osN)) && ovprog_eqb (run_of (inp [] None [] (DStruct fsU)) (subj "S" "" csU)) (Some (struct_visit (subj "S" "" csU) fsU osU)) && ovprog_eqb (run_of (inp [] None [] unit_s) (subj "S" "" [])) (Some (scope "S" 40 VRet)));
  ("C26_enum"%string, all [(0%nat, [], false, []); (1%nat, csN, false, osN); (2%nat, csU, false, osU); (3%nat, [(1, VCrash)], true, []); (4%nat, [], false, [])] (fun x => let '(i, cs, sk, os) := x in
     some_and (nth_error vs i) (fun v => ovprog_eqb (run_of (inp [] None [] (DEnum vs)) (subj "S" (vd_name v) cs)) (Some (variant_visit (subj "S" (vd_name v) cs) v sk os)))));
  ("C26_skip_type"%string, ovprog_eqb (run_of (inp [] None [A [ISkip]] (DStruct fsN)) (subj "S" "" csN)) (Some (scope "S" 40 VRet)) && ovprog_eqb (run_of (inp [] None [A [ISkip]] (DEnum vs)) (subj "S" "Unit" [])) (Some (scope "S" 40 VRet)));
  ("C27_grammar"%string, attrs_are [] (Some aattrs_default) && attrs_are [docs; A [INothing; ISkip; INothing]; A [IBound "T"; IVisit lpath]] (Some (mkAttrs true (Some "T"%string) (Some lpath)))
     && attrs_are [A [ISkip]; A [IBound ""; ISkip]] None && attrs_are [A [IBound "a"; IBound "b"]] None && attrs_are [A [IVisit (pth "a"); IVisit (pth "b")]] None && attrs_are [raw [TId "skip_all"]] None
     && attrs_are [mkAttr (at_path (A [])) MPath] None && attrs_are [mkAttr (at_path (A [])) MNameValue] None && attrs_are [raw [TId "bound"; TStr "x"]] None && attrs_are [raw [TId "bound"; TEq]] None && attrs_are [raw [TId "visit"; TEq; TStr "f"]] None && attrs_are [raw [TId "visit"; TEq; TKw "fn"]] None
     && attrs_are [raw [TId "skip"; TId "bound"; TEq; TStr ""]] None && attrs_are [raw [TComma; TComma]] (Some aattrs_default) && attrs_are [raw []] (Some aattrs_default) && attrs_are [A [IVisit lpath; ISkip]] (Some (mkAttrs true None (Some lpath)))
     && attrs_are [A [IVisit lpath; IBound "T"]] (Some (mkAttrs false (Some "T"%string) (Some lpath))) && attrs_are [A [ISkip; IBound "T"]] (Some (mkAttrs true (Some "T"%string) None)) && negb (is_none (extract_attrs [raw [TId "visit"; TEq; TKw "try"]])));
  ("C27_others_ignored"%string, attrs_are [A [ISkip]; mkAttr (pth "serde") (MList [TId "skip"]); mkAttr (mkPath false [mkSeg false "allocative" None; mkSeg false "x" None]) (MList [TId "skip"])] (Some (mkAttrs true None None)));
  ("C28_struct_exact"%string, res (inp [] None [] (DStruct fsN)) tyN no_const && negb (res (inp [] None [] (DStruct fsN)) tyN (String.eqb "d")) && negb (res (one_field "visitor" []) (fun _ => ["u8"; "u8"]%string) no_const) && negb (res (one_field "visitor" [A [ISkip]]) (fun _ => ["u8"; "u8"]%string) no_const)
     && negb (res (one_field "g" [A [IVisit (pth "z")]]) (fun _ => ["u8"; "u8"]%string) no_const) && negb (res (one_field "g" [A [IVisit (pth "g")]]) (fun _ => ["u8"; "u8"]%string) no_const) && negb (res (one_field "a" [A [IVisit (pth "visitor")]]) (fun _ => ["u8"; "u8"]%string) no_const) && res (one_field "g" [A [IVisit lpath]]) (fun _ => ["u8"; "u8"]%string) no_const);
  ("C28_enum_exact"%string, res (inp [] None [] (DEnum vs)) tyE no_const && negb (res (inp [] None [] (DEnum (vs ++ [mkVariant "W" [] (FNamed [mkField "visitor" [] "u8"])]))) (fun v => if String.eqb v "W" then ["u8"%string] else tyE v) no_const)
     && negb (res (inp [] None [] (DEnum vs)) tyE (String.eqb "f1")));
  ("C28_skip_type"%string, res (inp [] None [A [ISkip]] (DStruct (FNamed [mkField "visitor" [] "u8"]))) tyN no_const);
  ("C29_params"%string, header_is (inp gps None [] unit_s) (HParams [GLifetime "'a" ["'b"%string]; GType "T" ["Clone"; "allocative::Allocative"]%string None; GConst "N" "usize" None; GType "U" ["allocative::Allocative"%string] None])
     && header_is (inp gps None [A [ISkip]] unit_s) (HParams [GLifetime "'a" ["'b"%string]; GType "T" ["Clone"%string] None; GConst "N" "usize" None; GType "U" [] None])
     && header_is (inp gps None [A [IBound ""]] unit_s) (HParams [GLifetime "'a" ["'b"%string]; GType "T" ["Clone"%string] None; GConst "N" "usize" None; GType "U" [] None]) && header_is (inp [] None [] unit_s) HNone);
  ("C29_bound"%string, header_is (inp gps None [A [IBound "T: X"]] unit_s) (HText "T: X"));
  ("C29_name_and_where"%string, some_and (der (inp gps (Some "where T: X"%string) [] unit_s)) (fun c => String.eqb (de_name c) "S" && ostr_eqb (de_where c) (Some "where T: X"%string)));
  ("C42_registers"%string, items_are "FOO_1" (Some [(true, "FOO_1", "tok"); (false, "_foo_1_register_root", "FOO_1")]%string) && items_are "r#type" None);
  ("C42_function_names"%string, all (pairs ["A"; "a"; "B"; "ab"; "A_"]%string) (fun xy => let '(x, y) := xy in
     match global_root_impl x "", global_root_impl y "" with
     | Some [_; ICtorRegister f _], Some [_; ICtorRegister g _] => Bool.eqb (String.eqb f g) (String.eqb x y || (String.eqb x "A" && String.eqb y "a") || (String.eqb x "a" && String.eqb y "A")) | _, _ => false end))
].

(** ** Identities and sessions *)
Definition mem : list allocation := [
  mkAlloc 1000 (InArc 8) (Node (SLeaf t64) []) 0 0; mkAlloc 1024 (InTriomphe 8) (Node (SLeaf t64) []) 0 0;
  mkAlloc 1040 (InRc 32) (Node (SLeaf (T "big" 32 false)) []) 0 0; mkAlloc 1120 (InThin "Thin" (mkLayout 4 4) 1 1 3) (Node (SLeaf (T "hs" 24 false)) []) 0 0;
  mkAlloc 1200 InBare (Node (SLeaf t64) []) 64 16; mkAlloc 1264 (InArc 1) (Node (SLeaf (T "unit" 0 false)) []) 0 0; mkAlloc 1288 (InTriomphe 1) (Node (SLeaf (T "unit" 0 false)) []) 0 0;
  mkAlloc 1296 (InTriomphe 1) (Node (SLeaf (T "unit" 0 false)) []) 0 0].
Definition neighbours : list allocation := [mkAlloc 1000 (InArc 1) (Node (SLeaf (T "unit" 0 false)) []) 0 0; mkAlloc 1016 (InTriomphe 8) (Node (SLeaf t64) []) 0 0].
Definition behind_b (a b : allocation) : bool :=
  negb (triomphe_alloc a) && triomphe_alloc b && (size_of_val (a_value a) =? 0) && (identity a =? a_base a + block_size a) && (a_base b =? identity a).
Definition all_pairs_ok (l : list allocation) : bool :=
  all (pairs l) (fun xy => let '(a, b) := xy in if a_base a =? a_base b then true
    else (a_base a + block_size a <=? a_base b) || (a_base b + block_size b <=? a_base a)).
Definition resolves (l : list allocation) : bool :=
  all l (fun a => some_and (find_obj (store_of l) (identity a)) (fun o => ev_size (hd (mkEv [] NKRoot NKRoot 0) (report [] NKRoot (snd o))) =? size_of_val (a_value a))).
Definition arc_str (x : ptr) : value := Node (SShared (T "Arc<str>" 16 true) 16 x) [].
Definition moment1 n a := mkMoment [(1, (InArc 1, Node (SStr n) []))] (arc_str 1) (fun _ => a).
Definition moment2 n a := mkMoment [(1, (InArc 1, Node (SStr n) [])); (2, (InArc 1, Node (SStr 7) []))]
  (Node (SStruct (T "two" 32 true) ["a"; "b"]%string) [arc_str 1; arc_str 2]) (fun x => if x =? 1 then a else 24).
Definition repr_c_ok (l : list layout) : bool :=
  let fix placed_b start l S := match l with [] => start <=? S | f :: l' =>
    existsb (fun o => let o := N.of_nat o in (start <=? o) && (o mod l_align f =? 0) && placed_b (o + l_size f) l' S) (seq 0 (N.to_nat S + 1)) end in
  oN_eqb (least (fun S => placed_b 0 l S && all l (fun f => S mod l_align f =? 0)) 40 0) (Some (l_size (repr_c l))).

Definition i_session : list (string * bool) := [
  ("C30_repr_c"%string, all [[]; [mkLayout 1 1; mkLayout 4 4; mkLayout 2 2]; [mkLayout 8 8; mkLayout 3 1]; [mkLayout 2 2; mkLayout 8 4; mkLayout 1 1]] repr_c_ok);
  ("C47_collision_iff"%string, all_pairs_ok mem && all_pairs_ok neighbours && all (pairs mem ++ pairs neighbours) (fun xy => let '(a, b) := xy in (a_base a =? a_base b) || Bool.eqb (identity a =? identity b) (behind_b a b || behind_b b a)));
  ("C47_resolves"%string, resolves mem && resolves (rev mem) && list_eqb N.eqb (sortN (map fst (store_of mem))) [1016; 1024; 1072; 1120; 1216; 1280; 1288; 1296]);
  ("C47_no_triomphe"%string, resolves (filter (fun a => negb (triomphe_alloc a)) mem));
  ("C47_no_zero_sized"%string, resolves (filter (fun a => triomphe_alloc a || negb (size_of_val (a_value a) =? 0)) mem));
  ("C48_session"%string, let c1 := moment1 5 24 in let c2 := moment2 100 120 in
     let es := report [] NKRoot (m_root c1) ++ allocation_report c1 1 ++ report [] NKRoot (m_root c2) ++ allocation_report c2 2 in
     all modes (fun m => same_events (root_events (calls_of m 2 [c1; c2])) es)
     && profile_ok (calls_of Debug 2 [c1; c2]) (fun m o => all (map (@ev_path string) es) (fun p => size_at (out_flamegraph o) p =? shown_s es p)));
  ("C48_growing"%string, let c1 := moment1 5 24 in let c2 := moment2 5 24 in
     all modes (fun m => obs3_eqb (obs m (calls_of m 2 [c1; c2])) (obs m (map (visit_in m 2 (m_store c2)) [m_root c1; m_root c2]))));
  ("C48_later_changes_unnoticed"%string, let c1 := moment1 5 24 in
     all modes (fun m => obs3_eqb (obs m (calls_of m 2 [c1; moment2 5 24; c1])) (obs m (calls_of m 2 [c1; moment2 100 120; c1]))))
].

(** ** Growth (C50) and locks (C49) *)
Definition monotone_ok m (l l' : list vprog) : bool :=
  match profile m l, profile m (l ++ l') with
  | Some o, Some o' => all (ev_paths (root_events (l ++ l'))) (fun p => size_at (out_flamegraph o) p <=? size_at (out_flamegraph o') p)
      && match fg_total_size m (out_flamegraph o), fg_total_size m (out_flamegraph o') with Some a, Some b => a <=? b | _, _ => false end
  | _, _ => false end.
Definition touches_b (es : list (ev string)) (p : Spec.path) : bool :=
  existsb (fun e => path_eqb (ev_path e) p || path_eqb (removelast (ev_path e)) p) es.
Definition frame_ok m (l l' : list vprog) : bool :=
  match profile m l, profile m (l ++ l') with
  | Some o, Some o' => all (ev_paths (root_events (l ++ l'))) (fun p => touches_b (later_events l l') p || (size_at (out_flamegraph o) p =? size_at (out_flamegraph o') p))
  | _, _ => false end.
Definition quiet : shared := mkShared (fun l => mkLock [] (N.eqb l 3)) (fun x => if N.eqb x 5 then [Other 0] else []).
Definition t_any (n : string) := mkT n 16 true.
Definition lu32 : lprog := LInline (key_for_type_name "u32") 4 LRet LRet.
Definition u32p : vprog := VInline (key_for_type_name "u32") 4 VRet VRet.
Definition i_more : list (string * bool) := [
  ("C50_frame"%string, all modes (fun m => frame_ok m [r1; r2] [r3] && frame_ok m [r3] [r1] && frame_ok m [r1] [vI "Zed" 8 (vI "y" 4 VRet)]));
  ("C50_monotone"%string, all modes (fun m => monotone_ok m (firstn 1 good) (skipn 1 good) && monotone_ok m good [vI "A" 8 VRet] && monotone_ok m [nosh] [nosh]));
  ("C50_values"%string, all modes (fun m => let vs := filter (fun v => match v with Node (SMap _) _ | Node (SSet _) _ => false | _ => true end) values in
      monotone_ok m (map (visit m nowhere) (firstn 2 vs)) (map (visit m nowhere) (skipn 2 vs))));
  ("C49_cells"%string, vprog_eqb (everything quiet (l_cell (t_any "M") 7 Exclusive (4, lu32))) (impl_cell (t_any "M") true [(4, u32p)])
      && vprog_eqb (everything quiet (l_cell (t_any "M") 3 ReadOnly (4, lu32))) (impl_cell (t_any "M") false [(4, u32p)]));
  ("C49_weaks"%string, vprog_eqb (everything quiet (l_weak (t_any "W") 5 (LShared PTR_NAME 8 5 LRet LRet LRet)))
          (VInline (key_for_type_name "W") 16 (VShared PTR_NAME 8 5 VRet VRet VRet) VRet)
     && vprog_eqb (everything quiet (l_weak (t_any "W") 6 lu32)) (impl_weak (fun _ => VRet) (t_any "W") None));
  ("C49_dash_maps"%string, all modes (fun m => vprog_eqb (everything quiet (l_dash_map (t_any "D") (mkT "(u32, u32)" 8 false) 3 7 [(1, [((4, lu32), (4, lu32))]); (2, []); (4, [((4, lu32), (4, lu32)); ((4, lu32), (4, lu32))])]))
      (impl_dash_map m (t_any "D") (mkT "(u32, u32)" 8 false) 3 7 [(4, u32p); (4, u32p); (4, u32p); (4, u32p); (4, u32p); (4, u32p)])))
].

(** ** Values with locks (C51) *)
Fixpoint seen_alone (s : shared) (p : lprog) : vprog :=
  match p with
  | LRet => VRet
  | LCrash => VCrash
  | LInline k n b r => VInline k n (seen_alone s b) (seen_alone s r)
  | LUnique k n b r => VUnique k n (seen_alone s b) (seen_alone s r)
  | LShared k n x b r1 r2 => VShared k n x (seen_alone s b) (seen_alone s r1) (seen_alone s r2)
  | LTry l _ b r => if free s l then vseq (seen_alone s b) (seen_alone s r) else seen_alone s r
  | LWait _ _ b r => vseq (seen_alone s b) (seen_alone s r)
  | LUpgrade x b r => if alive s x then vseq (seen_alone s b) (seen_alone s r) else seen_alone s r
  end.
Definition lv_u32 : lvalue := LPlain (SLeaf (mkT "u32" 4 false)) [].
Definition lv_vec : lvalue := LPlain (SVec (mkT "Vec<Mutex<u32>>" 24 true) (mkT "Mutex<u32>" 8 true) 3)
  [LLock (mkT "Mutex<u32>" 8 true) 1 Exclusive lv_u32; LLock (mkT "Mutex<u32>" 8 true) 2 Exclusive lv_u32].
Definition lv_map : lvalue := LPlain (SIndexMap (mkT "IndexMap<u32, RwLock<u32>>" 72 true) (mkT "(u32, RwLock<u32>)" 16 true) 4)
  [lv_u32; LLock (mkT "RwLock<u32>" 8 true) 4 ReadOnly lv_u32].
Definition lv_store : lstore :=
  [(5, (InArc 8, LPlain (SStruct (mkT "N" 40 true) ["a"; "b"; "c"]%string)
     [lv_vec; LOnce (mkT "OnceCell<u32>" 8 false) 6 lv_u32; LWeak (mkT "Weak<N>" 8 true) (mkT "Arc<N>" 8 true) 8 8]));
   (8, (InRc 8, lv_map))].
Definition lv_root : lvalue := LPlain (SStruct (mkT "R" 32 true) ["x"; "y"; "z"]%string)
  [LPlain (SShared (mkT "Arc<N>" 8 true) 8 5) []; LLock (mkT "Mutex<Arc<N>>" 16 true) 7 Exclusive (LPlain (SShared (mkT "Arc<N>" 8 true) 8 5) []);
   LWeak (mkT "Weak<N>" 8 true) (mkT "Arc<N>" 8 true) 8 5].
Definition lv_state (busy poison : list N) (dead : list N) : shared :=
  mkShared (fun l => mkLock (if existsb (N.eqb l) busy then [(Other 1, Exclusive)] else []) (existsb (N.eqb l) poison))
    (fun x => if existsb (N.eqb x) dead then [] else [Other 0]).
Definition lv_expected : string :=
"ArcInner 16
ArcInner;N;a;Vec<Mutex<u32>> 16
ArcInner;N;a;Vec<Mutex<u32>>;ptr 8
ArcInner;N;a;Vec<Mutex<u32>>;ptr;Mutex<u32> 12
ArcInner;N;a;Vec<Mutex<u32>>;ptr;Mutex<u32>;data;u32 4
ArcInner;N;a;Vec<Mutex<u32>>;ptr;unused_capacity 8
ArcInner;N;b;OnceCell<u32> 8
ArcInner;N;c;Weak<N> 8
R;x;Arc<N>;ptr 8
R;y;Mutex<Arc<N>> 8
R;y;Mutex<Arc<N>>;data;Arc<N>;ptr 8
R;z;Weak<N> 8
"%string.
Definition i_snapshot : list (string * bool) := [
  ("C51_alone"%string, all modes (fun m => all [lv_root; lv_vec; lv_map] (fun v =>
     all [lv_state [] [] []; lv_state [1; 7] [] []; lv_state [2] [1; 6] [8]; lv_state [4; 6] [] [5]] (fun s =>
       vprog_eqb (seen_alone s (l_visit_in m 3 lv_store v)) (visit_in m 3 (now_store s lv_store) (now s v)))))
   && ostr_eqb (match profile Debug [seen_alone (lv_state [1; 6] [] [5; 8]) (l_visit_in Debug 3 lv_store lv_root)] with
                | Some o => Some (fg_write (out_flamegraph o)) | None => None end) (Some lv_expected));
  ("C51_snapshot"%string, all modes (fun m =>
     vprog_eqb (seen_alone (lv_state [] [] []) (l_visit_in m 3 lv_store lv_root))
       (visit_in m 3 (quiet_store lv_store) (SnapshotModel.quiet lv_root))))
].

(** ** Values whose contents change (C52), at one moment *)
Definition unlocked (s : shared) (l : lock) (a : access) : bool :=
  negb (poisoned (locks s l)) &&
  match a with
  | Exclusive => match held (locks s l) with [] => true | _ => false end
  | ReadOnly => forallb (fun x => access_eqb (snd x) ReadOnly) (held (locks s l))
  end.
Fixpoint resolved (g : memory) (n : nat) (v : mvalue) : value :=
  match n with
  | O => outline v
  | S n' =>
      match v with
      | MPlain s cs => Node s (map (resolved g n') cs)
      | MLock t l a => if unlocked (m_shared g) l a then Node (SCell t true) [resolved g n' (m_content g l)] else Node (SCell t false) []
      | MOnce t l => if unlocked (m_shared g) l ReadOnly then Node (SOnce t true) [resolved g n' (m_content g l)] else Node (SOnce t false) []
      | MWeak t t' ps x => Node (SWeak t (match strong (m_shared g) x with [] => None | _ => Some (t', ps, x) end)) []
      end
  end.
Fixpoint performed (m : mode) (g : memory) (n : nat) (p : code) : vprog :=
  match n with
  | O => VCrash
  | S n' =>
      let go := performed m g n' in
      match p with
      | CRet => VRet
      | CCrash => VCrash
      | CInline k s b r => VInline k s (go b) (go r)
      | CUnique k s b r => VUnique k s (go b) (go r)
      | CShared k s x r => VShared k s x (go (behind (m_object g x))) (go r) (go r)
      | CTry l a f r => if unlocked (m_shared g) l a then vseq (go (opened f (m_content g l))) (go r) else go r
      | CUpgrade x b r => match strong (m_shared g) x with [] => go r | _ => vseq (go b) (go r) end
      | CVisit v r => vseq (go (implementation m v)) (go r)
      end
  end.
Definition mu32 : mvalue := MPlain (SLeaf (mkT "u32" 4 false)) [].
Definition mv_root : mvalue := MPlain (SStruct (mkT "R" 64 true) ["a"; "b"; "c"; "d"; "e"]%string)
  [MLock (mkT "Mutex<Option<Arc<N>>>" 16 true) 7 Exclusive; MOnce (mkT "OnceCell<u32>" 8 false) 6; mu32;
   MWeak (mkT "Weak<N>" 8 true) (mkT "Arc<N>" 8 true) 8 5; MPlain (SShared (mkT "Arc<V>" 8 true) 8 9) []].
Definition mv_memory (s : shared) : memory :=
  mkMem s (fun l => if N.eqb l 7 then MPlain (SStruct (mkT "Option<Arc<N>>" 8 true) ["Some"%string]) [MPlain (SShared (mkT "Arc<N>" 8 true) 8 5) []] else mu32)
    (fun x => if N.eqb x 5 then Some (InArc 8, MPlain (SStruct (mkT "N" 24 true) ["x"; "y"]%string) [MLock (mkT "RwLock<u32>" 8 true) 1 ReadOnly; MLock (mkT "Mutex<u32>" 8 true) 2 Exclusive])
              else if N.eqb x 9 then Some (InRc 8, MPlain (SVec (mkT "Vec<Mutex<u32>>" 24 true) (mkT "Mutex<u32>" 8 true) 3) [MLock (mkT "Mutex<u32>" 8 true) 3 Exclusive; MLock (mkT "Mutex<u32>" 8 true) 4 Exclusive])
              else None).
Definition mv_store (s : shared) : store :=
  concat (map (fun x => match m_object (mv_memory s) x with Some (i, v) => [(x, (i, resolved (mv_memory s) 9 v))] | None => [] end) [5; 9]).
Definition mv_shared (l : lock) (g : owner * access) : shared := mkShared (fun l' => mkLock (if N.eqb l' l then [g] else []) false) (fun x => [Other 0]).
Definition i_change : list (string * bool) := [
  ("C52_snapshot"%string, all modes (fun m =>
     all [lv_state [] [] []; lv_state [1; 7] [] []; lv_state [2] [1; 6] [5]; lv_state [4; 6] [] [5]; mv_shared 1 (Other 1, ReadOnly); mv_shared 2 (Other 1, ReadOnly)] (fun s =>
       vprog_eqb (performed m (mv_memory s) 40 (CVisit mv_root CRet)) (visit_in m 3 (mv_store s) (resolved (mv_memory s) 9 mv_root)))))
].

(** ** A [DashMap] that others modify (C53) *)
Fixpoint d_drive (m : mode) (kd : dash) (t e : tinfo) (n : nat) (d : dstate) : dstate :=
  match n with O => d | S n' => match visit_step m kd t e d with Some d' => d_drive m kd t e n' d' | None => d end end.
Fixpoint d_play (m : mode) (kd : dash) (t e : tinfo) (d : dstate) (script : list (nat * list DashModel.shard)) : dstate :=
  match script with
  | [] => d_drive m kd t e 200 d
  | (n, s) :: script' =>
      let d1 := d_drive m kd t e n d in
      (* only what is not guarded changes *)
      let s' := map (fun i => match guarded d1, nth_error (d_shards d1) i, nth_error s i with
                              | Some j, Some a, Some b => if Nat.eqb i j then a else b
                              | _, _, Some b => b
                              | _, _, None => DashModel.mkShard 0 [] end) (seq 0 (length (d_shards d1))) in
      d_play m kd t e (mkD s' (d_point d1) (d_open d1) (d_builder d1) (d_outcome d1)) script'
  end.
Definition dp_t := mkT "DashMap<u64, u64>" 40 true.
Definition dp_e := mkT "(u64, u64)" 16 false.
Definition dp_s (n : N) : sub := (n, v_simple_sized "u64" n).
Definition dp_en (id : N) : entry := mkEntry id (dp_s (1 + id)) (dp_s (9 - id)).
Definition dp_map (caps : list (N * list N)) : list DashModel.shard := map (fun ci => DashModel.mkShard (fst ci) (map dp_en (snd ci))) caps.
Definition dp_profile (m : mode) (kd : dash) (shs : list DashModel.shard) (script : list (nat * list DashModel.shard)) : option output :=
  let '(b, _) := root_visitor b_default in
  let d := d_play m kd dp_t dp_e (d_start shs b) script in
  match d_point d with
  | PStop => match leave_scope (d_builder d, d_outcome d) with (_, Aborted) => None | (b', _) => finish m b' end
  | _ => None
  end.
Definition out_eqb (a b : option output) : bool :=
  match a, b with
  | Some x, Some y => String.eqb (fg_write (out_flamegraph x)) (fg_write (out_flamegraph y)) && String.eqb (out_warnings x) (out_warnings y)
  | None, None => true
  | _, _ => false
  end.
Definition dp_full := dp_map [(4, [0; 2]); (2, [1; 3]); (1, [])].
Definition dp_less := dp_map [(4, []); (2, [3]); (1, [5])].
Definition dp_more := dp_map [(8, [0; 2; 4; 6]); (4, [1; 3; 5]); (2, [7])].
Definition dp_ids (l : list (list N)) : list (list entry) := map (map dp_en) l.
Definition i_dash : list (string * bool) := [
  ("C53_at_rest"%string, all modes (fun m =>
     out_eqb (dp_profile m IsMap dp_full []) (profile m [impl_dash_map m dp_t dp_e 4 7 (dash_values IsMap dp_full)]) &&
     out_eqb (dp_profile m IsSet dp_full []) (profile m [impl_dash_set m dp_t dp_e 7 (dash_values IsSet dp_full)])));
  ("C53_told"%string, all modes (fun m => all [IsMap; IsSet] (fun kd =>
     (* after [3] steps the first capacity has been read; after [8] the first shard is guarded *)
     out_eqb (dp_profile m kd dp_full [(3%nat, dp_more)])
       (profile m [visit_told m kd dp_t dp_e [4; 4; 2] (dp_ids [[0; 2; 4; 6]; [1; 3; 5]; [7]]) [8; 4; 2] [4; 3; 1]]) &&
     out_eqb (dp_profile m kd dp_full [(8%nat, dp_less)])
       (profile m [visit_told m kd dp_t dp_e [4; 2; 1] (dp_ids [[0; 2]; [3]; [5]]) [4; 2; 1] [2; 1; 1]]) &&
     out_eqb (dp_profile m kd dp_full [(8%nat, dp_less); (10%nat, dp_more)])
       (profile m [visit_told m kd dp_t dp_e [4; 2; 1] (dp_ids [[0; 2]; [3]; [5]]) [4; 4; 2] [4; 3; 1]]))))
].

Definition ofg_eqb (a b : option fg) : bool :=
  match a, b with
  | Some x, Some y => String.eqb (fg_write x) (fg_write y) && N.eqb (fg_node_size x) (fg_node_size y) && oN_eqb (fg_total_size Release x) (fg_total_size Release y)
  | None, None => true | _, _ => false
  end.
Definition it_leaf (n : N) : fg := FG [] 0 n.
Definition it_a : fg := FG [(key_new "y", it_leaf 10)] 10 0.
Definition it_b : fg := FG [(key_new "x", it_leaf 5); (key_new "y", it_leaf (two64 - 11))] (two64 - 6) 1.
Definition it_c : fg := FG [(key_new "y", FG [(key_new "z", it_leaf 3)] 3 2); (key_new "w", it_leaf 4)] 9 7.

(** C61: sizes near 2^63 and 2^64. *)
Definition wb (k : string) (n : N) : vprog := VInline (key_new k) n VRet VRet.
Definition wr_two (n x y : N) : vprog := VInline (key_new "a") n (VInline (key_new "b1") x VRet (VInline (key_new "b2") y VRet VRet)) VRet.
Definition wr_sessions : list (list vprog) :=
  [[wb "big" (2 ^ 63)]; [wb "big" (2 ^ 63 - 1)]; [wr_two 5 (2 ^ 63) 0]; [wr_two 5 (2 ^ 62) (2 ^ 62)]; [wr_two (2 ^ 63) (2 ^ 63 - 1) 0; wb "c" 1];
   [wr_two (2 ^ 63 + 7) (2 ^ 63) 5]; [wr_two 0 (2 ^ 62) (2 ^ 62); wb "c" (2 ^ 62)]; [wr_two 3 (2 ^ 63) (2 ^ 63)];
   [wb "c" (2 ^ 64 - 1); wb "c" 3]; [wr_two 0 (2 ^ 62) (2 ^ 62); wb "c" 1]; [wr_two 0 (2 ^ 62) (2 ^ 62); wb "c" 0];
   [VUnique (key_new "u") (2 ^ 62) (wr_two (2 ^ 63) 1 2) VRet; wr_two 7 8 9]; [wb "x" (2 ^ 62); wb "y" (2 ^ 62); wb "z" (2 ^ 62); wb "w" (2 ^ 62)]].

Definition i_extent : list (string * bool) := [
  ("C57_memory"%string, all modes (fun m => all sessions (fun l => let '(b, _) := visit_roots m l b_default in
     Nat.eqb (length (b_trees b)) (S (length (stacks (root_events l)))) && Nat.eqb (length (b_visited b)) (length (nodup N.eq_dec (b_visited b))))));
  ("C57_depth"%string, all modes (fun m => all sessions (fun l => let '(b, _) := visit_roots m l b_default in let d := longest (root_events l) in
     negb (is_none (finish m b)) && out_eqb (finish_in (S d) m b) (finish m b) && is_none (finish_in d m b))));
  ("C57_again"%string, all modes (fun m => all [joint; [r1]] (fun l => let '(b, _) := visit_roots m l b_default in let '(b', _) := visit_roots m (again 2 l) b_default in
     Nat.eqb (length (b_trees b)) (length (b_trees b')) && Nat.eqb (length (b_visited b)) (length (b_visited b')))));
  ("C58_calls"%string, all modes (fun m => all [it_leaf 0; it_leaf 9; it_a; it_b; it_c] (fun a => all [it_leaf 3; it_leaf (two64 - 1); it_a; it_b; it_c] (fun b =>
     ofg_eqb (returned (add_left m a b)) (fg_add m a b) && ofg_eqb (returned (add_child_left m a (key_new "y") b)) (fg_add_child m a (key_new "y") b) &&
     ofg_eqb (returned (add_self_left m a (two64 - 3))) (fg_add_self m a (two64 - 3))))));
  ("C58_total_size"%string, all [it_leaf 0; it_leaf 9; it_a; it_b; it_c] (fun a => all [it_leaf 3; it_leaf (two64 - 1); it_a; it_b; it_c] (fun b =>
     let g := fst (add_left Debug a b) in oN_eqb (fg_total_size Debug g) (wrapped Debug (node_sum g)))));
  ("C58_all_or_nothing"%string, let g := fst (add_left Debug it_a it_b) in negb (snd (add_left Debug it_a it_b)) &&
     N.eqb (size_at g []) 1 && N.eqb (size_at g ["x"%string]) 5 && N.eqb (size_at g ["y"%string]) 10);
  ("C58_child_or_self"%string, let r := add_child_left Debug it_a (key_new "y") (it_leaf (two64 - 5)) in negb (snd r) && ofg_eqb (Some (fst r)) (Some it_a) &&
     let r := add_self_left Debug it_c (two64 - 3) in negb (snd r) && ofg_eqb (Some (fst r)) (Some it_c));
  ("C58_all_or_nothing"%string, all [it_leaf 9; it_c] (fun a => let r := add_left Debug a (it_leaf (two64 - 1)) in negb (snd r) && ofg_eqb (Some (fst r)) (Some a)));
  ("C59_depth"%string, all modes (fun m => all [vArc 1; vArc 2] (fun v => let p := vin m v in let b := b_default in
     let most := (1 + levels (itself v) + list_sum (map (fun x => levels (held_by st x)) [1; 2; 3]%N))%nat in
     let fits d := match visit_root_in d m p b with Some (b', o) => Nat.eqb (length (b_trees b')) (length (b_trees (fst (visit_root m p b)))) | None => false end in
     fits most && all (seq 0 most) (fun d => Bool.eqb (fits d) (negb (is_none (visit_root_in d m p b))) && (negb (fits d) || fits (S d))) &&
     (* one node inside the other *) is_none (visit_root_in 18 m p b) && fits 19%nat)));
  ("C59_work"%string, all modes (fun m => Nat.eqb (session_calls m (map (vin m) vroots) b_default)
     (list_sum (map (fun v => scopes (itself v)) vroots) + list_sum (map (fun x => scopes (held_by st x)) [1; 2; 3; 4]))));
  ("C59_any"%string, all modes (fun m => let p := vseq (vS "a" 8 1 VRet) (vI "B" 9 (vseq (vS "a" 8 1 VRet) (vI "c" 1 VRet))) in
     Nat.eqb (height p) 2 && is_none (visit_root_in 2 m p b_default) && negb (is_none (visit_root_in 3 m p b_default))));
  ("C60_total"%string, all (sessions ++ [good; joint; [vI "B" 8 (vseq (vI "x" 4 VRet) (vI "y" 8 VRet))]]) (fun l => let es := root_events l in
     profile_ok l (fun m o => total_is m o (block_bytes es + mixed_bytes es + sumN (map (fun p => inline_below_s es p - declared_s es p) (filter (misdeclared_b es) (ev_paths es)))))));
  ("C60_at_most"%string, all [good; joint; [vI "B" 8 (vseq (vI "x" 4 VRet) (vI "y" 8 VRet))]] (fun l => let es := root_events l in
     profile_ok l (fun m o => some_and (fg_total_size m (out_flamegraph o)) (fun n => (block_bytes es <=? n) && (n <=? block_bytes es + sumN (map overspends l))))));
  ("C53_at_most_twice"%string, all modes (fun m => all [IsMap; IsSet] (fun kd => all [3; 5; 8; 9; 10; 12; 14; 16]%nat (fun i =>
     let gone := dp_map [(4, []); (2, []); (1, [])] in
     let c := 7 * t_size dp_e in
     some_and (dp_profile m kd dp_full [(i, gone)]) (fun o => some_and (fg_total_size m (out_flamegraph o)) (fun n =>
       (t_size dp_t + c <=? n) && (n <=? t_size dp_t + 2 * c)))))));
  ("C61_release"%string, all wr_sessions (fun l => let es := root_events l in some_and (profile Release l) (fun o =>
     let L := map (fun p => (p, shown_wrapped_s es p)) (sort path_ltb (filter (fun p => 0 <? shown_wrapped_s es p) (ev_paths es))) in
     String.eqb (fg_write (out_flamegraph o)) (concat_str (map folded_line L)) &&
     oN_eqb (fg_total_size Release (out_flamegraph o)) (Some (low64 (sumN (map snd L)))) &&
     String.eqb (out_warnings o) (concat_str (map (warning_wrapped es) (sort path_ltb (filter (fun p => negb (path_eqb p []) && (own_wrapped_s es p <? 0)%Z) (ev_paths es)))))))); 
  ("C61_visits"%string, all wr_sessions (fun l => let '(b, r) := visit_roots Release l b_default in is_done r && is_fine (snd (root_visitor b)) && negb (is_none (finish Release b))));
  ("C61_debug"%string, all wr_sessions (fun l => let es := root_events l in
     negb (all (ev_paths es) (fun p => declared_s es p <? 2 ^ 64)) ||
     let fine := all (ev_paths es) (fun p => inline_below_s es p <? 2 ^ 64) && (sumN (map (shown_wrapped_s es) (nodup (list_eq_dec string_dec) (ev_paths es))) <? 2 ^ 64) in
     if fine then out_eqb (profile Debug l) (profile Release l) else is_none (profile Debug l)));
  ("C61_modes"%string, all wr_sessions (fun l => is_none (profile Debug l) || out_eqb (profile Debug l) (profile Release l)));
  ("C61_overflow"%string, all [wb "c" 0; wr_two 1 1 1; VUnique (key_new "c") 1 VRet VRet; vS "c" 1 7 VRet] (fun p =>
     let '(b, r) := visit_roots Debug [wb "c" (2 ^ 64 - 1)] b_default in
     let over := match p with VInline _ 0 _ _ => false | VInline _ _ _ _ => false | _ => true end in
     let '(b1, r1) := visit_root Debug p b in
     is_done r && if over then negb (is_done r1) && negb (is_fine (snd (root_visitor b1))) && is_none (finish Release b1) else is_done r1))
].

Definition instances : list (string * bool) := i_extent ++ i_dash ++ i_change ++ i_snapshot ++ i_more ++ i_session ++  i_flame ++ i_keys ++ i_builder ++ i_global ++ i_layout ++ i_impl ++ i_derive.

Definition violated : list string := map fst (filter (fun x => negb (snd x)) instances).

Example instances_hold : violated = [].
Proof. vm_compute. reflexivity. Qed.
