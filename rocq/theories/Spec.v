(** * Spec: the independent specification vocabulary.

    Nothing in this file looks at the arena, the stacks, the caches or the
    order of hash maps. *)
From Coq Require Import Permutation Sorted DecimalString.
From Verif Require Import Base KeyModel FlameModel BuilderModel VisitorModel.

(** A stack path as the user sees it: frame names, outermost first. *)
Definition path := list string.

Definition path_eqb (p q : path) : bool :=
  if list_eq_dec string_dec p q then true else false.

(** Keys obtained from [Key::new] (equivalently from the derive macro). *)
Definition made_by_new (k : key) : Prop := exists s, k = key_new s.

(** Reference FNV-1a, 64 bit (offset basis / prime from the FNV draft):
    xor the byte, then multiply. *)
Definition fnv1a (s : string) : N :=
  fold_left (fun h b => (N.lxor h (N_of_ascii b) * 1099511628211) mod 2 ^ 64)
    (list_ascii_of_string s) 14695981039346656037.

(** ** Numbers

    Equality of sizes: exact with overflow checks, modulo 2^64 without. *)
Definition wrapeq (m : mode) (a b : N) : Prop :=
  match m with Debug => a = b | Release => a mod two64 = b mod two64 end.

(** How a true (unbounded) number is reported: with overflow checks the exact
    number, or a panic ([None]) when it does not fit; without, modulo 2^64. *)
Definition wrapped (m : mode) (n : N) : option N :=
  match m with
  | Debug => if n <? two64 then Some n else None
  | Release => Some (n mod two64)
  end.

(** ** Flame graphs *)

(** Own bytes found in a flame graph under a stack path (sum over all children
    carrying the frame name; [0] if there is none). *)
Fixpoint size_at (f : fg) (p : path) {struct p} : N :=
  match p with
  | [] => fg_node_size f
  | s :: p' =>
      sumN (map (fun kc => if String.eqb (k_str (fst kc)) s then size_at (snd kc) p' else 0)
              (fg_children f))
  end.

(** Sum of the own bytes of all nodes. *)
Fixpoint node_sum (f : fg) : N :=
  match f with
  | FG cs _ n =>
      n + (fix go (l : list (key * fg)) : N :=
             match l with [] => 0 | (_, c) :: l' => node_sum c + go l' end) cs
  end.

(** [g] occurs in [f] (at any depth, including [f] itself). *)
Inductive within (g : fg) : fg -> Prop :=
| within_self : within g g
| within_child f k c : In (k, c) (fg_children f) -> within g c -> within g f.

(** Graphs obtainable with the public FlameGraph API in build mode [m] using
    keys from [K] (cloning is implicit, values are immutable here). *)
Inductive fg_api (m : mode) (K : key -> Prop) : fg -> Prop :=
| api_default : fg_api m K fg_default
| api_add_self f n g : fg_api m K f -> n < two64 -> fg_add_self m f n = Some g -> fg_api m K g
| api_add_child f k c g : fg_api m K f -> K k -> fg_api m K c ->
    fg_add_child m f k c = Some g -> fg_api m K g
| api_add f c g : fg_api m K f -> fg_api m K c -> fg_add m f c = Some g -> fg_api m K g.

Definition any_key (k : key) : Prop := True.

(** Client expressions over the FlameGraph API and their meaning in unbounded
    arithmetic: what was put where. *)
Inductive fgexpr :=
| XDefault
| XAddSelf (e : fgexpr) (n : N)
| XAddChild (e : fgexpr) (k : key) (c : fgexpr)
| XAdd (e c : fgexpr).

(** Evaluation on the modelled code. *)
Fixpoint fgeval (m : mode) (e : fgexpr) : option fg :=
  match e with
  | XDefault => Some fg_default
  | XAddSelf e n => do f <- fgeval m e; fg_add_self m f n
  | XAddChild e k c => do f <- fgeval m e; do g <- fgeval m c; fg_add_child m f k g
  | XAdd e c => do f <- fgeval m e; do g <- fgeval m c; fg_add m f g
  end.

(** Bytes put at a path. *)
Fixpoint put_at (e : fgexpr) (p : path) : N :=
  match e with
  | XDefault => 0
  | XAddSelf e n => put_at e p + (match p with [] => n | _ => 0 end)
  | XAddChild e k c =>
      put_at e p + (match p with
                    | [] => 0
                    | s :: p' => if String.eqb (k_str k) s then put_at c p' else 0
                    end)
  | XAdd e c => put_at e p + put_at c p
  end.

(** Bytes put anywhere. *)
Fixpoint put_total (e : fgexpr) : N :=
  match e with
  | XDefault => 0
  | XAddSelf e n => put_total e + n
  | XAddChild e _ c => put_total e + put_total c
  | XAdd e c => put_total e + put_total c
  end.

Fixpoint args_fit (e : fgexpr) : Prop :=
  match e with
  | XDefault => True
  | XAddSelf e n => args_fit e /\ n < two64
  | XAddChild e _ c => args_fit e /\ args_fit c
  | XAdd e c => args_fit e /\ args_fit c
  end.

Fixpoint expr_keys (K : key -> Prop) (e : fgexpr) : Prop :=
  match e with
  | XDefault => True
  | XAddSelf e _ => expr_keys K e
  | XAddChild e k c => expr_keys K e /\ K k /\ expr_keys K c
  | XAdd e c => expr_keys K e /\ expr_keys K c
  end.

(** What a client can observe of a graph. *)
Definition observe (m : mode) (o : option fg) : option (string * option N) :=
  option_map (fun g => (fg_write g, fg_total_size m g)) o.

(** Merging a list of graphs, left to right, starting from the empty one. *)
Definition merge_all (m : mode) (l : list fg) : option fg :=
  fold_left (fun acc f => do a <- acc; fg_add m a f) l (Some fg_default).

(** Lexicographic order of byte strings (a proper prefix is smaller). *)
Fixpoint bytes_lt_list (a b : list N) : Prop :=
  match a, b with
  | [], _ :: _ => True
  | x :: a', y :: b' => x < y \/ (x = y /\ bytes_lt_list a' b')
  | _, [] => False
  end.
Definition bytes (s : string) : list N := map N_of_ascii (list_ascii_of_string s).
Definition bytes_lt (a b : string) : Prop := bytes_lt_list (bytes a) (bytes b).

(** Same content, arbitrary iteration order of every hash map involved. *)
Inductive shuffled : fg -> fg -> Prop :=
| shuffled_intro cs cs' cs'' c n :
    Permutation.Permutation cs cs' -> shuffled_list cs' cs'' ->
    shuffled (FG cs c n) (FG cs'' c n)
with shuffled_list : list (key * fg) -> list (key * fg) -> Prop :=
| shuffled_nil : shuffled_list [] []
| shuffled_cons k f g l l' : shuffled f g -> shuffled_list l l' ->
    shuffled_list ((k, f) :: l) ((k, g) :: l').

(** Lexicographic order on stack paths: frame by frame, byte-wise; a prefix
    comes first. *)
Fixpoint path_cmp (p q : path) : comparison :=
  match p, q with
  | [], [] => Eq
  | [], _ :: _ => Lt
  | _ :: _, [] => Gt
  | a :: p', b :: q' => match str_cmp a b with Eq => path_cmp p' q' | c => c end
  end.
Definition path_lt (p q : path) : Prop := path_cmp p q = Lt.

(** One line of folded-stack text. *)
Definition folded_line (pn : path * N) : string :=
  (join ";" (fst pn) ++ " " ++ show_N (snd pn) ++ newline)%string.

(** [L] is the sorted listing of the size function [size]: exactly the
    non-root paths with non-zero size, each once, in increasing order. *)
Definition listing (size : path -> N) (L : list (path * N)) : Prop :=
  Sorted.StronglySorted path_lt (map fst L) /\
  (forall p n, In (p, n) L <-> p <> [] /\ 0 < n /\ size p = n).

(** ** Reading folded-stack text back (as flamegraph.pl / inferno do) *)
Definition nl_char : ascii := ascii_of_N 10.
Definition space_char : ascii := ascii_of_N 32.
Definition semi_char : ascii := ascii_of_N 59.

Definition push_char (c : ascii) (l : list string) : list string :=
  match l with [] => [String c EmptyString] | x :: l' => String c x :: l' end.

(** Split on a character: always at least one piece. *)
Fixpoint split_on (c : ascii) (s : string) : list string :=
  match s with
  | EmptyString => [EmptyString]
  | String x s' => if Ascii.eqb x c then EmptyString :: split_on c s' else push_char x (split_on c s')
  end.

(** Split at the last space. *)
Fixpoint split_last_space (s : string) : option (string * string) :=
  match s with
  | EmptyString => None
  | String x s' =>
      match split_last_space s' with
      | Some (a, b) => Some (String x a, b)
      | None => if Ascii.eqb x space_char then Some (EmptyString, s') else None
      end
  end.

Definition read_N (s : string) : option N :=
  option_map N.of_uint (DecimalString.NilZero.uint_of_string s).

Definition parse_line (s : string) : option (path * N) :=
  match split_last_space s with
  | None => None
  | Some (stack, count) =>
      match read_N count with
      | None => None
      | Some n => Some (split_on semi_char stack, n)
      end
  end.

Fixpoint parse_lines (l : list string) : option (list (path * N)) :=
  match l with
  | [] => Some []
  | x :: l' =>
      match parse_line x, parse_lines l' with
      | Some a, Some r => Some (a :: r)
      | _, _ => None
      end
  end.

(** The text ends with a newline after every line, so the piece after the last
    newline is empty and dropped. *)
Definition parse_folded (s : string) : option (list (path * N)) :=
  parse_lines (removelast (split_on nl_char s)).

Fixpoint has_char (c : ascii) (s : string) : bool :=
  match s with EmptyString => false | String x s' => Ascii.eqb x c || has_char c s' end.

(** A frame name that does not contain a separator. *)
Definition frame_clean (s : string) : Prop :=
  has_char semi_char s = false /\ has_char nl_char s = false.

(** ** Traces of visit programs

    What a history of visits declares, in order: for every scope opened, the
    frame path at which it is accounted, its kind, the kind of the scope it was
    opened in, and the declared size.  Contents of a shared pointer are
    accounted at a path that restarts at the root.  [name] is what identifies a
    frame ([k_str] for the user-visible statements). *)
Record ev (A : Type) := mkEv {
  ev_path : list A; ev_kind : node_kind; ev_parent : node_kind; ev_size : N }.

Section Trace.
  Variable A : Type.
  Variable name : key -> A.

  (** Result: events, visited pointers afterwards, and whether the program
      returned normally ([false]: it panicked). *)
  Fixpoint trace (p : vprog) (vis : list ptr) (here : list A) (nk : node_kind)
    : list (ev A) * list ptr * bool :=
    match p with
    | VRet => ([], vis, true)
    | VCrash => ([], vis, false)
    | VInline k s body rest =>
        let e := mkEv (here ++ [name k]) NKInline nk s in
        let '(es1, vis1, ok1) := trace body vis (here ++ [name k]) NKInline in
        if ok1 then
          let '(es2, vis2, ok2) := trace rest vis1 here nk in (e :: es1 ++ es2, vis2, ok2)
        else (e :: es1, vis1, false)
    | VUnique k s body rest =>
        let e := mkEv (here ++ [name k]) NKUnique nk s in
        let '(es1, vis1, ok1) := trace body vis (here ++ [name k]) NKUnique in
        if ok1 then
          let '(es2, vis2, ok2) := trace rest vis1 here nk in (e :: es1 ++ es2, vis2, ok2)
        else (e :: es1, vis1, false)
    | VShared k s x body on_some on_none =>
        let e := mkEv (here ++ [name k]) NKShared nk s in
        if ptr_mem x vis then
          let '(es2, vis2, ok2) := trace on_none vis here nk in (e :: es2, vis2, ok2)
        else
          let '(es1, vis1, ok1) := trace body (x :: vis) [] NKShared in
          if ok1 then
            let '(es2, vis2, ok2) := trace on_some vis1 here nk in (e :: es1 ++ es2, vis2, ok2)
          else (e :: es1, vis1, false)
    end.

  (** Several root visits, one after the other (a panic ends only its own root). *)
  Fixpoint trace_roots (l : list vprog) (vis : list ptr) : list (ev A) * list ptr :=
    match l with
    | [] => ([], vis)
    | p :: l' =>
        let '(es1, vis1, _) := trace p vis [] NKRoot in
        let '(es2, vis2) := trace_roots l' vis1 in
        (es1 ++ es2, vis2)
    end.

  Variable A_dec : forall x y : A, {x = y} + {x <> y}.
  Definition path_dec : forall p q : list A, {p = q} + {p <> q} := list_eq_dec A_dec.

  (** Bytes declared by all scopes at path [p]. *)
  Definition declared (es : list (ev A)) (p : list A) : N :=
    sumN (map (fun e => if path_dec (ev_path e) p then ev_size e else 0) es).

  (** [q] is a direct child of [p]. *)
  Definition child_of (q p : list A) : bool :=
    match q with
    | [] => false
    | _ => if path_dec (removelast q) p then true else false
    end.

  (** Bytes declared by all scopes directly below path [p]. *)
  Definition declared_below (es : list (ev A)) (p : list A) : N :=
    sumN (map (fun e => if child_of (ev_path e) p then ev_size e else 0) es).

  Definition is_NKUnique (k : node_kind) : bool :=
    match k with NKUnique => true | _ => false end.

  (** Some scope at path [p] is a unique pointer. *)
  Definition unique_at (es : list (ev A)) (p : list A) : bool :=
    existsb (fun e => if path_dec (ev_path e) p then is_NKUnique (ev_kind e) else false) es.

  Definition inline_below (es : list (ev A)) (p : list A) : N :=
    if unique_at es p then 0 else declared_below es p.

  (** Bytes the flame graph has to show at [p] (truncated subtraction). *)
  Definition shown (es : list (ev A)) (p : list A) : N :=
    match p with [] => 0 | _ => declared es p - inline_below es p end.

  (** [p] must be reported as wrongly declared. *)
  Definition misdeclared (es : list (ev A)) (p : list A) : Prop :=
    p <> [] /\ declared es p < inline_below es p.

  (** Sum of all declared sizes. *)
  Definition total_declared (es : list (ev A)) : N := sumN (map (@ev_size A) es).
End Trace.

(** The user-visible trace: frames are key strings. *)
Definition root_events (l : list vprog) : list (ev string) := fst (trace_roots k_str l []).

Definition declared_s := declared string_dec.
Definition shown_s := shown string_dec.
Definition inline_below_s := inline_below string_dec.
Definition misdeclared_s := misdeclared string_dec.

(** A warning line for path [p]. *)
Definition warning_for (es : list (ev string)) (p : path) : string :=
  ("Incorrect size declaration for node `" ++ join ";" p ++
   "`, size of self: " ++ show_N (declared_s es p) ++
   ", size of inline children: " ++ show_N (inline_below_s es p) ++ newline)%string.

(** All keys used by a program satisfy [K]. *)
Fixpoint keys_in (K : key -> Prop) (p : vprog) : Prop :=
  match p with
  | VRet | VCrash => True
  | VInline k _ b r | VUnique k _ b r => K k /\ keys_in K b /\ keys_in K r
  | VShared k _ _ b r1 r2 => K k /\ keys_in K b /\ keys_in K r1 /\ keys_in K r2
  end.

(** ** Histories of API calls

    Same builder content, arbitrary iteration order of every hash map in it. *)
Definition td_shuffled (a b : tree_data) : Prop :=
  td_size b = td_size a /\ td_rem b = td_rem a /\ td_unique b = td_unique a /\
  Permutation (td_children a) (td_children b).

Definition reordered (b b' : builder) : Prop :=
  b_visited b' = b_visited b /\ b_current b' = b_current b /\ b_shared b' = b_shared b /\
  b_root b' = b_root b /\ b_entered b' = b_entered b /\
  Forall2 td_shuffled (b_trees b) (b_trees b').

(** [history m evs b live]: starting from a new builder, the calls [evs] (each
    allowed by the borrow checker) have returned normally and have led to the
    builder [b] with [live] live visitors; the hash maps may have been
    reordered at any time. *)
Inductive history (m : mode) : list event -> builder -> nat -> Prop :=
| history_start : history m [] b_default 0
| history_step evs b live e b' ret :
    history m evs b live -> allowed live e -> step m b e = (b', Fine, ret) ->
    history m (evs ++ [e]) b' (live_after live e ret)
| history_reorder evs b live b' :
    history m evs b live -> reordered b b' -> history m evs b' live.

(** Number of visitors that were leaked. *)
Definition leaked (evs : list event) : nat := length (filter is_forget evs).

Definition event_size (e : event) : N :=
  match e with
  | EvInline _ s | EvUnique _ s | EvShared _ s _ => s
  | _ => 0
  end.

Definition event_key_in (K : key -> Prop) (e : event) : Prop :=
  match e with
  | EvInline k _ | EvUnique k _ | EvShared k _ _ => K k
  | _ => True
  end.

(** [enter_shared] was called for pointer [x]. *)
Definition mentions (x : ptr) (e : event) : bool :=
  match e with EvShared _ _ y => N.eqb x y | _ => false end.

(** What a client can observe of a finished profile. *)
Definition observe_output (m : mode) (o : output) : string * option N * string :=
  (fg_write (out_flamegraph o), fg_total_size m (out_flamegraph o), out_warnings o).

(** ** Vocabulary for visit programs *)

(** No panic in client code. *)
Fixpoint crash_free (p : vprog) : Prop :=
  match p with
  | VRet => True
  | VCrash => False
  | VInline _ _ b r | VUnique _ _ b r => crash_free b /\ crash_free r
  | VShared _ _ _ b r1 r2 => crash_free b /\ crash_free r1 /\ crash_free r2
  end.

(** Pointers a program may pass to [enter_shared]. *)
Fixpoint pointers (p : vprog) : list ptr :=
  match p with
  | VRet | VCrash => []
  | VInline _ _ b r | VUnique _ _ b r => pointers b ++ pointers r
  | VShared _ _ x b r1 r2 => x :: pointers b ++ pointers r1 ++ pointers r2
  end.

(** [p] inside nested inline scopes, outermost first. *)
Fixpoint nest (ks : list (key * N)) (p : vprog) : vprog :=
  match ks with
  | [] => p
  | (k, s) :: ks' => VInline k s (nest ks' p) VRet
  end.

(** [cut p q]: [q] is [p] with panics injected at arbitrary points. *)
Inductive cut : vprog -> vprog -> Prop :=
| cut_same p : cut p p
| cut_here p : cut p VCrash
| cut_inline k s b b' r r' : cut b b' -> cut r r' -> cut (VInline k s b r) (VInline k s b' r')
| cut_unique k s b b' r r' : cut b b' -> cut r r' -> cut (VUnique k s b r) (VUnique k s b' r')
| cut_shared k s x b b' r1 r1' r2 r2' : cut b b' -> cut r1 r1' -> cut r2 r2' ->
    cut (VShared k s x b r1 r2) (VShared k s x b' r1' r2').

(** The pointers whose contents have been visited after the root visits [l]. *)
Definition visited_by (l : list vprog) (x : ptr) : Prop :=
  ptr_mem x (snd (trace_roots k_str l [])) = true.

(** ** Consistent declarations

    [fits p cap]: every inline scope opened by [p] declares at least the sum of
    the scopes opened directly inside it, whatever [enter_shared] answers;
    [cap] is what is left of the enclosing scope's declaration ([None]: the
    enclosing scope is the top level, a unique pointer or a shared pointee,
    which do not contain their children). *)
Fixpoint fits (p : vprog) (cap : option N) : Prop :=
  let room s := match cap with Some c => s <= c | None => True end in
  let left s := option_map (fun c => c - s) cap in
  match p with
  | VRet | VCrash => True
  | VInline _ s b r => room s /\ fits b (Some s) /\ fits r (left s)
  | VUnique _ s b r => room s /\ fits b None /\ fits r (left s)
  | VShared _ s _ b r1 r2 => room s /\ fits b None /\ fits r1 (left s) /\ fits r2 (left s)
  end.
Definition well_declared (p : vprog) : Prop := fits p None.

(** No stack is entered both as a unique pointer and otherwise. *)
Definition unmixed (es : list (ev string)) : Prop :=
  forall e e', In e es -> In e' es -> ev_path e = ev_path e' ->
  is_NKUnique (ev_kind e) = is_NKUnique (ev_kind e').

Definition is_NKInline (k : node_kind) : bool := match k with NKInline => true | _ => false end.

(** Memory blocks: the scopes opened directly at top level, directly inside a
    unique pointer or directly inside a shared pointee. *)
Definition block_bytes (es : list (ev string)) : N :=
  sumN (map (fun e => if is_NKInline (ev_parent e) then 0 else ev_size e) es).

(** ** Unique data

    The bytes of the blocks behind unique pointers: the inline scopes opened
    directly inside a unique pointer, not following shared pointers.  [nk] is
    the kind of the enclosing scope. *)
Fixpoint unique_bytes (p : vprog) (nk : node_kind) : N :=
  match p with
  | VRet | VCrash => 0
  | VInline _ s b r => (if is_NKUnique nk then s else 0) + unique_bytes b NKInline + unique_bytes r nk
  | VUnique _ s b r => unique_bytes b NKUnique + unique_bytes r nk
  | VShared _ _ _ _ _ r2 => unique_bytes r2 nk
  end.

(** No unique or shared pointer is opened directly inside a unique pointer,
    i.e. what a unique pointer points to announces itself first. *)
Fixpoint announced (p : vprog) (nk : node_kind) : Prop :=
  match p with
  | VRet | VCrash => True
  | VInline _ _ b r => announced b NKInline /\ announced r nk
  | VUnique _ _ b r => nk <> NKUnique /\ announced b NKUnique /\ announced r nk
  | VShared _ _ _ b r1 r2 => nk <> NKUnique /\ announced b NKShared /\ announced r1 nk /\ announced r2 nk
  end.

(** Renaming of frames and pointers. *)
Fixpoint rename (f : key -> key) (g : ptr -> ptr) (p : vprog) : vprog :=
  match p with
  | VRet => VRet
  | VCrash => VCrash
  | VInline k s b r => VInline (f k) s (rename f g b) (rename f g r)
  | VUnique k s b r => VUnique (f k) s (rename f g b) (rename f g r)
  | VShared k s x b r1 r2 => VShared (f k) s (g x) (rename f g b) (rename f g r1) (rename f g r2)
  end.

(** The visit without its shared pointers. *)
Fixpoint forget_shared (p : vprog) : vprog :=
  match p with
  | VRet => VRet
  | VCrash => VCrash
  | VInline k s b r => VInline k s (forget_shared b) (forget_shared r)
  | VUnique k s b r => VUnique k s (forget_shared b) (forget_shared r)
  | VShared _ _ _ _ _ r2 => forget_shared r2
  end.

(** ** Object graphs

    A value as a list of what its visit opens: a scope (unique or inline) with
    contents, or a shared pointer to an object of the heap. *)
Inductive item :=
| Scope (unique : bool) (k : key) (s : N) (body : list item)
| Ref (k : key) (s : N) (x : ptr).

(** A heap maps pointer identities to what visiting the pointee does. *)
Definition heap := list (ptr * list item).

Fixpoint deref (h : heap) (x : ptr) : option (list item) :=
  match h with
  | [] => None
  | (y, o) :: h' => if N.eqb x y then Some o else deref h' x
  end.

(** The visit program of a value: for a shared pointer
    [if let Some(v) = visitor.enter_shared(..) { pointee.visit(v); v.exit() }]
    as in impls/std/sync.rs 66-90, 106-130, then the remaining fields. *)
Fixpoint link1 (pointee : ptr -> vprog) (i : item) (rest : vprog) : vprog :=
  match i with
  | Scope u k s body =>
      (if u then VUnique else VInline) k s
        ((fix go (l : list item) := match l with [] => VRet | j :: l' => link1 pointee j (go l') end) body) rest
  | Ref k s x => VShared k s x (pointee x) rest rest
  end.

(** The recursion through pointers is unrolled [n] levels; going deeper is an
    error ([VCrash]), and so is a dangling pointer. *)
Fixpoint link (n : nat) (h : heap) (l : list item) : vprog :=
  fold_right (link1 (fun x =>
    match n with
    | O => VCrash
    | S n' => match deref h x with Some o => link n' h o | None => VCrash end
    end)) VRet l.

(** Pointers occurring directly in a value. *)
Fixpoint refs1 (i : item) : list ptr :=
  match i with
  | Ref _ _ x => [x]
  | Scope _ _ _ body => (fix go (l : list item) := match l with [] => [] | j :: l' => refs1 j ++ go l' end) body
  end.
Definition refs (l : list item) : list ptr := flat_map refs1 l.

(** Pointers reachable from a list of values. *)
Inductive reachable (h : heap) (roots : list (list item)) : ptr -> Prop :=
| reach_root r x : In r roots -> In x (refs r) -> reachable h roots x
| reach_step y o x : reachable h roots y -> deref h y = Some o -> In x (refs o) -> reachable h roots x.

(** No dangling pointers. *)
Definition closed_heap (h : heap) (roots : list (list item)) : Prop :=
  forall x, reachable h roots x -> exists o, deref h x = Some o.

(** What a value declares by itself, shared pointees excluded. *)
Fixpoint own1 (i : item) (here : path) (nk : node_kind) : list (ev string) :=
  match i with
  | Ref k s x => [mkEv (here ++ [k_str k]) NKShared nk s]
  | Scope u k s body =>
      let kind := if u then NKUnique else NKInline in
      mkEv (here ++ [k_str k]) kind nk s ::
      (fix go (l : list item) := match l with [] => [] | j :: l' => own1 j (here ++ [k_str k]) kind ++ go l' end) body
  end.
Definition own (l : list item) (here : path) (nk : node_kind) : list (ev string) :=
  flat_map (fun i => own1 i here nk) l.

(** What the pointee of [x] declares: at top level. *)
Definition pointee_events (h : heap) (x : ptr) : list (ev string) :=
  match deref h x with Some o => own o [] NKShared | None => [] end.

(** Same fields, possibly visited in another order at any level. *)
Inductive same_fields : list item -> list item -> Prop :=
| sf_nil : same_fields [] []
| sf_scope u k s b b' r r' : same_fields b b' -> same_fields r r' ->
    same_fields (Scope u k s b :: r) (Scope u k s b' :: r')
| sf_ref k s x r r' : same_fields r r' -> same_fields (Ref k s x :: r) (Ref k s x :: r')
| sf_swap i j r : same_fields (i :: j :: r) (j :: i :: r)
| sf_trans a b c : same_fields a b -> same_fields b c -> same_fields a c.

(** Heaps with the same pointers whose pointees have the same fields up to order. *)
Definition same_heap (h h' : heap) : Prop :=
  forall x, match deref h x, deref h' x with
            | Some o, Some o' => same_fields o o'
            | None, None => True
            | _, _ => False
            end.

Fixpoint item_keys_in (K : key -> Prop) (i : item) : Prop :=
  match i with
  | Ref k _ _ => K k
  | Scope _ k _ body => K k /\ (fix go (l : list item) := match l with [] => True | j :: l' => item_keys_in K j /\ go l' end) body
  end.
Definition heap_keys_in (K : key -> Prop) (h : heap) : Prop :=
  Forall (fun xo => Forall (item_keys_in K) (snd xo)) h.

(** The same roots, in any order, with their fields in any order. *)
Definition same_roots (roots roots' : list (list item)) : Prop :=
  exists mid, Permutation roots mid /\ Forall2 same_fields mid roots'.

(** No pointer occurs in two of the visits. *)
Definition disjoint_pointers (l : list vprog) : Prop :=
  ForallOrdPairs (fun p q => forall x, In x (pointers p) -> ~ In x (pointers q)) l.

(** Something is declared at stack [p] or directly below it. *)
Definition touches (es : list (ev string)) (p : path) : Prop :=
  exists e, In e es /\ (ev_path e = p \/ removelast (ev_path e) = p).

(** Bytes of the scopes opened directly inside an inline scope whose stack is
    (elsewhere) also entered as a unique pointer. *)
Definition mixed_bytes (es : list (ev string)) : N :=
  sumN (map (fun e => if is_NKInline (ev_parent e) && unique_at string_dec es (removelast (ev_path e))
                      then ev_size e else 0) es).
