(** * FlameGraphBuilder (allocative/src/flamegraph.rs 98-495). *)
From Verif Require Import Base KeyModel HMap FlameModel.

(** flamegraph.rs 116-128 [struct TreeData]. *)
Record tree_data := mkTD {
  td_size : N;
  td_rem : Z;
  td_unique : bool;
  td_children : hmap nat;          (* HashMap<Key, TreeId> *)
}.

(** flamegraph.rs 116 [#[derive(Default)]]. *)
Definition td_default : tree_data := mkTD 0 0%Z false [].

(** flamegraph.rs 203-209: [TreeId(usize)] and [Trees { trees: Vec<TreeData> }]. *)
Definition trees := list tree_data.

(** Assignment to [self.trees[id]] for an [id] in range.
    Models: flamegraph.rs 227-231: [IndexMut for Trees]. *)
Fixpoint upd {A} (l : list A) (i : nat) (a : A) : list A :=
  match l, i with
  | [], _ => []
  | _ :: l', O => a :: l'
  | x :: l', S i' => x :: upd l' i' a
  end.

(** flamegraph.rs 212-216 [Trees::new_tree]. *)
Definition new_tree (t : trees) : trees * nat := (t ++ [td_default], length t).

(** flamegraph.rs 219-231 [Index]/[IndexMut]: [Vec] indexing, [None] = panic. *)
Definition tree_get (t : trees) (id : nat) : option tree_data := nth_error t id.

(** flamegraph.rs 233-237 [struct TreeStack]; the top of [stack] is the head. *)
Record tree_stack := mkTS { ts_stack : list nat; ts_tree : nat }.

(** flamegraph.rs 275-277: pointer identity. *)
Definition ptr := N.

(** flamegraph.rs 310-323 [struct FlameGraphBuilder]; [HashSet] as a list,
    the top of [shared] is the head. *)
Record builder := mkB {
  b_visited : list ptr;
  b_trees : trees;
  b_current : tree_stack;
  b_shared : list tree_stack;
  b_root : nat;
  b_entered : bool;
}.

(** Assignment to the field [visited_shared] (flamegraph.rs 310-323). *)
Definition set_visited b x := mkB x (b_trees b) (b_current b) (b_shared b) (b_root b) (b_entered b).
(** Assignment to the field [trees] (flamegraph.rs 310-323). *)
Definition set_trees b x := mkB (b_visited b) x (b_current b) (b_shared b) (b_root b) (b_entered b).
(** Assignment to the field [current] (flamegraph.rs 310-323). *)
Definition set_current b x := mkB (b_visited b) (b_trees b) x (b_shared b) (b_root b) (b_entered b).
(** Assignment to the field [shared] (flamegraph.rs 310-323). *)
Definition set_shared b x := mkB (b_visited b) (b_trees b) (b_current b) x (b_root b) (b_entered b).
(** Assignment to the field [entered_root_visitor] (flamegraph.rs 310-323). *)
Definition set_entered b x := mkB (b_visited b) (b_trees b) (b_current b) (b_shared b) (b_root b) x.

(** flamegraph.rs 330-346 [Default]. *)
Definition b_default : builder :=
  let (t, root) := new_tree [] in
  mkB [] t (mkTS [] root) [] root false.

(** Result of a builder operation: normal or panicked; the builder state is
    kept in both cases because [Drop for Visitor] runs on it when unwinding.
    Models: the panics are those of flamegraph.rs 249-478. *)
Inductive status := Fine | Panicked.

(** flamegraph.rs 249-262 [TreeStackRef::down]. *)
Definition down (b : builder) (k : key) : builder * status :=
  let cur := b_current b in
  (* self.stack.stack.push(self.stack.tree); *)
  let b := set_current b (mkTS (ts_tree cur :: ts_stack cur) (ts_tree cur)) in
  let next_tree_id := length (b_trees b) in
  (* match self.trees[self.stack.tree].children.entry(key) *)
  match tree_get (b_trees b) (ts_tree cur) with
  | None => (b, Panicked)
  | Some td =>
      match hm_find (td_children td) k with
      | Some e => (set_current b (mkTS (ts_stack (b_current b)) e), Fine)
      | None =>
          let t := upd (b_trees b) (ts_tree cur)
                     (mkTD (td_size td) (td_rem td) (td_unique td)
                        (hm_insert_new (td_children td) k next_tree_id)) in
          let (t, child) := new_tree t in
          let b := set_trees b t in
          (* assert_eq!(child, next_tree_id); *)
          if Nat.eqb child next_tree_id
          then (set_current b (mkTS (ts_stack (b_current b)) child), Fine)
          else (b, Panicked)
      end
  end.

(** flamegraph.rs 265-272 [TreeStackRef::up]. *)
Definition up (b : builder) : builder * bool :=
  match ts_stack (b_current b) with
  | pop :: rest => (set_current b (mkTS rest pop), true)
  | [] => (b, false)
  end.

(** [self.current().current_data().size += size], flamegraph.rs 245-247, 444,
    449, 463. *)
Definition add_size (m : mode) (b : builder) (size : N) : builder * status :=
  match tree_get (b_trees b) (ts_tree (b_current b)) with
  | None => (b, Panicked)
  | Some td =>
      match uadd m (td_size td) size with
      | None => (b, Panicked)
      | Some s =>
          (set_trees b (upd (b_trees b) (ts_tree (b_current b))
             (mkTD s (td_rem td) (td_unique td) (td_children td))), Fine)
      end
  end.

(** [self.current().current_data().unique = true], flamegraph.rs 452. *)
Definition mark_unique (b : builder) : builder * status :=
  match tree_get (b_trees b) (ts_tree (b_current b)) with
  | None => (b, Panicked)
  | Some td =>
      (set_trees b (upd (b_trees b) (ts_tree (b_current b))
         (mkTD (td_size td) (td_rem td) true (td_children td))), Fine)
  end.

(** flamegraph.rs 426-438 [exit_impl]. *)
Definition exit_impl (b : builder) : builder * status :=
  if negb (b_entered b) then (b, Panicked)     (* assert!(self.entered_root_visitor) *)
  else
    let (b, was_up) := up b in
    if was_up then (b, Fine)
    else
      match b_shared b with
      | shared :: rest =>
          let b := set_current (set_shared b rest) shared in
          let (b, was_up) := up b in
          if was_up then (b, Fine) else (b, Panicked)  (* assert!(self.current().up()) *)
      | [] => (set_entered b false, Fine)
      end.

(** Sequencing: a panic skips the rest (Rust unwinding; used for flamegraph.rs 373-478). *)
Definition bind_status (r : builder * status) (f : builder -> builder * status)
  : builder * status :=
  match r with (b, Fine) => f b | (b, Panicked) => (b, Panicked) end.

(** flamegraph.rs 442-445 [enter_inline_impl]. *)
Definition enter_inline (m : mode) (b : builder) (k : key) (size : N) : builder * status :=
  bind_status (down b k) (fun b => add_size m b size).

(** flamegraph.rs 447-453 [enter_unique_impl]. *)
Definition enter_unique (m : mode) (b : builder) (k : key) (size : N) : builder * status :=
  bind_status (down b k) (fun b =>
  bind_status (add_size m b size) (fun b => mark_unique b)).

(** [visited_shared.contains] (flamegraph.rs 455-478, [HashSet] of flamegraph.rs 275-276, 312). *)
Definition ptr_mem (p : ptr) (l : list ptr) : bool := existsb (N.eqb p) l.

(** flamegraph.rs 455-478 [enter_shared_impl]; third component: the returned
    [bool]. *)
Definition enter_shared (m : mode) (b : builder) (k : key) (size : N) (p : ptr)
  : builder * status * bool :=
  match bind_status (down b k) (fun b => add_size m b size) with
  | (b, Panicked) => (b, Panicked, false)
  | (b, Fine) =>
      (* if !self.visited_shared.insert(ptr) *)
      if ptr_mem p (b_visited b) then
        let (b, st) := exit_impl b in (b, st, false)
      else
        let b := set_visited b (p :: b_visited b) in
        (* self.shared.push(mem::replace(&mut self.current, TreeStack { stack: vec![], tree: root })) *)
        (set_current (set_shared b (b_current b :: b_shared b)) (mkTS [] (b_root b)), Fine, true)
  end.

(** flamegraph.rs 349-356 [root_visitor]. *)
Definition root_visitor (b : builder) : builder * status :=
  if b_entered b then (b, Panicked)            (* assert!(!self.entered_root_visitor) *)
  else (set_entered b true, Fine).

(** flamegraph.rs 401-403, the loop
    [for child in tree.children.values().copied().collect::<Vec<_>>() { self.update_sizes(child) }];
    [f] is the recursive call. *)
Fixpoint us_loop (f : nat -> trees -> option trees) (l : list (key * nat)) (t : trees) : option trees :=
  match l with
  | [] => Some t
  | (_, c) :: l' => do t <- f c t; us_loop f l' t
  end.

(** flamegraph.rs 408-412, [tree.children.values().map(|child| self.trees[*child].size)]. *)
Fixpoint get_sizes (t : trees) (l : list (key * nat)) : option (list N) :=
  match l with
  | [] => Some []
  | (_, c) :: l' => do tc <- tree_get t c; do r <- get_sizes t l'; Some (td_size tc :: r)
  end.

(** flamegraph.rs 399-417 [update_sizes].  Recursion over the arena; [fuel]
    bounds the recursion depth, exhausting it is reported as [None] and proved
    impossible from [finish] ([FinishFacts]).  [None] also stands for a panic. *)
Fixpoint update_sizes (m : mode) (fuel : nat) (id : nat) (t : trees) {struct fuel}
  : option trees :=
  match fuel with
  | O => None
  | S fuel' =>
      do td <- tree_get t id;
      do t <- us_loop (update_sizes m fuel') (td_children td) t;
      do td <- tree_get t id;
      do children_size <-
        (if td_unique td then Some 0
         else do sizes <- get_sizes t (td_children td); usum m 0 sizes);
      Some (upd t id (mkTD (td_size td)
                       (isaturating_sub (as_isize (td_size td)) (as_isize children_size))
                       (td_unique td) (td_children td)))
  end.

(** flamegraph.rs 131-133 [inline_children_size]. *)
Definition inline_children_size (m : mode) (td : tree_data) : option Z :=
  isub m (as_isize (td_size td)) (td_rem td).

(** The warning line, flamegraph.rs 152-159. *)
Definition warning_line (stack : list string) (size : N) (inline : Z) : string :=
  ("Incorrect size declaration for node `" ++ join ";" stack ++
   "`, size of self: " ++ show_N size ++
   ", size of inline children: " ++ show_Z inline ++ newline)%string.

(** flamegraph.rs 143-160: the graph node and warning text of the node itself. *)
Definition tw_node (m : mode) (tree : tree_data) (stack : list string) : option (fg * string) :=
  if (0 <? td_rem tree)%Z then
    match stack with
    | [] => Some (fg_default, ""%string)             (* don't care *)
    | _ => Some (FG [] 0 (Z.to_N (td_rem tree)), ""%string)
    end
  else if (td_rem tree <? 0)%Z && negb (match stack with [] => true | _ => false end) then
    do ic <- inline_children_size m tree;
    Some (fg_default, warning_line stack (td_size tree) ic)
  else Some (fg_default, ""%string).

(** flamegraph.rs 162-172: [for (key, child) in children] (already sorted);
    [g] is the recursive call. *)
Fixpoint tw_loop (m : mode) (g : nat -> list string -> option (fg * string)) (stack : list string)
  (l : list (key * nat)) (f : fg) (w : string) : option (fg * string) :=
  match l with
  | [] => Some (f, w)
  | (k, c) :: l' =>
      do (cf, cw) <- g c (stack ++ [key_deref k]);
      do f <- fg_add_child m f k cf;
      tw_loop m g stack l' f (w ++ cw)%string
  end.

(** flamegraph.rs 142-175 [TreeRef::write_flame_graph]; returns the graph and
    the text appended to [warnings].  [fuel] as for [update_sizes]. *)
Fixpoint tree_write (m : mode) (fuel : nat) (t : trees) (id : nat) (stack : list string)
  {struct fuel} : option (fg * string) :=
  match fuel with
  | O => None
  | S fuel' =>
      do tree <- tree_get t id;
      do (flame_graph, w) <- tw_node m tree stack;
      (* children.sort_by_key(|(k, _)| *k); *)
      tw_loop m (fun c s => tree_write m fuel' t c s) stack
        (sort_by_key (td_children tree)) flame_graph w
  end.

(** flamegraph.rs 373-382 [finish_impl]; [None] = panic. *)
Definition finish_impl (m : mode) (b : builder) : option (trees * nat) :=
  match b_shared b, ts_stack (b_current b), b_entered b with
  | [], [], false =>
      do t <- update_sizes m (S (length (b_trees b))) (b_root b) (b_trees b);
      Some (t, b_root b)
  | _, _, _ => None                                  (* failed assert! *)
  end.

(** flamegraph.rs 98-114 [FlameGraphOutput]. *)
Record output := mkOut { out_flamegraph : fg; out_warnings : string }.

(** flamegraph.rs 177-181, 198-200 [to_flame_graph] and 385-392 [finish]. *)
Definition finish (m : mode) (b : builder) : option output :=
  do (t, root) <- finish_impl m b;
  do (f, w) <- tree_write m (S (length t)) t root [];
  Some (mkOut f w).

(** flamegraph.rs 395-397 [finish_and_write_flame_graph]. *)
Definition finish_and_write (m : mode) (b : builder) : option string :=
  do o <- finish m b; Some (fg_write (out_flamegraph o)).
