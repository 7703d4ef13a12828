(** * Flame graphs after a panic.

    [fg_add] and its companions (FlameModel) say nothing about the graph a panic
    leaves behind.  Here each operation returns the graph as it is when the call
    is over, and whether it returned ([true]) or panicked ([false]). *)
From Verif Require Import Base KeyModel HMap FlameModel.

(** flamegraph.rs 44-49 [add]: fields are assigned one after the other, an overflow
    leaves the assignment undone and those before it done. *)
Fixpoint add_left (m : mode) (self other : fg) {struct other} : fg * bool :=
  match other with
  | FG ochildren _ onode =>
      (* self.node_size += other.node_size; *)
      match uadd m (fg_node_size self) onode with
      | None => (self, false)
      | Some n =>
          (* for (key, child) in other.children { self.add_child(key, child); } *)
          (fix loop (self : fg) (l : list (key * fg)) {struct l} : fg * bool :=
             match l with
             | [] => (self, true)
             | (k, child) :: l' =>
                 match (do t <- fg_total_size m child; uadd m (fg_children_size self) t) with
                 | None => (self, false)
                 | Some cs =>
                     match hm_find (fg_children self) k with
                     | Some e =>
                         let (e', ok) := add_left m e child in
                         let self := FG (hm_replace (fg_children self) k e') cs (fg_node_size self) in
                         if ok then loop self l' else (self, false)
                     | None => loop (FG (hm_insert_new (fg_children self) k child) cs (fg_node_size self)) l'
                     end
                 end
             end) (FG (fg_children self) (fg_children_size self) n) ochildren
      end
  end.

(** flamegraph.rs 52-62 [add_child]. *)
Definition add_child_left (m : mode) (self : fg) (k : key) (child : fg) : fg * bool :=
  (* self.children_size += child.total_size(); *)
  match (do t <- fg_total_size m child; uadd m (fg_children_size self) t) with
  | None => (self, false)
  | Some cs =>
      (* match self.children.entry(key) *)
      match hm_find (fg_children self) k with
      | Some e => let (e', ok) := add_left m e child in
                  (FG (hm_replace (fg_children self) k e') cs (fg_node_size self), ok)
      | None => (FG (hm_insert_new (fg_children self) k child) cs (fg_node_size self), true)
      end
  end.

(** flamegraph.rs 65-67 [add_self]. *)
Definition add_self_left (m : mode) (self : fg) (size : N) : fg * bool :=
  match uadd m (fg_node_size self) size with
  | None => (self, false)
  | Some n => (FG (fg_children self) (fg_children_size self) n, true)
  end.
