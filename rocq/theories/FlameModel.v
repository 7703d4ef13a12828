(** * FlameGraph (allocative/src/flamegraph.rs 26-96). *)
From Verif Require Import Base KeyModel HMap.

(** flamegraph.rs 29-36 [struct FlameGraph { children, children_size, node_size }]. *)
Inductive fg := FG (children : list (key * fg)) (children_size node_size : N).

(** Field [children] (flamegraph.rs 31). *)
Definition fg_children (f : fg) : hmap fg := let (c, _, _) := f in c.
(** Field [children_size] (flamegraph.rs 33). *)
Definition fg_children_size (f : fg) : N := let (_, c, _) := f in c.
(** Field [node_size] (flamegraph.rs 35). *)
Definition fg_node_size (f : fg) : N := let (_, _, n) := f in n.

(** flamegraph.rs 29 [#[derive(Default)]]. *)
Definition fg_default : fg := FG [] 0 0.

(** flamegraph.rs 39-41 [total_size]. *)
Definition fg_total_size (m : mode) (f : fg) : option N :=
  uadd m (fg_node_size f) (fg_children_size f).

(** flamegraph.rs 44-49 [add] and 52-62 [add_child], mutually recursive in the
    code; here [add] is structural on [other] and the loop body of [add] is
    the body of [add_child], see [FlameFacts.fg_add_eq] for the literal form.
    [None] is a panic (overflow in debug mode); the partially updated [self]
    after such a panic is in InterruptModel. *)
Fixpoint fg_add (m : mode) (self other : fg) {struct other} : option fg :=
  match other with
  | FG ochildren _ onode =>
      (* self.node_size += other.node_size; *)
      do n <- uadd m (fg_node_size self) onode;
      (* for (key, child) in other.children { self.add_child(key, child); } *)
      (fix loop (self : fg) (l : list (key * fg)) {struct l} : option fg :=
         match l with
         | [] => Some self
         | (k, child) :: l' =>
             do t <- fg_total_size m child;
             do cs <- uadd m (fg_children_size self) t;
             match hm_find (fg_children self) k with
             | Some e =>
                 do e' <- fg_add m e child;
                 loop (FG (hm_replace (fg_children self) k e') cs (fg_node_size self)) l'
             | None =>
                 loop (FG (hm_insert_new (fg_children self) k child) cs (fg_node_size self)) l'
             end
         end) (FG (fg_children self) (fg_children_size self) n) ochildren
  end.

(** flamegraph.rs 52-62 [add_child]. *)
Definition fg_add_child (m : mode) (self : fg) (k : key) (child : fg) : option fg :=
  (* self.children_size += child.total_size(); *)
  do t <- fg_total_size m child;
  do cs <- uadd m (fg_children_size self) t;
  (* match self.children.entry(key) *)
  match hm_find (fg_children self) k with
  | Some e => do e' <- fg_add m e child;
              Some (FG (hm_replace (fg_children self) k e') cs (fg_node_size self))
  | None => Some (FG (hm_insert_new (fg_children self) k child) cs (fg_node_size self))
  end.

(** flamegraph.rs 65-67 [add_self]. *)
Definition fg_add_self (m : mode) (self : fg) (size : N) : option fg :=
  do n <- uadd m (fg_node_size self) size;
  Some (FG (fg_children self) (fg_children_size self) n).

(** One output line, [writeln!(w, "{} {}", stack.join(";"), self.node_size)],
    flamegraph.rs 72. *)
Definition fg_line (stack : list string) (n : N) : string :=
  (join ";" stack ++ " " ++ show_N n ++ newline)%string.

(** flamegraph.rs 69-85 [write_flame_graph_impl].  The function appends to the
    out-parameter [w]; here it returns the appended text.  The recursive calls
    are made before sorting instead of after (each call is pure, the sort looks
    at the keys only); the literal sort-then-recurse form is proved equal in
    [FlameFacts.fg_write_impl_eq]. *)
Fixpoint fg_write_impl (f : fg) (stack : list string) {struct f} : string :=
  match f with
  | FG children _ node_size =>
      ((if negb (N.eqb node_size 0) then
         match stack with
         | [] => ""                         (* Don't care. *)
         | _ => fg_line stack node_size
         end
       else "") ++
      concat_str (map snd (sort_by_key
        ((fix go (l : list (key * fg)) : list (key * string) :=
            match l with
            | [] => []
            | (k, c) :: l' => (k, fg_write_impl c (stack ++ [key_deref k])%list) :: go l'
            end) children))))%string
  end.

(** flamegraph.rs 91-95 [write]. *)
Definition fg_write (f : fg) : string := fg_write_impl f [].
