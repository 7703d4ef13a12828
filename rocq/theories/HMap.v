(** * HMap: [std::collections::HashMap<Key, V>].

    An association list; the list order is the map's iteration order.  The
    real map iterates in an unspecified order and may reorder on insertion;
    theorems about observable output are therefore also proved invariant under
    permutation of these lists (C05).  Lookup uses [Eq for Key]
    only: [Hash] is consistent with it ([KeyFacts]), which is the contract
    under which std's map behaves as a finite map. *)
From Verif Require Import Base KeyModel.

(** [HashMap<Key, V>] as a list of entries (flamegraph.rs 31, 127). *)
Definition hmap (V : Type) := list (key * V).

(** [map.get(&k)] / the [Occupied] test of [map.entry(k)].
    Models: flamegraph.rs 31, 127. *)
Fixpoint hm_find {V} (m : hmap V) (k : key) : option V :=
  match m with
  | [] => None
  | (k', v) :: m' => if key_eqb k' k then Some v else hm_find m' k
  end.

(** Overwrite the value of an occupied entry ([*entry.get_mut() = v]).
    Models: flamegraph.rs 54-57. *)
Fixpoint hm_replace {V} (m : hmap V) (k : key) (v : V) : hmap V :=
  match m with
  | [] => []
  | (k', v') :: m' => if key_eqb k' k then (k', v) :: m' else (k', v') :: hm_replace m' k v
  end.

(** [VacantEntry::insert].
    Models: flamegraph.rs 58-60, 254-255. *)
Definition hm_insert_new {V} (m : hmap V) (k : key) (v : V) : hmap V := m ++ [(k, v)].

(** [slice::sort_by_key(|(key, _)| *key)]: stable sort by [Ord for Key]
    (flamegraph.rs 79, 163).  Insertion sort, inserting an element before the
    first strictly greater-or-equal later element keeps stability because
    elements are inserted right to left. *)
Fixpoint insert_by_key {V} (x : key * V) (l : list (key * V)) : list (key * V) :=
  match l with
  | [] => [x]
  | y :: l' =>
      match key_cmp (fst x) (fst y) with
      | Gt => y :: insert_by_key x l'
      | _ => x :: y :: l'
      end
  end.

(** [sort_by_key] (flamegraph.rs 79, 163). *)
Fixpoint sort_by_key {V} (l : list (key * V)) : list (key * V) :=
  match l with
  | [] => []
  | x :: l' => insert_by_key x (sort_by_key l')
  end.
