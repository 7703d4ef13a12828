(** * Key: hashed strings (allocative/src/key.rs) and the proc macro's copy of
    the hash (allocative_derive/src/derive_allocative.rs). *)
From Verif Require Import Base.

(** key.rs 17-22: [struct Key { hash: u64, s: &'static str }]. *)
Record key := mkKey { k_hash : N; k_str : string }.

(** key.rs 52-63 [Key::hash]: the [while i < s.len()] loop, one step per byte
    index.  [bytes] is [s.as_bytes()]; [fuel] is the number of remaining
    iterations ([s.len() - i]); indexing is in range by construction, the
    [None] branch (index out of range, a panic in const evaluation) returns
    [None]. *)
Fixpoint key_hash_loop (fuel : nat) (s : string) (i : nat) (hash : N) : option N :=
  match fuel with
  | O => Some hash
  | S fuel' =>
      match String.get i s with
      | None => None
      | Some b =>
          let hash := N.lxor hash (N_of_ascii b) in
          let hash := (hash * 0x100000001b3) mod two64 in
          key_hash_loop fuel' s (S i) hash
      end
  end.

(** key.rs 53-63. *)
Definition key_hash_fn (s : string) : option N :=
  key_hash_loop (String.length s) s 0 0xcbf29ce484222325.

(** key.rs 71-73 [Key::new_unchecked]. *)
Definition key_new_unchecked (hash : N) (s : string) : key := mkKey hash s.

(** key.rs 66-69 [Key::new] ([None] = const evaluation panic; proved
    impossible in KeyFacts). *)
Definition key_new_opt (s : string) : option key :=
  do h <- key_hash_fn s; Some (key_new_unchecked h s).

(** [Key::new] as a total function; the default is never used, see
    [KeyFacts.key_new_opt_new].
    Models: key.rs 66-69. *)
Definition key_new (s : string) : key :=
  match key_new_opt s with Some k => k | None => mkKey 0 s end.

(** key.rs 18 [#[derive(Eq, PartialEq)]]: fieldwise. *)
Definition key_eqb (a b : key) : bool :=
  N.eqb (k_hash a) (k_hash b) && String.eqb (k_str a) (k_str b).

(** key.rs 30-34 [Ord for Key]: by string only. *)
Definition key_cmp (a b : key) : comparison := str_cmp (k_str a) (k_str b).

(** key.rs 36-41 [Hash for Key]: what is fed to the hasher. *)
Definition key_hash_input (a : key) : N := k_hash a.

(** key.rs 43-49 [Deref for Key]. *)
Definition key_deref (a : key) : string := k_str a.

(** key.rs 75-85 [Key::for_type_name::<T>()]; [any::type_name] is compiler
    output, passed in as the string [tn].  Both the nightly and the stable
    branch construct [Key::new(type_name)]. *)
Definition key_for_type_name (tn : string) : key := key_new tn.

(** derive_allocative.rs 34-44 [const fn hash]: the proc macro's own copy. *)
Fixpoint derive_hash_loop (fuel : nat) (s : string) (i : nat) (hash : N) : option N :=
  match fuel with
  | O => Some hash
  | S fuel' =>
      match String.get i s with
      | None => None
      | Some b =>
          let hash := N.lxor hash (N_of_ascii b) in
          let hash := (hash * 0x100000001b3) mod two64 in
          derive_hash_loop fuel' s (S i) hash
      end
  end.

(** derive_allocative.rs 34-44: [hash]. *)
Definition derive_hash (s : string) : option N :=
  derive_hash_loop (String.length s) s 0 0xcbf29ce484222325.

(** derive_allocative.rs 152-158 [allocative_key]: the expression
    [Key::new_unchecked(#hash, #s)] that ends up in user code. *)
Definition derive_key_opt (s : string) : option key :=
  do h <- derive_hash s; Some (key_new_unchecked h s).

(** derive_allocative.rs 152-158: [allocative_key]. *)
Definition derive_key (s : string) : key :=
  match derive_key_opt s with Some k => k | None => mkKey 0 s end.

(** impls/common.rs 13-26: the constant keys. *)
Definition UNUSED_CAPACITY_NAME : key := key_new "unused_capacity".
(** impls/common.rs 17. *)
Definition CAPACITY_NAME : key := key_new "capacity".
(** impls/common.rs 20. *)
Definition PTR_NAME : key := key_new "ptr".
(** impls/common.rs 23. *)
Definition DATA_NAME : key := key_new "data".
(** impls/common.rs 25. *)
Definition KEY_NAME : key := key_new "key".
(** impls/common.rs 26. *)
Definition VALUE_NAME : key := key_new "value".
