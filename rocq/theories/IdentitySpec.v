(** * Specification vocabulary for pointer identities. *)
From Verif Require Import Base BuilderModel VisitorModel LayoutModel LayoutSpec ImplModel IdentityModel.

(** Different live allocations do not overlap. *)
Definition disjoint (a b : allocation) : Prop :=
  a_base a + block_size a <= a_base b \/ a_base b + block_size b <= a_base a.

(** What the allocators guarantee about one allocation: alignments are powers of
    two; the result of a [futures::Shared] lies behind the two counters of its
    [Arc] and inside the block. *)
Definition alloc_ok (a : allocation) : Prop :=
  match a_inner a with
  | InArc al | InRc al | InTriomphe al => pow2 al
  | InThin _ h _ al _ => sized h /\ pow2 al
  | InBare => 16 <= a_offset a /\ a_offset a + size_of_val (a_value a) <= a_total a
  end.

Definition triomphe_alloc (a : allocation) : bool :=
  match a_inner a with InTriomphe _ | InThin _ _ _ _ _ => true | _ => false end.

(** The identity of [a] is the address just behind its block, where [b] starts.
    That needs a value of size zero. *)
Definition behind (a b : allocation) : Prop :=
  triomphe_alloc a = false /\ triomphe_alloc b = true /\ size_of_val (a_value a) = 0 /\
  identity a = a_base a + block_size a /\ a_base b = identity a.

(** All live allocations: any two are the same or disjoint. *)
Definition memory_ok (mem : list allocation) : Prop :=
  Forall alloc_ok mem /\ ForallOrdPairs disjoint mem.
