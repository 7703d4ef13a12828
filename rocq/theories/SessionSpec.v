(** * Specification of profiling a heap that changes between [visit_root] calls.

    A builder may be kept while the program goes on: each [visit_root] call sees
    the heap as it is at that moment.  Between two calls allocations may be
    created, changed and freed, and an address may be used again. *)
From Verif Require Import Base KeyModel BuilderModel VisitorModel Spec LayoutModel ImplModel ImplSpec ReportSpec.

(** One [visit_root] call: the allocations at that time (by identity), the root,
    and the sizes recorded for the allocations. *)
Record moment := mkMoment { m_store : store; m_root : value; m_alloc : ptr -> N }.

(** The allocations a call finds that were not found by the calls before it
    ([seen]): reachable without passing through what was seen. *)
Inductive newly_found (h : store) (v : value) (seen : list ptr) : ptr -> Prop :=
| nf_root x : In x (value_refs v) -> ~ In x seen -> newly_found h v seen x
| nf_step y i w x : newly_found h v seen y -> find_obj h y = Some (i, w) -> In x (value_refs w) -> ~ In x seen ->
    newly_found h v seen x.

(** Nothing that was there is changed or gone later. *)
Definition unchanged_in (h later : store) : Prop :=
  forall x o, find_obj h x = Some o -> find_obj later x = Some o.

(** What an allocation reports at a moment. *)
Definition allocation_report (c : moment) (x : ptr) : list (ev string) :=
  match find_obj (m_store c) x with Some (i, w) => report_inner i w (m_alloc c x) | None => [] end.

(** [session seen calls es]: with [seen] already found, the calls report [es]:
    each its root, and once each newly found allocation as it is then. *)
Inductive session : list ptr -> list moment -> list (ev string) -> Prop :=
| session_nil seen : session seen [] []
| session_cons seen c calls found es :
    NoDup found ->
    (forall x, In x found <-> newly_found (m_store c) (m_root c) seen x) ->
    (forall x, In x found -> exists o, find_obj (m_store c) x = Some o) ->
    session (found ++ seen) calls es ->
    session seen (c :: calls) (report [] NKRoot (m_root c) ++ flat_map (allocation_report c) found ++ es).

Definition moment_ok (n : nat) (c : moment) : Prop :=
  typed_store (m_store c) /\ plain_store (m_store c) /\ typed (m_root c) /\ manual_free (m_root c) /\
  (length (m_store c) <= n)%nat /\
  (forall x i w, find_obj (m_store c) x = Some (i, w) -> recorded_size i w (m_alloc c x)).

(** The [visit_root] calls. *)
Definition calls_of (m : mode) (n : nat) (calls : list moment) : list vprog :=
  map (fun c => visit_in m n (m_store c) (m_root c)) calls.
