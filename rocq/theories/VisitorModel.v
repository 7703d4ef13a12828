(** * Visitor (allocative/src/visitor.rs): clients of the visitor API. *)
From Verif Require Import Base KeyModel HMap FlameModel BuilderModel.

(** visitor.rs 51-57 [NodeKind]. *)
Inductive node_kind := NKInline | NKUnique | NKShared | NKRoot.

(** A visit program: what an [Allocative::visit] implementation (for a fixed
    value) does with the [&mut Visitor] it is given.  The only information the
    API returns to the client is the [Option] of [enter_shared], hence the two
    continuations of [VShared].

    - [VRet]: return.
    - [VCrash]: client code panics here.
    - [VInline k s body rest]: [{ let mut v = visitor.enter(k, s); body; v.exit() } rest]
      (visitor.rs 72-81; scope end without [exit] is [Drop], visitor.rs 65-69,
      which performs the same single [exit_impl]).
    - [VUnique]: the same with [enter_unique] (visitor.rs 83-92).
    - [VShared k s p body some none]: [match visitor.enter_shared(k, s, p)
      { Some(mut v) => { body; v.exit(); some } None => none }] (visitor.rs 98-118). *)
Inductive vprog :=
| VRet
| VCrash
| VInline (k : key) (s : N) (body rest : vprog)
| VUnique (k : key) (s : N) (body rest : vprog)
| VShared (k : key) (s : N) (p : ptr) (body on_some on_none : vprog).

(** Sequencing of client code on one visitor.
    Models: callers of visitor.rs 65-118. *)
Fixpoint vseq (p q : vprog) : vprog :=
  match p with
  | VRet => q
  | VCrash => VCrash
  | VInline k s b r => VInline k s b (vseq r q)
  | VUnique k s b r => VUnique k s b (vseq r q)
  | VShared k s x b r1 r2 => VShared k s x b (vseq r1 q) (vseq r2 q)
  end.

(** The programs one after the other (loops such as visitor.rs 190-202). *)
Fixpoint vseqs (l : list vprog) : vprog :=
  match l with [] => VRet | p :: l' => vseq p (vseqs l') end.

(** Outcome of running client code: normal return, unwinding because of a
    panic, or process abort (panic while unwinding).
    Models: visitor.rs 65-69. *)
Inductive outcome := Done | Unwinding | Aborted.

(** Leaving a scope: [Visitor::exit] (visitor.rs 253-257) on normal return or
    [Drop] (visitor.rs 65-69) on unwinding; both run [exit_impl] once
    (visitor.rs 244-251; all four [exit_*_impl] of the builder are [exit_impl],
    flamegraph.rs 480-494).  If that panics, the explicit [exit(mut self)]
    drops [self] again and the drop panics too: abort.  (Simplification: a
    panic inside a scope-end [Drop] without prior unwinding is also reported
    as [Aborted]; neither can happen, see [BuilderFacts].) *)
Definition leave_scope (r : builder * outcome) : builder * outcome :=
  match r with
  | (b, Aborted) => (b, Aborted)
  | (b, o) => match exit_impl b with
              | (b', Fine) => (b', o)
              | (b', Panicked) => (b', Aborted)
              end
  end.

(** Continue after a scope.
    Models: visitor.rs 65-69. *)
Definition and_then (r : builder * outcome) (f : builder -> builder * outcome)
  : builder * outcome :=
  match r with (b, Done) => f b | _ => r end.

(** Running a visit program against the builder.  A panic raised by
    [enter_*_impl] itself happens before the [Visitor] for the new scope
    exists, so no exit runs for that scope.
    Models: visitor.rs 65-118, 244-257. *)
Fixpoint run (m : mode) (p : vprog) (b : builder) : builder * outcome :=
  match p with
  | VRet => (b, Done)
  | VCrash => (b, Unwinding)
  | VInline k s body rest =>
      match enter_inline m b k s with
      | (b, Panicked) => (b, Unwinding)
      | (b, Fine) => and_then (leave_scope (run m body b)) (run m rest)
      end
  | VUnique k s body rest =>
      match enter_unique m b k s with
      | (b, Panicked) => (b, Unwinding)
      | (b, Fine) => and_then (leave_scope (run m body b)) (run m rest)
      end
  | VShared k s x body r1 r2 =>
      match enter_shared m b k s x with
      | (b, Panicked, _) => (b, Unwinding)
      | (b, Fine, true) => and_then (leave_scope (run m body b)) (run m r1)
      | (b, Fine, false) => run m r2 b
      end
  end.

(** flamegraph.rs 359-363 [visit_root]. *)
Definition visit_root (m : mode) (p : vprog) (b : builder) : builder * outcome :=
  match root_visitor b with
  | (b, Panicked) => (b, Unwinding)
  | (b, Fine) => leave_scope (run m p b)
  end.

(** A history of root visits on one builder.  A panic that unwinds out of a
    visit is caught by the caller ([catch_unwind]) and the builder is used
    further; an abort ends the process.
    Models: flamegraph.rs 359-363. *)
Fixpoint visit_roots (m : mode) (l : list vprog) (b : builder) : builder * outcome :=
  match l with
  | [] => (b, Done)
  | p :: l' => match visit_root m p b with
               | (b, Aborted) => (b, Aborted)
               | (b, _) => visit_roots m l' b
               end
  end.

(** A whole profiling session: [FlameGraphBuilder::default()], the root visits,
    [finish()] (flamegraph.rs 330-346, 359-363, 385-392).  [None] = panic in
    [finish] or abort. *)
Definition profile (m : mode) (l : list vprog) : option output :=
  match visit_roots m l b_default with
  | (_, Aborted) => None
  | (b, _) => finish m b
  end.

(** ** Event level: individual API calls, including leaked visitors.

    [EvExit] is one [exit]/[drop] of the innermost live visitor, [EvForget] is
    [mem::forget] of it (a safe operation: the [Drop] never runs).
    Models: visitor.rs 65-118, 244-257. *)
Inductive event :=
| EvRoot
| EvInline (k : key) (s : N)
| EvUnique (k : key) (s : N)
| EvShared (k : key) (s : N) (p : ptr)
| EvExit
| EvForget.

(** One API call (flamegraph.rs 349-356, 442-494; visitor.rs 65-118, 244-257);
    the [bool] tells whether a new live visitor was returned. *)
Definition step (m : mode) (b : builder) (e : event) : builder * status * bool :=
  match e with
  | EvRoot => (root_visitor b, true)
  | EvInline k s => (enter_inline m b k s, true)
  | EvUnique k s => (enter_unique m b k s, true)
  | EvShared k s p => enter_shared m b k s p
  | EvExit => (exit_impl b, false)
  | EvForget => (b, Fine, false)
  end.

(** What the borrow checker allows when [live] visitors exist: [root_visitor]
    (flamegraph.rs 349) borrows the builder mutably for the visitor's lifetime;
    [enter*] (visitor.rs 72-118) need a visitor and borrow it for the lifetime
    of the new one; only the innermost visitor can be used. *)
Definition allowed (live : nat) (e : event) : Prop :=
  match e with EvRoot => live = 0%nat | _ => (0 < live)%nat end.

(** Live visitors after a call (visitor.rs 65-118, 253-257). *)
Definition live_after (live : nat) (e : event) (ret : bool) : nat :=
  match e with
  | EvExit | EvForget => pred live
  | _ => if ret then S live else live
  end.

(** Is a visitor leaked by this event? ([Drop] of visitor.rs 65-69 does not run.) *)
Definition is_forget (e : event) : bool := match e with EvForget => true | _ => false end.

(** ** The [Visitor::visit_*] helpers as client programs.

    [tn]/[sz] stand for [any::type_name::<T>()] and [mem::size_of::<T>()],
    [nd] for [mem::needs_drop::<T>()]: compiler facts passed in. *)

(** Arithmetic in client code: panic = [VCrash].
    Models: used for visitor.rs 214, 223, 237. *)
Definition with_val (x : option N) (f : N -> vprog) : vprog :=
  match x with Some n => f n | None => VCrash end.

(** visitor.rs 122-127 [enter_self_sized] (and 131-136 [enter_self], where
    [sz] is [size_of_val]) followed by [body] and exit. *)
Definition v_enter_self (tn : string) (sz : N) (body : vprog) : vprog :=
  VInline (key_for_type_name tn) sz body VRet.

(** visitor.rs 139-144 [visit_simple]. *)
Definition v_simple (k : key) (s : N) : vprog := VInline k s VRet VRet.

(** visitor.rs 147-152 [visit_simple_sized]. *)
Definition v_simple_sized (tn : string) (sz : N) : vprog := v_enter_self tn sz VRet.

(** visitor.rs 168-177 [visit_field_with]; 154-161 [visit_field] is the case
    [size = size_of_val(field)], [visit = field.visit]. *)
Definition v_field_with (k : key) (size : N) (visit : vprog) : vprog :=
  VInline k size visit VRet.

(** visitor.rs 154-161: [visit_field]. *)
Definition v_field (k : key) (size_of_val : N) (field_visit : vprog) : vprog :=
  v_field_with k size_of_val field_visit.

(** visitor.rs 186-203 [visit_iter] over items with visit programs [items]. *)
Definition v_iter (m : mode) (tn : string) (sz : N) (nd : bool) (items : list vprog) : vprog :=
  if negb nd || N.eqb sz 0 then
    with_val (umul m sz (N.of_nat (length items)))
      (fun s => v_simple (key_for_type_name tn) s)
  else vseqs items.

(** visitor.rs 179-184 [visit_slice]. *)
Definition v_slice (m : mode) (tn : string) (sz : N) (nd : bool) (items : list vprog) : vprog :=
  v_iter m tn sz nd items.

(** visitor.rs 205-217 [visit_vec_like_body]. *)
Definition v_vec_like_body (m : mode) (tn : string) (sz : N) (nd : bool)
  (items : list vprog) (capacity : N) : vprog :=
  with_val (umul m sz capacity) (fun total =>
  v_field_with CAPACITY_NAME total
    (vseq (v_slice m tn sz nd items)
       (with_val (umul m sz (wrapping_sub capacity (N.of_nat (length items))))
          (fun unused => v_simple UNUSED_CAPACITY_NAME unused)))).

(** [mem::size_of::<*const ()>()].
    Models: visitor.rs 223, 237. *)
Definition ptr_size : N := 8.

(** visitor.rs 219-229 [visit_generic_map_fields]; an entry is
    [((size_of_val k, visit k), (size_of_val v, visit v))]. *)
Definition v_generic_map_fields (entries : list ((N * vprog) * (N * vprog))) : vprog :=
  v_field_with DATA_NAME ptr_size
    (vseqs (map (fun kv =>
       vseq (v_field KEY_NAME (fst (fst kv)) (snd (fst kv)))
            (v_field VALUE_NAME (fst (snd kv)) (snd (snd kv)))) entries)).

(** visitor.rs 231-242 [visit_generic_set_fields]. *)
Definition v_generic_set_fields (entries : list (N * vprog)) : vprog :=
  v_field_with DATA_NAME ptr_size
    (vseqs (map (fun k => v_field KEY_NAME (fst k) (snd k)) entries)).
