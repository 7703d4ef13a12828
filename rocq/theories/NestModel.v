(** * How deep a visit nests and how much it does. *)
From Verif Require Import Base KeyModel HMap FlameModel BuilderModel VisitorModel.

(** [run] when there is room for [d] nested visitors on the thread's stack; [None]:
    one more was created (the stack overflows, the process ends).  A visitor is on the
    stack from the [enter_*] that returns it until it is left.
    Models: visitor.rs 65-118, 244-257.  Simplification: the stack frames of a nested
    [visit] and its helpers are counted as one. *)
Fixpoint run_in (d : nat) (m : mode) (p : vprog) (b : builder) {struct p} : option (builder * outcome) :=
  match p with
  | VRet => Some (b, Done)
  | VCrash => Some (b, Unwinding)
  | VInline k s body rest =>
      match enter_inline m b k s with
      | (b, Panicked) => Some (b, Unwinding)
      | (b, Fine) =>
          match d with
          | O => None
          | S d' => match run_in d' m body b with
                    | None => None
                    | Some r => match leave_scope r with (b, Done) => run_in d m rest b | r => Some r end
                    end
          end
      end
  | VUnique k s body rest =>
      match enter_unique m b k s with
      | (b, Panicked) => Some (b, Unwinding)
      | (b, Fine) =>
          match d with
          | O => None
          | S d' => match run_in d' m body b with
                    | None => None
                    | Some r => match leave_scope r with (b, Done) => run_in d m rest b | r => Some r end
                    end
          end
      end
  | VShared k s x body r1 r2 =>
      match enter_shared m b k s x with
      | (b, Panicked, _) => Some (b, Unwinding)
      | (b, Fine, true) =>
          match d with
          | O => None
          | S d' => match run_in d' m body b with
                    | None => None
                    | Some r => match leave_scope r with (b, Done) => run_in d m r1 b | r => Some r end
                    end
          end
      | (b, Fine, false) => run_in d m r2 b
      end
  end.

(** flamegraph.rs 359-363 [visit_root]: the root visitor is the first of the [d]. *)
Definition visit_root_in (d : nat) (m : mode) (p : vprog) (b : builder) : option (builder * outcome) :=
  match root_visitor b with
  | (b, Panicked) => Some (b, Unwinding)
  | (b, Fine) => match d with
                 | O => None
                 | S d' => match run_in d' m p b with None => None | Some r => Some (leave_scope r) end
                 end
  end.

(** The number of calls to [enter], [enter_unique] and [enter_shared] a visit makes.
    Models: visitor.rs 65-118, 244-257. *)
Fixpoint run_calls (m : mode) (p : vprog) (b : builder) : nat :=
  match p with
  | VRet | VCrash => 0
  | VInline k s body rest =>
      match enter_inline m b k s with
      | (b, Panicked) => 1
      | (b, Fine) => S (run_calls m body b + match leave_scope (run m body b) with (b, Done) => run_calls m rest b | _ => 0 end)
      end
  | VUnique k s body rest =>
      match enter_unique m b k s with
      | (b, Panicked) => 1
      | (b, Fine) => S (run_calls m body b + match leave_scope (run m body b) with (b, Done) => run_calls m rest b | _ => 0 end)
      end
  | VShared k s x body r1 r2 =>
      match enter_shared m b k s x with
      | (b, Panicked, _) => 1
      | (b, Fine, true) => S (run_calls m body b + match leave_scope (run m body b) with (b, Done) => run_calls m r1 b | _ => 0 end)
      | (b, Fine, false) => S (run_calls m r2 b)
      end
  end%nat.

(** The same for [visit_root] calls one after the other (flamegraph.rs 359-363). *)
Fixpoint session_calls (m : mode) (l : list vprog) (b : builder) : nat :=
  match l with
  | [] => 0
  | p :: l' =>
      (match root_visitor b with (b, Panicked) => 0 | (b, Fine) => run_calls m p b end +
       match visit_root m p b with (_, Aborted) => 0 | (b, _) => session_calls m l' b end)%nat
  end.
