(** * size_of_unique_allocated_data (allocative/src/size_of.rs). *)
From Verif Require Import Base KeyModel HMap FlameModel BuilderModel VisitorModel.

(** size_of.rs 46-50 [enter_inline_impl]; the state is [size], [None] = overflow
    panic of [+=]. *)
Definition so_enter_inline (m : mode) (size : N) (_name : key) (s : N) (parent : node_kind) : option N :=
  match parent with NKUnique => uadd m size s | _ => Some size end.

(** size_of.rs 52 [enter_unique_impl]. *)
Definition so_enter_unique (size : N) (_name : key) (_size : N) (_parent : node_kind) : N := size.

(** size_of.rs 54-62 [enter_shared_impl]. *)
Definition so_enter_shared (size : N) (_name : key) (_size : N) (_ptr : ptr) (_parent : node_kind) : N * bool :=
  (size, false).

(** size_of.rs 64, 66, 72 [exit_inline_impl], [exit_unique_impl], [exit_root_impl]. *)
Definition so_exit (size : N) : N := size.

(** size_of.rs 68-70 [exit_shared_impl]: [unreachable!], [None] = panic. *)
Definition so_exit_shared (_size : N) : option N := None.

(** A visit program against this visitor (visitor.rs 65-118, 244-257); [nk] is
    the [node_kind] of the visitor the program is given.  [None]: a panic
    leaves the function (all exits on unwinding are no-ops here: the visitor
    state is a local variable that is lost). *)
Fixpoint run_so (m : mode) (p : vprog) (nk : node_kind) (size : N) : option N :=
  match p with
  | VRet => Some size
  | VCrash => None
  | VInline k s body rest =>
      do size <- so_enter_inline m size k s nk;
      do size <- run_so m body NKInline size;
      run_so m rest nk (so_exit size)
  | VUnique k s body rest =>
      do size <- run_so m body NKUnique (so_enter_unique size k s nk);
      run_so m rest nk (so_exit size)
  | VShared k s x body r1 r2 =>
      let (size, entered) := so_enter_shared size k s x nk in
      if entered then
        do size <- run_so m body NKShared size;
        do size <- so_exit_shared size;
        run_so m r1 nk size
      else run_so m r2 nk size
  end.

(** size_of.rs 39-83. *)
Definition size_of_unique_allocated_data (m : mode) (root : vprog) : option N :=
  do size <- run_so m root NKRoot 0; Some (so_exit size).

(** size_of.rs 105-110; [size_of_T] is [mem::size_of::<T>()]. *)
Definition size_of_unique (m : mode) (size_of_T : N) (root : vprog) : option N :=
  do d <- size_of_unique_allocated_data m root; uadd m size_of_T d.
