(** * What every value reports, and under which stack.

    A table, written from the documentation's point of view: no visit programs,
    no visitor calls.  All stacks below are relative to the frame of the value
    itself. *)
From Verif Require Import Base KeyModel BuilderModel VisitorModel Spec LayoutModel LayoutSpec ImplModel ImplSpec.

(** A line: stack, kind of scope, kind of the scope around it, bytes. *)
Record line := mkLine { ln_stack : list string; ln_kind : node_kind; ln_in : node_kind; ln_bytes : N }.

(** Where a contained value is reported. *)
Inductive place :=
| Hidden                                                    (* not reported by itself *)
| Direct (stack : list string) (encl : node_kind)           (* its own frame directly at this stack *)
| Named (stack : list string) (encl : node_kind) (label : string).  (* below a frame [label] of its size *)

(** The frame of the value itself. *)
Definition frame_name (s : shape) : string :=
  match s with
  | SStr _ => "str"
  | SOsStr _ => "OsStr"
  | SSlice e => t_name e
  | _ => match shape_info s with Some t => t_name t | None => "" end
  end.

(** Elements without drop glue (or of size 0) are reported in one line. *)
Definition in_bulk (e : tinfo) : bool := negb (t_drop e) || (t_size e =? 0).

(** A buffer that is behind a pointer at all. *)
Definition has_buffer (e : tinfo) (cap : N) : bool := negb (cap =? 0) && negb (t_size e =? 0).

Definition pointer : line := mkLine ["ptr"%string] NKUnique NKInline 8.
Definition bulk (stack : list string) (encl : node_kind) (e : tinfo) (n : N) : list line :=
  if in_bulk e then [mkLine (stack ++ [t_name e]) NKInline encl (n * t_size e)] else [].
Definition unused (stack : list string) (encl : node_kind) (bytes : N) : line :=
  mkLine (stack ++ ["unused_capacity"%string]) NKInline encl bytes.
Definition index_table (n : N) : list line :=
  if n =? 0 then [] else
  [mkLine ["raw_table"%string] NKUnique NKInline 8; mkLine ["raw_table"; "alloc"]%string NKInline NKUnique (9 * buckets_for n)].

(** Lines below the value's own frame that do not belong to a contained value. *)
Definition extra_lines (s : shape) (cs : list value) : list line :=
  match s with
  | SEnum t (Some (v, _)) => [mkLine [v] NKInline NKInline (t_size t)]
  | SBox _ ps => [mkLine ["ptr"%string] NKUnique NKInline ps]
  | SVec _ e cap | SSlab _ e cap =>
      if has_buffer e cap then
        pointer :: bulk ["ptr"%string] NKUnique e (len cs) ++ [unused ["ptr"%string] NKUnique ((cap - len cs) * t_size e)]
      else []
  | SVecDeque _ e front cap =>
      if has_buffer e cap then
        pointer :: bulk ["ptr"%string] NKUnique e (N.min (N.of_nat front) (len cs))
        ++ bulk ["ptr"%string] NKUnique e (len cs - N.of_nat front)
        ++ [unused ["ptr"%string] NKUnique ((cap - len cs) * t_size e)]
      else []
  | SString _ n cap =>
      [pointer; mkLine ["ptr"; "capacity"]%string NKInline NKUnique cap;
       mkLine ["ptr"; "capacity"; "u8"]%string NKInline NKInline (N.of_nat n);
       unused ["ptr"; "capacity"]%string NKInline (cap - N.of_nat n)]
  | SPathBuf _ n cap =>
      if cap =? 0 then [] else
      [pointer; mkLine ["ptr"; "path"]%string NKInline NKUnique n; unused ["ptr"%string] NKUnique (cap - n)]
  | SCompactString _ (Some (n, cap)) =>
      [pointer; mkLine ["ptr"; "str"]%string NKInline NKUnique n; unused ["ptr"%string] NKUnique (cap - n)]
  | SSmallVec _ _ true => [pointer]
  | SBigInt _ digits => [pointer; mkLine ["ptr"; "data"]%string NKInline NKUnique (digits * 8)]
  | SIndexSet _ e cap =>
      mkLine ["data"%string] NKUnique NKInline 8 :: unused ["data"%string] NKUnique ((cap - len cs) * t_size e) :: index_table (len cs)
  | SIndexMap _ e cap =>
      mkLine ["data"%string] NKUnique NKInline 8 :: unused ["data"%string] NKUnique ((cap - len cs / 2) * t_size e) :: index_table (len cs / 2)
  | SJsonMap _ => [mkLine ["data"%string] NKUnique NKInline 8]
  | SDashMap _ e cap =>
      [pointer; mkLine ["ptr"; "capacity"]%string NKInline NKUnique (cap * t_size e);
       unused ["ptr"; "capacity"]%string NKInline ((cap - len cs / 2) * t_size e)]
  | SDashSet _ e cap =>
      [pointer; mkLine ["ptr"; "capacity"]%string NKInline NKUnique (cap * t_size e);
       unused ["ptr"; "capacity"]%string NKInline ((cap - len cs) * t_size e)]
  | SHashTable _ e cap =>
      mkLine ["data"%string] NKUnique NKInline 8 ::
      mkLine ["data"; "capacity"]%string NKInline NKUnique ((t_size e + 1) * buckets_for cap) ::
      bulk ["data"; "capacity"]%string NKInline e (len cs)
  | SMap _ | SSet _ => [mkLine ["data"%string] NKInline NKInline 8]
  | SBump _ allocated chunks =>
      [pointer; mkLine ["ptr"; "data"]%string NKInline NKUnique (sumN chunks); unused ["ptr"%string] NKUnique (allocated - sumN chunks)]
  | SShared _ ps _ => [mkLine ["ptr"%string] NKShared NKInline ps]
  | SWeak _ (Some (t', ps, _)) =>
      [mkLine [t_name t'] NKInline NKInline (t_size t'); mkLine [t_name t'; "ptr"%string] NKShared NKInline ps]
  | _ => []
  end.

Definition key_or_value (i : nat) : string := if Nat.even i then "key" else "value".

(** Where the [i]-th contained value is reported. *)
Definition place_of (s : shape) (i : nat) : place :=
  match s with
  | SSlice _ => Named [] NKInline "data"
  | SStruct _ names => match nth_error names i with Some l => Named [] NKInline l | None => Hidden end
  | SEnum _ (Some (v, names)) => match nth_error names i with Some l => Named [v] NKInline l | None => Hidden end
  | SManuallyDrop _ => Named [] NKInline "inner"
  | SCell _ true => Named [] NKInline "data"
  | SOnce _ true => Direct [] NKInline
  | SBox _ _ => Direct ["ptr"%string] NKUnique
  | SVec _ e _ | SVecDeque _ e _ _ | SSlab _ e _ => if in_bulk e then Hidden else Direct ["ptr"%string] NKUnique
  | SSmallVec _ _ spilled => if spilled then Named ["ptr"%string] NKUnique "data" else Named [] NKInline "data"
  | SIndexSet _ _ _ => Named ["data"%string] NKUnique "value"
  | SIndexMap _ _ _ | SJsonMap _ => Named ["data"%string] NKUnique (key_or_value i)
  | SDashMap _ _ _ => Named ["ptr"; "capacity"]%string NKInline (key_or_value i)
  | SDashSet _ _ _ => Named ["ptr"; "capacity"]%string NKInline "data"
  | SHashTable _ e _ => if in_bulk e then Hidden else Direct ["data"; "capacity"]%string NKInline
  | SMap _ => Named ["data"%string] NKInline (key_or_value i)
  | SSet _ => Named ["data"%string] NKInline "key"
  | _ => Hidden
  end.

Definition at_stack (here : path) (l : line) : ev string :=
  mkEv (here ++ ln_stack l) (ln_kind l) (ln_in l) (ln_bytes l).

(** Everything a value reports when it is visited under the stack [here], inside
    a scope of kind [nk]; what is behind shared pointers is not included. *)
Fixpoint report (here : path) (nk : node_kind) (v : value) : list (ev string) :=
  match v with
  | Node s cs =>
      if silent (Node s cs) then [] else
      let me := here ++ [frame_name s] in
      mkEv me NKInline nk (size_of_val (Node s cs)) ::
      map (at_stack me) (extra_lines s cs) ++
      (fix contents (i : nat) (l : list value) : list (ev string) :=
         match l with
         | [] => []
         | c :: l' =>
             match place_of s i with
             | Hidden => []
             | Direct st k => report (me ++ st) k c
             | Named st k label =>
                 mkEv (me ++ st ++ [label]) NKInline k (size_of_val c) :: report (me ++ st ++ [label]) NKInline c
             end ++ contents (S i) l'
         end) 0%nat cs
  end.

(** Frames of an allocation behind a shared pointer, at top level. *)
Definition inner_stack (i : inner) : list string :=
  match i with
  | InArc _ => ["ArcInner"%string]
  | InRc _ => ["RcInner"%string]
  | InTriomphe _ => ["allocative::impls::triomphe::ArcInnerRepr"%string]
  | InThin tn _ _ _ _ => [tn]
  | InBare => []
  end.

(** Everything the allocation behind a shared pointer reports; [S] is its size. *)
Definition report_inner (i : inner) (w : value) (S : N) : list (ev string) :=
  match i with
  | InArc _ | InRc _ => mkEv (inner_stack i) NKInline NKShared S :: report (inner_stack i) NKInline w
  | InTriomphe _ | InThin _ _ _ _ _ =>
      mkEv (inner_stack i) NKInline NKShared S ::
      mkEv (inner_stack i ++ ["data"%string]) NKInline NKInline (size_of_val w) :: report (inner_stack i ++ ["data"%string]) NKInline w
  | InBare => report [] NKShared w
  end.

(** The size recorded for the allocation behind a shared pointer: its size, except
    that for a [ThinArc] it is that of a C struct of { counter, header, length }
    followed by the elements (the same, unless the elements are aligned more
    strictly than the rest: C30); [futures::Shared] records none. *)
Definition recorded_size (i : inner) (w : value) (S : N) : Prop :=
  match i with
  | InThin _ h sz al n => S = l_size (repr_c [repr_c [usize_layout; h; usize_layout]; mkLayout (sz * n) al])
  | InBare => True
  | _ => alloc_size i w S
  end.

(** The report of everything reachable from some values: theirs, and once that
    of every reachable allocation. *)
Definition full_report (h : store) (roots : list value) (alloc : ptr -> N) (xs : list ptr) : list (ev string) :=
  flat_map (report [] NKRoot) roots ++
  flat_map (fun x => match find_obj h x with Some (i, w) => report_inner i w (alloc x) | None => [] end) xs.

(** The type, field and variant names that can occur as frames of a value. *)
Definition node_names (s : shape) : list string :=
  frame_name s ::
  match s with
  | SStruct _ names => names
  | SEnum _ (Some (v, names)) => v :: names
  | SVec _ e _ | SVecDeque _ e _ _ | SSlab _ e _ | SHashTable _ e _ => [t_name e]
  | SWeak _ (Some (t', _, _)) => [t_name t']
  | _ => []
  end.
Fixpoint all_names (v : value) : list string :=
  match v with Node s cs => node_names s ++ flat_map all_names cs end.
Definition inner_names (i : inner) : list string := match i with InThin tn _ _ _ _ => [tn] | _ => [] end.
