(** * Base: the fragment of Rust's core semantics the crate relies on.

    Machine integers, overflow modes, byte strings and their order, decimal
    formatting.  Simplification (everywhere): the target is 64 bit, i.e.
    [usize = u64] and [isize = i64]. *)
From Coq Require Export String Ascii.
From Coq Require Export NArith ZArith Lia Bool List.
From Coq Require Import DecimalString.
Export ListNotations.
#[global] Set Implicit Arguments.
#[global] Unset Strict Implicit.

Open Scope N_scope.

(** 2^64 and 2^63.
    Models: for [usize], flamegraph.rs 40, 45, 53, 66, 399-424. *)
Definition two64 : N := 18446744073709551616.
(** For [isize] (flamegraph.rs 123, 132, 416). *)
Definition two63 : N := 9223372036854775808.

(** Cargo profile: [Debug] = overflow checks on (arithmetic panics),
    [Release] = overflow checks off (arithmetic wraps).  Applies to every
    unchecked [+], [-], [*] and [Iterator::sum] on [usize] in the crate.
    Models: of the arithmetic at flamegraph.rs 40, 45, 53, 66, 399-424 and in the implementations. *)
Inductive mode := Debug | Release.

(** [a + b] on [usize]; [None] is a panic.
    Models: flamegraph.rs 40, 45, 53, 66, 399-424. *)
Definition uadd (m : mode) (a b : N) : option N :=
  if a + b <? two64 then Some (a + b)
  else match m with Debug => None | Release => Some ((a + b) mod two64) end.

(** [a - b] on [usize].
    Models: flamegraph.rs 399-424, std/unsorted.rs 91. *)
Definition usub (m : mode) (a b : N) : option N :=
  if b <=? a then Some (a - b)
  else match m with Debug => None | Release => Some ((a + two64 - b) mod two64) end.

(** [a * b] on [usize].
    Models: size_of.rs 47-75, std/unsorted.rs 91, visitor.rs 214. *)
Definition umul (m : mode) (a b : N) : option N :=
  if a * b <? two64 then Some (a * b)
  else match m with Debug => None | Release => Some ((a * b) mod two64) end.

(** [usize::wrapping_sub], for arguments below 2^64.
    Models: visitor.rs 214, bumpalo.rs 32. *)
Definition wrapping_sub (a b : N) : N := (a + two64 - b) mod two64.

(** [usize::saturating_sub].
    Models: dashmap.rs 44, 65. *)
Definition usaturating_sub (a b : N) : N := a - b.

(** [x as isize] for [x : usize].
    Models: flamegraph.rs 132, 416. *)
Definition as_isize (x : N) : Z :=
  if x <? two63 then Z.of_N x else (Z.of_N x - Z.of_N two64)%Z.

(** Range of [isize] (flamegraph.rs 416). *)
Definition isize_min : Z := (- Z.of_N two63)%Z.
(** Range of [isize] (flamegraph.rs 416). *)
Definition isize_max : Z := (Z.of_N two63 - 1)%Z.

(** [isize::saturating_sub].
    Models: flamegraph.rs 416. *)
Definition isaturating_sub (a b : Z) : Z :=
  Z.max isize_min (Z.min isize_max (a - b)).

(** [a - b] on [isize] (two's complement wrap in release mode).
    Models: flamegraph.rs 132. *)
Definition isub (m : mode) (a b : Z) : option Z :=
  let r := (a - b)%Z in
  if ((isize_min <=? r) && (r <=? isize_max))%Z then Some r
  else match m with
       | Debug => None
       | Release => Some ((r - isize_min) mod (Z.of_N two64) + isize_min)%Z
       end.

(** Option as a panic monad.
    Models: for the panics of flamegraph.rs 39-67, 142-212. *)
Definition obind {A B} (x : option A) (f : A -> option B) : option B :=
  match x with Some a => f a | None => None end.
Notation "'do' x <- e ; f" := (obind e (fun x => f))
  (at level 200, x pattern, e at level 100, f at level 200, right associativity).

(** [Iterator::sum::<usize>()].
    Models: flamegraph.rs 399-417. *)
Fixpoint usum (m : mode) (acc : N) (l : list N) : option N :=
  match l with
  | [] => Some acc
  | x :: l' => do a <- uadd m acc x; usum m a l'
  end.

(** ** Byte strings *)

(** [str::cmp]: lexicographic on the UTF-8 bytes.
    Models: the order of key.rs 32-36. *)
Fixpoint str_cmp (a b : string) : comparison :=
  match a, b with
  | EmptyString, EmptyString => Eq
  | EmptyString, String _ _ => Lt
  | String _ _, EmptyString => Gt
  | String x a', String y b' =>
      match N.compare (N_of_ascii x) (N_of_ascii y) with
      | Eq => str_cmp a' b'
      | c => c
      end
  end.

(** [slice.join(sep)] on string slices.
    Models: flamegraph.rs 72, 155. *)
Fixpoint join (sep : string) (l : list string) : string :=
  match l with
  | [] => ""
  | [x] => x
  | x :: l' => (x ++ sep ++ join sep l')%string
  end.

(** Byte length of a string, as [usize].
    Models: [len()], key.rs 56, std/primitive.rs and std/unsorted.rs. *)
Definition str_len (s : string) : N := N.of_nat (String.length s).

(** The line end of [writeln!] (flamegraph.rs 72, 152). *)
Definition newline : string := String (ascii_of_N 10) EmptyString.

(** [{}] formatting of [usize] and [isize].
    Models: the [{}] of flamegraph.rs 72. *)
Definition show_N (n : N) : string := NilZero.string_of_uint (N.to_uint n).
(** [isize] with [{}] (flamegraph.rs 152-159). *)
Definition show_Z (z : Z) : string := NilZero.string_of_int (Z.to_int z).

(** Text written piece by piece (flamegraph.rs 69-85, 142-175). *)
Fixpoint concat_str (l : list string) : string :=
  match l with
  | [] => ""
  | x :: l' => (x ++ concat_str l')%string
  end.

(** Sum without overflow (used to state when the sums of flamegraph.rs 39-67, 399-417 overflow). *)
Fixpoint sumN (l : list N) : N :=
  match l with [] => 0 | x :: l' => x + sumN l' end.
