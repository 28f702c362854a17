(** * Python and numpy primitives used by the model.

    This file models no sleplet function.  It fixes the meaning of the Python
    and numpy constructs that the modelled functions use: exceptions as values,
    slices, strided slices, sorting. *)
From Coq Require Import List ZArith Arith Bool Lia.
Import ListNotations.

(** Exceptions that the modelled code raises (or that numpy raises for it). *)
Inductive exn : Type :=
| ValueError | TypeError | AttributeError | RuntimeError | IndexError
| KeyError | ZeroDivisionError | NotImplementedError | AssertionError
| FileNotFoundError
| Segfault.   (* access through an unmapped shared block: kills the process *)

(** Result of a Python call: a value or a raised exception. *)
Inductive res (A : Type) : Type :=
| Ok (a : A)
| Err (e : exn).
Arguments Ok {A} _.
Arguments Err {A} _.

Definition rbind {A B} (x : res A) (f : A -> res B) : res B :=
  match x with Ok a => f a | Err e => Err e end.

Notation "'let*' x ':=' e 'in' f" := (rbind e (fun x => f))
  (at level 200, x pattern, e at level 100, f at level 200, right associativity).

(** [np.arange(n)] *)
Definition arange (n : nat) : list nat := seq 0 n.

(** Python [range(a, b)] on integers (empty when [b <= a]). *)
Definition zrange (a b : Z) : list Z :=
  map (fun k => (a + Z.of_nat k)%Z) (seq 0 (Z.to_nat (b - a))).

(** [l[:n]] with an integer bound; a negative bound counts from the end. *)
Definition py_prefix {A} (n : Z) (l : list A) : list A :=
  if (0 <=? n)%Z then firstn (Z.to_nat n) l
  else firstn (length l - Z.to_nat (- n)) l.

(** [l[:n]] with [n] possibly [None]. *)
Definition py_prefix_opt {A} (n : option Z) (l : list A) : list A :=
  match n with None => l | Some k => py_prefix k l end.

(** [l[i]] for an integer index; negative indices count from the end. *)
Definition py_index {A} (l : list A) (i : Z) : res A :=
  let j := if (0 <=? i)%Z then i else (Z.of_nat (length l) + i)%Z in
  if (j <? 0)%Z then Err IndexError
  else match nth_error l (Z.to_nat j) with
       | Some a => Ok a
       | None => Err IndexError
       end.

(** [l[i::k]] for [i >= 0], [k >= 1]: the elements at positions
    [i, i+k, i+2k, ...]. *)
Definition stride {A} (i k : nat) (l : list A) : list A :=
  map snd
    (filter (fun p => (i <=? fst p) && ((fst p - i) mod k =? 0))
       (combine (seq 0 (length l)) l)).

(** [np.sort] on naturals (ascending insertion sort). *)
Fixpoint insert_nat (x : nat) (l : list nat) : list nat :=
  match l with
  | [] => [x]
  | y :: t => if x <=? y then x :: l else y :: insert_nat x t
  end.
Fixpoint sort_nat (l : list nat) : list nat :=
  match l with [] => [] | x :: t => insert_nat x (sort_nat t) end.

(** List update at a position (no effect out of range; callers check). *)
Fixpoint set_nth {A} (n : nat) (x : A) (l : list A) : list A :=
  match l, n with
  | [], _ => []
  | _ :: t, O => x :: t
  | y :: t, S m => y :: set_nth m x t
  end.
