(** * Model of [_parallel_methods.split_arr_into_chunks]. *)
From Coq Require Import List Arith.
From Verif Require Import Base.
Import ListNotations.

(** /repo/src/sleplet/_parallel_methods.py lines 8-10:
    [arr = arange(n); arr[n//2:n] = arr[n//2:n][::-1]].
    (The right-hand side is a view of the left-hand side; numpy detects the
    overlap and copies, so the effect is a reversal.) *)
Definition folded_range (n : nat) : list nat :=
  let arr := arange n in
  let size := length arr in
  firstn (size / 2) arr ++ rev (skipn (size / 2) arr).

(** /repo/src/sleplet/_parallel_methods.py lines 6-11.  [ncpu <= 0] makes
    [range(ncpu)] empty, which is the [ncpu = 0] case here. *)
Definition split_arr_into_chunks (arr_max ncpu : nat) : list (list nat) :=
  let arr := folded_range arr_max in
  map (fun i => sort_nat (stride i ncpu arr)) (seq 0 ncpu).
