(** * Python numbers: [round], decimal printing, real comparisons.

    This file models no sleplet function.  It fixes the meaning of [round] on a
    float, of formatting an [int] in an f-string and of float comparisons (on
    [R]). *)
From Coq Require Import ZArith Reals String DecimalString Bool.

(** Largest integer not above [x]. *)
Definition rfloor (x : R) : Z := (up x - 1)%Z.

(** [x == y], [x != y], [x <= y], [x < y] as Booleans. *)
Definition Reqb (x y : R) : bool := if Req_EM_T x y then true else false.
Definition Rleb (x y : R) : bool := if Rle_dec x y then true else false.
Definition Rltb (x y : R) : bool := if Rlt_dec x y then true else false.

(** Python's [round(x)]: nearest integer, ties to the even neighbour. *)
Definition py_round (x : R) : Z :=
  let f := rfloor x in
  let d := (x - IZR f)%R in
  if Rltb d (1 / 2) then f
  else if Rltb (1 / 2) d then (f + 1)%Z
  else if Z.even f then f else (f + 1)%Z.

(** An [int] inside an f-string. *)
Definition zstr (z : Z) : string := NilZero.string_of_int (Z.to_int z).
