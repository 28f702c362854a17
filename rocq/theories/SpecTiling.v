(** * The generators of scale-discretised wavelets.

    What [pys2let.axisym_wav_l] computes (Leistedt et al. 2013, "S2LET: a code to perform
    fast wavelet analysis on the sphere"; s2let_tiling.c): a function [k] that falls from 1
    at [1 / B] to 0 at 1, dilated by powers of [B]; the wavelets are the roots of the
    differences of successive dilations. *)
From Coq Require Import List Arith Reals.
Import ListNotations.
Local Open Scope R_scope.

Definition tiling (B : nat) (k : R -> R) : Prop :=
  (2 <= B)%nat /\ (forall t, 0 <= t -> t * INR B <= 1 -> k t = 1) /\ (forall t, 1 <= t -> k t = 0) /\
  (forall s t, 1 <= s * INR B -> s < t -> t <= 1 -> k t < k s).

(** The scaling function, the number of scales, and one row per degree, with [J] the last
    scale. *)
Definition generators (k : R -> R) (B xlim j_min J : nat) : list R * nat * list (list R) :=
  (map (fun p => sqrt (k (INR p / INR B ^ j_min))) (seq 0 xlim), (J + 1 - j_min)%nat,
   map (fun p => map (fun j => sqrt (k (INR p / INR B ^ (j_min + j + 1)) - k (INR p / INR B ^ (j_min + j)))) (seq 0 (J + 1 - j_min))) (seq 0 xlim)).

(** [J] is large enough for all degrees below [xlim] ([pys2let_j_max] is the least such
    number). *)
Definition covers (B xlim j_min J : nat) : Prop := (xlim <= B ^ J)%nat /\ (j_min <= J)%nat.
