(** * The product of two harmonics in Legendre polynomials, integrals over caps. *)
From Coq Require Import List ZArith Arith Reals.
From Coquelicot Require Import Coquelicot.
From Verif Require Import Base RSum CSum SpecWigner SpecLatLon SpecConcentration SpecHarmonics.
Import ListNotations.
Local Open Scope R_scope.

(** The expansion of Y_lm conj(Y_pm) in Legendre polynomials, with 3j symbols:
    (-1)^m sqrt((2l+1)(2p+1))/(4 pi)
      sum_{n=|l-p|}^{l+p} (2n+1) (l n p; 0 0 0)(l n p; |m| 0 -|m|) P_n(cos theta). *)
Definition product_formula (d : Z -> Z -> Z -> R) (L : nat) : Prop :=
  forall l p m theta phi, (Z.abs m <= l)%Z -> (l <= p)%Z -> (p < Z.of_nat L)%Z ->
    Cmult (harmonic d l m theta phi) (Cconj (harmonic d p m theta phi)) =
    RtoC (pm1 m * sqrt (IZR ((2 * l + 1) * (2 * p + 1))) / (4 * PI) *
      rsum (Z.to_nat (l + p - Z.abs (l - p) + 1)) (fun k =>
        let n := (Z.abs (l - p) + Z.of_nat k)%Z in
        IZR (2 * n + 1) * racah l n p 0 0 0 * racah l n p (Z.abs m) 0 (- Z.abs m) * legendre (Z.to_nat n) (cos theta))).

(** The integral of f times the conjugate of g over the cap of radius [Theta]
    about the north pole, and with [gap] also over its mirror image. *)
Definition caps_inner (gap : bool) (Theta : R) (f g : R -> R -> C) (v : C) : Prop :=
  exists north south,
    inner f g 0 Theta 0 (2 * PI) north /\ inner f g (PI - Theta) PI 0 (2 * PI) south /\
    v = if gap then Cplus north south else north.
