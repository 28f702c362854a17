(** * The order-m polar-cap matrix, entry by entry.

    Simons, Dahlen & Wieczorek (2006), eq. (5.8): for degrees [l, p >= m],
    [(-1)^m/2 sqrt((2l+1)(2p+1))
       sum_{n=|l-p|}^{l+p} (l n p; 0 0 0)(l n p; m 0 -m) (P_{n-1} - P_{n+1})]
    with [P_{-1} = 1], times [1 + (-1)^(l+p)] for two caps.  [P n] is the
    Legendre polynomial of degree [n] at the edge of the cap. *)
From Coq Require Import ZArith Reals.
From Verif Require Import RSum SpecWigner.
Local Open Scope R_scope.

Definition polar_sum (P : Z -> R) (m l p : Z) : R :=
  rsum (Z.to_nat (l + p - Z.abs (l - p) + 1)) (fun k =>
    let n := (Z.abs (l - p) + Z.of_nat k)%Z in
    racah l n p 0 0 0 * racah l n p m 0 (- m)
    * ((if (n =? 0)%Z then 1 else P (n - 1)%Z) - P (n + 1)%Z)).

Definition polar_entry (gap : bool) (P : Z -> R) (m l p : Z) : R :=
  pm1 m / 2 * (if gap then 1 + pm1 (l + p) else 1)
  * sqrt (IZR ((2 * l + 1) * (2 * p + 1))) * polar_sum P m l p.
