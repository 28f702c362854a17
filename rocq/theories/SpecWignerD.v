(** * Wigner's formula for the d-functions, independent of the code. *)
From Coq Require Import ZArith Reals.
From Coquelicot Require Import Coquelicot.
From Verif Require Import Base RSum CSum SpecWigner SpecLatLon SpecHarmonics.
Local Open Scope R_scope.

(** sqrt((l+k)! (l-k)! (l+m)! (l-m)!) sum over s of
    (-1)^(k-m+s) cos(beta/2)^(2l+m-k-2s) sin(beta/2)^(k-m+2s)
      / ((l+m-s)! s! (k-m+s)! (l-k-s)!),
    with [1/n!] read as 0 for negative [n]. *)
Definition wigner_d (l k m : Z) (beta : R) : R :=
  sqrt (zfact (l + k) * zfact (l - k) * zfact (l + m) * zfact (l - m)) *
  rsum (Z.to_nat (2 * l + 1)) (fun i => let s := Z.of_nat i in
    pm1 (k - m + s) * (cos (beta / 2) ^ Z.to_nat (2 * l + m - k - 2 * s) * sin (beta / 2) ^ Z.to_nat (k - m + 2 * s)) *
    (inv_fact (l + m - s) * inv_fact s * inv_fact (k - m + s) * inv_fact (l - k - s))).

(** The table of values at pi/2. *)
Definition wigner_table (l k m : Z) : R := wigner_d l k m (PI / 2).

(** The spherical harmonic of degree [l] and any order [m]: order -m is (-1)^m
    times the conjugate of order m. *)
Definition ylm (l m : Z) (theta phi : R) : C :=
  if (0 <=? m)%Z then spherical_harmonic (Z.to_nat l) (Z.to_nat m) theta phi
  else Cmult (RtoC (pm1 m)) (Cconj (spherical_harmonic (Z.to_nat l) (Z.to_nat (- m)) theta phi)).

(** The [i]-th of them: degree floor(sqrt i), order i - l^2 - l. *)
Definition ylm_number (i : nat) : R -> R -> C :=
  let l := Z.of_nat (Nat.sqrt i) in ylm l (Z.of_nat i - l * l - l)%Z.

(** The function with harmonic coefficients [w]. *)
Definition expansion (n : nat) (w : nat -> C) (theta phi : R) : C :=
  csum n (fun i => Cmult (w i) (ylm_number i theta phi)).
