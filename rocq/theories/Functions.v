(** * Coefficients of the functions given in closed form, and boosting. *)
From Coq Require Import List ZArith Arith Bool Reals.
From Coquelicot Require Import Complex.
From Verif Require Import Base RSum CSum PyNum Index Numpy Quadrature Transform.
Import ListNotations.
Local Open Scope nat_scope.

(** [np.zeros(L**2, dtype=np.complex128)] *)
Definition zeros (n : nat) : list C := repeat (RtoC 0) n.

(** src/sleplet/harmonic_methods.py:23-27 [_create_spherical_harmonic] *)
Definition create_spherical_harmonic (L ind : nat) : res (list C) :=
  np_set ind (RtoC 1) (zeros (L * L)).

(** src/sleplet/functions/spherical_harmonic.py:25-29
    [SphericalHarmonic._create_coefficients] (after validation of [ell], [m]) *)
Definition spherical_harmonic_coefficients (L ell : nat) (m : Z) : res (list C) :=
  create_spherical_harmonic L (elm2ind ell m).

(** [x / y] on Python floats. *)
Definition py_div (x y : R) : res R :=
  if Reqb y 0 then Err ZeroDivisionError else Ok (x / y)%R.

(** src/sleplet/functions/gaussian.py:25-32 [Gaussian._create_coefficients] *)
Definition gaussian_coefficients (L : nat) (sigma : R) : res (list C) :=
  rfold (fun flm ell =>
           let* x := py_div (- INR ell * (INR ell + 1)) (2 * sigma ^ 2) in
           np_set (elm2ind ell 0) (RtoC (exp x)) flm)
        (seq 0 L) (zeros (L * L)).

(** src/sleplet/functions/harmonic_gaussian.py:31-40
    [HarmonicGaussian._create_coefficients] *)
Definition harmonic_gaussian_coefficients (L : nat) (l_sigma m_sigma : R) : res (list C) :=
  rfold (fun flm ell =>
           let* x := py_div (INR ell) l_sigma in
           let upsilon_l := exp (- x ^ 2 / 2) in
           rfold (fun flm m =>
                    let* y := py_div (IZR m) m_sigma in
                    np_set (elm2ind ell m) (RtoC (upsilon_l * exp (- y ^ 2 / 2))) flm)
                 (zrange (- Z.of_nat ell) (Z.of_nat ell + 1)) flm)
        (seq 0 L) (zeros (L * L)).

(** src/sleplet/functions/identity.py:20-23 [Identity._create_coefficients] *)
Definition identity_coefficients (L : nat) : list C := repeat (RtoC 1) (L * L).

(** The flags returned by [_set_reality] of the classes above:
    src/sleplet/functions/gaussian.py:40-41, harmonic_gaussian.py:49-50,
    identity.py:30-31, dirac_delta.py:36-37, spherical_harmonic.py:38-39 *)
Definition gaussian_reality : bool := true.
Definition harmonic_gaussian_reality : bool := false.
Definition identity_reality : bool := true.
Definition dirac_delta_reality : bool := true.
Definition spherical_harmonic_reality : bool := false.

Section Sampled.
  Variable inverse forward : nat -> list C -> list C.   (* ssht *)

  (** src/sleplet/harmonic_methods.py:38-67 [invert_flm_boosted] (the flags
      [reality] and [spin] of the external transform are left out) *)
  Definition invert_flm_boosted (flm : list C) (L resolution : nat) : res (list C) :=
    let boost := (Z.of_nat (resolution * resolution) - Z.of_nat (L * L))%Z in
    let* flm := boost_coefficient_resolution flm boost in
    Ok (inverse resolution flm).

  (** src/sleplet/harmonic_methods.py:70-96 [_ensure_f_bandlimited] *)
  Definition ensure_f_bandlimited (grid_fun : R -> R -> R) (L : nat) : list C :=
    forward L (flat_map (fun theta => map (fun phi => RtoC (grid_fun theta phi)) (phis L)) (thetas L)).
End Sampled.

(** src/sleplet/_vars.py:3,9 *)
Definition PHI_0 : R := PI.
Definition THETA_0 : R := 0.

(** src/sleplet/functions/squashed_gaussian.py:62-70 and
    src/sleplet/functions/elongated_gaussian.py:64-76 [_grid_fun] (element-wise;
    numpy divides by a zero width without raising, which is outside the model) *)
Definition squashed_gaussian (t_sigma freq theta phi : R) : R :=
  (exp (- ((theta - THETA_0) / t_sigma) ^ 2 / 2) * sin (freq * phi))%R.
Definition elongated_gaussian (t_sigma p_sigma theta phi : R) : R :=
  exp (- (((theta - THETA_0) / t_sigma) ^ 2 + ((phi - PHI_0) / p_sigma) ^ 2) / 2).

Section Ring.
  Variable gammaln : R -> R.         (* scipy.special.gammaln *)

  (** [np.real((-1) ** x)] for a float [x] *)
  Definition real_neg1_pow (x : R) : R := cos (PI * x).

  (** The entry written for degree [ell],
      src/sleplet/functions/ridgelets.py:89-109 *)
  Definition ring_entry (spin : Z) (ell : nat) : R :=
    let l := INR ell in
    let s := IZR spin in
    let logp2 := (gammaln (l + s + 1) - l * ln 2 - gammaln ((l + s) / 2 + 1)
                  - gammaln ((l - s) / 2 + 1))%R in
    let p0 := (real_neg1_pow ((l + s) / 2) * exp logp2)%R in
    (2 * PI * sqrt ((2 * l + 1) / (4 * PI)) * p0 * powerRZ (-1) spin
     * sqrt (exp (gammaln (l - s + 1) - gammaln (l + s + 1))))%R.

  (** src/sleplet/functions/ridgelets.py:85-110 [Ridgelets._compute_ring] *)
  Definition compute_ring (L : nat) (spin : Z) : res (list C) :=
    rfold (fun ring ell => np_set (elm2ind ell 0) (RtoC (ring_entry spin ell)) ring)
          (seq (Z.abs_nat spin) (L - Z.abs_nat spin)) (zeros (L * L)).
End Ring.
