(** * Slepian functions of an arbitrary region, computed from scratch. *)
From Coq Require Import List ZArith Arith Reals.
From Coquelicot Require Import Complex.
From Verif Require Import Base Parallel Machine Job Region Mask Quadrature ArbitraryMatrix Eigen.
Import ListNotations.
Local Open Scope nat_scope.

(** src/sleplet/slepian/slepian_arbitrary.py:30,46 [_SAMPLES],
    [self._resolution = _SAMPLES * self.L]. *)
Definition resolution_of (L : nat) : nat := 2 * L.

(** The mask in products ([True] counts as 1), flattened in row order. *)
Definition mask_value (b : bool) : R := if b then 1%R else 0%R.
Definition flat_mask (mask : mask_array) (k : nat) : R := mask_value (nth k (concat mask) false).

(** src/sleplet/slepian/slepian_arbitrary.py:58-62 [_calculate_area] *)
Definition arbitrary_area (L : nat) (mask : mask_array) : R :=
  masked_area (map mask_value (concat mask)) (concat (calc_integration_weight (resolution_of L))).

(** src/sleplet/slepian/slepian_arbitrary.py:67-103 [_solve_eigenproblem] and
    [_solve_D_matrix] when nothing is cached: the matrix, [LA.eigh], the cleaning.
    [eigh] returns the eigenvalues and the columns; [harmonic k] holds the samples
    of harmonic [k].  The files written are in Cache.v. *)
Definition solve_arbitrary (eigh : (nat -> nat -> C) -> list R * list (list C)) (argsort : list R -> list nat)
    (L : nat) (mask : mask_array) (harmonic : nat -> nat -> C) (ncpu : nat) (garbage : nat -> nat -> nat -> R)
    (sched : list who) : res (list R * list (list C)) :=
  let M := resolution_of L in
  let* D := solved_D_matrix L (samples M) (flat_mask mask) (flat_weight M) harmonic ncpu garbage sched in
  clean_arbitrary argsort (fst (eigh D)) (snd (eigh D)).
