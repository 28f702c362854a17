(** * Slepian functions of a latitude-longitude box, computed from scratch. *)
From Coq Require Import List ZArith Arith Reals.
From Coquelicot Require Import Complex.
From Verif Require Import Base LatLon Eigen.
Local Open Scope Z_scope.

(** src/sleplet/slepian/slepian_limit_lat_lon.py:64-83 [_solve_eigenproblem] when
    nothing is cached: the matrix, [LA.eigh], the cleaning.  [eigh] returns the
    eigenvalues and the columns.  Caches and the truncation to the first [N] rows
    when reloading are in Cache.v. *)
Definition solve_lat_lon (eigh : (nat -> nat -> C) -> list R * list (list C)) (argsort : list R -> list nat)
  (theta_min theta_max phi_min phi_max : R) (dl : array3) (order : list Z) (L : nat) : res (list R * list (list C)) :=
  let* K := create_K_matrix theta_min theta_max phi_min phi_max dl order (Z.of_nat L) in
  clean_lat_lon argsort (fst (eigh K)) (snd (eigh K)).
