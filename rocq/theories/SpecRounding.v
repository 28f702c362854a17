(** * What an eigensolver returns in floating point: vectors that are nearly
    orthonormal and nearly solve the eigenproblem. *)
From Coq Require Import List Arith Reals.
From Coquelicot Require Import Complex.
From Verif Require Import Base RSum CSum SpecEigen.
Import ListNotations.

(** The error bounds documented for LAPACK's [heevd], which [numpy.linalg.eigh]
    calls: every entry of [M v - w v] and of the table of inner products is off by at
    most [eta].  Errors made while [M] was computed can be counted in [eta] too.  At
    [eta = 0] this is [eigen_c]. *)
Definition eigen_near_c (eta : R) (n : nat) (M : nat -> nat -> C) (evals : list R) (cols : list (list C)) : Prop :=
  length evals = n /\ length cols = n /\
  (forall k v, nth_error cols k = Some v -> length v = n) /\
  (forall k v r, nth_error cols k = Some v -> (r < n)%nat ->
     (Cmod (Cminus (csum n (fun c => Cmult (M r c) (nth c v (RtoC 0)))) (Cmult (RtoC (nth k evals 0%R)) (nth r v (RtoC 0)))) <= eta)%R) /\
  (forall j k u v, nth_error cols j = Some u -> nth_error cols k = Some v ->
     (Cmod (Cminus (cdot n u v) (if Nat.eqb j k then RtoC 1 else RtoC 0)) <= eta)%R).

Definition eigen_near_r (eta : R) (n : nat) (M : nat -> nat -> R) (evals : list R) (cols : list (list R)) : Prop :=
  length evals = n /\ length cols = n /\
  (forall k v, nth_error cols k = Some v -> length v = n) /\
  (forall k v r, nth_error cols k = Some v -> (r < n)%nat ->
     (Rabs (rsum n (fun c => M r c * nth c v 0) - nth k evals 0 * nth r v 0) <= eta)%R) /\
  (forall j k u v, nth_error cols j = Some u -> nth_error cols k = Some v ->
     (Rabs (rdot n u v - (if Nat.eqb j k then 1 else 0)) <= eta)%R).

(** Rows nearly orthonormal and nearly left eigenvectors. *)
Definition near_rows (eta : R) (w : nat) (rows : list (list C)) : Prop :=
  forall p q u v, nth_error rows p = Some u -> nth_error rows q = Some v ->
    (Cmod (Cminus (cdot w u v) (if Nat.eqb p q then RtoC 1 else RtoC 0)) <= eta)%R.
Definition cleaned_near (eta : R) (n : nat) (M : nat -> nat -> C) (evals : list R) (out : res (list R * list (list C))) : Prop :=
  exists evals' rows, out = Ok (evals', rows) /\ length evals' = n /\ length rows = n /\ descending evals' /\
    Permutation.Permutation evals' evals /\ near_rows eta n rows /\
    (forall p row, nth_error rows p = Some row -> length row = n /\
       forall r, (r < n)%nat ->
         (Cmod (Cminus (csum n (fun j => Cmult (nth j row (RtoC 0)) (M j r))) (Cmult (RtoC (nth p evals' 0%R)) (nth r row (RtoC 0)))) <= eta)%R).
