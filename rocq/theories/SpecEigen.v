(** * What an exact eigendecomposition is, and what numpy's [argsort]
    promises. *)
From Coq Require Import List ZArith Arith Reals Permutation.
From Coquelicot Require Import Complex.
From Verif Require Import Base RSum CSum.
Import ListNotations.

(** [argsort] returns a permutation of the positions that sorts the array in
    ascending order; nothing is said about ties. *)
Definition argsort_ok (argsort : list R -> list nat) : Prop :=
  forall l, Permutation (argsort l) (seq 0 (length l)) /\
    forall p q i j, (p < q)%nat -> nth_error (argsort l) p = Some i ->
      nth_error (argsort l) q = Some j -> (nth i l 0 <= nth j l 0)%R.

(** Inner products of vectors of length [n]. *)
Definition cdot (n : nat) (u v : list C) : C :=
  csum n (fun j => Cmult (nth j u (RtoC 0)) (Cconj (nth j v (RtoC 0)))).
Definition rdot (n : nat) (u v : list R) : R :=
  rsum n (fun j => (nth j u 0 * nth j v 0)%R).

(** Columns [cols] and values [evals] decompose the [n]x[n] matrix [M]. *)
Definition eigen_c (n : nat) (M : nat -> nat -> C) (evals : list R) (cols : list (list C)) : Prop :=
  length evals = n /\ length cols = n /\
  (forall k v, nth_error cols k = Some v -> length v = n) /\
  (forall k v r, nth_error cols k = Some v -> (r < n)%nat ->
     csum n (fun c => Cmult (M r c) (nth c v (RtoC 0)))
     = Cmult (RtoC (nth k evals 0%R)) (nth r v (RtoC 0))) /\
  (forall j k u v, nth_error cols j = Some u -> nth_error cols k = Some v ->
     cdot n u v = if Nat.eqb j k then RtoC 1 else RtoC 0).
Definition eigen_r (n : nat) (M : nat -> nat -> R) (evals : list R) (cols : list (list R)) : Prop :=
  length evals = n /\ length cols = n /\
  (forall k v, nth_error cols k = Some v -> length v = n) /\
  (forall k v r, nth_error cols k = Some v -> (r < n)%nat ->
     rsum n (fun c => (M r c * nth c v 0)%R) = (nth k evals 0 * nth r v 0)%R) /\
  (forall j k u v, nth_error cols j = Some u -> nth_error cols k = Some v ->
     rdot n u v = if Nat.eqb j k then 1%R else 0%R).

Definition hermitian (n : nat) (M : nat -> nat -> C) : Prop :=
  forall r c, (r < n)%nat -> (c < n)%nat -> M r c = Cconj (M c r).

(** Eigenvalues in non-increasing order. *)
Definition descending (l : list R) : Prop :=
  forall p q a b, (p < q)%nat -> nth_error l p = Some a -> nth_error l q = Some b -> (b <= a)%R.

(** Rows of an array are orthonormal. *)
Definition orthonormal_rows (w : nat) (rows : list (list C)) : Prop :=
  forall p q u v, nth_error rows p = Some u -> nth_error rows q = Some v ->
    cdot w u v = if Nat.eqb p q then RtoC 1 else RtoC 0.

(** A cleaned decomposition of a Hermitian [M]: sorted, complete, orthonormal,
    and row [p] is a left eigenvector for eigenvalue [p]. *)
Definition cleaned (n : nat) (M : nat -> nat -> C) (evals : list R)
    (out : res (list R * list (list C))) : Prop :=
  exists evals' rows, out = Ok (evals', rows) /\
    length rows = n /\
    Permutation evals' evals /\ descending evals' /\
    orthonormal_rows n rows /\
    (forall p row, nth_error rows p = Some row -> length row = n /\
       forall r, (r < n)%nat -> csum n (fun j => Cmult (nth j row (RtoC 0)) (M j r))
                      = Cmult (RtoC (nth p evals' 0%R)) (nth r row (RtoC 0))).

(** Another choice of sign for every vector. *)
Definition resigned (cols cols' : list (list C)) : Prop :=
  Forall2 (fun c c' => c' = c \/ c' = map Copp c) cols cols'.
Definition resigned_r (cols cols' : list (list R)) : Prop :=
  Forall2 (fun c c' => c' = c \/ c' = map Ropp c) cols cols'.
