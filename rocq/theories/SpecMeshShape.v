(** * The lowest eigenvectors of a matrix, and meshes of the same shape. *)
From Coq Require Import List ZArith Arith Bool Reals Permutation.
From Verif Require Import Base RSum RealOrtho Mesh SpecMesh MeshGeometry SpecMeshGeometry.
Import ListNotations.
Local Open Scope R_scope.

(** What a solver asked for the eigenvalues nearest to zero returns: no
    eigenvector orthogonal to those returned has a smaller eigenvalue. *)
Definition lowest (n : nat) (M : nat -> nat -> R) (r : list R * list (list R)) : Prop :=
  solves n M r /\
  forall mu x, eigenpair n M mu x -> (forall row, In row (snd r) -> rip n x (val row) = 0) ->
    forall lam, In lam (fst r) -> lam <= mu.

(** ... nor the same: no eigenvalue has only some of its eigenvectors
    returned. *)
Definition lowest_whole (n : nat) (M : nat -> nat -> R) (r : list R * list (list R)) : Prop :=
  solves n M r /\
  forall mu x, eigenpair n M mu x -> (forall row, In row (snd r) -> rip n x (val row) = 0) ->
    forall lam, In lam (fst r) -> lam < mu.

(** The vertices of [V'] lie to each other as those of [V], up to a scale. *)
Definition similar (V V' : list point) : Prop :=
  length V' = length V /\
  exists s, 0 < s /\ forall i j, (i < length V)%nat -> (j < length V)%nat ->
    sqdist (corner V' i) (corner V' j) = s * sqdist (corner V i) (corner V j).

(** The vertices have other numbers. *)
Definition renumbered (p : nat -> nat) (V V' : list point) : Prop :=
  length V' = length V /\
  (forall i, (i < length V)%nat -> (p i < length V)%nat /\ corner V' (p i) = corner V i) /\
  (forall i j, (i < length V)%nat -> (j < length V)%nat -> p i = p j -> i = j).

(** The same triangles, in any order and with their corners in any order. *)
Definition same_triangles (F F' : list face) : Prop :=
  exists G, Permutation F G /\ Forall2 (fun f f' => Permutation (corners f) (corners f')) G F'.
