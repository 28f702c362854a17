(** * What a mesh with an orthonormal basis and its Slepian functions are. *)
From Coq Require Import List ZArith Arith Bool Reals.
From Verif Require Import Base RSum RealOrtho Mesh.
Import ListNotations.
Local Open Scope nat_scope.

(** Entry of an array. *)
Definition val (l : list R) (j : nat) : R := nth j l 0%R.

Definition nv (m : mesh) : nat := length (m_vertices m).
Definition nb (m : mesh) : nat := length (m_basis m).
(** The [i]th basis function at vertex [v]. *)
Definition phi (m : mesh) (i v : nat) : R := val (nth i (m_basis m) []) v.
Definition inside (m : mesh) (v : nat) : bool := nth v (m_region m) false.

(** The arrays of a mesh have the sizes they should have. *)
Definition well_formed (m : mesh) : Prop :=
  length (m_region m) = nv m /\ length (m_evals m) = nb m /\ m_number m = Z.of_nat (nb m) /\
  forall row, In row (m_basis m) -> length row = nv m.

Definition orthonormal_basis (m : mesh) : Prop :=
  forall i j, i < nb m -> j < nb m -> rip (nv m) (phi m i) (phi m j) = if i =? j then 1%R else 0%R.

(** The field with coefficients [c]. *)
Definition field (m : mesh) (c : list R) (v : nat) : R := rsum (nb m) (fun i => val c i * phi m i v)%R.

(** The concentration matrix: products of basis functions summed over the
    region. *)
Definition conc (m : mesh) (a b : nat) : R := rmask (inside m) (nv m) (phi m a) (phi m b).

Definition ns (s : mesh_slepian) : nat := Z.to_nat (ms_N s).
Definition sfun (s : mesh_slepian) (p : nat) : list R := nth p (ms_functions s) [].

(** Slepian functions: orthonormal coefficient vectors, at least [N] of them. *)
Definition slepian_functions_ok (s : mesh_slepian) : Prop :=
  well_formed (ms_mesh s) /\ orthonormal_basis (ms_mesh s) /\
  (0 <= ms_N s)%Z /\ ns s <= length (ms_functions s) /\ length (ms_functions s) <= nb (ms_mesh s) /\
  length (ms_evals s) = nb (ms_mesh s) /\
  (forall row, In row (ms_functions s) -> length row = nb (ms_mesh s)) /\
  (forall p q, p < length (ms_functions s) -> q < length (ms_functions s) ->
     rip (nb (ms_mesh s)) (val (sfun s p)) (val (sfun s q)) = if p =? q then 1%R else 0%R).

(** ... which are eigenvectors of the concentration matrix. *)
Definition slepian_eigen (s : mesh_slepian) : Prop :=
  forall p a, p < length (ms_functions s) -> a < nb (ms_mesh s) ->
    rsum (nb (ms_mesh s)) (fun b => conc (ms_mesh s) a b * val (sfun s p) b)%R
    = (val (ms_evals s) p * val (sfun s p) a)%R.

(** The [p]th Slepian function at vertex [v]. *)
Definition slep (s : mesh_slepian) (p v : nat) : R := field (ms_mesh s) (sfun s p) v.
