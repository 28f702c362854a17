(** * What triangles, their areas and gradients, connected meshes and
    eigenpairs are. *)
From Coq Require Import List ZArith Arith Bool Reals.
From Verif Require Import Base RSum RealOrtho Mesh SpecMesh MeshGeometry.
Import ListNotations.
Local Open Scope R_scope.

(** ** Vectors of space *)

Definition vminus (p q : point) : point :=
  let '(x, y, z) := p in let '(x', y', z') := q in (x - x', y - y', z - z').
Definition combination (s : R) (p : point) (t : R) (q : point) : point :=
  let '(x, y, z) := p in let '(x', y', z') := q in (s * x + t * x', s * y + t * y', s * z + t * z').
Definition dot (p q : point) : R :=
  let '(x, y, z) := p in let '(x', y', z') := q in x * x' + y * y' + z * z'.
Definition cross (p q : point) : point :=
  let '(x, y, z) := p in let '(x', y', z') := q in (y * z' - z * y', z * x' - x * z', x * y' - y * x').
Definition norm (p : point) : R := sqrt (dot p p).

(** ** Triangles *)

Definition corners (f : face) : list nat := let '(a, b, c) := f in [a; b; c].

(** The sides that leave the first corner. *)
Definition side1 (V : list point) (f : face) : point := let '(a, b, c) := f in vminus (corner V b) (corner V a).
Definition side2 (V : list point) (f : face) : point := let '(a, b, c) := f in vminus (corner V c) (corner V a).

Definition area (V : list point) (f : face) : R := norm (cross (side1 V f) (side2 V f)) / 2.
Definition total_area (V : list point) (F : list face) : R := rlsum (map (area V) F).

(** The corners are vertices, and do not lie on a line. *)
Definition proper (V : list point) (f : face) : Prop :=
  (forall v, In v (corners f) -> (v < length V)%nat) /\ cross (side1 V f) (side2 V f) <> (0, 0, 0).

(** The slope of the linear function on the triangle with values [x] at the
    corners: a vector in its plane. *)
Definition gradient (V : list point) (f : face) (x : nat -> R) (g : point) : Prop :=
  let '(a, b, c) := f in
  (exists s t, g = combination s (side1 V f) t (side2 V f)) /\
  dot g (side1 V f) = x b - x a /\ dot g (side2 V f) = x c - x a.

(** ** Meshes *)

(** Two vertices of one triangle. *)
Definition neighbours (F : list face) (u v : nat) : Prop :=
  exists f, In f F /\ In u (corners f) /\ In v (corners f).

(** One can walk from one vertex to the other. *)
Inductive joined (F : list face) (u : nat) : nat -> Prop :=
| joined_here : joined F u u
| joined_step v w : joined F u v -> neighbours F v w -> joined F u w.

Definition connected (n : nat) (F : list face) : Prop :=
  forall u v, (u < n)%nat -> (v < n)%nat -> joined F u v.

Definition good (V : list point) (F : list face) : Prop :=
  (forall f, In f F -> proper V f) /\ connected (length V) F.

(** An edge of a triangle, in either direction. *)
Definition edge (F : list face) (u v : nat) : Prop :=
  exists f, In f F /\ (In (u, v) (edges_of f) \/ In (v, u) (edges_of f)).

(** ** Matrices *)

Definition times (n : nat) (M : nat -> nat -> R) (x : nat -> R) (i : nat) : R := rsum n (fun j => M i j * x j).

Definition eigenpair (n : nat) (M : nat -> nat -> R) (lam : R) (x : nat -> R) : Prop :=
  (exists v, (v < n)%nat /\ x v <> 0) /\ forall i, (i < n)%nat -> times n M x i = lam * x i.

(** What a solver for symmetric matrices returns: eigenvalues and as many
    eigenvectors, orthogonal when they belong to the same eigenvalue. *)
Definition solves (n : nat) (M : nat -> nat -> R) (r : list R * list (list R)) : Prop :=
  length (fst r) = length (snd r) /\
  (forall i row, nth_error (snd r) i = Some row -> length row = n /\ eigenpair n M (val (fst r) i) (val row)) /\
  (forall i j row row', nth_error (snd r) i = Some row -> nth_error (snd r) j = Some row' -> i <> j ->
     val (fst r) i = val (fst r) j -> rip n (val row) (val row') = 0).
