(** * Sums over the sampling grid inside a region, samples of harmonics. *)
From Coq Require Import List ZArith Arith Reals.
From Coquelicot Require Import Coquelicot.
From Verif Require Import Base RSum CSum SpecLatLon.
Local Open Scope R_scope.

(** The sample in row [t] and column [p] of the grid of resolution [M]. *)
Definition colatitude (M t : nat) : R := PI * INR t / INR M.
Definition longitude (M p : nat) : R := PI * INR p / INR M.
(** The area that a sample stands for. *)
Definition cell (M t : nat) : R := sin (colatitude M t) * (PI / INR M) ^ 2.

(** The sum of f times the conjugate of g over the samples inside a region. *)
Definition grid_inner (M : nat) (inside : nat -> nat -> bool) (f g : R -> R -> C) : C :=
  csum (M + 1) (fun t => csum (2 * M) (fun p =>
    if inside t p then
      Cmult (Cmult (f (colatitude M t) (longitude M p)) (Cconj (g (colatitude M t) (longitude M p)))) (RtoC (cell M t))
    else RtoC 0)).
(** The energy of f at the samples inside a region. *)
Definition grid_energy (M : nat) (inside : nat -> nat -> bool) (f : R -> R -> C) : R :=
  rsum (M + 1) (fun t => rsum (2 * M) (fun p =>
    if inside t p then Cmod (f (colatitude M t) (longitude M p)) ^ 2 * cell M t else 0)).
(** The area of the samples inside a region. *)
Definition grid_area (M : nat) (inside : nat -> nat -> bool) : R :=
  rsum (M + 1) (fun t => rsum (2 * M) (fun p => if inside t p then cell M t else 0)).
(** The whole sphere. *)
Definition everywhere (t p : nat) : bool := true.

(** Harmonics of opposite orders are conjugate up to the sign of the order. *)
Definition conjugate_orders (d : Z -> Z -> Z -> R) (L : nat) : Prop :=
  forall l m theta phi, (0 <= l < Z.of_nat L)%Z -> (Z.abs m <= l)%Z ->
    harmonic d l (- m) theta phi = Cmult (RtoC (if Z.even m then 1 else -1)) (Cconj (harmonic d l m theta phi)).
