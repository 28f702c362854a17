(** * What is assumed of the transforms of real fields. *)
From Coq Require Import List ZArith Arith Bool Reals.
From Coquelicot Require Import Complex.
From Verif Require Import Base SpecField Quadrature.
Import ListNotations.
Local Open Scope nat_scope.

Definition all_real (f : list C) : Prop := forall z, In z f -> Im z = 0%R.

(** [ssht.inverse(flm, L, Reality=True)] returns a real field on the grid. *)
Definition real_synthesis (inverse : Z -> bool -> nat -> list C -> list C) (L : nat) : Prop :=
  forall flm, length (inverse 0%Z true L flm) = samples L /\ all_real (inverse 0%Z true L flm).

(** [ssht.forward(f, L, Reality=True)] of a real field returns the [L^2]
    coefficients of a real field. *)
Definition real_analysis (forward : Z -> bool -> nat -> list C -> list C) (L : nat) : Prop :=
  forall f, length f = samples L -> all_real f ->
    length (forward 0%Z true L f) = L * L /\ reality L (forward 0%Z true L f).
