(** * What it means for harmonic coefficients to describe a real field. *)
From Coq Require Import List ZArith Arith Reals.
From Coquelicot Require Import Complex.
From Verif Require Import Base RSum CSum.
Import ListNotations.

(** The coefficient of degree [el] and order [m] is stored at position
    [el^2 + el + m]. *)
Definition coeff (flm : list C) (el : nat) (m : Z) : C :=
  nth (Z.to_nat (Z.of_nat (el * el + el) + m)) flm (RtoC 0).

(** All valid (degree, order) pairs below [L]. *)
Definition valid (L el : nat) (m : Z) : Prop :=
  (el < L)%nat /\ (Z.abs m <= Z.of_nat el)%Z.

(** [f(l,-m) = (-1)^m conj f(l,m)] *)
Definition reality (L : nat) (flm : list C) : Prop :=
  forall el m, valid L el m ->
    coeff flm el (- m) = Cmult (RtoC ((-1) ^ Z.abs_nat m)) (Cconj (coeff flm el m)).

(** The value at a point of the field with coefficients [flm]; [Y el m] are the
    values of the spherical harmonics at that point. *)
Definition field_at (L : nat) (Y : nat -> Z -> C) (flm : list C) : C :=
  csum L (fun el => csum (2 * el + 1) (fun k =>
    let m := (Z.of_nat k - Z.of_nat el)%Z in Cmult (coeff flm el m) (Y el m))).

(** Symmetry of the spherical harmonics at a point. *)
Definition harmonic_symmetry (Y : nat -> Z -> C) : Prop :=
  forall el m, Y el (- m)%Z = Cmult (RtoC ((-1) ^ Z.abs_nat m)) (Cconj (Y el m)).

(** Total power. *)
Definition power (l : list C) : R :=
  rsum (length l) (fun i => (Re (nth i l (RtoC 0)) ^ 2 + Im (nth i l (RtoC 0)) ^ 2)%R).

(** A finite ensemble of random streams: (weight, stream) pairs, and the mean
    of a quantity over it. *)
Definition ensemble : Type := list (R * (nat -> R)).
Definition mean (E : ensemble) (q : (nat -> R) -> R) : R :=
  rlsum (map (fun e => (fst e * q (snd e))%R) E).
