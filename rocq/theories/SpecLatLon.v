(** * Integrals over a latitude-longitude box and the harmonics in Fourier form. *)
From Coq Require Import List ZArith Arith Reals.
From Coquelicot Require Import Coquelicot.
From Verif Require Import Base CSum.
Import ListNotations.
Local Open Scope R_scope.

(** The integral of a complex function of a real variable. *)
Definition cint (f : R -> C) (a b : R) (l : C) : Prop :=
  is_RInt (fun x => Re (f x)) a b (Re l) /\ is_RInt (fun x => Im (f x)) a b (Im l).

(** The integral over a box: over the colatitudes at each longitude, then over
    the longitudes. *)
Definition box_integral (f : R -> R -> C) (theta_min theta_max phi_min phi_max : R) (l : C) : Prop :=
  exists inner : R -> C,
    (forall phi, cint (fun theta => f theta phi) theta_min theta_max (inner phi)) /\ cint inner phi_min phi_max l.

(** exp(i x) *)
Definition expi (x : R) : C := (cos x, sin x).

(** The spherical harmonic of degree [l] and order [m] in terms of the Wigner-d
    values [d l m' m] at pi/2:
    sqrt((2l+1)/(4 pi)) exp(-i m pi/2) (sum over m' of d l m' m * d l m' 0 * exp(i m' theta)) exp(i m phi). *)
Definition harmonic (d : Z -> Z -> Z -> R) (l m : Z) (theta phi : R) : C :=
  Cmult (Cmult (RtoC (sqrt (IZR (2 * l + 1) / (4 * PI)))) (expi (- (IZR m * PI / 2))))
    (Cmult (clsum (map (fun k => Cmult (RtoC (d l k m * d l k 0%Z)) (expi (IZR k * theta))) (zrange (- l) (l + 1))))
       (expi (IZR m * phi))).

(** The [i]-th harmonic: degree floor(sqrt i), order i - l^2 - l. *)
Definition harmonic_number (d : Z -> Z -> Z -> R) (i : nat) : R -> R -> C :=
  let l := Z.of_nat (Nat.sqrt i) in harmonic d l (Z.of_nat i - l * l - l)%Z.

(** The overlap of two harmonics in a box, with the area element of the sphere. *)
Definition overlap (d : Z -> Z -> Z -> R) (i j : nat) (theta_min theta_max phi_min phi_max : R) (v : C) : Prop :=
  box_integral
    (fun theta phi =>
       Cmult (Cmult (harmonic_number d i theta phi) (Cconj (harmonic_number d j theta phi))) (RtoC (sin theta)))
    theta_min theta_max phi_min phi_max v.

(** The function with harmonic coefficients [w]. *)
Definition band_limited (d : Z -> Z -> Z -> R) (n : nat) (w : nat -> C) (theta phi : R) : C :=
  csum n (fun i => Cmult (w i) (harmonic_number d i theta phi)).

(** The energy of a function in a box. *)
Definition energy (f : R -> R -> C) (theta_min theta_max phi_min phi_max e : R) : Prop :=
  box_integral (fun theta phi => RtoC (Cmod (f theta phi) ^ 2 * sin theta)) theta_min theta_max phi_min phi_max (RtoC e).

(** The first [n] harmonics are orthonormal on the sphere. *)
Definition orthonormal (d : Z -> Z -> Z -> R) (n : nat) : Prop :=
  forall i j, (i < n)%nat -> (j < n)%nat ->
    overlap d i j 0 PI 0 (2 * PI) (RtoC (if (i =? j)%nat then 1 else 0)).
