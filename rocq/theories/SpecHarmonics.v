(** * Legendre polynomials and the spherical harmonics of textbooks. *)
From Coq Require Import List ZArith Arith Reals.
From Coquelicot Require Import Coquelicot.
From Verif Require Import Base SpecLatLon.
Local Open Scope R_scope.

(** Bonnet's recurrence (n+2) P_(n+2) = (2n+3) x P_(n+1) - (n+1) P_n from
    P_0 = 1 and P_1 = x; the pair (P_n, P_(n+1)). *)
Fixpoint legendre_pair (n : nat) (x : R) : R * R :=
  match n with
  | O => (1, x)
  | S k => let (a, b) := legendre_pair k x in
           (b, ((2 * INR k + 3) * x * b - (INR k + 1) * a) / (INR k + 2))
  end.
Definition legendre (n : nat) (x : R) : R := fst (legendre_pair n x).

(** The associated Legendre function of order [m] at cos theta, with the
    Condon-Shortley phase: (-1)^m sin(theta)^m times the [m]-th derivative. *)
Definition associated (l m : nat) (theta : R) : R :=
  (-1) ^ m * sin theta ^ m * Derive_n (legendre l) m (cos theta).

(** sqrt((2l+1)/(4 pi) (l-m)!/(l+m)!) P_l^m(cos theta) exp(i m phi) *)
Definition spherical_harmonic (l m : nat) (theta phi : R) : C :=
  Cmult (RtoC (sqrt ((2 * INR l + 1) / (4 * PI) * (INR (fact (l - m)) / INR (fact (l + m)))) * associated l m theta))
        (expi (INR m * phi)).

(** The Wigner table [d] gives the textbook harmonics below degree [L]; order -m
    is (-1)^m times the conjugate of order m. *)
Definition textbook (d : Z -> Z -> Z -> R) (L : nat) : Prop :=
  forall l m theta phi, (l < L)%nat -> (m <= l)%nat ->
    harmonic d (Z.of_nat l) (Z.of_nat m) theta phi = spherical_harmonic l m theta phi /\
    harmonic d (Z.of_nat l) (- Z.of_nat m) theta phi = Cmult (RtoC ((-1) ^ m)) (Cconj (spherical_harmonic l m theta phi)).
