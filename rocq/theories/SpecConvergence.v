(** * Bounded functions that vary at a bounded rate. *)
From Coq Require Import Reals.
From Coquelicot Require Import Coquelicot.
Local Open Scope R_scope.

(** Values at most [B], differences at most [K] times the distance of the angles. *)
Definition lipschitz (B K : R) (f : R -> R -> C) : Prop :=
  0 <= B /\ 0 <= K /\ (forall theta phi, Cmod (f theta phi) <= B) /\
  forall theta phi theta' phi', Cmod (Cminus (f theta phi) (f theta' phi')) <= K * (Rabs (theta - theta') + Rabs (phi - phi')).

(** The error of a sampled integral with [M] as resolution. *)
Definition sampling_error (B K : R) (M : nat) : R := (12 * PI ^ 3 * (B + K) + 20 * PI ^ 2 * B) / INR M.
