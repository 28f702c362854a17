(** * Sampling grid and integration weights. *)
From Coq Require Import List ZArith Arith Bool Reals.
From Verif Require Import Base RSum.
Import ListNotations.
Local Open Scope nat_scope.

(** [ssht.sample_shape] and [ssht.sample_positions] for the scheme MWSS
    (external; src/sleplet/_vars.py:7 [SAMPLING_SCHEME]): [L+1] colatitudes
    [pi t / L] and [2L] longitudes [pi p / L]. *)
Definition n_theta (L : nat) : nat := L + 1.
Definition n_phi (L : nat) : nat := 2 * L.
Definition thetas (L : nat) : list R := map (fun t => (PI * INR t / INR L)%R) (seq 0 (n_theta L)).
Definition phis (L : nat) : list R := map (fun p => (PI * INR p / INR L)%R) (seq 0 (n_phi L)).

(** [np.ediff1d(a).mean()] (no entries: numpy returns nan with a warning, here
    0/0 of the reals). *)
Definition ediff1d (a : list R) : list R :=
  map (fun p => (snd p - fst p)%R) (combine a (tl a)).
Definition mean_of (a : list R) : R := (rlsum a / INR (length a))%R.

(** src/sleplet/_integration_methods.py:12-21 [calc_integration_weight] *)
Definition calc_integration_weight (L : nat) : list (list R) :=
  let delta_theta := mean_of (ediff1d (thetas L)) in
  let delta_phi := mean_of (ediff1d (phis L)) in
  map (fun theta => map (fun _ => (sin theta * delta_theta * delta_phi)%R) (phis L)) (thetas L).

(** The weights as a function of the position in the flattened grid of
    [(L+1) 2L] samples. *)
Definition flat_weight (L : nat) (i : nat) : R := nth i (concat (calc_integration_weight L)) 0%R.
Definition samples (L : nat) : nat := n_theta L * n_phi L.
