(** * Inner products over boxes, Slepian functions. *)
From Coq Require Import List ZArith Arith Reals.
From Coquelicot Require Import Coquelicot.
From Verif Require Import Base RSum CSum SpecLatLon.
Import ListNotations.
Local Open Scope R_scope.

(** The integral of f times the conjugate of g over a box of the sphere. *)
Definition inner (f g : R -> R -> C) (theta_min theta_max phi_min phi_max : R) (v : C) : Prop :=
  box_integral (fun theta phi => Cmult (Cmult (f theta phi) (Cconj (g theta phi))) (RtoC (sin theta)))
    theta_min theta_max phi_min phi_max v.

(** The function whose harmonic coefficients are row [p]. *)
Definition slepian_function (d : Z -> Z -> Z -> R) (n : nat) (rows : list (list C)) (p : nat) : R -> R -> C :=
  band_limited d n (fun i => nth i (nth p rows []) (RtoC 0)).
