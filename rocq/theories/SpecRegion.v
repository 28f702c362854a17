(** * Specifications for regions: what a set of directions is, its surface
    measure, and when two regions are the same set-up. *)
From Coq Require Import Reals String List.
From Coquelicot Require Import Coquelicot.
From Verif Require Import Region.
Open Scope R_scope.

(** Surface integral of the indicator of a set of directions over the unit
    sphere, colatitude [0..PI], longitude [0..2 PI], area element
    [sin theta]. *)
Definition surface (inside : R -> R -> bool) : R :=
  RInt (fun phi => RInt (fun theta => if inside theta phi then sin theta else 0) 0 PI)
    0 (2 * PI).

(** The angles describe the documented defaults. *)
Definition angle_ok (phi theta : R) : Prop :=
  0 <= phi <= 2 * PI /\ 0 <= theta <= PI.

(** Two regions are the same set-up: same type, and same parameters that matter
    for this type. *)
Definition same_region (a b : region) : Prop :=
  r_region_type a = r_region_type b
  /\ r_phi_max a = r_phi_max b /\ r_phi_min a = r_phi_min b
  /\ r_theta_max a = r_theta_max b /\ r_theta_min a = r_theta_min b
  /\ (r_region_type a = Polar -> r_gap a = r_gap b)
  /\ (r_region_type a = Arbitrary -> r_mask_name a = r_mask_name b).

(** An angle that is a whole number of degrees. *)
Definition whole_degree (x : R) : Prop := exists d : Z, x = IZR d * PI / 180.
Definition whole_degrees (r : region) : Prop :=
  whole_degree (r_phi_max r) /\ whole_degree (r_phi_min r)
  /\ whole_degree (r_theta_max r) /\ whole_degree (r_theta_min r).

(** Mask names that do not imitate the generated names of the other region
    types. *)
Definition plain_mask (m : string) : Prop :=
  prefix "polar" m = false /\ prefix "theta" m = false.
