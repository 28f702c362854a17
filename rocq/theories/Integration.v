(** * Model of the integration helpers.
    /repo/src/sleplet/_integration_methods.py lines 24-66.

    A sampled field is a function from sample numbers; [ns] is the number of
    samples (all arrays multiplied together have the same shape in the code,
    so shape errors are not modelled). *)
From Coq Require Import List Arith Reals.
From Coquelicot Require Import Complex.
From Verif Require Import RSum CSum.
Import ListNotations.

(** [_multiply_args], lines 64-66 ([functools.reduce] of the product). *)
Definition multiply_args (f : nat -> C) (fs : list (nat -> C)) : nat -> C :=
  fold_left (fun x y i => Cmult (x i) (y i)) fs f.

(** [integrate_whole_sphere], lines 24-30. *)
Definition integrate_whole_sphere (ns : nat) (weight : nat -> R)
    (f : nat -> C) (fs : list (nat -> C)) : C :=
  csum ns (fun i => Cmult (multiply_args f fs i) (RtoC (weight i))).

(** [integrate_region_sphere], lines 33-40. *)
Definition integrate_region_sphere (ns : nat) (mask weight : nat -> R)
    (f : nat -> C) (fs : list (nat -> C)) : C :=
  csum ns (fun i => Cmult (Cmult (multiply_args f fs i) (RtoC (weight i))) (RtoC (mask i))).

(** [integrate_region_mesh], lines 53-61, of two functions; the fields on a mesh
    are real, [mask] is the boolean region. *)
Definition integrate_region_mesh (nv : nat) (mask : nat -> bool) (f g : nat -> R) : R :=
  rsum nv (fun v => (f v * g v * (if mask v then 1 else 0))%R).
