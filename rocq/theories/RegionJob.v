(** * Construction requests of the sphere solvers, as cache jobs. *)
From Coq Require Import List ZArith Arith Bool String Reals.
From Coquelicot Require Import Complex.
From Verif Require Import Base PyNum Eigen Cache Region.
Import ListNotations.

(** src/sleplet/slepian/slepian_functions.py:53-64 [__post_init__]: region, area,
    Shannon number, file name stem, then the eigenproblem of the class.  The
    eigensolutions are arguments: [plain] for latitude-longitude boxes and
    masks, [polar_all]/[polar_one] for caps; [mask_area] is the area of a mask
    at a bandlimit. *)
Definition solver_job (mask_area : string -> nat -> R)
    (plain : solver -> nat -> res (list R * list (list C)))
    (polar_all : R -> bool -> nat -> res (list R * list (list C) * list Z))
    (polar_one : R -> bool -> nat -> Z -> res (list R * list (list C)))
    (s : solver) (L : nat) (order : order_arg R (list C)) : res (job R (list C)) :=
  let area := match s with SlepianArbitrary m => mask_area m L | _ => 0%R end in
  let* loc := solver_location area s L in
  let N := shannon (calculate_area area s) L in
  Ok (Job loc N (match s with
                 | SlepianPolarCap theta_max gap =>
                     Cache.Polar L order (polar_all theta_max gap L) (polar_one theta_max gap L)
                 | _ => Plain (plain s L)
                 end)).
