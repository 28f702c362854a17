(** * Coefficients of a masked field; the texts of refused regions. *)
From Coq Require Import String List ZArith Arith Reals Bool.
From Coquelicot Require Import Coquelicot.
From Verif Require Import Base PyNum Region Mask Quadrature Plot.
Import ListNotations.

(** src/sleplet/_mask_methods.py:79-103 [ensure_masked_flm_bandlimited].  [inverse]
    and [forward] are [ssht.inverse] and [ssht.forward] with the spin and the
    reality flag first.  Mask and field are flattened here; [np.where] refuses
    arrays of different shapes.  The files may change because a missing continent
    mask is written. *)
Definition ensure_masked_flm_bandlimited (inverse forward : Z -> bool -> nat -> list C -> list C)
    (land : bool -> nat -> list (list R)) (flm : list C) (L : nat) (r : region) (reality : bool) (spin : Z)
    (fs : mask_files) : res (list C * mask_files) :=
  let field := inverse spin reality L flm in
  let* (mask, fs') := create_mask_region land L (sample_grid L) r fs in
  if (List.length (List.concat mask) =? List.length field)%nat then
    Ok (forward spin reality L
          (map (fun p : bool * C => if fst p then snd p else RtoC 0) (combine (List.concat mask) field)), fs')
  else Err ValueError.

(** src/sleplet/_string_methods.py:67-73 [multiples_of_pi]; [int] of a float drops
    the fraction. *)
Definition py_int (x : R) : Z := if Rltb x 0 then (- rfloor (- x))%Z else rfloor x.
Definition multiples_of_pi (angle : R) : string :=
  let multiple := py_int (angle / PI) in
  ((if negb (multiple =? 1)%Z then zstr multiple else "") ++ "π")%string.

(** src/sleplet/slepian/region.py:95-157: the texts with which the four validators
    refuse a value; pydantic reports those of all fields, in the order of the
    fields (region.py:24-38). *)
Definition refuse (name : string) (least greatest x : R) : list string :=
  if Rltb x least then [(name ++ " cannot be negative")%string]
  else if Rltb greatest x then [(name ++ " cannot be greater than " ++ multiples_of_pi greatest)%string]
  else [].
Definition region_refusals (phi_max phi_min theta_max theta_min : R) : list string :=
  refuse "phi_max" PHI_MIN_DEFAULT PHI_MAX_DEFAULT phi_max
  ++ refuse "phi_min" PHI_MIN_DEFAULT PHI_MAX_DEFAULT phi_min
  ++ refuse "theta_max" THETA_MIN_DEFAULT THETA_MAX_DEFAULT theta_max
  ++ refuse "theta_min" THETA_MIN_DEFAULT THETA_MAX_DEFAULT theta_min.
