(** * Hard thresholding and noise levels per wavelet scale. *)
From Coq Require Import List ZArith Arith Bool Reals.
From Coquelicot Require Import Complex.
From Verif Require Import Base RSum CSum PyNum Index Numpy Eigen Integration Quadrature Noise Convolution Transform.
Import ListNotations.
Local Open Scope nat_scope.

(** A [for] loop that changes an array of the caller in place: the contents of
    the array when the loop ends, and how it ended.  Each body changes the array
    at most once, at its end. *)
Fixpoint in_place {S A} (body : S -> A -> res S) (l : list A) (s : S) : S * res unit :=
  match l with
  | [] => (s, Ok tt)
  | x :: t => match body s x with Ok s' => in_place body t s' | Err e => (s, Err e) end
  end.

(** src/sleplet/noise.py:115-122 [_perform_hard_thresholding]; a scalar
    [sigma_j] is an array of length one. *)
Definition perform_hard_thresholding (f : list C) (sigma_j : list R) (n_sigma : Z) : res (list C) :=
  let threshold := map (Rmult (IZR n_sigma)) sigma_j in
  broadcast (fun z t => if Rltb (Cmod z) t then RtoC 0 else z) f threshold.

Section Transforms.
  Variable inverse forward : nat -> list C -> list C.   (* ssht.inverse / ssht.forward at L *)

  (** src/sleplet/noise.py:144-153, body of the loop of
      [harmonic_hard_thresholding]; row [j + 1] is read through the view
      [wav_coeffs[1:]]. *)
  Definition harmonic_threshold_row (L : nat) (sigma_j : list R) (n_sigma : Z)
      (wav_coeffs : list (list C)) (j : nat) : res (list (list C)) :=
    let* coefficient := np_get wav_coeffs (j + 1) in
    let f := inverse L coefficient in
    let* s := np_get sigma_j j in
    let* f_thresholded := perform_hard_thresholding f [s] n_sigma in
    let* row := np_fill coefficient (forward L f_thresholded) in
    np_set (j + 1) row wav_coeffs.

  (** src/sleplet/noise.py:125-154 [harmonic_hard_thresholding]: the contents of
      the array of the caller afterwards; a successful call returns this same
      array. *)
  Definition harmonic_hard_thresholding (L : nat) (wav_coeffs : list (list C)) (sigma_j : list R)
      (n_sigma : Z) : list (list C) * res unit :=
    in_place (harmonic_threshold_row L sigma_j n_sigma) (seq 0 (length wav_coeffs - 1)) wav_coeffs.

  (** src/sleplet/noise.py:178-187, body of the loop of
      [slepian_wavelet_hard_thresholding] *)
  Definition slepian_threshold_row (L : nat) (sigma_j : list (list R)) (n_sigma : Z) (s : slepian)
      (wav_coeffs : list (list C)) (j : nat) : res (list (list C)) :=
    let* coefficient := np_get wav_coeffs j in
    let* f := slepian_inverse inverse coefficient L s in
    let* sg := np_get sigma_j j in
    let* f_thresholded := perform_hard_thresholding f sg n_sigma in
    let* x := slepian_forward inverse L s (of_f f_thresholded) None in
    let* row := np_fill coefficient x in
    np_set j row wav_coeffs.

  (** src/sleplet/noise.py:157-188 [slepian_wavelet_hard_thresholding] *)
  Definition slepian_wavelet_hard_thresholding (L : nat) (wav_coeffs : list (list C))
      (sigma_j : list (list R)) (n_sigma : Z) (s : slepian) : list (list C) * res unit :=
    in_place (slepian_threshold_row L sigma_j n_sigma s) (seq 0 (length wav_coeffs)) wav_coeffs.

  (** src/sleplet/noise.py:191-214 [slepian_function_hard_thresholding] *)
  Definition slepian_function_hard_thresholding (L : nat) (coefficients : list C) (sigma : list R)
      (n_sigma : Z) (s : slepian) : res (list C) :=
    let* f := slepian_inverse inverse coefficients L s in
    let* f_thresholded := perform_hard_thresholding f sigma n_sigma in
    slepian_forward inverse L s (of_f f_thresholded) None.

  (** src/sleplet/noise.py:217-225 [_compute_sigma_j]; one row of [psi_j] per
      scale. *)
  Definition compute_sigma_j (signal : list C) (psi_j : list (list C)) (snr_in : R) : list R :=
    let sigma_noise := compute_sigma_noise signal snr_in None in
    map (fun psi => sigma_noise * sqrt (sum_abs2 psi))%R psi_j.

  (** src/sleplet/noise.py:228-240 [_compute_slepian_sigma_j]: for each scale a
      value at each sample. *)
  Definition compute_slepian_sigma_j (L : nat) (signal : list C) (psi_j : list (list C)) (snr_in : R)
      (s : slepian) : res (list (list R)) :=
    let sigma_noise := compute_sigma_noise signal snr_in (Some (L * L)) in
    let* s_p := compute_s_p_omega inverse L s in
    rmap (fun psi =>
            let psi_j_reshape := py_prefix (s_N s) psi in
            let* rows := broadcast (fun c row => map (fun z => (Cmod c ^ 2 * Cmod z ^ 2)%R) row) psi_j_reshape s_p in
            let wavelet_power := map (fun k => rlsum (map (fun r => nth k r 0%R) rows)) (seq 0 (samples L)) in
            Ok (map (fun w => sigma_noise * sqrt w)%R wavelet_power))
         psi_j.
End Transforms.
