(** * The numerical demonstrations of the examples folder.

    The library functions that the scripts call are those of the other model
    files.  Plots and printed lines are the values handed to the plotting or
    printing function; divisions by zero (numpy: nan or inf with a warning) are
    outside the model. *)
From Coq Require Import List ZArith Arith Bool Reals.
From Coquelicot Require Import Complex.
From Verif Require Import Base RSum CSum PyNum Index Numpy Eigen Integration Quadrature Noise Convolution Functions Transform Wavelet Threshold.
Import ListNotations.
Local Open Scope nat_scope.

(** [a.mean()] and [a.var()] of a complex array *)
Definition np_mean (a : list C) : C := Cdiv (clsum a) (RtoC (INR (length a))).
Definition np_var (a : list C) : R :=
  (rlsum (map (fun z => Cmod (Cminus z (np_mean a)) ^ 2) a) / INR (length a))%R.

(** Column [j] of a matrix given by its rows. *)
Definition column {A} (d : A) (rows : list (list A)) (j : nat) : list A := map (fun row => nth j row d) rows.

(** [a += b] for one-dimensional arrays: the result must have the length of
    [a]. *)
Definition np_iadd (a b : list C) : res (list C) :=
  let* x := broadcast Cplus a b in
  if length x =? length a then Ok x else Err ValueError.

Section Demos.
  Variable inverse forward : nat -> list C -> list C.   (* ssht.inverse / ssht.forward at L *)
  Variable normal : Z -> nat -> R.                      (* draws of the generator with this seed *)

  (** ** examples/wavelets/axisymmetric_wavelet_covariance.py *)

  (** examples/wavelets/axisymmetric_wavelet_covariance.py:15-22
      [_compute_wavelet_covariance] *)
  Definition compute_wavelet_covariance (wavelets : list (list C)) (var_signal : R) : list R :=
    map (fun row => sum_abs2 row * var_signal)%R wavelets.

  (** examples/wavelets/axisymmetric_wavelet_covariance.py:25-35 [_is_ergodic] *)
  Definition is_ergodic (j_min : Z) (j : nat) : bool := negb (j_min =? 0)%Z || negb (j =? 0).

  (** examples/wavelets/axisymmetric_wavelet_covariance.py:85-89: one entry of
      [covar_data] *)
  Definition covariance_entry (L : nat) (j_min : Z) (p : nat * list C) : res C :=
    let f_wav_j := inverse L (snd p) in
    if is_ergodic j_min (fst p) then Ok (RtoC (np_var f_wav_j)) else np_get f_wav_j 0.

  (** examples/wavelets/axisymmetric_wavelet_covariance.py:75-89, body of the
      loop over the runs: one row of [covar_data] *)
  Definition covariance_run (L : nat) (wavelets : list (list C)) (j_min : Z) (var_flm : R) (g : gen)
      : res (list C * gen) :=
    let (flm, g) := compute_random_signal normal L g var_flm in
    let* wlm := axisymmetric_wavelet_forward L flm wavelets in
    let* row := rmap (covariance_entry L j_min) (combine (seq 0 (length wlm)) wlm) in
    Ok (row, g).

  (** examples/wavelets/axisymmetric_wavelet_covariance.py:68-89: [covar_data];
      the seed is that of line 11 *)
  Definition covariance_runs (L : nat) (wavelets : list (list C)) (j_min : Z) (runs : nat) (var_flm : R)
      : res (list (list C)) :=
    let* st := rfold (fun (st : list (list C) * gen) (_ : nat) =>
        let* r := covariance_run L wavelets j_min var_flm (snd st) in
        Ok (fst st ++ [fst r], snd r)) (seq 0 runs) ([], default_rng 30) in
    Ok (fst st).

  (** examples/wavelets/axisymmetric_wavelet_covariance.py:91-100: the covariance
      measured from [covar_data] with this number of scales *)
  Definition measured_covariance (scales : nat) (j_min : Z) (covar_data : list (list C)) : res (list R) :=
    let mean_covar_data := map (fun j => np_mean (column (RtoC 0) covar_data j)) (seq 0 scales) in
    let* mean_covar_data :=
      if is_ergodic j_min 0 then Ok mean_covar_data
      else let* row := np_get covar_data 0 in np_set 0 (RtoC (np_var row)) mean_covar_data in
    Ok (map Cmod mean_covar_data).

  (** ** examples/arbitrary/_slepian_wavelet_covariance.py *)

  (** examples/arbitrary/_slepian_wavelet_covariance.py:11-35
      [compute_slepian_wavelet_covariance]: one field per scale.  The Slepian
      functions and the wavelets are those of [slepian_wavelets], whose band
      limit is [L_wavelets]; the first assertion compares equal numbers. *)
  Definition compute_slepian_wavelet_covariance (L : nat) (s : slepian) (wavelets : list (list C)) (L_wavelets : nat)
      (var_signal : R) : res (list (list R)) :=
    let* s_p := compute_s_p_omega inverse L s in
    let* covariance := rmap (fun psi =>
        let wavelets_reshape := py_prefix (s_N s) psi in
        let* rows := broadcast (fun c row => map (fun z => (Cmod c ^ 2 * Cmod z ^ 2)%R) row) wavelets_reshape s_p in
        Ok (map (fun k => rlsum (map (fun r => nth k r 0%R) rows) * var_signal)%R (seq 0 (samples L)))) wavelets in
    if (n_theta L_wavelets =? n_theta L) && (n_phi L_wavelets =? n_phi L) then Ok covariance else Err AssertionError.

  (** examples/arbitrary/africa/slepian_wavelet_covariance_africa.py:40-58 and
      examples/arbitrary/south_america/slepian_wavelet_covariance_south_america.py:40-58,
      body of the loop over the runs: the fields of the scales that
      [slepian_wavelet_forward] keeps, in the first places of an array of zeros
      with one place per wavelet *)
  Definition slepian_covariance_run (L : nat) (s : slepian) (wavelets : arr) (var_fp : R) (g : gen)
      : res (list (list C) * gen) :=
    let (f_p, g) := compute_random_signal normal L g var_fp in
    let* w_p := slepian_wavelet_forward f_p wavelets (s_N s) in
    let* fields := match w_p with
                   | A1 _ => Err TypeError                    (* not reached: the wavelets are a matrix *)
                   | A2 _ rows => rmap (fun coefficient => slepian_inverse inverse coefficient L s) rows
                   end in
    Ok (fields ++ repeat (repeat (RtoC 0) (samples L)) (arr_len wavelets - length fields), g).

  Definition slepian_covariance_runs (L : nat) (s : slepian) (wavelets : arr) (runs : nat) (var_fp : R)
      : res (list (list (list C))) :=
    let* st := rfold (fun (st : list (list (list C)) * gen) (_ : nat) =>
        let* r := slepian_covariance_run L s wavelets var_fp (snd st) in
        Ok (fst st ++ [fst r], snd r)) (seq 0 runs) ([], default_rng 30) in
    Ok (fst st).

  (** examples/arbitrary/africa/slepian_wavelet_covariance_africa.py:61
      [covar_data_runs.var(axis=0)] at scale [j] and sample [k] *)
  Definition slepian_covariance_measured (covar_data_runs : list (list (list C))) (j k : nat) : R :=
    np_var (map (fun run => nth k (nth j run []) (RtoC 0)) covar_data_runs).

  (** ** Reconstruction *)

  (** examples/arbitrary/africa/progressive_wavelet_reconstruction_africa.py:24-33
      and examples/arbitrary/south_america/progressive_wavelet_reconstruction_south_america.py:24-33:
      the values of [f_p] after each of the scales *)
  Definition progressive_reconstruction (wavelet_coefficients : list (list C)) (wavelets : arr) (N : Z)
      : res (list (list C)) :=
    if (N <? 0)%Z then Err ValueError
    else
      let* st := rfold (fun (st : list (list C) * list C) coeff =>
          let* x := slepian_wavelet_inverse (A1 coeff) wavelets N in
          let* f_p := np_iadd (snd st) x in
          Ok (fst st ++ [f_p], f_p)) wavelet_coefficients ([], zeros (Z.to_nat N)) in
      Ok (fst st).

  (** ** Denoising *)

  (** examples/misc/_denoising_axisym.py:11-64 [denoising_axisym]: the field and
      the two signal-to-noise ratios.  [rotate] is
      [rotate_earth_to_south_america]; an exception leaves no result. *)
  Definition denoising_axisym (rotate : list C -> nat -> res (list C)) (L : nat) (signal noised : list C)
      (noised_snr : option R) (wavelets : list (list C)) (snr_in : R) (n_sigma : Z) (rotate_to_south_america : bool)
      : res (list C * option R * R) :=
    let* w := axisymmetric_wavelet_forward L noised wavelets in
    let sigma_j := compute_sigma_j signal (tl wavelets) snr_in in
    let (w_denoised, outcome) := harmonic_hard_thresholding inverse forward L w sigma_j n_sigma in
    let* _ := outcome in
    let* flm := axisymmetric_wavelet_inverse L w_denoised wavelets in
    let* difference := broadcast Cminus flm signal in
    let denoised_snr := compute_snr signal difference in
    let* flm := if rotate_to_south_america then rotate flm L else Ok flm in
    Ok (inverse L flm, noised_snr, denoised_snr).

  (** examples/arbitrary/_denoising_slepian_wavelet.py:7-55
      [denoising_slepian_wavelet]: the coefficients after the synthesis and the
      returned field; the signal-to-noise ratio is only logged. *)
  Definition denoising_slepian_wavelet (L : nat) (signal noised : list C) (cols : nat) (wavelets : list (list C))
      (s : slepian) (snr_in : R) (n_sigma : Z) : res (list C * list C) :=
    let* w := slepian_wavelet_forward noised (A2 cols wavelets) (s_N s) in
    let* sigma_j := compute_slepian_sigma_j inverse L signal wavelets snr_in s in
    let* rows := match w with A1 _ => Err TypeError (* not reached *) | A2 c rows => Ok (c, rows) end in
    let (w_denoised, outcome) := slepian_wavelet_hard_thresholding inverse L (snd rows) sigma_j n_sigma s in
    let* _ := outcome in
    let* f_p := slepian_wavelet_inverse (A2 (fst rows) w_denoised) (A2 cols wavelets) (s_N s) in
    let* _ := broadcast Cminus f_p signal in
    let* f := slepian_inverse inverse f_p L s in
    Ok (f_p, f).

  (** examples/arbitrary/south_america/denoising_slepian_functions_south_america.py:17-43
      [_denoising_slepian_function], in the same form *)
  Definition denoising_slepian_function (L : nat) (signal noised : list C) (s : slepian) (snr_in : R) (n_sigma : Z)
      : res (list C * list C) :=
    let sigma_noise := compute_sigma_noise signal snr_in (Some (L * L)) in
    let* f_p := slepian_function_hard_thresholding inverse L noised [sigma_noise] n_sigma s in
    let* _ := broadcast Cminus f_p signal in
    let* f := slepian_inverse inverse f_p L s in
    Ok (f_p, f).
End Demos.
