(** * Creating the functions on the sphere: from the arguments of a class to the
    finished object.

    pyssht, pys2let, scipy, the loaded files and the Slepian solver are external.
    Mask files are part of the state, because a missing one is written. *)
From Coq Require Import List ZArith QArith Arith Bool Reals Qreals String.
From Coquelicot Require Import Complex.
From Verif Require Import Base CSum PyNum Region Mask Numpy Eigen Quadrature Noise Convolution Transform Functions
  Wavelet Names FnNames Mesh Args Plot Cli.
Import ListNotations.
Local Open Scope string_scope.
Local Open Scope list_scope.
Local Open Scope nat_scope.

(** What [choose_slepian_method] returns, as far as the functions read it: the
    transforms' part, [slepian.name], and [slepian.order] (polar caps only). *)
Record solved := { sv_slepian : slepian; sv_name : string; sv_order : option (list Z) }.

(** src/sleplet/functions/coefficients.py:25-64 and fp.py:23-27; arrays that
    are never assigned are [np.empty(0)]. *)
Record obj := {
  o_name : string;
  o_L : nat;
  o_params : params;
  o_region : option region;
  o_solved : option solved;
  o_reality : bool;
  o_spin : Z;
  o_coefficients : list C;
  o_wavelets : arr;
  o_wavelet_coefficients : arr;
  o_unnoised : option (list C);
  o_snr : option R
}.

(** [_set_reality] of every class: src/sleplet/functions/africa.py:45-46,
    axisymmetric_wavelet_coefficients_africa.py:59-60,
    axisymmetric_wavelet_coefficients_earth.py:59-60,
    axisymmetric_wavelet_coefficients_south_america.py:58-59,
    axisymmetric_wavelets.py:55-56, dirac_delta.py:36-37, earth.py:34-35,
    elongated_gaussian.py:48-49, gaussian.py:40-41, harmonic_gaussian.py:49-50,
    identity.py:30-31, noise_earth.py:40-41, ridgelets.py:60-61,
    south_america.py:42-43, spherical_harmonic.py:38-39,
    squashed_gaussian.py:48-49, wmap.py:31-32; slepian.py:58-59 and the other
    Slepian classes *)
Definition set_reality_flag (c : cls) : bool :=
  match c with
  | Africa | AxisymmetricWavelets | DiracDelta | Earth | ElongatedGaussian | Gaussian | Identity | NoiseEarth
  | SouthAmerica | SquashedGaussian | Wmap => true
  | _ => false
  end.

(** [_set_spin]: src/sleplet/functions/ridgelets.py:63-64; zero elsewhere. *)
Definition set_spin (p : params) : Z := match p with Spin_scale _ _ spin _ => spin | _ => 0%Z end.

(** [x < y] on numpy complex numbers is lexicographic; the position of the first
    greatest entry ([np.argwhere(a == a.max())[0]] on the flat array). *)
Definition Cltb (x y : C) : bool := Rltb (fst x) (fst y) || (Reqb (fst x) (fst y) && Rltb (snd x) (snd y)).
Fixpoint first_greatest (i best : nat) (x : C) (l : list C) : nat :=
  match l with
  | [] => best
  | y :: t => if Cltb x y then first_greatest (S i) i y t else first_greatest (S i) best x t
  end.
Definition argmax (l : list C) : res nat :=
  match l with [] => Err ValueError | x :: t => Ok (first_greatest 1 0 x t) end.

Section Objects.
  Variable inverse forward : Z -> bool -> nat -> list C -> list C.  (* ssht, by spin, reality and L *)
  Variable rotate_flms : list C -> R -> R -> R -> nat -> res (list C).
  Variable theta_to_index phi_to_index : R -> nat -> nat.
  Variable gammaln : R -> R.                                        (* scipy *)
  Variable axisym_wav_l : Z -> nat -> Z -> list R * nat * list (list R).   (* pys2let *)
  Variable pys2let_j_max : Z -> nat -> Z -> Z.
  Variable normal : Z -> nat -> R.                                  (* numpy's generator, by seed and position *)
  Variable table : list C.                                          (* the topography of the Earth *)
  Variable cl : list R.                                             (* the WMAP spectrum *)
  Variable fmt_e : R -> string.
  Variable lower : string -> string.
  Variable to_int : string -> res Z.
  Variable env : string -> option string.
  (** [choose_slepian_method(L, region)]: solves or loads. *)
  Variable solve : nat -> region -> mask_files -> res (solved * mask_files).

  (** The rotated topography on the grid: src/sleplet/functions/africa.py:62-72,
      south_america.py:59-72 with the smoothing of the object;
      src/sleplet/_mask_methods.py:159-165, 180-186 and 196 without. *)
  Definition topography (africa : bool) (L : nat) (smoothing : option Z) : res (list C) :=
    let* earth_flm := create_earth_flm table L smoothing in
    let* rot_flm := (if africa then rotate_earth_to_africa rotate_flms earth_flm L
                     else rotate_earth_to_south_america rotate_flms earth_flm L) in
    Ok (inverse 0%Z true L rot_flm).

  Definition continent (africa : bool) : string := if africa then "africa" else "south_america".

  (** src/sleplet/functions/africa.py:73-81, south_america.py:73-81: the mask
      file, or a new mask ([create_mask] reads the topography again, without
      smoothing). *)
  Definition continent_mask (africa : bool) (L : nat) (fs : mask_files) : res (mask_array * mask_files) :=
    let mask_name := (continent africa ++ "_L" ++ zstr (Z.of_nat L) ++ ".npy")%string in
    match fs ("slepian_masks_" ++ mask_name)%string with
    | Some m => Ok (m, fs)
    | None =>
        let* earth_f := topography africa L None in
        create_mask (fun _ _ => rows_of (n_theta L) (n_phi L) (map fst earth_f)) L (sample_grid L) mask_name fs
    end.

  (** [np.where(mask, f, 0)] on the grid (broadcasting of other shapes is left out) *)
  Definition where_mask (L : nat) (mask : mask_array) (f : list C) : res (list C) :=
    if shape_eqb (shape mask) (repeat (n_phi L) (n_theta L)) && (List.length f =? samples L)
    then Ok (map (fun p : bool * C => if fst p then snd p else RtoC 0) (combine (List.concat mask) f))
    else Err ValueError.

  (** src/sleplet/functions/africa.py:30-38, 56-82 and
      south_america.py:27-35, 53-82: [_create_coefficients] with [_grid_fun],
      which ignores the sample positions;
      src/sleplet/harmonic_methods.py:70-96 [_ensure_f_bandlimited]. *)
  Definition continent_coefficients (africa : bool) (L : nat) (smoothing : option Z) (fs : mask_files)
      : res (list C * mask_files) :=
    let* earth_f := topography africa L smoothing in
    let* (mask, fs) := continent_mask africa L fs in
    let* f := where_mask L mask earth_f in
    Ok (forward 0%Z true L f, fs).

  Definition no_array : arr := A1 [].

  (** src/sleplet/functions/axisymmetric_wavelet_coefficients_earth.py:42-49,
      73-88, axisymmetric_wavelet_coefficients_africa.py:42-49, 73-91,
      axisymmetric_wavelet_coefficients_south_america.py:41-48, 72-90: the
      wavelets, the coefficients of the map, the selected row. *)
  Definition wavelet_map (L : nat) (B j_min : Z) (j : option Z) (map_flm : res (list C * mask_files))
      : res (list C * arr * arr * mask_files) :=
    let* wavelets := create_axisymmetric_wavelets axisym_wav_l L B j_min in
    let* (flm, fs) := map_flm in
    let* wavelet_coefficients := axisymmetric_wavelet_forward L flm wavelets in
    let* row := select_scale wavelet_coefficients j in
    Ok (row, A2 (L * L) wavelets, A2 (L * L) wavelet_coefficients, fs).

  Definition plain (fs : mask_files) (x : res (list C)) : res (list C * arr * arr * mask_files) :=
    let* coefficients := x in Ok (coefficients, no_array, no_array, fs).

  (** [_create_coefficients] of the harmonic classes, with [wavelets] and
      [wavelet_coefficients]: beside those above,
      src/sleplet/functions/axisymmetric_wavelets.py:38-45,
      dirac_delta.py:22-29, earth.py:21-27, elongated_gaussian.py:31-39,
      gaussian.py:25-32, harmonic_gaussian.py:31-40, identity.py:20-23,
      noise_earth.py:26-32, ridgelets.py:42-49, spherical_harmonic.py:25-29,
      squashed_gaussian.py:31-39, wmap.py:21-24.  The maps created inside other
      functions have no region and no noise. *)
  Definition flm_coefficients (c : cls) (L : nat) (p : params) (smoothing : option Z) (fs : mask_files)
      : res (list C * arr * arr * mask_files) :=
    match c, p with
    | Africa, No_params => let* (flm, fs) := continent_coefficients true L smoothing fs in plain fs (Ok flm)
    | SouthAmerica, No_params => let* (flm, fs) := continent_coefficients false L smoothing fs in plain fs (Ok flm)
    | AxisymmetricWaveletCoefficientsAfrica, Scale B j_min j =>
        wavelet_map L B j_min j (continent_coefficients true L smoothing fs)
    | AxisymmetricWaveletCoefficientsSouthAmerica, Scale B j_min j =>
        wavelet_map L B j_min j (continent_coefficients false L smoothing fs)
    | AxisymmetricWaveletCoefficientsEarth, Scale B j_min j =>
        wavelet_map L B j_min j (let* flm := create_earth_flm table L smoothing in Ok (flm, fs))
    | AxisymmetricWavelets, Scale B j_min j =>
        let* wavelets := create_axisymmetric_wavelets axisym_wav_l L B j_min in
        let* row := select_scale wavelets j in
        Ok (row, A2 (L * L) wavelets, no_array, fs)
    | Ridgelets, Spin_scale B j_min spin j =>
        let* wavelets := create_ridgelets axisym_wav_l gammaln L B j_min spin in
        let* row := select_scale wavelets j in
        Ok (row, A2 (L * L) wavelets, no_array, fs)
    | DiracDelta, No_params => plain fs (dirac_delta_coefficients L)
    | Earth, No_params => plain fs (create_earth_flm table L smoothing)
    | ElongatedGaussian, Two_sigmas t_sigma p_sigma =>
        plain fs (Ok (ensure_f_bandlimited (forward 0%Z true) (elongated_gaussian (Q2R t_sigma) (Q2R p_sigma)) L))
    | SquashedGaussian, Two_sigmas t_sigma freq =>
        plain fs (Ok (ensure_f_bandlimited (forward 0%Z true) (squashed_gaussian (Q2R t_sigma) (Q2R freq)) L))
    | Gaussian, Sigma sigma => plain fs (gaussian_coefficients L (Q2R sigma))
    | HarmonicGaussian, Two_sigmas l_sigma m_sigma =>
        plain fs (harmonic_gaussian_coefficients L (Q2R l_sigma) (Q2R m_sigma))
    | Identity, No_params => plain fs (Ok (identity_coefficients L))
    | NoiseEarth, Snr SNR =>
        plain fs (let* earth := create_earth_flm table L smoothing in create_noise normal L earth (Q2R SNR))
    | SphericalHarmonic, Degree_order ell m => plain fs (Args.spherical_harmonic_coefficients L ell m)
    | Wmap, No_params => plain fs (create_wmap_flm normal cl L)
    | _, _ => Err TypeError     (* not a harmonic class, or the fields of another class *)
    end.

  (** A harmonic function: src/sleplet/functions/coefficients.py:66-73
      [__post_init__] after the checks of the fields. *)
  Definition make_flm (c : cls) (L : nat) (keywords : params) (extra_args : option (list Z))
      (region : option region) (noise : option Q) (smoothing : option Z) (fs : mask_files)
      : res (obj * mask_files) :=
    if same_fields (default_params c) keywords then
      let* _ := validate_fields pys2let_j_max c L keywords in
      let* p := setup_args pys2let_j_max c L keywords extra_args in
      let* (coefficients, wavelets, wavelet_coefficients, fs) := flm_coefficients c L p smoothing fs in
      let* (coefficients, unnoised, snr) := flm_add_noise normal L coefficients (option_map Q2R noise) in
      Ok ({| o_name := function_name c p (option_map r_name_ending region) noise smoothing L;
             o_L := L; o_params := p; o_region := region; o_solved := None;
             o_reality := set_reality_flag c; o_spin := set_spin p;
             o_coefficients := coefficients; o_wavelets := wavelets; o_wavelet_coefficients := wavelet_coefficients;
             o_unnoised := unnoised; o_snr := snr |}, fs)
    else Err TypeError.

  (** [SlepianAfrica(L, region, smoothing)] and [SlepianSouthAmerica(..)] as they
      are created inside other functions: the Slepian functions are solved
      again, the region is checked at the end.  src/sleplet/functions/
      slepian_africa.py:23-40, slepian_south_america.py:22-42 *)
  Definition slepian_continent_coefficients (africa : bool) (L : nat) (s : slepian) (smoothing : option Z)
      (fs : mask_files) : res (list C * mask_files) :=
    let* (flm, fs) := continent_coefficients africa L smoothing fs in
    let* f_p := slepian_forward (inverse 0%Z false) L s (of_flm flm) None in
    Ok (f_p, fs).
  Definition slepian_continent_object (africa : bool) (L : nat) (r : region) (smoothing : option Z)
      (fs : mask_files) : res (list C * mask_files) :=
    let* (sv, fs) := solve L r fs in
    let* (f_p, fs) := slepian_continent_coefficients africa L (sv_slepian sv) smoothing fs in
    let* _ := check_region_name (if africa then SlepianAfrica else SlepianSouthAmerica) (r_name_ending r) in
    Ok (f_p, fs).

  (** src/sleplet/functions/slepian_noise_africa.py:36-51,
      slepian_noise_south_america.py:36-51 *)
  Definition slepian_noise_coefficients (africa : bool) (L : nat) (r : region) (s : slepian) (SNR : Q)
      (smoothing : option Z) (fs : mask_files) : res (list C * arr * arr * mask_files) :=
    let* (signal, fs) := slepian_continent_object africa L r smoothing fs in
    plain fs (create_slepian_noise (inverse 0%Z false) (forward 0%Z false) normal L signal s (Q2R SNR)).

  (** src/sleplet/functions/slepian_wavelet_coefficients_africa.py:44-51, 75-96,
      slepian_wavelet_coefficients_south_america.py:44-51, 75-96; the wavelets
      are those of a [SlepianWavelets] object, whose own solution is not used. *)
  Definition slepian_wavelet_map (africa : bool) (L : nat) (r : region) (s : slepian) (B j_min : Z) (j : option Z)
      (smoothing : option Z) (fs : mask_files) : res (list C * arr * arr * mask_files) :=
    let* (_, fs) := solve L r fs in
    let wavelets := create_slepian_wavelets axisym_wav_l L B j_min in
    let* (signal, fs) := slepian_continent_object africa L r smoothing fs in
    let* wavelet_coefficients := slepian_wavelet_forward signal wavelets (s_N s) in
    match wavelet_coefficients with
    | A2 cols rows => let* row := select_scale rows j in Ok (row, wavelets, A2 cols rows, fs)
    | A1 _ => Err TypeError     (* does not happen: wavelets have two axes *)
    end.

  (** src/sleplet/functions/slepian_dirac_delta.py:59-79 [_compute_angles]
      (colatitude and longitude of the sample) and 31-40
      [_create_coefficients] *)
  Definition compute_angles (L : nat) (s : slepian) : res (R * R) :=
    let* v := np_get (s_evecs s) 0 in
    let* k := argmax (inverse 0%Z false L v) in
    match nth_error (List.concat (sample_grid L)) k with Some a => Ok a | None => Err IndexError end.
  Definition slepian_dirac_delta_coefficients (L : nat) (s : slepian) : res (list C) :=
    let* (beta, alpha) := compute_angles L s in
    let* x := compute_s_p_omega_prime (inverse 0%Z false) L (theta_to_index beta L) (phi_to_index alpha L) s in
    Ok (map Cconj x).

  (** [_create_coefficients] of the Slepian classes: beside those above,
      src/sleplet/functions/slepian.py:44-56, slepian_identity.py:20-23,
      slepian_wavelets.py:35-42. *)
  Definition fp_coefficients (c : cls) (L : nat) (p : params) (r : region) (s : slepian) (smoothing : option Z)
      (fs : mask_files) : res (list C * arr * arr * mask_files) :=
    match c, p with
    | Slepian, Rank rank => plain fs (slepian_function_coefficients (inverse 0%Z false) L s rank)
    | SlepianAfrica, No_params =>
        let* (f_p, fs) := slepian_continent_coefficients true L s smoothing fs in plain fs (Ok f_p)
    | SlepianSouthAmerica, No_params =>
        let* (f_p, fs) := slepian_continent_coefficients false L s smoothing fs in plain fs (Ok f_p)
    | SlepianNoiseAfrica, Snr SNR => slepian_noise_coefficients true L r s SNR smoothing fs
    | SlepianNoiseSouthAmerica, Snr SNR => slepian_noise_coefficients false L r s SNR smoothing fs
    | SlepianWaveletCoefficientsAfrica, Scale B j_min j => slepian_wavelet_map true L r s B j_min j smoothing fs
    | SlepianWaveletCoefficientsSouthAmerica, Scale B j_min j => slepian_wavelet_map false L r s B j_min j smoothing fs
    | SlepianWavelets, Scale B j_min j =>
        let wavelets := map (map RtoC) (create_kappas axisym_wav_l (L * L) B j_min) in
        let* row := select_scale wavelets j in
        Ok (row, A2 (L * L) wavelets, no_array, fs)
    | SlepianDiracDelta, No_params => plain fs (slepian_dirac_delta_coefficients L s)
    | SlepianIdentity, No_params => plain fs (Ok (slepian_identity_coefficients L))
    | _, _ => Err TypeError     (* not a Slepian class, or the fields of another class *)
    end.

  (** [_create_name], also src/sleplet/functions/slepian.py:29-43 *)
  Definition fp_create_name (c : cls) (p : params) (r : region) (sv : solved) : res string :=
    match c, p with
    | Slepian, Rank rank => slepian_create_name fmt_e (sv_name sv) (sv_order sv) (s_evals (sv_slepian sv)) rank
    | _, _ => Ok (create_name c p (r_name_ending r))
    end.

  (** A Slepian function: src/sleplet/functions/fp.py:29-39 [__post_init__],
      slepian.py:25-27, coefficients.py:66-73, and the check of the region in
      slepian_africa.py:23-30 and the other continents, after everything else. *)
  Definition make_fp (c : cls) (L : nat) (keywords : params) (extra_args : option (list Z))
      (region : option region) (noise : option Q) (smoothing : option Z) (fs : mask_files)
      : res (obj * mask_files) :=
    if same_fields (default_params c) keywords then
      let* _ := validate_fields pys2let_j_max c L keywords in
      let* _ := match c with Slepian => slepian_validate_rank L extra_args | _ => Ok tt end in
      let* r := match region with Some r => Ok r | None => create_default_region lower to_int env end in
      let* (sv, fs) := solve L r fs in
      let s := sv_slepian sv in
      let* p := setup_args pys2let_j_max c L keywords extra_args in
      let* name := fp_create_name c p r sv in
      let* (coefficients, wavelets, wavelet_coefficients, fs) := fp_coefficients c L p r s smoothing fs in
      let* (coefficients, unnoised, snr) :=
        fp_add_noise (inverse 0%Z false) (forward 0%Z false) normal L s coefficients (option_map Q2R noise) in
      let* _ := check_region_name c (r_name_ending r) in
      Ok ({| o_name := add_details_to_name name (Some (r_name_ending r)) noise smoothing L;
             o_L := L; o_params := p; o_region := Some r; o_solved := Some sv;
             o_reality := set_reality_flag c; o_spin := set_spin p;
             o_coefficients := coefficients; o_wavelets := wavelets; o_wavelet_coefficients := wavelet_coefficients;
             o_unnoised := unnoised; o_snr := snr |}, fs)
    else Err TypeError.
End Objects.
